(** Models of small helpers: entanglement.get_partition, _montrealer.dec2bin, samples.invert_permutation,
    _hafnian.nb_ix. *)
From mathcomp Require Import all_ssreflect all_algebra.
From Verif Require Import PyBase ArrLoop.
Set Implicit Arguments.
Unset Strict Implicit.
Unset Printing Implicit Defensive.

(** Python objects as seen by get_partition.  [PyBool b] is an instance of [int] in Python (True = 1);
    a NumPy integer ([PyNpInt]) is not; [PyObj] is anything else that is not an int. *)
Inductive pyelt := PyInt of int | PyBool of bool | PyNpInt of int | PyObj.
Inductive pymodes := MNone | MElt of pyelt | MRange of seq int | MList of seq pyelt | MTuple of seq pyelt
  | MArray of seq int.
(** the integer value of an instance of int *)
Definition as_int (x : pyelt) : option int :=
  match x with PyInt z => Some z | PyBool b => Some (Posz b) | _ => None end.
(** elements obtained by iterating; an ndarray of integers yields NumPy integers *)
Definition py_iter (m : pymodes) : seq pyelt :=
  match m with
  | MRange l => map PyInt l | MList l | MTuple l => l | MArray l => map PyNpInt l | _ => [::]
  end.
(** range(z) for a possibly negative z *)
Definition range_z (z : int) : seq pyelt := if z is Posz n then [seq PyInt (Posz i) | i <- iota 0 n] else [::].

(** entanglement.py:24-56 [get_partition(modes_A, split, M)]; [split] is [None] or a Python object *)
Definition get_partition (modes_A : pymodes) (split : option pyelt) (M : nat) : res (seq pyelt) :=
  let bad x := match as_int x with
     | None => true
     | Some z => (z < 0)%R || (Posz M - 1 < z)%R
     end in
  match modes_A with
  | MNone =>
    match split with
    | None => Err TypeError
    | Some s =>
      match as_int s with
      | None => Err ValueError
      | Some z => if (Posz M - 1 < z)%R then Err ValueError else Ok (range_z z)
      end
    end
  | MElt x =>
    match as_int x with
    | None => Err TypeError
    | Some _ => if bad x then Err ValueError else Ok [:: x]
    end
  | _ => if has bad (py_iter modes_A) then Err ValueError else Ok (py_iter modes_A)
  end.

(** _montrealer.py:30-33: the while loop; [digits[counter]] with counter = -1, -2, ...; the k-th write is at
    position n - 1 - k.  A counter below -n is out of bounds.  [fuel] bounds the number of iterations; the
    theorem shows num + 1 is enough. *)
Fixpoint dec2bin_loop (n fuel : nat) (digits : nat -> nat) (k nn : nat) : res (nat -> nat) :=
  match fuel with
  | 0 => Err RuntimeError
  | fuel'.+1 =>
    if 1 <= nn then
      if k < n then dec2bin_loop n fuel' (fun i => if i == n - 1 - k then nn %% 2 else digits i) k.+1 (nn %/ 2)
      else Err IndexError
    else Ok digits
  end.
(** _montrealer.py:16-34 [dec2bin(num, n)]; np.nonzero lists indices in increasing order *)
Definition dec2bin (num n : nat) : res (seq nat) :=
  bind (dec2bin_loop n num.+1 (fun=> 0) 0 num) (fun digits => Ok [seq i <- iota 0 n | digits i != 0]).

(** samples.py:140-154 [invert_permutation(p)]; [np.empty_like] leaves arbitrary values [junk] *)
Definition invert_permutation (junk : nat -> nat) (p : seq nat) : res (seq nat) :=
  if has (fun i => size p <= i) p then Err IndexError
  else Ok (mkseq (for_ (zip p (iota 0 (size p))) junk (fun s pi => fun x => if x == pi.1 then pi.2 else s x)) (size p)).

(** _hafnian.py:65-77 [nb_ix(arr, rows, cols)]: fancy row indexing, then fancy column indexing *)
Definition nb_ix (T : Type) (d : T) (arr : seq (seq T)) (rows cols : seq nat) : res (seq (seq T)) :=
  if has (fun i => size arr <= i) rows then Err IndexError else
  let sub := [seq nth [::] arr i | i <- rows] in
  if has (fun r => has (fun j => size r <= j) cols) sub then Err IndexError
  else Ok [seq [seq nth d r j | j <- cols] | r <- sub].
