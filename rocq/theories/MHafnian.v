(** Model of the user-facing entry points of thewalrus/_hafnian.py: input_validation, hafnian, reduction,
    hafnian_repeated, hafnian_sparse, bandwidth, hafnian_banded.
    Scalars are exact complex numbers (a numClosedFieldType); NaN is modelled as an absent entry. *)
From mathcomp Require Import all_ssreflect all_algebra.
From Verif Require Import PyBase ArrLoop MCharpoly MPowerHaf MRecursive.
Set Implicit Arguments.
Unset Strict Implicit.
Unset Printing Implicit Defensive.
Import GRing.Theory Num.Theory.
Local Open Scope ring_scope.

Local Notation "A @[ i , j ]" := (A i%N j%N) (at level 2, left associativity, format "A @[ i ,  j ]").

Section Model.
Variable C : numClosedFieldType.
Notation mat := (nat -> nat -> C).
Notation vec := (nat -> C).

(** A two-dimensional NumPy array: shape and entries ([None] is NaN); [PyOther] is any other object. *)
Record ndarr := NdArr { nrows : nat; ncols : nat; ent : nat -> nat -> option C }.
Inductive pyobj := PyArr of ndarr | PyOther.
Definition vals (A : ndarr) : mat := fun i j => odflt 0 (ent A i j).
(** the array with the given shape and (non-NaN) values *)
Definition arr_of (nr nc : nat) (M : mat) : ndarr := NdArr nr nc (fun i j => Some (M i j)).

(** np.allclose on scalars and (nr x nc) matrices: |a - b| <= atol + rtol |b| for all entries *)
Definition close (rtol atol a b : C) : bool := `|a - b| <= atol + rtol * `|b|.
Definition allclose (rtol atol : C) (nr nc : nat) (A B : mat) : bool :=
  all (fun i => all (fun j => close rtol atol (A i j) (B i j)) (iota 0 nc)) (iota 0 nr).
(** default tolerances of np.allclose *)
Definition rtol0 : C := 10%:R^-1 ^+ 5.
Definition atol0 : C := 10%:R^-1 ^+ 8.

(** _hafnian.py:634-665 [input_validation(A, rtol, atol)] *)
Definition input_validation (A : pyobj) (rtol atol : C) : res ndarr :=
  match A with
  | PyOther => Err TypeError
  | PyArr A =>
    if nrows A != ncols A then Err ValueError
    else if has (fun i => has (fun j => ent A i j == None) (iota 0 (ncols A))) (iota 0 (nrows A)) then Err ValueError
    else if ~~ allclose rtol atol (nrows A) (ncols A) (vals A) (fun i j => vals A j i) then Err ValueError
    else Ok A
  end.

Inductive hmethod := Glynn | Inclexcl | Recursive | OtherMethod.
(** the local variable [glynn]: unbound unless method is "glynn" or "inclexcl" (_hafnian.py:754-758) *)
Definition glynn_of (m : hmethod) : option bool :=
  match m with Glynn => Some true | Inclexcl => Some false | _ => None end.

(** the diagonal of A as a matrix: np.diag(np.diag(A)) *)
Definition diag_part (A : mat) : mat := fun i j => if i == j then A i j else 0.

Variable sched : nat -> seq nat.              (* execution order of the numba.prange loops *)
Variable approx_oracle : nat -> mat -> nat -> C.   (* hafnian_approx (random): any value *)
Definition is_complex (x : C) : bool := x \isn't Num.real.

(** _hafnian.py:718-818 [hafnian(A, loop, rtol, atol, approx, num_samples, method)] *)
Definition hafnian (A : pyobj) (loop : bool) (rtol atol : C) (approx : bool) (num_samples : nat) (method : hmethod)
  : res C :=
  bind (input_validation A rtol atol) (fun arr =>
  let n := nrows arr in let A := vals arr in
  let glynn := glynn_of method in
  if n == 0%N then Ok 1
  else if (n %% 2 != 0)%N && ~~ loop then Ok 0
  else if allclose rtol atol n n (diag_part A) A then
    if loop then Ok (for_ (iota 0 n) 1 (fun p i => p * A i i)) else Ok 0
  else if n == 2%N then
    if loop then Ok (A@[0, 1] + A@[0, 0] * A@[1, 1]) else Ok (A@[0, 1])
  else if (n == 3%N) && loop then
    Ok (A@[0, 0] * A@[1, 2] + A@[1, 1] * A@[0, 2] + A@[2, 2] * A@[0, 1] + A@[0, 0] * A@[1, 1] * A@[2, 2])
  else if n == 4%N then
    if loop then
      Ok (A@[0, 1] * A@[2, 3] + A@[0, 2] * A@[1, 3] + A@[0, 3] * A@[1, 2]
          + A@[0, 0] * A@[1, 1] * A@[2, 3] + A@[0, 1] * A@[2, 2] * A@[3, 3] + A@[0, 2] * A@[1, 1] * A@[3, 3]
          + A@[0, 0] * A@[2, 2] * A@[1, 3] + A@[0, 0] * A@[3, 3] * A@[1, 2] + A@[0, 3] * A@[1, 1] * A@[2, 2]
          + A@[0, 0] * A@[1, 1] * A@[2, 2] * A@[3, 3])
    else Ok (A@[0, 1] * A@[2, 3] + A@[0, 2] * A@[1, 3] + A@[0, 3] * A@[1, 2])
  else if approx then
    if has (fun i => has (fun j => is_complex (A i j)) (iota 0 n)) (iota 0 n) then Err ValueError
    else if has (fun i => has (fun j => A i j < 0) (iota 0 n)) (iota 0 n) then Err ValueError
    else Ok (approx_oracle n A num_samples)
  else if loop then loop_hafnian (@powertrace C) sched n A None None true
  else if method is Recursive then recursive_hafnian n n A
  else match glynn with
    | Some g => haf_ (@powertrace C) sched n A None g
    | None => Err UnboundLocalError
    end).

(** _hafnian.py:697-714 [reduction(A, rpt)] for a matrix A and a vector A *)
Definition red_rows (rpt : seq nat) : seq nat := flatten [seq nseq xj.2 xj.1 | xj <- zip (iota 0 (size rpt)) rpt].
Definition reduction (A : ndarr) (rpt : seq nat) : ndarr :=
  let rows := red_rows rpt in
  NdArr (size rows) (size rows) (fun i j => ent A (nth 0%N rows i) (nth 0%N rows j)).
Definition reduction1 (a : vec) (rpt : seq nat) : vec * nat :=
  let rows := red_rows rpt in (fun i => a (nth 0%N rows i), size rows).

(** [np.prod(mu**rpt)] with NumPy broadcasting of the two 1-d operands *)
Definition prod_pow (mu : vec) (lenmu : nat) (rpt : seq nat) : res C :=
  if lenmu == size rpt then Ok (\prod_(i <- iota 0 (size rpt)) mu i ^+ nth 0%N rpt i)
  else if lenmu == 1%N then Ok (\prod_(i <- iota 0 (size rpt)) mu 0%N ^+ nth 0%N rpt i)
  else if size rpt == 1%N then Ok (\prod_(i <- iota 0 lenmu) mu i ^+ nth 0%N rpt 0)
  else Err ValueError.

(** _hafnian.py:864-936 [hafnian_repeated(A, rpt, mu, loop, rtol, atol, glynn)].  The entries of [rpt] are
    rational numbers; conversion to int32 is exact on the integers (no overflow modelled). *)
Definition rat_int (q : rat) : bool := denq q == 1.
Definition to_nat (q : rat) : nat := `|numq q|%N.
Definition hafnian_repeated (A : pyobj) (rpt : seq rat) (mu : option (vec * nat)) (loop : bool) (rtol atol : C)
    (glynn : bool) : res C :=
  bind (input_validation A rtol atol) (fun arr =>
  let n := nrows arr in let A := vals arr in
  if size rpt != n then Err ValueError
  else if ~~ all rat_int rpt || has (fun q => q < 0) rpt then Err ValueError
  else
    let nud := [seq to_nat q | q <- rpt] in
    if all (fun k => k == 0%N) nud then Ok 1
    else if (sumn nud %% 2 != 0)%N && ~~ loop then Ok 0
    else
      let: (mu, lenmu) := if mu is Some m then m else (fun i => A i i, n) in
      if allclose rtol atol n n A (fun _ _ => 0) then
        if loop then prod_pow mu lenmu nud else Ok 0
      else if lenmu != n then Err ValueError
      else if loop then loop_hafnian (@powertrace C) sched n A (Some (mu, lenmu)) (Some nud) glynn
      else haf_ (@powertrace C) sched n A (Some nud) glynn).

(** ** hafnian_sparse (_hafnian.py:821-861) *)
(** [A - np.diag(np.diag(A))] unless loop *)
Definition drop_diag (loop : bool) (A : mat) : mat := fun i j => if loop then A i j else if i == j then A i j - A i j else A i j.
(** One execution of the inner function [lhaf(d)] (lines 853-859).  Sets are duplicate-free lists up to order.
    [d_.pop()] may return any element of the set, the sum may visit [indices(d, k)] in any order (the list
    [idx]); the results of the inner calls may come from the lru_cache, which stores values returned by
    earlier calls on equal sets, so it can only change which execution is used for an inner call. *)
Inductive lhaf_run (n : nat) (A : mat) : seq nat -> C -> Prop :=
| lhaf_empty : lhaf_run n A [::] 1
| lhaf_pop d k idx (v : nat -> C) :
    k \in d ->
    perm_eq idx [seq i <- d | (i < n)%N && (A k i != 0)] ->
    (forall i, i \in idx -> lhaf_run n A (rem i (rem k d)) (v i)) ->
    lhaf_run n A d (\sum_(i <- idx) A i k * v i).
(** [D = None] means all indices.  [hafnian_sparse_run n A D loop r]: [r] is a possible result. *)
Inductive hafnian_sparse_run (n : nat) (A : mat) (D : option (seq nat)) (loop : bool) : C -> Prop :=
| sparse_zero : allclose rtol0 atol0 n n (drop_diag loop A) (fun _ _ => 0) -> hafnian_sparse_run n A D loop 0
| sparse_rec v : ~~ allclose rtol0 atol0 n n (drop_diag loop A) (fun _ _ => 0) ->
    lhaf_run n (drop_diag loop A) (if D is Some d then undup d else iota 0 n) v ->
    hafnian_sparse_run n A D loop v.

(** ** hafnian_banded *)
(** _hafnian.py:668-682 [bandwidth(A)]: the largest i in n-1..1 whose i-th upper diagonal is not close to 0 *)
Definition bandwidth (n : nat) (A : mat) : nat :=
  let notclose i := ~~ all (fun r => close rtol0 atol0 (A r (r + i)%N) 0) (iota 0 (n - i)) in
  head 0%N [seq i <- rev (iota 1 n.-1) | notclose i].

(** _hafnian.py:685-694 [powerset]: subsequences by increasing length (itertools.combinations) *)
Fixpoint combinations (l : seq nat) (r : nat) : seq (seq nat) :=
  match r, l with
  | 0%N, _ => [:: [::]]
  | r'.+1, [::] => [::]
  | r'.+1, x :: l' => [seq x :: c | c <- combinations l' r'] ++ combinations l' r
  end.
Definition powerset (l : seq nat) : seq (seq nat) := flatten [seq combinations l r | r <- iota 0 (size l).+1].

(** dictionaries from tuples to scalars, most recent binding first *)
Definition dict := seq (seq nat * C).
Definition dget (d : dict) (k : seq nat) : option C :=
  if [seq kv <- d | kv.1 == k] is kv :: _ then Some kv.2 else None.

(** _hafnian.py:958-974: the sum over [i in D]; [None] is a KeyError *)
Definition banded_sum (A : mat) (d : dict) (t : nat) (key D : seq nat) : option C :=
  foldr (fun i acc =>
     if dget d [seq x <- key | (x != i) && (x != t)] is Some v then
       if acc is Some a then Some (A (i - 1)%N (t - 1)%N * v + a) else None
     else None) (Some 0) D.

(** _hafnian.py:939-976 [hafnian_banded(A, loop, rtol, atol)].  Iterating over sets of consecutive small
    integers yields them in increasing order (CPython). *)
Definition hafnian_banded (A : pyobj) (loop : bool) (rtol atol : C) : res C :=
  bind (input_validation A rtol atol) (fun arr =>
  let n := nrows arr in
  let w := bandwidth n (vals arr) in
  let A := drop_diag loop (vals arr) in
  if n == 0%N then Err IndexError                     (* A[0, 0] *)
  else
    let d0 : dict := [:: ([::], 1); ([:: 1%N], A 0%N 0%N)] in
    bind (foldM (fun d t =>
      let lower_end := if (2 * w + 1 < t)%N then pyrange 1 (t - 2 * w) else [::] in
      let diff := [seq x <- pyrange 1 t.+1 | x \notin lower_end] in
      foldM (fun d D =>
         let key := lower_end ++ D in
         if dget d key is Some _ then Ok d
         else if banded_sum A d t key D is Some v then Ok ((key, v) :: d) else Err KeyError)
        d (powerset diff)) d0 (pyrange 1 n.+1))
    (fun d => if dget d (pyrange 1 n.+1) is Some v then Ok v else Err KeyError)).
End Model.
