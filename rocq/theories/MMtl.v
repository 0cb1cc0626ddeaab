(** Model of thewalrus/_montrealer.py and of reference.py:287-403 (exact complex arithmetic). *)
From mathcomp Require Import all_ssreflect all_algebra.
From Verif Require Import PyBase ArrLoop MCharpoly MHafnian MSymplectic MMisc MTor.
Set Implicit Arguments.
Unset Strict Implicit.
Unset Printing Implicit Defensive.
Import GRing.Theory Num.Theory.
Local Open Scope ring_scope.

Section Model.
Variable C : numClosedFieldType.
Variable sched : nat -> seq nat.              (* execution order of numba.prange *)
Notation mat := (nat -> nat -> C).
Notation vec := (nat -> C).

(** _montrealer.py:37-57 [montrealer(Sigma)], Sigma of size 2n x 2n, n > 0 *)
Definition montrealer (n : nat) (Sigma : mat) : res C :=
  bind (foldM (fun val p =>
    bind (dec2bin p n) (fun pos =>
    let lenpos := size pos in
    let pos := pos ++ [seq (n + i)%N | i <- pos] in
    let submat := ix Sigma pos in
    let sign := (-1) ^+ (lenpos + 1) in
    Ok (val + sign * last 0 (powertrace (size pos) submat n.+1)))) 0 (sched (2 ^ n)%N))
  (fun val => Ok ((-1) ^+ (n + 1) * val / (2 * n)%:R)).

(** _montrealer.py:60-75 [power_loop(Sigma, zeta, n)], Sigma of size d x d *)
Definition power_loop (d : nat) (Sigma : mat) (zeta : vec) (n : nat) : C :=
  let vec := for_ (iota 0 (n - 1)) zeta (fun (vec : nat -> C) _ => fun i => \sum_(j < d) Sigma i j * vec j) in
  \sum_(i < d) (zeta i)^* * vec i.

(** _montrealer.py:78-103 [lmontrealer(Sigma, zeta)] *)
Definition lmontrealer (n : nat) (Sigma : mat) (zeta : vec) : res C :=
  bind (foldM (fun vals p => let: (val, val_loops) := vals in
    bind (dec2bin p n) (fun pos =>
    let lenpos := size pos in
    let pos := pos ++ [seq (n + i)%N | i <- pos] in
    let subvec : vec := fun i => zeta (nth 0%N pos i) in
    let submat := ix Sigma pos in
    let sign := (-1) ^+ (lenpos + 1) in
    let val_loops := val_loops + sign * power_loop (size pos) submat subvec n in
    Ok (val + sign * last 0 (powertrace (size pos) submat n.+1), val_loops))) (0, 0) (sched (2 ^ n)%N))
  (fun vals => let: (val, val_loops) := vals in Ok ((-1) ^+ (n + 1) * (val / (2 * n)%:R + val_loops / 2%:R))).

(** _montrealer.py:106-120 [lmtl(A, zeta)]; zeta: None if it is not an array, else entries and length *)
Definition lmtl (A : pyobj C) (zeta : option (vec * nat)) : res C :=
  bind (tor_input_checks A (Some (omap snd zeta))) (fun A =>
  let n := (nrows A %/ 2)%N in
  let z := if zeta is Some (z, _) then z else (fun=> 0) in
  let Sigma := mmul (2 * n) (Xmat C n) (vals A) in
  lmontrealer n Sigma z).

(** _montrealer.py:123-136 [mtl(A)] *)
Definition mtl (A : pyobj C) : res C :=
  bind (tor_input_checks A None) (fun A =>
  let n := (nrows A %/ 2)%N in
  let Sigma := mmul (2 * n) (Xmat C n) (vals A) in
  montrealer n Sigma).
End Model.

(** ** reference.py *)
Section Dict.
(** Python dictionaries from integers to integers, in insertion order *)
Definition dict := seq (nat * nat).
Fixpoint dset (d : dict) (k v : nat) : dict :=
  if d is kv :: d' then (if kv.1 == k then (k, v) :: d' else kv :: dset d' k v) else [:: (k, v)].
Fixpoint dget (d : dict) (k : nat) : res nat :=
  if d is kv :: d' then (if kv.1 == k then Ok kv.2 else dget d' k) else Err KeyError.
Definition getl (T : Type) (d : T) (l : seq T) (i : nat) : res T := if (i < size l)%N then Ok (nth d l i) else Err IndexError.
End Dict.

(** reference.py:287-309 [mapper(x, objects)], x = (perm, bit), objects a sequence of integers *)
Definition mapper (perm bit objects : seq nat) : res (seq (nat * nat)) :=
  let m := size bit in
  let: (B0, B1) := for_ (zip (iota 0 m) bit) (iota 0 m, pyrange m (2 * m)) (fun B ij =>
     let: (B0, B1) := B in
     if ij.2 != 0%N then (set_nth 0%N B0 ij.1 (nth 0%N B1 ij.1), set_nth 0%N B1 ij.1 (nth 0%N B0 ij.1)) else (B0, B1)) in
  bind (foldM (fun l i => bind (getl 0%N B0 i) (fun x => Ok (rcons l x))) [::] (0%N :: perm)) (fun L0 =>
  bind (foldM (fun l i => bind (getl 0%N B1 i) (fun x => Ok (rcons l x))) [::] (0%N :: perm)) (fun L1 =>
  let Blist := L0 ++ L1 in
  let dico_list := for_ (zip (iota 0 (size Blist)) Blist) [::] (fun d ij => dset d ij.2 ij.1.+1) in
  foldM (fun d ij =>
    bind (dget dico_list ij.1) (fun di => bind (dget dico_list ij.2) (fun dj =>
    bind (getl 0%N objects (di - 1)) (fun k => bind (getl 0%N objects (dj - 1)) (fun v => Ok (dset d k v))))))
    [::] (zip (rcons (pyrange 0 (m - 1)) m) (rcons (pyrange (m + 1) (2 * m)) (m - 1)%N)))).

(** itertools.product("01", repeat=n) with the digits read by [int] *)
Fixpoint product01 (n : nat) : seq (seq nat) :=
  if n is n'.+1 then [seq 0%N :: t | t <- product01 n'] ++ [seq 1%N :: t | t <- product01 n'] else [:: [::]].
(** reference.py:312-322 [bitstrings(n)], n > 0 *)
Definition bitstrings (n : nat) : seq (seq nat) := [seq 0%N :: t | t <- product01 (n - 1)].

Section Ref.
(** itertools.permutations: lists the permutations of a sequence *)
Variable permutations_py : seq nat -> seq (seq nat).
(** reference.py:325-344 [rpmp(s)] *)
Definition rpmp (s : seq nat) : seq (res (seq (nat * nat))) :=
  let m := (size s %/ 2)%N in
  [seq mapper p b s | p <- permutations_py (pyrange 1 m), b <- bitstrings m].
(** reference.py:347-365 [splitter(elem)] *)
Definition splitter (elem : seq (nat * nat)) : seq (seq (nat * nat)) :=
  elem :: [seq let e := nth (0%N, 0%N) elem i in
       [:: (e.2, e.2)] ++ [seq nth (0%N, 0%N) elem j | j <- pyrange i.+1 (size elem)]
       ++ [seq nth (0%N, 0%N) elem j | j <- iota 0 i] ++ [:: (e.1, e.1)] | i <- iota 0 (size elem)].
(** reference.py:368-378 [rspm(s)] *)
Definition rspm (s : seq nat) : seq (res (seq (nat * nat))) :=
  flatten [seq (match r with Ok e => [seq Ok x | x <- splitter e] | Err er => [:: Err er] end) | r <- rpmp s].
(** reference.py:381-403 [mtl(A, loop)], A of size n x n *)
Definition ref_mtl (R : comRingType) (n : nat) (A : nat -> nat -> R) (loop : bool) : res R :=
  let perm := if loop then rspm (iota 0 n) else rpmp (iota 0 n) in
  foldM (fun net_sum s => bind s (fun s =>
    let net_prod := for_ s 1 (fun net_prod a => net_prod * A a.1 a.2) in Ok (net_sum + net_prod))) 0 perm.
End Ref.
