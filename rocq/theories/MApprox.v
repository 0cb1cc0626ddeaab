(** Model of the stochastic hafnian approximation of thewalrus/_hafnian.py. *)
From mathcomp Require Import all_ssreflect all_algebra.
From Verif Require Import Prelude PyBase ArrLoop.
Set Implicit Arguments.
Unset Strict Implicit.
Unset Printing Implicit Defensive.
Import GRing.Theory Num.Theory.
Local Open Scope ring_scope.

(** _hafnian.py:1049-1066 [_one_det(B)] on an n x n matrix, over any commutative ring.  [init] is the uninitialised content of
    np.empty_like; [g i j] is the value drawn by np.random.normal() in iteration (i, j); np.linalg.det is the exact determinant. *)
Definition one_det (R : comRingType) (init : nat -> nat -> R) (n : nat) (B : nat -> nat -> R) (g : nat -> nat -> R) : R :=
  let mat := for_ (pyrange 0 n) init (fun mat i => for_ (pyrange 0 n) mat (fun mat j =>
    let mat := upd2 mat i j (B i j * g i j) in
    upd2 mat j i (- mat i j))) in
  \det (\matrix_(i < n, j < n) mat i j).

(** _hafnian.py:1070-1085 [hafnian_approx(A, num_samples)]; [g] is the stream of random draws, n * n of them for each sample *)
Definition hafnian_approx (C : numClosedFieldType) (init : nat -> nat -> C) (n : nat) (A : nat -> nat -> C) (num_samples : nat) (g : nat -> C) : C :=
  let sqrtA i j := sqrtC (A i j) in
  (\sum_(s <- pyrange 0 num_samples) one_det init n sqrtA (fun i j => g (s * (n * n) + (i * n + j))%N)) / num_samples%:R.
