(** Model of thewalrus/quantum/distinguishable_squeezers.py (without [sample]) *)
From mathcomp Require Import all_ssreflect all_algebra.
From Verif Require Import PyBase MSymplectic.
Set Implicit Arguments.
Unset Strict Implicit.
Unset Printing Implicit Defensive.
Import GRing.Theory Num.Theory.
Local Open Scope ring_scope.

Section Dist.
Variable C : numClosedFieldType.
Notation mat := (nat -> nat -> C).
Notation vec := (nat -> C).
Variable sinh : C -> C.   (* np.sinh *)

(** distinguishable_squeezers.py:60-75 [number_means(T, rs)], rs of length n, T of size n x n *)
Definition number_means (n : nat) (T : mat) (rs : vec) : vec := fun i =>
  \sum_(k <- iota 0 n) (sinh (rs k) * `|T i k|) ^+ 2.

(** distinguishable_squeezers.py:78-93 [number_cov(T, rs)] *)
Definition number_cov (n : nat) (T : mat) (rs : vec) : mat :=
  let absT : mat := fun i k => `|T i k| ^+ 2 in
  let covN := mmul n (fun i k => absT i k * sinh (rs k) ^+ 4) (trn absT) in
  let covM := mmul n (fun i k => absT i k * (2%:R^-1 * sinh (2%:R * rs k)) ^+ 2) (trn absT) in
  fun i j => covN i j + covM i j + (i == j)%:R * number_means n T rs i.
End Dist.
