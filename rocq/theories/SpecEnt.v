(** Independent specification for C61 (entanglement.py). *)
From mathcomp Require Import all_ssreflect all_algebra.
From Verif Require Import SpecSymp SpecDecomp.
Set Implicit Arguments.
Unset Strict Implicit.
Unset Printing Implicit Defensive.
Import GRing.Theory Num.Theory.
Local Open Scope ring_scope.

Section Spec.
Variable C : numClosedFieldType.
Notation mat := (nat -> nat -> C).
Notation vec := (nat -> C).
(** the covariance matrix in units where the vacuum has covariance 1 *)
Definition natural (cov : mat) (hbar : C) : mat := fun i j => 2%:R * cov i j / hbar.
(** nu_0, ..., nu_(N-1) are the symplectic eigenvalues of V: V = S diag(nu, nu) S^T with S real and symplectic *)
Definition symplectic_spectrum (N : nat) (V : mat) (nu : vec) : Prop :=
  (forall i, (i < N)%N -> 0 < nu i) /\
  exists2 S : mat, realm (2 * N) S /\ symplectic N S & eqm (2 * N) V (mprod (2 * N) (mprod (2 * N) S (diag2 N nu nu)) (tr S)).
(** the von Neumann entropy of a thermal state with symplectic eigenvalue nu *)
Definition thermal_entropy (log : C -> C) (nu : C) : C :=
  (nu + 1) / 2%:R * log ((nu + 1) / 2%:R) - (nu - 1) / 2%:R * log ((nu - 1) / 2%:R).
(** np.isclose(nu, 1) *)
Definition near_one (rtol atol nu : C) : bool := `|nu - 1| <= atol + rtol.
(** partial transposition of the modes in A: their momenta change sign *)
Definition mom_sign (N : nat) (A : seq nat) (i : nat) : C := if (N <= i)%N && ((i - N)%N \in A) then -1 else 1.
Definition partial_transpose (N : nat) (A : seq nat) (V : mat) : mat := fun i j => mom_sign N A i * V i j * mom_sign N A j.
(** A and B split the modes 0, ..., N-1 *)
Definition bipartition (N : nat) (A B : seq nat) : Prop := perm_eq (A ++ B) (iota 0 N).
(** log on the positive reals *)
Definition log_ok (log : C -> C) : Prop := log 1 = 0 /\ forall x y, 0 < x -> x <= y -> log x <= log y.
(** ... strictly increasing at 1 *)
Definition log_neg_below1 (log : C -> C) : Prop := forall x, 0 < x -> x < 1 -> log x < 0.
End Spec.
