(** Specification vocabulary for phase-space matrices (xxpp ordering), independent of the model. *)
From mathcomp Require Import all_ssreflect all_algebra.
Set Implicit Arguments.
Unset Strict Implicit.
Unset Printing Implicit Defensive.
Import GRing.Theory Num.Theory.
Local Open Scope ring_scope.

Section S.
Variable R : comRingType.
Notation mat := (nat -> nat -> R).

(** the symplectic form [[0, I], [-I, 0]] on 2n quadratures *)
Definition Omega (n i j : nat) : R := (j == n + i)%N%:R - (i == n + j)%N%:R.

(** S^T Omega S = Omega, for a 2n x 2n matrix *)
Definition symplectic (n : nat) (S : mat) : Prop := forall i j, (i < 2 * n)%N -> (j < 2 * n)%N ->
  \sum_(k < 2 * n) \sum_(l < 2 * n) S k i * Omega n k l * S l j = Omega n i j.

(** [S2] (n x n) acts as [S] on the coordinates listed in [idx], and as the identity elsewhere *)
Definition acts_as (n : nat) (idx : seq nat) (S S2 : mat) : Prop :=
  (forall a b, (a < size idx)%N -> (b < size idx)%N -> S2 (nth 0%N idx a) (nth 0%N idx b) = S a b) /\
  (forall i j, (i < n)%N -> (j < n)%N -> (i \notin idx) || (j \notin idx) -> S2 i j = (i == j)%:R).

(** coordinates x_{w0}, x_{w1}, ..., p_{w0}, p_{w1}, ... of the modes [w] among N modes *)
Definition quads (N : nat) (w : seq nat) : seq nat := w ++ [seq (N + m)%N | m <- w].

(** matrix product of n x n matrices, and equality on the n x n entries *)
Definition mprod (n : nat) (A B : mat) : mat := fun i j => \sum_(k < n) A i k * B k j.
Definition eqm (n : nat) (A B : mat) : Prop := forall i j, (i < n)%N -> (j < n)%N -> A i j = B i j.
Definition eqv (n : nat) (u v : nat -> R) : Prop := forall i, (i < n)%N -> u i = v i.
End S.

Section C.
Variable C : numClosedFieldType.
(** U^dagger U = I for an n x n matrix *)
Definition unitary (n : nat) (U : nat -> nat -> C) : Prop := forall i j, (i < n)%N -> (j < n)%N ->
  \sum_(k < n) (U k i)^* * U k j = (i == j)%:R.
End C.
