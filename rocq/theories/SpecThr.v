(** Specification: probabilities of threshold-detector outcomes of a Gaussian state. *)
From mathcomp Require Import all_ssreflect all_algebra.
From Verif Require Import SpecTor.
Set Implicit Arguments.
Unset Strict Implicit.
Unset Printing Implicit Defensive.
Import GRing.Theory Num.Theory.
Local Open Scope ring_scope.

Section Spec.
Variable C : numClosedFieldType.
Notation mat := (nat -> nat -> C).
Notation vec := (nat -> C).
(** Q: complex (Husimi) covariance matrix of n modes, alpha: complex displacement (alpha_1..alpha_n and conjugates).
    The reduced state of the modes in T has the blocks Q_T, alpha_T, and its overlap with the vacuum is
    exp(- 1/2 alpha_T^* Q_T^-1 alpha_T) / sqrt det Q_T. *)
Definition vacuum_overlap (exp : C -> C) n (alpha : vec) (Q : mat) (T : {set 'I_n}) : C :=
  let r := set_rows T in
  exp (- 2%:R^-1 * ((subcol (fun i => (alpha i)^*) r)^T *m invmx (submx Q r) *m subcol alpha r) 0 0) / sqrtC (\det (submx Q r)).
(** exactly the detectors in D click, when [v T] is the probability that no detector of T clicks: inclusion-exclusion *)
Definition exactly (n : nat) (v : {set 'I_n} -> C) (D : {set 'I_n}) : C :=
  \sum_(Z : {set 'I_n} | Z \subset D) (-1) ^+ (#|D| - #|Z|) * v (~: Z).
(** a detection pattern *)
Definition pattern n (D : {set 'I_n}) : seq nat := [seq nat_of_bool (i \in D) | i <- enum 'I_n].
End Spec.
