(** The law of the photon-number sampler, given the outcomes of its Gaussian draws. *)
From mathcomp Require Import all_ssreflect all_algebra.
From Verif Require Import SpecHaf.
Set Implicit Arguments.
Unset Strict Implicit.
Unset Printing Implicit Defensive.
Import GRing.Theory Num.Theory.
Local Open Scope ring_scope.

Section Spec.
Variable C : numClosedFieldType.
(** unnormalised probability of k photons in the next mode, after the photon numbers ns, for the pure state with matrix B and
    loop vector gamma *)
Definition photon_weight (B : nat -> nat -> C) (gamma : nat -> C) (ns : seq nat) (k : nat) : C :=
  `|lhaf_rep_spec (rcons ns k) B gamma| ^+ 2 / (k`!)%:R.
(** the corresponding probability for a detector that resolves at most cutoff photons *)
Definition photon_prob (cutoff : nat) (B : nat -> nat -> C) (gamma : nat -> C) (ns : seq nat) (k : nat) : C :=
  photon_weight B gamma ns k / \sum_(k' < cutoff.+1) photon_weight B gamma ns k'.
(** loop vector of the modes <= j of the pure state with displacement beta, when the modes > j have been projected on the coherent
    states of amplitudes alpha *)
Definition het_gamma (M : nat) (B : nat -> nat -> C) (beta alpha : nat -> C) (j i : nat) : C :=
  (beta i)^* - \sum_(l < M) B i l * beta l + \sum_(l < M | (j < l)%N) B i l * alpha l.
End Spec.
