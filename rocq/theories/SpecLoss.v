(** Specification: photon loss and added noise on photon-number distributions. *)
From mathcomp Require Import all_ssreflect all_algebra.
Set Implicit Arguments.
Unset Strict Implicit.
Unset Printing Implicit Defensive.
Import GRing.Theory.
Local Open Scope ring_scope.

Section Spec.
Variable R : fieldType.
(** sum over all multi-indices of an array of the given shape *)
Fixpoint sum_idx (shape : seq nat) (F : seq nat -> R) : R :=
  if shape is c :: s then \sum_(v < c) sum_idx s (fun k => F (val v :: k)) else F [::].
Definition in_shape (shape idx : seq nat) : bool := (size idx == size shape) && all2 (fun i c => (i < c)%N) idx shape.
(** of k photons, each transmitted with probability eta, exactly j arrive *)
Definition binom_loss (eta : R) (k j : nat) : R := 'C(k, j)%:R * eta ^+ j * (1 - eta) ^+ (k - j).
(** every mode i loses photons independently with its own eta_i *)
Definition loss_spec (etas : seq R) (shape : seq nat) (P : seq nat -> R) (idx : seq nat) : R :=
  sum_idx shape (fun k => (\prod_(i < size shape) binom_loss (nth 0 etas i) (nth 0%N k i) (nth 0%N idx i)) * P k).
(** mode i gains d photons with probability noise_i[d], independently *)
Definition gain (one_d : seq R) (k j : nat) : R := if (k <= j)%N then nth 0 one_d (j - k) else 0.
Definition noise_spec (noise : seq (seq R)) (shape : seq nat) (P : seq nat -> R) (idx : seq nat) : R :=
  sum_idx shape (fun k => (\prod_(i < size shape) gain (nth [::] noise i) (nth 0%N k i) (nth 0%N idx i)) * P k).
End Spec.
