(** Distinguishable squeezed states: the modes of different inputs do not interfere, so that photon numbers of the outputs are
    sums of independent contributions, one for each input. *)
From mathcomp Require Import all_ssreflect all_algebra.
From Verif Require Import PyBase MSymplectic SpecGauss.
Set Implicit Arguments.
Unset Strict Implicit.
Unset Printing Implicit Defensive.
Import GRing.Theory Num.Theory.
Local Open Scope ring_scope.

Section S.
Variable C : numClosedFieldType.
Notation mat := (nat -> nat -> C).
(** the equations of the exponential function and of the hyperbolic sine that matter, at the squeezing parameter r *)
Definition sinh_at (exp sinh : C -> C) (r : C) : Prop :=
  [/\ exp r * exp (- r) = 1, exp (2%:R * r) = exp r ^+ 2, exp (- (2%:R * r)) = exp (- r) ^+ 2,
      sinh r = (exp r - exp (- r)) / 2%:R & sinh (2%:R * r) = (exp (2%:R * r) - exp (- (2%:R * r))) / 2%:R].
(** covariance matrix of n modes (xp ordering): mode k squeezed by r, the others in the vacuum *)
Definition squeezed_mode (exp : C -> C) (n : nat) (hbar : C) (k : nat) (r : C) : mat := fun a b =>
  (a == b)%:R * (hbar / 2%:R) * (if a == k then exp (- (2%:R * r)) else if a == (n + k)%N then exp (2%:R * r) else 1).
(** that state after the interferometer with transmission matrix T *)
Definition output_state (exp : C -> C) (n : nat) (hbar : C) (T : mat) (rs : nat -> C) (k : nat) : mat :=
  (passive_transformation hbar n n (fun _ => 0) (squeezed_mode exp n hbar k (rs k)) T).2.
End S.
