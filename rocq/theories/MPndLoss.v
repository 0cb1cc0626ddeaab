(** Model of total_photon_number_distribution in thewalrus/quantum/photon_number_distributions.py *)
From mathcomp Require Import all_ssreflect all_algebra.
Set Implicit Arguments.
Unset Strict Implicit.
Unset Printing Implicit Defensive.
Import GRing.Theory Num.Theory.
Local Open Scope ring_scope.

Section Loss.
Variable C : numClosedFieldType.
Variables cosh tanh : C -> C.                       (* np.cosh, np.tanh *)
Variable binom : C -> C -> C.                       (* scipy.special.binom *)
Variable hyp2f1 : C -> C -> C -> C -> C.            (* scipy.special.hyp2f1 *)

(** photon_number_distributions.py:97-134 [total_photon_number_distribution(n, k, s, eta, pref)], n >= 0 and k >= 0 integers *)
Definition total_photon_number_distribution (n k : nat) (s eta pref : C) : C :=
  if (n %% 2)%N == 0%N then
    binom (-1 + k%:R / 2%:R + n%:R / 2%:R) (n%:R / 2%:R)
    * hyp2f1 (1 / 2%:R + n%:R / 2%:R) (k%:R / 2%:R + n%:R / 2%:R) (1 / 2%:R) ((1 - eta) ^+ 2 * tanh s ^+ 2)
    * (1 / cosh s) ^+ k
    * (pref * eta * tanh s) ^+ n
  else
    (1 + n%:R)
    * (1 - eta)
    * binom ((-1 + k%:R + n%:R) / 2%:R) ((1 + n%:R) / 2%:R)
    * hyp2f1 ((2%:R + n%:R) / 2%:R) ((1 + k%:R + n%:R) / 2%:R) (3%:R / 2%:R) ((1 - eta) ^+ 2 * tanh s ^+ 2)
    * (1 / cosh s) ^+ k
    * tanh s
    * (pref * eta * tanh s) ^+ n.
End Loss.
