(** Specification for C64: the distribution of the total number of photons, and the contracts of scipy.stats.nbinom.pmf and
    np.tanh, np.arctanh. *)
From mathcomp Require Import all_ssreflect all_algebra.
From Verif Require Import SpecSymp SpecFock.
Set Implicit Arguments.
Unset Strict Implicit.
Unset Printing Implicit Defensive.
Import GRing.Theory Num.Theory.
Local Open Scope ring_scope.

Section S.
Variable C : numClosedFieldType.
(** L lists, once each, the photon-number patterns of N modes with n photons in total *)
Definition patterns (N n : nat) (L : seq (seq nat)) : Prop :=
  uniq L /\ forall k, (k \in L) = (size k == N) && (sumn k == n).
(** probability of j photons in the squeezed vacuum with t = tanh of the squeezing parameter:
    sqrt(1 - t^2) (2m)! / (4^m (m!)^2) t^2m for j = 2m, and 0 for odd j *)
Definition squeezed_prob (t : C) (j : nat) : C :=
  if odd j then 0 else sqrtC (1 - t ^+ 2) * (j`!%:R / (4%:R ^+ j./2 * (j./2)`!%:R ^+ 2)) * t ^+ j.
(** scipy: nbinom.pmf(k, n=r, p=q) = Gamma(k + r) / (k! Gamma(r)) q^r (1-q)^k for r > 0, 0 < q <= 1; here for r = N / 2, with
    Gamma(k + r) / Gamma(r) = r (r + 1) .. (r + k - 1) and q^(N/2) = sqrt(q)^N *)
Definition nbinom_ok (nbinom_pmf : nat -> C -> C -> C) : Prop := forall k N q, (0 < N)%N -> 0 < q <= 1 ->
  nbinom_pmf k (2%:R^-1 * N%:R) q =
  (\prod_(i < k) (2%:R^-1 * N%:R + i%:R)) / k`!%:R * sqrtC q ^+ N * (1 - q) ^+ k.
(** np.tanh(np.arctanh(d)) = d for 0 <= d < 1 *)
Definition arctanh_ok (tanh arctanh : C -> C) : Prop := forall d, 0 <= d < 1 -> tanh (arctanh d) = d.
End S.
