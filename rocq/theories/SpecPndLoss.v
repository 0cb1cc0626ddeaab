(** Specification for C65: limits of sequences, and the contracts of scipy.special.binom and hyp2f1. *)
From mathcomp Require Import all_ssreflect all_algebra.
From Verif Require Import SpecPnd.
Set Implicit Arguments.
Unset Strict Implicit.
Unset Printing Implicit Defensive.
Import GRing.Theory Num.Theory.
Local Open Scope ring_scope.

Section S.
Variable C : numClosedFieldType.
Definition tends (f : nat -> C) (l : C) : Prop := forall e, 0 < e -> exists J0, forall J, (J0 <= J)%N -> `|f J - l| < e.
(** x (x + 1) .. (x + j - 1) *)
Definition rising (x : C) (j : nat) : C := \prod_(i < j) (x + i%:R).
(** binom(y, p) = y (y - 1) .. (y - p + 1) / p! *)
Definition binom_ok (binom : C -> C -> C) : Prop := forall y p, -1 < y -> binom y p%:R = (\prod_(i < p) (y - i%:R)) / p`!%:R.
(** hyp2f1(a, b, c, z) = sum_j (a)_j (b)_j / ((c)_j j!) z^j, a series that converges if c > 0 and |z| < 1 *)
Definition hyp2f1_at (hyp2f1 : C -> C -> C -> C -> C) (a b c z : C) : Prop := 0 < c -> `|z| < 1 ->
  tends (fun J => \sum_(j < J) rising a j * rising b j / (rising c j * j`!%:R) * z ^+ j) (hyp2f1 a b c z).
(** np.cosh and np.tanh: cosh > 0 and 1 / cosh^2 = 1 - tanh^2 *)
Definition cosh_tanh_at (cosh tanh : C -> C) (s : C) : Prop :=
  [/\ 0 < cosh s, tanh s \is Num.real & (1 / cosh s) ^+ 2 = 1 - tanh s ^+ 2].
(** probability that n photons are left of k squeezed vacua with t = tanh of the squeezing parameter, when each photon is
    lost with probability 1 - eta, restricted to less than J photons before the loss: the sum over m < J of
    (m choose n) eta^n (1 - eta)^(m-n) times the probability of m photons in total (L m lists the patterns) *)
Definition lossy_upto (t eta : C) (n : nat) (L : nat -> seq (seq nat)) (J : nat) : C :=
  \sum_(m < J | (n <= m)%N) 'C(m, n)%:R * eta ^+ n * (1 - eta) ^+ (m - n) * (\sum_(k <- L m) \prod_(j <- k) squeezed_prob t j).
End S.
