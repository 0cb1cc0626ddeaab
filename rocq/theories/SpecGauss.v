(** Specification: moments of a Gaussian (quasi-)distribution.

    The Wigner function of a Gaussian state is the Gaussian density with the given means [mu] and covariance
    matrix [cov] of the quadratures (q_0..q_{N-1}, p_0..p_{N-1}); symmetrically ordered operator products have
    the expectation values of the corresponding classical products.  Moments of Gaussian variables are given by
    Isserlis' theorem (Wick's theorem with means): sum over all matchings of the factors into pairs (covariance)
    and singletons (mean), i.e. a loop hafnian with repeated rows and columns. *)
From mathcomp Require Import all_ssreflect all_algebra.
From Verif Require Import SpecHaf.
Set Implicit Arguments.
Unset Strict Implicit.
Unset Printing Implicit Defensive.
Import GRing.Theory Num.Theory.
Local Open Scope ring_scope.

(** Isserlis: the expectation of x_0^r_0 x_1^r_1 ... for jointly Gaussian x *)
Definition gauss_moment (R : comRingType) (mean : nat -> R) (covar : nat -> nat -> R) (r : seq nat) : R :=
  lhaf_rep_spec r covar mean.

Section Amp.
Variable C : numClosedFieldType.
(** The amplitudes: index t < N is conj(a_t) = (q_t - i p_t)/sqrt(2 hbar), index N + t is
    a_t = (q_t + i p_t)/sqrt(2 hbar).  [amp N hbar t a] is the coefficient of quadrature a in amplitude t. *)
Definition amp_mode (N t : nat) : nat := if (t < N)%N then t else (t - N)%N.
Definition amp_sign (N t : nat) : C := if (t < N)%N then -1 else 1.
Definition amp (N : nat) (hbar : C) (t a : nat) : C :=
  ((a == amp_mode N t)%:R + amp_sign N t * 'i * (a == N + amp_mode N t)%N%:R) / sqrtC (2%:R * hbar).
(** means and (bilinear) covariances of the amplitudes *)
Definition amp_mean (N : nat) (mu : nat -> C) (hbar : C) (t : nat) : C := \sum_(a < 2 * N) amp N hbar t a * mu a.
Definition amp_cov (N : nat) (cov : nat -> nat -> C) (hbar : C) (t u : nat) : C :=
  \sum_(a < 2 * N) \sum_(b < 2 * N) amp N hbar t a * amp N hbar u b * cov a b.
(** Moving from symmetric (s = 0) to s-ordering (s = 1: normal, s = -1: antinormal) shifts the covariance of each
    conjugate pair a_t, conj(a_t) by -s/2. *)
Definition conj_pair (N t u : nat) : bool := (u == t + N)%N || (t == u + N)%N.
Definition amp_cov_s (N : nat) (cov : nat -> nat -> C) (hbar s : C) (t u : nat) : C :=
  amp_cov N cov hbar t u - s / 2%:R * (conj_pair N t u)%:R.
(** expectation of the s-ordered product prod_t conj(a_t)^{r_t} a_t^{r_{N+t}} *)
Definition s_ordered_moment (N : nat) (mu : nat -> C) (cov : nat -> nat -> C) (hbar s : C) (r : seq nat) : C :=
  gauss_moment (amp_mean N mu hbar) (amp_cov_s N cov hbar s) r.

(** Classical (Wigner) moments of the quadratures; [qmoment mu cov [:: a; b; ...]] is E[x_a x_b ...] *)
Definition qmoment (mu : nat -> C) (cov : nat -> nat -> C) (l : seq nat) : C :=
  lhaf_spec (size l) (fun i j => cov (nth 0%N l i) (nth 0%N l j)) (fun i => mu (nth 0%N l i)).
(** |a_j|^2 = (q_j^2 + p_j^2)/(2 hbar); the Weyl symbol of the photon number is |a_j|^2 - 1/2, that of its square is
    |a_j|^4 - |a_j|^2, and that of n_j n_k (j <> k) is the product. *)
Definition E_abs2 (N : nat) mu cov (hbar : C) j : C :=
  (qmoment mu cov [:: j; j] + qmoment mu cov [:: N + j; N + j]%N) / (2%:R * hbar).
Definition E_abs2_abs2 (N : nat) mu cov (hbar : C) j k : C :=
  (qmoment mu cov [:: j; j; k; k] + qmoment mu cov [:: j; j; N + k; N + k]%N
   + qmoment mu cov [:: N + j; N + j; k; k]%N + qmoment mu cov [:: N + j; N + j; N + k; N + k]%N) / (2%:R * hbar) ^+ 2.
Definition E_n N mu cov hbar j : C := E_abs2 N mu cov hbar j - 2%:R^-1.
Definition E_nn N mu cov hbar j k : C :=
  if j == k then E_abs2_abs2 N mu cov hbar j j - E_abs2 N mu cov hbar j
  else E_abs2_abs2 N mu cov hbar j k - (E_abs2 N mu cov hbar j + E_abs2 N mu cov hbar k) / 2%:R + 4%:R^-1.
End Amp.

(** ** Moments of photon numbers
    n^m = sum_q S(m, q) conj(a)^q a^q (normally ordered; S: Stirling numbers of the second kind), mode by mode.
    [E_npow l acc] is the expectation of prod_((k, m) in l) n_k^m times the normally ordered product with
    exponents [acc]. *)
Fixpoint stirling2 (m k : nat) : nat :=
  match m, k with
  | 0%N, 0%N => 1
  | 0%N, _ | _, 0%N => 0
  | m'.+1, k'.+1 => k * stirling2 m' k + stirling2 m' k'
  end.
Fixpoint E_npow (C : numClosedFieldType) (N : nat) (mu : nat -> C) (cov : nat -> nat -> C) (hbar : C) (l : seq (nat * nat)) (acc : seq nat) : C :=
  match l with
  | [::] => s_ordered_moment N mu cov hbar 1 (acc ++ acc)
  | (k, m) :: l' => \sum_(q < m.+1) (stirling2 m q)%:R * E_npow N mu cov hbar l' (set_nth 0%N acc k q)
  end.
(** E[prod n_k^m] over the pairs (k, m) of [l] *)
Definition number_moment (C : numClosedFieldType) (N : nat) (mu : nat -> C) cov hbar (l : seq (nat * nat)) : C := E_npow N mu cov hbar l (nseq N 0%N).
(** E[prod_(k in s) n_k], s a list of modes with repetitions *)
Definition number_product (C : numClosedFieldType) (N : nat) (mu : nat -> C) cov hbar (s : seq nat) : C :=
  number_moment N mu cov hbar [seq (k, count_mem k s) | k <- undup s].
