(** Specification: matrix elements of a Gaussian state in the photon-number basis.

    A Gaussian state is given by the means [mu] and covariance matrix [cov] of its quadratures.  Write
    v = (conj a_0, .., conj a_{N-1}, a_0, .., a_{N-1}) for the amplitudes, m for their means and S for their antinormally
    ordered covariances (SpecGauss: [amp_mean], [amp_cov_s] with s = -1).  The overlaps of the state rho with coherent
    states are the Gaussian
      <a| rho |a> = exp(- 1/2 (v - m)^T S^-1 (v - m)) / sqrt|det S|
    and, by definition of the coherent states,
      exp(|a|^2) <a| rho |a> = sum_{k,l} <k| rho |l> prod_t (conj a_t)^k_t a_t^l_t / sqrt(k! l!).
    With |a|^2 = 1/2 v^T X v (X pairs each a_t with its conjugate) the left hand side is
      exp(- 1/2 m^T S^-1 m) / sqrt|det S| * exp(1/2 v^T (X - S^-1) v + (S^-1 m)^T v),
    and the coefficient of prod_t v_t^r_t / r! in exp(1/2 v^T A v + g^T v) is the loop hafnian of A, g with index t
    repeated r_t times ([taylor_exp_quadratic] below characterises it by the differential equation). *)
From mathcomp Require Import all_ssreflect all_algebra.
From Verif Require Import SpecHaf SpecSymp SpecGauss.
Set Implicit Arguments.
Unset Strict Implicit.
Unset Printing Implicit Defensive.
Import GRing.Theory Num.Theory.
Local Open Scope ring_scope.

(** Taylor coefficients T_r (with respect to v^r / r!) of a function F with F(0) = 1 and
    dF/dv_t = (g_t + sum_u A_tu v_u) F, that is F = exp(1/2 v^T A v + g^T v) *)
Definition bump (r : seq nat) (t : nat) : seq nat := set_nth 0%N r t (nth 0%N r t).+1.
Definition drop1 (r : seq nat) (t : nat) : seq nat := set_nth 0%N r t (nth 0%N r t).-1.
Definition taylor_exp_quadratic (R : comRingType) (n : nat) (A : nat -> nat -> R) (g : nat -> R) (T : seq nat -> R) : Prop :=
  T (nseq n 0%N) = 1 /\
  (forall r t, size r = n -> (t < n)%N ->
     T (bump r t) = g t * T r + \sum_(u < n) A t u * (nth 0%N r u)%:R * T (drop1 r u)).

Section Spec.
Variable C : numClosedFieldType.
Notation mat := (nat -> nat -> C).
Notation vec := (nat -> C).
Variable exp : C -> C.
Variables (N : nat) (mu : vec) (cov : mat) (hbar : C).

Definition mentry n (M : 'M[C]_n) : mat := fun i j =>
  match insub i, insub j with Some i', Some j' => M i' j' | _, _ => 0 end.

Definition anti_cov : 'M[C]_(2 * N) := \matrix_(t, u) amp_cov_s N cov hbar (-1) t u.
Definition anti_inv : mat := mentry (invmx anti_cov).
Definition rho_quad : mat := fun t u => (conj_pair N t u)%:R - anti_inv t u.
Definition rho_lin : vec := fun t => \sum_(u < 2 * N) anti_inv t u * amp_mean N mu hbar u.
Definition rho_vac : C :=
  exp (- 2%:R^-1 * \sum_(t < 2 * N) amp_mean N mu hbar t * rho_lin t) / sqrtC `|\det anti_cov|.
Definition fact_prod (k : seq nat) : nat := \prod_(x <- k) x`!.
(** <k| rho |l> *)
Definition fock_rho (k l : seq nat) : C :=
  rho_vac * lhaf_rep_spec (k ++ l) rho_quad rho_lin / sqrtC (fact_prod k * fact_prod l)%:R.

(** The state is pure exactly when 2 cov / hbar is symplectic (all symplectic eigenvalues are hbar / 2).  Then X - S^-1 has no
    entries between the a and the conj a, and rho = |psi><psi| with the amplitudes <k|psi> below ([fock_rho_pure]). *)
Definition pure_cov : Prop := symplectic N (fun i j => 2%:R * cov i j / hbar).
Definition displ (t : nat) : C := amp_mean N mu hbar (N + t)%N.
Definition psi_lin (t : nat) : C := displ t - \sum_(u < N) rho_quad t u * (displ u)^*.
Definition psi_vac : C :=
  exp (- 2%:R^-1 * (\sum_(t < N) `|displ t| ^+ 2 - \sum_(s < N) \sum_(t < N) (displ s)^* * rho_quad s t * (displ t)^*)).
Definition fock_psi (k : seq nat) : C :=
  psi_vac * lhaf_rep_spec k rho_quad psi_lin / sqrtC ((fact_prod k)%:R * sqrtC `|\det anti_cov|).
End Spec.

(** the index (k_0, l_0, k_1, l_1, ...) *)
Definition zip2 (k l : seq nat) : seq nat := flatten [seq [:: p.1; p.2] | p <- zip k l].
(** photon numbers of all modes: [sel] of the post-selected modes, the remaining ones from [k] in order *)
Fixpoint fill (modes : seq nat) (sel : seq (nat * nat)) (k : seq nat) : seq nat :=
  match modes with
  | [::] => [::]
  | m :: ms =>
      match [seq p.2 | p <- sel & p.1 == m] with
      | v :: _ => v :: fill ms sel k
      | [::] => head 0%N k :: fill ms sel (behead k)
      end
  end.
