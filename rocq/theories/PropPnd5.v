(** C64: pure_state_distribution. *)
From mathcomp Require Import all_ssreflect all_algebra zify.
From Verif Require Import Prelude PyBase ArrLoop SpecHaf MHafnian MHermite MSymplectic SpecSymp SpecTor SpecDecomp SpecGauss PropTor PropTor5 PropThr3 PropThr5 PropSpectral PropChannels PropConversions PropSymplectic PropSymp2 PropDecomp PropDecomp2 PropDecomp6 PropChecks PropPure SpecFock MFock PropFock PropFock5 PropFock7 SpecAdj PropPnd PropPnd2 SpecPnd MPnd PropPnd3 PropPnd4 PropEnt8.
Set Implicit Arguments.
Unset Strict Implicit.
Unset Printing Implicit Defensive.
Import Order.TTheory GRing.Theory Num.Theory.
Local Open Scope ring_scope.

Section A.
Variable C : numClosedFieldType.
Notation mat := (nat -> nat -> C).
Notation vec := (nat -> C).
Variable eigvalsh : nat -> mat -> seq C.
Variable svd : nat -> mat -> mat * vec * mat.
Variables tanh arctanh exp : C -> C.
Variable nbinom_pmf : nat -> C -> C -> C.
Hypothesis eigP : eigvalsh_ok eigvalsh.
Hypothesis svdP : svd_ok svd.
Hypothesis nbP : nbinom_ok nbinom_pmf.
Hypothesis atP : arctanh_ok tanh arctanh.
Hypothesis exp0 : exp 0 = 1.
Notation psd := (pure_state_distribution eigvalsh svd tanh arctanh nbinom_pmf).

Lemma unc_ps N (cov : mat) hbar : real_sym (2 * N) cov -> 0 < hbar -> possemi (2 * N) (uncertainty N cov hbar) -> possemi (2 * N) cov.
Proof.
move=> rs h0 u; have [_ _ p] := unc_PS rs h0 u.
have {}p : possemi (2 * N) (fun i j => 2%:R * cov i j / hbar) by apply/possemi_PS.
move=> v; have pv := p v; have c0 : 0 < 2%:R / hbar :> C by rewrite divr_gt0 ?ltr0n.
rewrite -(pmulr_rge0 _ c0); move: pv; congr (0 <= _); rewrite mulr_sumr; apply: eq_bigr => i _.
rewrite mulr_sumr; apply: eq_bigr => j _.
by move: (hbar^-1) (2%:R : C) => hi t; rring.
Qed.

Lemma at_ge0 : 0 <= atol0 C. Proof. by rewrite /atol0 exprn_ge0 // invr_ge0 ler0n. Qed.
Lemma rt_ge0 : 0 <= rtol0 C. Proof. by rewrite /rtol0 exprn_ge0 // invr_ge0 ler0n. Qed.
(** a pure state whose covariance matrix is_pure_cov accepts with hbar = 2 *)
Theorem pure_state_distribution_accepted N (cov : mat) cutoff hbar pf : (0 < cutoff)%N -> (0 < pf)%N ->
  real_sym (2 * N) cov -> 0 < hbar -> possemi (2 * N) (uncertainty N cov hbar) -> pure_cov N cov hbar ->
  is_pure_cov eigvalsh (2 * N) (2 * N) cov 2%:R (rtol0 C) (atol0 C) ->
  exists ps, [/\ psd N cov cutoff hbar pf = Ok ps, size ps = cutoff &
    forall n L, (n < cutoff)%N -> patterns N n L ->
      nth 0 ps n = \sum_(k <- L) `|fock_psi exp N (fun _ => 0) cov hbar k| ^+ 2].
Proof.
move=> c0 p0 rs h0 u pure acc; have pc := unc_ps rs h0 u.
rewrite /pure_state_distribution acc Amat_ok //=.
have svA : svd_at svd N (AQ N cov hbar) by apply: svdP.
set ss := [seq _ | i <- iota 0 N].
have dlt i : (i < N)%N -> 0 <= (svd N (AQ N cov hbar)).1.2 i < 1.
  move=> hi; have [_ _ _ h _] := svA; rewrite h //=.
  exact: (sv_lt1 rs h0 pc pure svA (Ordinal hi)).
have tE i : (i < N)%N -> tanh (arctanh ((svd N (AQ N cov hbar)).1.2 i)) = (svd N (AQ N cov hbar)).1.2 i by move=> hi; apply: atP; exact: dlt.
have gs s : s \in ss -> good tanh s.
  move=> /mapP[i]; rewrite mem_iota add0n => /= hi ->; rewrite /good tE //; have /andP[a b] := dlt _ hi.
  by rewrite ger0_real // ger0_norm.
rewrite (convolveE nbP) ?muln_gt0 ?p0 //=; eexists; split; first by [].
  by rewrite size_takel // size_mkseq leq_pmull.
move=> n L hn pL; rewrite nth_take // nth_mkseq; last by apply: leq_trans hn _; rewrite leq_pmull.
pose b := convs [seq nbc 1 x | x <- [seq tanh s ^+ 2 | s <- ss]].
have sumE (F : C -> C) : \sum_(s <- ss) F (tanh s) = \sum_(i < N) F ((svd N (AQ N cov hbar)).1.2 i).
  rewrite big_map -[iota 0 N](_ : index_iota 0 N = _) ?big_mkord; last by rewrite /index_iota subn0.
  by apply: eq_bigr => i _; rewrite tE.
have nb : newton (fun l => \sum_(s <- ss) (tanh s ^+ 2) ^+ l) b.
  by apply: newton_ext (newton_convs _) => l; rewrite big_map.
rewrite (convolve_newton n nb) -(psumE _ pL).
rewrite (sector_fock rs h0 pc pure svA exp0 n (b := b)); last first.
  by apply: newton_ext nb => l; rewrite (sumE (fun t => (t ^+ 2) ^+ l.+1)).
congr (_ * _); rewrite big_map -[iota 0 N](_ : index_iota 0 N = _) ?big_mkord; last by rewrite /index_iota subn0.
by apply: eq_bigr => i _; rewrite tE.
Qed.
(** with hbar = 2: every pure state *)
Theorem pure_state_distribution_correct N (cov : mat) cutoff pf : (0 < cutoff)%N -> (0 < pf)%N ->
  real_sym (2 * N) cov -> possemi (2 * N) (uncertainty N cov 2%:R) -> pure_cov N cov 2%:R ->
  exists ps, [/\ psd N cov cutoff 2%:R pf = Ok ps, size ps = cutoff &
    forall n L, (n < cutoff)%N -> patterns N n L ->
      nth 0 ps n = \sum_(k <- L) `|fock_psi exp N (fun _ => 0) cov 2%:R k| ^+ 2].
Proof.
move=> c0 p0 rs u pure; apply: pure_state_distribution_accepted => //; first by rewrite ltr0n.
by apply: is_pure_cov_accepts => //; rewrite ?ltr0n ?at_ge0 ?rt_ge0.
Qed.
(** finding: is_pure_cov is called with its default hbar = 2 whatever the argument hbar, so pure states are rejected in other
    units; for instance the vacuum state with hbar = 1 *)
Theorem pure_state_distribution_hbar_refuted cutoff pf :
  let vac : mat := fun i j => (i == j)%:R * (1 / 2%:R) in
  [/\ real_sym (2 * 1) vac, possemi (2 * 1) (uncertainty 1 vac 1), pure_cov 1 vac 1 & psd 1 vac cutoff 1 pf = Err ValueError].
Proof.
move=> vac; have [rs _] := vacuum_cov_ok 1 (ltr01 : 0 < 1 :> C).
have t0 : 2%:R != 0 :> C by rewrite pnatr_eq0.
have u : possemi (2 * 1) (uncertainty 1 vac 1).
  suff ab : psd_upto 0 (2 * 1) (above_vacuum vac 1) by apply/psd_upto0; apply: (classical_valid (ltr01 : 0 < 1 :> C) ab).
  move=> v _; left; rewrite /qform big1 // => i _; rewrite big1 // => j _.
  by rewrite /above_vacuum /vac [_%:R * _]mulrC subrr mulr0 mul0r.
split=> //; first by apply: vac_pure; exact: ltr01.
rewrite /pure_state_distribution ifF //; apply/negP => /andP[].
move=> /(is_valid_cov_correct eigP rs (ltr0n C 2) rt_ge0 at_ge0) p _.
have nz : exists2 i, (i < 2 * 1)%N & (if i == 0%N then 1 else 'i : C) != 0 by exists 0%N; rewrite // oner_eq0.
have := p _ nz; have -> : qform (2 * 1) (uncertainty 1 vac 2%:R) (fun i => if i == 0%N then 1 else 'i) = -1.
  rewrite /qform !big_ord_recl !big_ord0 /= /uncertainty /vac /Omega /= ?mulr1n ?mulr0n divff // conjC1 conjCi.
  have ii := sqrCi C; rewrite expr2 in ii.
  have h2 : 2%:R^-1 + 2%:R^-1 = 1 :> C by rewrite -mulr2n -[_ *+ 2]mulr_natl divff.
  rewrite !mul1r; move: (2%:R^-1 : C) h2 => h h2.
  transitivity ((h + 'i * 'i) + ('i * 'i - 'i * 'i * h)); first by move: 'i => z; rring.
  by rewrite ii; transitivity ((h + h) - 1 - 1); [rring|rewrite h2 subrr sub0r].
have -> : sqnorm (2 * 1) (fun i => if i == 0%N then 1 else 'i : C) = 2%:R.
  by rewrite /sqnorm !big_ord_recl !big_ord0 /= normr1 normCi expr1n addr0.
case; first by rewrite oppr_ge0 ler10.
rewrite mulNr ltr_opp2 => /lt_geF/negP; apply.
have e : atol0 C <= 10%:R^-1.
  by rewrite /atol0 exprS ler_pimulr ?invr_ge0 ?ler0n // exprn_ile1 ?invr_ge0 ?ler0n // invf_le1 ?ltr0n // ler1n.
apply: le_trans (_ : 10%:R^-1 * 2%:R <= 1); first by rewrite ler_wpmul2r ?ler0n.
by rewrite mulrC ler_pdivr_mulr ?ltr0n // mul1r ler_nat.
Qed.
(** concrete non-trivial case: the two-mode squeezed vacuum of PropEnt8 *)
Theorem pure_state_distribution_tmsv cutoff pf : (0 < cutoff)%N -> (0 < pf)%N ->
  exists ps, [/\ psd 2 (tmsv C) cutoff 2%:R pf = Ok ps, size ps = cutoff &
    forall n L, (n < cutoff)%N -> patterns 2 n L ->
      nth 0 ps n = \sum_(k <- L) `|fock_psi exp 2 (fun _ => 0) (tmsv C) 2%:R k| ^+ 2].
Proof.
move=> c0 p0; have [rs u pure _ _] := bipartite_example C.
exact: pure_state_distribution_correct.
Qed.
End A.
