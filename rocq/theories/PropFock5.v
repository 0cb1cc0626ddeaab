(** C54, part 5: state vectors of pure states and photon-number probabilities. *)
From mathcomp Require Import all_ssreflect all_algebra algC zify.
From Verif Require Import Prelude PyBase ArrLoop SpecHaf ThHaf MHafnian PropPowerHaf PropHafnian MHermite PropHermite PropHermite2 SpecSymp MSymplectic
  PropSymplectic PropSymp2 PropGates PropChannels PropConversions SpecGauss MMeans PropMeans SpecTor PropTor5 PropThr4 PropThr5 SpecFock MFock PropFock PropFock2 PropFock3 PropFock4.
Set Implicit Arguments.
Unset Strict Implicit.
Unset Printing Implicit Defensive.
Import Order.Theory GRing.Theory Num.Theory.
Local Open Scope ring_scope.

(** what is used of the exponential function *)
Definition cexp_ok (C : numClosedFieldType) (exp : C -> C) : Prop :=
  [/\ exp 0 = 1, forall a b, exp (a + b) = exp a * exp b & forall a, exp a^* = (exp a)^*].
Lemma cexp_exp_ok (C : numClosedFieldType) (exp : C -> C) : cexp_ok exp -> exp_ok exp.
Proof. by case=> e0 eD eC; split=> // a ra; apply/CrealP; rewrite -eC (CrealP ra). Qed.

Section Fock.
Variable C : numClosedFieldType.
Notation mat := (nat -> nat -> C).
Notation vec := (nat -> C).
Variable sched : nat -> seq nat.
Variable oracle : nat -> (nat -> nat -> C) -> nat -> C.
Hypothesis sched_ok : forall n, perm_eq (sched n) (iota 0 n).
Variable oob : nat -> C.
Variable trunc : C -> C.
Variable exp : C -> C.
Variable eigvalsh : nat -> mat -> seq C.
Hypothesis e_ok : cexp_ok exp.

Section State.
Variables (N : nat) (mu : vec) (cov : mat) (hbar : C).
Hypothesis N0 : (0 < N)%N.
Hypothesis rs : real_sym (2 * N) cov.
Hypothesis rmu : forall a, (a < 2 * N)%N -> mu a \is Num.real.
Hypothesis h0 : 0 < hbar.
Hypothesis ps : possemi (2 * N) cov.
Notation Q := (Qmat N cov hbar).
Notation beta := (complex_to_real_displacements N mu hbar).
Notation AQ := (AQ N cov hbar).
Notation gammaQ := (gammaQ N mu cov hbar).
Notation Rq := (rho_quad N cov hbar).
Notation psi := (fock_psi exp N mu cov hbar).

Lemma displE t : (t < N)%N -> displ N mu hbar t = beta t.
Proof.
move=> ht; rewrite /displ amp_mean_beta //; last by lia.
by rewrite /partner ltnNge leq_addr /= addKn.
Qed.
Lemma norm_absdet : `|\det (anti_cov N cov hbar)| = \det (mxof (2 * N) (2 * N) Q).
Proof.
pose X := mxof (2 * N) (2 * N) (Xmat C N).
have XX : X *m X = 1%:M by rewrite /X -mxof_mmul -mxof_eye; apply/mxofP; exact: Xmat_involution.
rewrite (anti_covE rs h0) det_mulmx normrM (gtr0_norm (detQ_gt0 rs h0 ps)) -/X.
suff -> : `|\det X| = 1 by rewrite mulr1.
by apply/eqP; rewrite -(@eqr_expn2 _ 2) ?normr_ge0 ?ler01 // expr1n -normrX expr2 -det_mulmx XX det1 normr1.
Qed.
Lemma uS : anti_cov N cov hbar \in unitmx.
Proof. by rewrite unitmxE unitfE -normr_eq0 norm_absdet gt_eqF // detQ_gt0. Qed.

(** pure states: rho = |psi><psi| *)
Section Pure.
Hypothesis pure : pure_cov N cov hbar.
Lemma block0 t u : (t < N)%N -> (N <= u < 2 * N)%N -> Rq t u = 0 /\ Rq u t = 0.
Proof.
move=> ht /andP[Nu hu]; apply: (pure_block h0 rs pure uS) => //; by rewrite ht Nu.
Qed.
Lemma rho_lin_conj t : (t < 2 * N)%N -> rho_lin N mu cov hbar (partner N t) = (rho_lin N mu cov hbar t)^*.
Proof. by move=> ht; rewrite !rho_linE ?partner_lt // partnerK // gammaQ_conj // conjCK. Qed.
Lemma rho_quad_partner t u : (t < 2 * N)%N -> (u < 2 * N)%N -> Rq (partner N t) (partner N u) = (Rq t u)^*.
Proof. by move=> ht hu; rewrite !rho_quadE ?partner_lt // !AQ_partner ?partner_lt. Qed.
Lemma psi_linE t : (t < N)%N -> rho_lin N mu cov hbar t = psi_lin N mu cov hbar t.
Proof.
move=> ht; have ht2 : (t < 2 * N)%N by lia.
rewrite rho_linE // gammaQ_conj // /PropFock.gammaQ rmorphB /= conjCK /psi_lin displE //; congr (_ - _).
rewrite /mvmul sum_iota rmorph_sum /= (sum_halves N (fun u => (AQ t u * beta u)^*)); apply: eq_bigr => u _.
have hu : (u < 2 * N)%N by have := ltn_ord u; lia.
have hu' : (N + u < 2 * N)%N by have := ltn_ord u; lia.
have hn : (N <= N + u < 2 * N)%N by rewrite leq_addr.
rewrite !rmorphM /= -!rho_quad_conj // (proj1 (block0 ht hn)).
by rewrite mul0r addr0 displE.
Qed.
Lemma vac_psi : rho_vac exp N mu cov hbar =
  psi_vac exp N mu cov hbar * (psi_vac exp N mu cov hbar)^* / sqrtC `|\det (anti_cov N cov hbar)|.
Proof.
have [_ eD eC] := e_ok; rewrite /rho_vac /psi_vac -eC -eD; congr (exp _ / _).
rewrite rmorphM /= rmorphN fmorphV /= conjC_nat -mulrDr; congr (_ * _).
rewrite (sum_halves N (fun t => amp_mean N mu hbar t * rho_lin N mu cov hbar t)) rmorphB /=.
have -> : (\sum_(t < N) `|displ N mu hbar t| ^+ 2)^* = \sum_(t < N) `|displ N mu hbar t| ^+ 2.
  by apply/CrealP; apply: rpred_sum => t _; rewrite rpredX // normr_real.
rewrite addrACA -opprD -big_split /=.
rewrite rmorph_sum /= -big_split /= -sumrB; apply: eq_bigr => t _.
have ht := ltn_ord t; have ht2 : (t < 2 * N)%N by lia.
have e1 : amp_mean N mu hbar t = (displ N mu hbar t)^*.
  by rewrite amp_mean_beta // partner_conj // displE.
have e2 : amp_mean N mu hbar (N + t)%N = displ N mu hbar t by [].
have e3 : rho_lin N mu cov hbar (N + t)%N = (psi_lin N mu cov hbar t)^*.
  by rewrite -psi_linE // -rho_lin_conj // /partner ht.
rewrite e1 e2 e3 psi_linE // /psi_lin.
set d := displ N mu hbar; set s := \sum_(u < N) _.
have -> : \sum_(t0 < N) (d t)^* * Rq t t0 * (d t0)^* = (d t)^* * s.
  by rewrite mulr_sumr; apply: eq_bigr => u _; rewrite mulrA.
rewrite rmorphB /= rmorphM /= conjCK normCK; move: (d t) s => x s0; rring.
Qed.
Theorem fock_rho_pure k l : size k = N -> size l = N -> fock_rho exp N mu cov hbar k l = psi k * (psi l)^*.
Proof.
move=> sk sl; rewrite /fock_rho /fock_psi vac_psi.
set D := sqrtC `|_|.
have D0 : 0 <= D by rewrite sqrtC_ge0 normr_ge0.
have e : lhaf_rep_spec (k ++ l) Rq (rho_lin N mu cov hbar) =
   lhaf_rep_spec k Rq (psi_lin N mu cov hbar) * (lhaf_rep_spec l Rq (psi_lin N mu cov hbar))^*.
  have lt q x : size q = N -> x \in rep_index q -> (x < N)%N by move=> sq /rep_index_lt; rewrite sq.
  rewrite !lhaf_rep_spec_lhq_any rep_index_cat sk lhq_cat_block; last first.
    move=> x y /(lt _ _ sk) hx /mapP[y' /(lt _ _ sl) hy ->].
    have hh : (N <= N + y' < 2 * N)%N by lia.
    exact: (proj1 (block0 hx hh)).
  congr (_ * _); first by apply: eq_lhq => // x /(lt _ _ sk) hx; rewrite psi_linE.
  rewrite lhq_map_inj; last by move=> x y _ _ /addnI.
  rewrite (lhq_hom [rmorphism of conjC]); apply: eq_lhq => [x y /(lt _ _ sl) hx /(lt _ _ sl) hy|x /(lt _ _ sl) hx] /=.
    by rewrite -rho_quad_partner; try lia; rewrite /partner hx hy.
  by rewrite -psi_linE // -rho_lin_conj; last by [lia]; rewrite /partner hx.
rewrite e; set a := lhaf_rep_spec k _ _; set b := lhaf_rep_spec l _ _; set v := psi_vac _ _ _ _ _.
have fk0 q : 0 <= (fact_prod q)%:R :> C by rewrite ler0n.
have sq q : sqrtC ((fact_prod q)%:R * D) = sqrtC (fact_prod q)%:R * sqrtC D by rewrite sqrtCM // qualifE /= fk0.
rewrite !sq natrM sqrtCM ?qualifE /= ?fk0 //.
have -> : (v * b / (sqrtC (fact_prod l)%:R * sqrtC D))^* = v^* * b^* / (sqrtC (fact_prod l)%:R * sqrtC D).
  rewrite (rmorphM _ (v * b)) (rmorphM _ v) fmorphV /=; congr (_ / _); apply/CrealP.
  by rewrite ger0_real // mulr_ge0 // sqrtC_ge0.
have dD : (sqrtC D)^-1 * (sqrtC D)^-1 = D^-1 by rewrite -invfM -expr2 sqrtCK.
rewrite !invfM -dD; rring.
Qed.
End Pure.
End State.
End Fock.
