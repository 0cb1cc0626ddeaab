(** C54: Fock-basis representations of Gaussian states, part 1: the A matrix and the displacement in terms of the
    specification. *)
From mathcomp Require Import all_ssreflect all_algebra algC zify.
From Verif Require Import Prelude PyBase ArrLoop SpecHaf ThHaf MHafnian PropPowerHaf PropHafnian MHermite PropHermite PropHermite2 SpecSymp MSymplectic
  PropSymplectic PropSymp2 PropGates PropChannels PropConversions SpecGauss MMeans PropMeans SpecTor PropTor5 PropThr5 SpecFock MFock.
Set Implicit Arguments.
Unset Strict Implicit.
Unset Printing Implicit Defensive.
Import Order.Theory GRing.Theory Num.Theory.
Local Open Scope ring_scope.

Lemma lhq_perm_in (T : eqType) (R : comRingType) (A : T -> T -> R) mu s t :
  {in s &, forall x y, A x y = A y x} -> perm_eq s t -> lhq A mu s = lhq A mu t.
Proof.
move=> sA st; pose B x y := if (x \in s) && (y \in s) then A x y else 0.
have eB : {in s &, forall x y, A x y = B x y} by move=> x y xs ys; rewrite /B xs ys.
have eB' : {in t &, forall x y, A x y = B x y} by move=> x y; rewrite -!(perm_mem st); exact: eB.
rewrite (eq_lhq eB (fun x _ => erefl (mu x))) (eq_lhq eB' (fun x _ => erefl (mu x))).
by apply: lhq_perm st => x y; rewrite /B andbC; case: ifP => // /andP[ys xs]; exact: sA.
Qed.
Lemma rep_index_cat (k l : seq nat) : rep_index (k ++ l) = rep_index k ++ [seq (size k + i)%N | i <- rep_index l].
Proof.
rewrite /rep_index size_cat iotaD map_cat flatten_cat; congr (flatten _ ++ _).
  by apply/eq_in_map => i; rewrite mem_iota add0n => /andP[_ hi]; rewrite nth_cat hi.
rewrite add0n -{1}[size k]addn0 iotaDl map_flatten -!map_comp; congr flatten; apply: eq_map => i /=.
by rewrite nth_cat ltnNge leq_addr /= addKn map_nseq.
Qed.
Lemma lhq_cat_block (T : eqType) (R : comRingType) (A : T -> T -> R) mu s t :
  {in s & t, forall x y, A x y = 0} -> lhq A mu (s ++ t) = lhq A mu s * lhq A mu t.
Proof.
move: {2}(size s) (leqnn (size s)) => n; elim: n s => [|n IH] [|x s] //=; rewrite ?lhq_nil ?mul1r // => sz h.
have h' : {in s & t, forall x y, A x y = 0} by move=> a b sa tb; apply: h; rewrite // inE sa orbT.
rewrite !lhq_cons IH // mulrDl mulrA; congr (_ + _).
rewrite big_cat /= [X in _ + X]big1_seq ?addr0; last first.
  by move=> z /andP[_ zt]; rewrite h ?mul0r // inE eqxx.
rewrite mulr_suml; apply: eq_big_seq => z zs.
have -> : rem z (s ++ t) = rem z s ++ t.
  by elim: (s) zs => //= y s' IHs; rewrite inE eq_sym; case: eqP => //= _ zs'; rewrite IHs.
rewrite IH ?mulrA //; first by rewrite size_rem //; lia.
by move=> a b /mem_rem sa tb; apply: h'.
Qed.

Lemma partnerK N i : (i < 2 * N)%N -> partner N (partner N i) = i.
Proof. by rewrite /partner => h; case: (ltnP i N) => hi; [rewrite ltnNge leq_addr /= addKn | have -> : (i - N < N)%N by lia]; lia. Qed.
Lemma sum_partner (C : numClosedFieldType) N (f : nat -> C) : \sum_(u < 2 * N) f (partner N u) = \sum_(u < 2 * N) f u.
Proof.
pose pi (u : 'I_(2 * N)) : 'I_(2 * N) := Ordinal (partner_lt (ltn_ord u)).
rewrite [RHS](reindex_inj (h := pi)) //= => u v /(congr1 val) /= e; apply/val_inj => /=.
by rewrite -(partnerK (ltn_ord u)) e partnerK.
Qed.

Section Fock.
Variable C : numClosedFieldType.
Notation mat := (nat -> nat -> C).
Notation vec := (nat -> C).

Section State.
Variables (N : nat) (mu : vec) (cov : mat) (hbar : C).
Hypothesis rs : real_sym (2 * N) cov.
Hypothesis rmu : forall a, (a < 2 * N)%N -> mu a \is Num.real.
Hypothesis h0 : 0 < hbar.
Hypothesis ps : possemi (2 * N) cov.
Let rh : hbar \is Num.real. Proof. exact: gtr0_real. Qed.
Let hn : hbar != 0. Proof. by rewrite gt_eqF. Qed.
Notation p := (partner N).
Notation Q := (Qmat N cov hbar).
Notation beta := (complex_to_real_displacements N mu hbar).
Let Wm := invmx (mxof (2 * N) (2 * N) Q).
Let W : mat := ofmx Wm.

Lemma partner_conj i : (i < 2 * N)%N -> beta (p i) = (beta i)^*.
Proof.
rewrite /complex_to_real_displacements /partner => h; case: (ltnP i N) => hi.
  by rewrite ltnNge leq_addr /= addKn.
by have -> : (i - N < N)%N by [lia]; rewrite conjCK.
Qed.
Lemma amp_mean_beta t : (t < 2 * N)%N -> amp_mean N mu hbar t = beta (p t).
Proof.
move=> ht; rewrite amp_meanE // partner_conj // /complex_to_real_displacements /amp_mode /amp_sign.
have rs2 : (sqrtC (2%:R * hbar))^-1 \is Num.real by rewrite realV ger0_real // sqrtC_ge0 mulr_ge0 ?ler0n // ltW.
case: (ltnP t N) => h; last by rewrite conjCK mul1r.
have l1 : (t < 2 * N)%N by lia. have l2 : (N + t < 2 * N)%N by lia.
rewrite rmorphM /= conj_rect ?rmu //; congr (_ * _); first by rring.
by rewrite (CrealP rs2).
Qed.

Lemma uQ : mxof (2 * N) (2 * N) Q \in unitmx.
Proof. by case: (posdef_det (Qmat_hermitian rs h0) (Qmat_posdef rs h0 ps)). Qed.
Lemma detQ_gt0 : 0 < \det (mxof (2 * N) (2 * N) Q).
Proof. by case: (posdef_det (Qmat_hermitian rs h0) (Qmat_posdef rs h0 ps)). Qed.

Let X := mxof (2 * N) (2 * N) (Xmat C N).
Let XX : X *m X = 1%:M.
Proof. by rewrite /X -mxof_mmul -mxof_eye; apply/mxofP; exact: Xmat_involution. Qed.
Let uX : X \in unitmx. Proof. by have [] := mulmx1_unit XX. Qed.
Let Xi : invmx X = X. Proof. by rewrite -[invmx X]mulmx1 -XX mulmxA mulVmx // mul1mx. Qed.

Definition AQ : mat := mmul (2 * N) (Xmat C N) (fun i j => (eye C i j - W i j)^*).
Lemma Amat_ok : Amat N cov hbar false = Ok AQ.
Proof. by rewrite /Amat /np_inv uQ. Qed.
Lemma AQ_sym i j : (i < 2 * N)%N -> (j < 2 * N)%N -> AQ i j = AQ j i.
Proof. by move=> hi hj; case: (Amat_symmetric (b := false) (Qmat_husimi rs rh) Amat_ok hi hj). Qed.
Lemma AQ_partner i j : (i < 2 * N)%N -> (j < 2 * N)%N -> AQ (p i) (p j) = (AQ i j)^*.
Proof. by move=> hi hj; case: (Amat_symmetric (b := false) (Qmat_husimi rs rh) Amat_ok hi hj) => _ ->; rewrite conjCK. Qed.
Lemma AQE i j : (i < 2 * N)%N -> AQ i j = (eye C (p i) j - W (p i) j)^*.
Proof. by move=> hi; rewrite /AQ Xmat_mulp. Qed.
Lemma W_partner i j : (i < 2 * N)%N -> (j < 2 * N)%N -> W (p i) (p j) = (W i j)^*.
Proof.
move=> hi hj; have hpi := partner_lt hi; have hpj := partner_lt hj.
have := AQ_partner hi hpj; rewrite !AQE // !partnerK // !rmorphB /= !conjCK /eye !conjC_nat.
have -> : (p i == p j) = (i == j).
  by apply/eqP/eqP => [e|-> //]; rewrite -(partnerK hi) e partnerK.
by move/addrI/oppr_inj => <-.
Qed.

Lemma anti_covE : anti_cov N cov hbar = mxof (2 * N) (2 * N) Q *m X.
Proof.
rewrite /X -mxof_mmul; apply/matrixP => i j; rewrite !mxE -(Vmat_amp _ rs rh hn) //.
rewrite !mmul_Xmat // /msub /mscale addNr mulr0 mul0r subr0 //.
Qed.
Lemma anti_invE t u : (t < 2 * N)%N -> (u < 2 * N)%N -> anti_inv N cov hbar t u = W (p t) u.
Proof.
move=> ht hu; rewrite /anti_inv anti_covE.
have -> : invmx (mxof (2 * N) (2 * N) Q *m X) = X *m Wm.
  have uAB : mxof (2 * N) (2 * N) Q *m X \in unitmx by rewrite unitmx_mul uQ uX.
  apply: (can_inj (mulKmx uAB)); rewrite mulmxV // -mulmxA [X *m (X *m _)]mulmxA XX mul1mx mulmxV //; exact: uQ.
have -> : X *m Wm = mxof (2 * N) (2 * N) (mmul (2 * N) (Xmat C N) W).
  rewrite mxof_mmul; congr (_ *m _); apply/matrixP => i j; rewrite !mxE /W ofmxE; congr (_ _ _); exact/val_inj.
rewrite -[mentry _]/(ofmx _) ofmxE !mxE Xmat_mulp //.
Qed.
Lemma rho_quadE t u : (t < 2 * N)%N -> (u < 2 * N)%N -> rho_quad N cov hbar t u = AQ (p t) (p u).
Proof.
move=> ht hu; rewrite /rho_quad anti_invE // AQE ?partner_lt // partnerK // rmorphB /= -W_partner ?partner_lt // partnerK //.
rewrite /eye conjC_nat; congr ((nat_of_bool _)%:R - _); rewrite /conj_pair /partner.
by case: (ltnP u N) => h; apply/idP/idP; lia.
Qed.
Lemma rho_quad_conj t u : (t < 2 * N)%N -> (u < 2 * N)%N -> rho_quad N cov hbar t u = (AQ t u)^*.
Proof. by move=> ht hu; rewrite rho_quadE // AQ_partner. Qed.

Definition gammaQ : vec := fun t => (beta t)^* - mvmul (2 * N) AQ beta t.
Lemma rho_linE t : (t < 2 * N)%N -> rho_lin N mu cov hbar t = gammaQ (p t).
Proof.
move=> ht; rewrite /gammaQ /mvmul sum_iota -(sum_partner N (fun u => AQ (p t) u * beta u)).
have -> : \sum_(u < 2 * N) AQ (p t) (p u) * beta (p u) = beta t - rho_lin N mu cov hbar t.
  rewrite /rho_lin; have -> : beta t = \sum_(u < 2 * N) (conj_pair N t u)%:R * beta (p u).
    have hp := partner_lt ht.
    rewrite (bigD1 (Ordinal hp)) //= big1 ?addr0 => [|u].
      rewrite partnerK // (_ : conj_pair N t (p t) = true) ?mul1r // /conj_pair /partner.
      by case: (ltnP t N) => h; lia.
    rewrite -val_eqE /= => ne; rewrite (_ : conj_pair N t u = false) ?mul0r //.
    by apply/negbTE; apply: contra ne; rewrite /conj_pair /partner; case: (ltnP t N) => h; have := ltn_ord u; lia.
  rewrite -sumrB; apply: eq_bigr => u _; rewrite -rho_quadE // /rho_quad mulrBl amp_mean_beta //.
by rewrite -partner_conj ?partner_lt // partnerK // opprB addrC subrK.
Qed.
Lemma gammaQ_conj t : (t < 2 * N)%N -> gammaQ (p t) = (gammaQ t)^*.
Proof.
move=> ht; rewrite /gammaQ rmorphB /= conjCK -partner_conj ?partner_lt // partnerK //; congr (_ - _).
rewrite /mvmul !sum_iota -(sum_partner N (fun u => AQ (p t) u * beta u)) rmorph_sum /=; apply: eq_bigr => u _.
by rewrite AQ_partner // partner_conj // rmorphM.
Qed.

Variable exp : C -> C.
Lemma prefactorE : prefactor exp N mu cov hbar = Ok (rho_vac exp N mu cov hbar).
Proof.
rewrite /prefactor /np_inv uQ /=; congr (Ok (exp (_ * _) / sqrtC _)).
  rewrite /vdot sum_iota -(sum_partner N (fun t => amp_mean N mu hbar t * rho_lin N mu cov hbar t)).
  under eq_bigr => j _ do rewrite sum_iota mulr_suml.
  rewrite exchange_big /=; apply: eq_bigr => t _.
  rewrite amp_mean_beta ?partner_lt // partnerK // /rho_lin mulr_sumr; apply: eq_bigr => u _.
  by rewrite anti_invE ?partner_lt // partnerK // amp_mean_beta // partner_conj // mulrA.
rewrite anti_covE det_mulmx normrM (gtr0_norm detQ_gt0).
suff -> : `|\det X| = 1 by rewrite mulr1.
apply/eqP; rewrite -(@eqr_expn2 _ 2) ?normr_ge0 ?ler01 // expr1n -normrX expr2 -det_mulmx XX det1 normr1 //.
Qed.

Lemma sqrt_fact (k l : seq nat) : prod_fac C (k ++ l) = (fact_prod l * fact_prod k)%:R.
Proof. by rewrite /prod_fac big_cat /= mulrC /fact_prod natrM !natr_prod. Qed.

(** relabelling: exchanging the two halves of the pattern *)
Lemma lhaf_swap (i j : seq nat) : size i = N -> size j = N ->
  lhaf_rep_spec (i ++ j) AQ gammaQ = lhaf_rep_spec (j ++ i) (rho_quad N cov hbar) (rho_lin N mu cov hbar).
Proof.
move=> si sj; rewrite !lhaf_rep_spec_lhq_any.
have lt k x : size k = N -> x \in rep_index k -> (x < N)%N by move=> sk /rep_index_lt; rewrite sk.
have lt2 k l x : size k = N -> size l = N -> x \in rep_index (k ++ l) -> (x < 2 * N)%N.
  by move=> sk sl /rep_index_lt; rewrite size_cat sk sl; lia.
rewrite (eq_lhq (B := fun t u => AQ (p t) (p u)) (nu := fun t => gammaQ (p t)) (s := rep_index (j ++ i))); first last.
- by move=> x xs; rewrite rho_linE // (lt2 _ _ _ sj si xs).
- by move=> x y xs ys; rewrite rho_quadE // (lt2 _ _ _ sj si).
rewrite -(lhq_map_inj (f := p)); last first.
  move=> x y xs ys e; rewrite -(partnerK (lt2 _ _ _ sj si xs)) e partnerK //; exact: (lt2 _ _ _ sj si ys).
apply: lhq_perm_in.
  by move=> x y xs ys; apply: AQ_sym; apply: (lt2 _ _ _ si sj).
rewrite !rep_index_cat map_cat si sj.
have -> : [seq p x | x <- rep_index j] = [seq (N + x)%N | x <- rep_index j].
  by apply/eq_in_map => x /(lt _ _ sj) h; rewrite /partner h.
have -> : [seq p x | x <- [seq (N + x)%N | x <- rep_index i]] = rep_index i.
  by rewrite -map_comp -[RHS]map_id; apply/eq_in_map => x /(lt _ _ si) h /=; rewrite /partner ltnNge leq_addr /= addKn.
by rewrite perm_catC.
Qed.
End State.
End Fock.
