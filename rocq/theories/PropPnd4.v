(** C64: singular values of the adjacency matrix of a pure state, and its photon-number normalisation. *)
From mathcomp Require Import all_ssreflect all_algebra zify.
From Verif Require Import Prelude PyBase ArrLoop SpecHaf MHafnian MHermite MSymplectic SpecSymp SpecTor SpecDecomp SpecGauss PropTor PropTor5 PropThr3 PropThr5 PropSpectral PropChannels PropConversions PropSymplectic PropSymp2 PropDecomp PropDecomp2 PropDecomp6 PropPure PropMeans PropMeans2 PropMeans3 SpecFock MFock PropFock PropFock5 PropFock7 SpecAdj PropPnd PropPnd2.
Set Implicit Arguments.
Unset Strict Implicit.
Unset Printing Implicit Defensive.
Import Order.TTheory GRing.Theory Num.Theory.
Local Open Scope ring_scope.

Section A.
Variable C : numClosedFieldType.
Notation mat := (nat -> nat -> C).
Notation vec := (nat -> C).
Notation mxo n A := (mxof n n A).
Variable svd : nat -> mat -> mat * vec * mat.
Variables (N : nat) (cov : mat) (hbar : C).
Hypothesis rs : real_sym (2 * N) cov.
Hypothesis h0 : 0 < hbar.
Hypothesis ps : possemi (2 * N) cov.
Hypothesis pure : pure_cov N cov hbar.
Notation Q := (Qmat N cov hbar).
Notation A := (AQ N cov hbar).
Hypothesis svdP : svd_at svd N A.
Let d (i : 'I_N) : C := (svd N A).1.2 i.
Let U := mxo N (svd N A).1.1.
Let V := mxo N (svd N A).2.
Let B := mxo N A.
Let D := diag_mx (\row_i d i).
Let d0 i : 0 <= d i. Proof. by have [_ _ _ h _] := svdP; exact: h. Qed.
Let uU : ct U *m U = 1%:M. Proof. by have [h _ _ _ _] := svdP; apply/unitary_mx. Qed.
Let uV : ct V *m V = 1%:M. Proof. by have [_ h _ _ _] := svdP; apply/unitary_mx. Qed.
Let VV : V *m ct V = 1%:M. Proof. exact: mulmx1C. Qed.
Let BE : B = U *m D *m V.
Proof. by have [_ _ /eqm_mx e _ _] := svdP; rewrite !mx_prod mx_diag in e. Qed.
Let Bs : B^T = B.
Proof. by apply/matrixP => i j; rewrite !mxE; apply: AQ_sym => //; have := ltn_ord i; have := ltn_ord j; lia. Qed.
Let ctB : ct B = map_mx conjC B. Proof. by rewrite /ct Bs. Qed.
Let ctD : ct D = D.
Proof.
apply/matrixP => i j; rewrite !mxE eq_sym; case: eqP => [->|_]; last by rewrite !mulr0n conjC0.
by rewrite !mulr1n (CrealP _) // ger0_real.
Qed.
Lemma AQ_off i u : (i < N)%N -> (N <= u < 2 * N)%N -> A i u = 0 /\ A u i = 0.
Proof.
move=> hi hu; have hi2 : (i < 2 * N)%N by lia. have hu2 : (u < 2 * N)%N by lia.
have [e1 e2] := block0 rs h0 ps pure hi hu.
have := rho_quad_conj rs h0 ps hi2 hu2; have := rho_quad_conj rs h0 ps hu2 hi2.
by rewrite e1 e2 => /esym/eqP; rewrite conjC_eq0 => /eqP -> /esym/eqP; rewrite conjC_eq0 => /eqP ->.
Qed.
Let W := block_mx 1%:M (- B) (- ct B) 1%:M.
Lemma QW : mxo (N + N) Q *m W = 1%:M.
Proof.
have wE : invmx (mxo (N + N) Q) = W.
  apply/matrixP => i j.
  have hi : (i < 2 * N)%N by have := ltn_ord i; lia. have hj : (j < 2 * N)%N by have := ltn_ord j; lia.
  have := AQE cov hbar j (partner_lt hi); rewrite partnerK // !twoE => e.
  have {e} : (A (partner N i) j)^* = eye C i j - invmx (mxo (N + N) Q) i j.
    rewrite e conjCK (ofmxE _ (ltn_ord i) (ltn_ord j)); congr (_ - invmx _ _ _); exact/val_inj.
  move/eqP; rewrite eq_sym subr_eq addrC -subr_eq => /eqP <-.
  rewrite /eye /W; case: (split_ordP i) hi => i' -> /= hi; case: (split_ordP j) hj => j' -> /= hj; rewrite ?block_mxEul ?block_mxEur ?block_mxEdl ?block_mxEdr ?ctB !mxE -?val_eqE /= /partner.
  - have l := ltn_ord i'; rewrite l; have [_ ->] := AQ_off (ltn_ord j') (u := (N + i')%N) ltac:(lia); by rewrite conjC0 subr0.
  - rewrite ltn_ord; have -> : (i' == N + j' :> nat)%N = false by have := ltn_ord i'; lia.
    have := AQ_partner rs h0 ps (i := i') (j := j'); rewrite /partner !ltn_ord => ->; first by rewrite conjCK sub0r.
      by have := ltn_ord i'; lia.
    by have := ltn_ord j'; lia.
  - have -> : (N + i' == j' :> nat)%N = false by have := ltn_ord j'; lia.
    have -> : (N + i' < N)%N = false by lia.
    by rewrite addKn sub0r.
  have -> : (N + i' < N)%N = false by lia.
  rewrite addKn eqn_add2l; have l := ltn_ord j'; have [-> _] := AQ_off (ltn_ord i') (u := (N + j')%N) ltac:(lia); by rewrite conjC0 subr0.
by rewrite -wE; apply: mulmxV; have := uQ rs h0 ps; rewrite twoE.
Qed.
Let q i := 1 - d i ^+ 2.
Lemma det_W : \det W = \prod_i q i.
Proof.
have e : W *m block_mx 1%:M B 0 1%:M = block_mx 1%:M 0 (- ct B) (1%:M - ct B *m B).
  by rewrite mulmx_block !mulmx1 !mul1mx !mulmx0 !addr0 subrr mulNmx addrC.
have := congr1 determinant e; rewrite det_mulmx det_ublock det_lblock !det1 !mulr1 mul1r => ->.
have -> : 1%:M - ct B *m B = ct V *m diag_mx (\row_i q i) *m V.
  have -> : diag_mx (\row_i q i) = 1%:M - D *m D.
    apply/matrixP => i j; rewrite mul_diag_mx !mxE /q; case: eqP => [->|_]; rewrite ?mulr1n ?mulr0n ?mulr0 ?subr0 //.
  rewrite mulmxBr mulmx1 mulmxBl uV BE !ctM ctD; congr (_ - _).
  by rewrite !mulmxA -[ct V *m D *m ct U *m U]mulmxA uU mulmx1.
rewrite !det_mulmx mulrAC -det_mulmx uV det1 mul1r det_diag; by apply: eq_bigr => i _; rewrite mxE.
Qed.
Lemma sv_lt1 i : d i < 1.
Proof.
pose x := col_mx (U *m delta_mx i 0) (ct V *m delta_mx i (0 : 'I_1)).
have Dd : D *m delta_mx i (0 : 'I_1) = d i *: delta_mx i 0.
  by apply/matrixP => a b; rewrite mul_diag_mx !mxE; case: eqP => [->|_]; rewrite ?mulr0 // ; case: eqP.
have Wx : W *m x = (1 - d i) *: x.
  rewrite mul_block_col !mul1mx scale_col_mx; congr col_mx.
    rewrite scalerBl scale1r; congr (_ + _); rewrite mulNmx; congr (- _).
    by rewrite BE !mulmxA -[_ *m V *m ct V]mulmxA VV mulmx1 -mulmxA Dd -scalemxAr.
  rewrite scalerBl scale1r addrC; congr (_ + _); rewrite mulNmx; congr (- _).
  by rewrite BE !ctM ctD !mulmxA -[_ *m ct U *m U]mulmxA uU mulmx1 -mulmxA Dd -scalemxAr.
have Qx : (1 - d i) *: (mxo (N + N) Q *m x) = x by rewrite scalemxAr -Wx mulmxA QW mul1mx.
have xx : (ct x *m x) 0 0 = 2%:R.
  rewrite {1}/x /ct tr_col_mx map_row_mx mul_row_col -!/(ct _) !ctM ctK !mulmxA -[_ *m ct U *m U]mulmxA uU mulmx1.
  rewrite -[_ *m V *m ct V]mulmxA VV mulmx1 !mxE.
  have e : \sum_j ct (delta_mx i (0 : 'I_1) : 'cV[C]_N) 0 j * (delta_mx i (0 : 'I_1) : 'cV[C]_N) j 0 = 1.
    rewrite (bigD1 i) //= big1 => [|k /negPf kn]; first by rewrite !mxE !eqxx /= conjC1 mulr1 addr0.
    by rewrite !mxE kn /= mulr0.
  by rewrite !e.
have pos : 0 < (ct x *m (mxo (N + N) Q *m x)) 0 0.
  have ctE (y : 'cV[C]_(N + N)) a : ct y 0 a = (y a 0)^* by rewrite !mxE.
  have mE a b : mxo (N + N) Q a b = Q a b by rewrite mxE.
  have xE (y : 'cV[C]_(N + N)) (a : 'I_(N + N)) : ofmx y a 0%N = y a 0.
    rewrite (ofmxE _ (ltn_ord a) (ltn0Sn 0)); congr (fun_of_matrix _ _ _); exact/val_inj.
  have e : (ct x *m (mxo (N + N) Q *m x)) 0 0 = \sum_(a < 2 * N) \sum_(b < 2 * N) (ofmx x a 0%N)^* * Q a b * ofmx x b 0%N.
    rewrite twoE mxE; apply: eq_bigr => a _; rewrite [(_ *m x) _ _]mxE mulr_sumr; apply: eq_bigr => b _.
    by rewrite ctE mE !xE mulrA.
  rewrite e; have pd : posdef (2 * N) Q := Qmat_posdef rs h0 ps; apply: (pd (fun a => ofmx x a 0%N)).
  case: (pickP (fun a : 'I_(N + N) => x a 0 != 0)) => [a xa|x0].
    exists (val a); first by rewrite twoE; exact: ltn_ord.
    by rewrite xE.
  exfalso; move: xx; have -> : x = 0 by apply/matrixP => a b; rewrite ord1 [RHS]mxE; apply/eqP; exact: (negbFE (x0 a)).
  by rewrite mulmx0 mxE => /esym/eqP; rewrite pnatr_eq0.
have := congr1 (fun y => (ct x *m y) 0 0) Qx; rewrite /= -scalemxAr mxE xx => e.
by rewrite -subr_gt0 -(pmulr_lgt0 _ pos) e ltr0n.
Qed.
Lemma detQE : \det (mxo (2 * N) Q) = \prod_i (q i)^-1.
Proof.
have := congr1 determinant QW; rewrite det_mulmx det1 det_W twoE prodfV => e.
have q0 : \prod_i q i != 0 by apply/eqP => z; move/eqP: e; rewrite z mulr0 eq_sym oner_eq0.
by apply: (mulIf q0); rewrite e mulVf.
Qed.
Lemma tr_pow l : \tr (mpow (ct (ct B) *m ct B) l) = \sum_i (d i ^+ 2) ^+ l.
Proof.
have pE m : mpow (ct (ct B) *m ct B) m = U *m diag_mx (\row_i (d i ^+ 2) ^+ m) *m ct U.
  elim: m => [|m IH] /=.
    have -> : diag_mx (\row_i (d i ^+ 2) ^+ 0) = 1%:M :> 'M[C]_N by apply/matrixP => i j; rewrite !mxE.
    by rewrite mulmx1 (mulmx1C uU).
  rewrite IH ctK BE !ctM ctD !mulmxA -[_ *m ct U *m U]mulmxA uU mulmx1 -[_ *m V *m ct V]mulmxA VV mulmx1 -!mulmxA; congr (U *m _).
  rewrite !mulmxA; congr (_ *m _); apply/matrixP => i j; rewrite -mulmxA mul_diag_mx mul_diag_mx !mxE.
  case: eqP => [->|_]; rewrite ?mulr1n ?mulr0n ?mulr0 //.
  by rewrite [RHS]exprSr -expr2.
rewrite pE mxtrace_mulC mulmxA uU mul1mx mxtrace_diag; by apply: eq_bigr => i _; rewrite mxE.
Qed.
(** the weight of the n-photon sector *)
Variable exp : C -> C.
Hypothesis exp0 : exp 0 = 1.
Notation psi := (fock_psi exp N (fun _ => 0) cov hbar).
Lemma sector_fock n b : newton (fun l => \sum_i (d i ^+ 2) ^+ l) b ->
  psum N n (fun k => `|psi k| ^+ 2) = \prod_i sqrtC (q i) * b n.
Proof.
move=> nb; pose g t := psi_lin N (fun _ => 0) cov hbar t.
have dis t : displ N (fun _ => 0) hbar t = 0 by rewrite /displ /amp_mean big1 // => a _; rewrite mulr0.
have g0 t : g t = 0 by rewrite /g /psi_lin dis big1 ?subr0 // => u _; rewrite dis conjC0 mulr0.
have v1 : psi_vac exp N (fun _ => 0) cov hbar = 1.
  rewrite /psi_vac !big1 ?subr0 ?mulr0 ?exp0 // => s _; rewrite ?dis ?normr0 ?expr0n //.
  by rewrite big1 // => t _; rewrite dis conjC0 mulr0.
pose h k := lhaf_rep_spec k (rho_quad N cov hbar) g.
have hT : taylor_exp_quadratic N (rho_quad N cov hbar) (fun _ => 0) h.
  have [|a1 a2] := @lhaf_rep_taylor C N (rho_quad N cov hbar) g.
    move=> i j hi hj; have hi2 : (i < 2 * N)%N by lia. have hj2 : (j < 2 * N)%N by lia.
    by rewrite !rho_quad_conj // AQ_sym.
  by split=> // r t sr ht; rewrite /h a2 // g0.
have BfE (x y : 'I_N) : rho_quad N cov hbar x y = (ct B) x y.
  have hx : (x < 2 * N)%N by have := ltn_ord x; lia. have hy : (y < 2 * N)%N by have := ltn_ord y; lia.
  by rewrite rho_quad_conj // ctB !mxE.
have sN := sector_newton BfE (_ : (ct B)^T = ct B) hT.
have {}sN : newton (fun l => \sum_i (d i ^+ 2) ^+ l) (sector N h).
  by apply: newton_ext (sN _) => [l|]; [exact: tr_pow|rewrite ctB map_trmx Bs].
rewrite -(newton_uniq sN nb) /sector -psum_mul; apply: psum_ext => k sk _.
have D0 : 0 < \det (mxo (2 * N) Q) := detQ_gt0 rs h0 ps.
have q0 i : 0 <= q i.
  rewrite /q subr_ge0 expr_le1 // ; exact: ltW (sv_lt1 i).
have pq : \prod_i sqrtC (q i) = (sqrtC (\det (mxo (2 * N) Q)))^-1.
  have p0 : 0 <= \prod_i sqrtC (q i) by apply: prodr_ge0 => i _; rewrite sqrtC_ge0.
  rewrite detQE prodfV -(rootCV 2) //; last by rewrite invr_ge0 prodr_ge0.
  rewrite invrK -[LHS](sqrCK p0) -prodrXl; congr sqrtC; apply: eq_bigr => i _; exact: sqrtCK.
rewrite /fock_psi v1 mul1r norm_absdet // -/g -/(h k) pq.
set f := (fact_prod k)%:R; set s := sqrtC (\det _).
have s0 : 0 < s by rewrite sqrtC_gt0.
have f0 : 0 < f :> C by rewrite ltr0n /fact_prod prodn_gt0 // => i; exact: fact_gt0.
have fs : 0 <= sqrtC (f * s) by rewrite sqrtC_ge0 mulr_ge0 // ltW.
by rewrite normf_div (ger0_norm fs) expr_div_n sqrtCK invfM; rring.
Qed.
End A.
