(** C55: is_pure_cov decides purity. *)
From mathcomp Require Import all_ssreflect all_algebra zify.
From Verif Require Import Prelude PyBase ArrLoop MHafnian PropPowerHaf PropHafnian SpecSymp MSymplectic
  PropSymplectic PropSymp2 PropGates PropChannels PropConversions SpecGauss MMeans MTor SpecTor PropTor PropTor5 PropThr5 SpecFock MFock PropFock7 PropMarg2 MMarg PropSpectral PropChecks.
Set Implicit Arguments.
Unset Strict Implicit.
Unset Printing Implicit Defensive.
Import Order.Theory GRing.Theory Num.Theory.
Local Open Scope ring_scope.

Section Mx.
Variable C : numClosedFieldType.
Definition PS n (M : 'M[C]_n) : Prop := forall v : 'cV[C]_n, 0 <= (ct v *m M *m v) 0 0.

Lemma PS_congr n (M R : 'M[C]_n) : PS M -> PS (ct R *m M *m R).
Proof. by move=> p v; have := p (R *m v); rewrite ctM !mulmxA. Qed.
Lemma PS_diag n (d : 'rV[C]_n) i : PS (diag_mx d) -> 0 <= d 0 i.
Proof.
move=> /(_ (delta_mx i 0)); rewrite diag_qform (bigD1 i) //= big1 => [|k /negPf kn].
  by rewrite [delta_mx _ _ _ _]mxE !eqxx normr1 expr1n mulr1 addr0.
by rewrite [delta_mx _ _ _ _]mxE kn normr0 expr0n mulr0.
Qed.
Lemma diag_mul n (d e : 'rV[C]_n) : diag_mx d *m diag_mx e = diag_mx (\row_i (d 0 i * e 0 i)).
Proof. by apply/matrixP => i j; rewrite mul_diag_mx !mxE; case: eqP => [->|_]; rewrite ?mulr1n ?mulr0n ?mulr0. Qed.

Lemma PS_det n (M : 'M[C]_n) : ct M = M -> PS M -> 0 <= \det M.
Proof.
move=> hM pM; have [U [d [uU ME _]]] := spectral_theorem hM.
have -> : \det M = \det (diag_mx d).
  rewrite ME !det_mulmx mulrAC -det_mulmx (mulmx1C uU) det1 mul1r //.
rewrite det_diag prodr_ge0 // => i _; apply: PS_diag.
have -> : diag_mx d = ct U *m M *m U by rewrite ME -!mulmxA uU mulmx1 mulmxA uU mul1mx.
exact: PS_congr.
Qed.
Lemma PS_sqrt n (M : 'M[C]_n) : ct M = M -> PS M -> exists2 R : 'M[C]_n, ct R = R & R *m R = M.
Proof.
move=> hM pM; have [U [d [uU ME _]]] := spectral_theorem hM.
have d0 i : 0 <= d 0 i.
  apply: PS_diag; have -> : diag_mx d = ct U *m M *m U by rewrite ME -!mulmxA uU mulmx1 mulmxA uU mul1mx.
  exact: PS_congr.
pose e : 'rV[C]_n := \row_i sqrtC (d 0 i).
exists (U *m diag_mx e *m ct U).
  rewrite !ctM ctK mulmxA; congr (_ *m _ *m _); apply/matrixP => i j; rewrite !mxE.
  rewrite eq_sym; case: eqP => [->|_]; last by rewrite !mulr0n conjC0.
  by rewrite !mulr1n (CrealP _) // ger0_real // sqrtC_ge0.
rewrite [in RHS]ME !mulmxA -[U *m _ *m ct U *m U]mulmxA uU mulmx1 -[U *m _ *m diag_mx e]mulmxA diag_mul; congr (_ *m diag_mx _ *m _).
by apply/rowP => i; rewrite !mxE -expr2 sqrtCK.
Qed.

Lemma prod_sq1 n (d : 'I_n -> C) : (forall i, d i \is Num.real /\ `|d i| <= 1) -> \prod_i (d i) ^+ 2 = 1 -> forall i, d i ^+ 2 = 1.
Proof.
move=> h p i; have le j : 0 <= d j ^+ 2 <= 1.
  have [r l] := h j; rewrite real_exprn_even_ge0 //= -real_normK // exprn_ile1 //.
apply/eqP; rewrite eq_le; have /andP[_ ->] := le i; rewrite /= -p (bigD1 i) //=.
rewrite ler_pimulr //; first by case/andP: (le i).
suff /andP[] : 0 <= \prod_(j | j != i) d j ^+ 2 <= 1 by [].
apply: (big_ind (fun x : C => 0 <= x <= 1)) => [|x y /andP[x0 x1] /andP[y0 y1]|j _]; last exact: le.
  by rewrite ler01 lexx.
by rewrite mulr_ge0 //= mulr_ile1.
Qed.

Lemma pure_key n (S K : 'M[C]_n) : ct S = S -> ct K = K -> PS S -> PS (S + K) -> PS (S - K) -> \det S = 1 -> K *m K = 1%:M ->
  S *m K *m S = K.
Proof.
move=> hS hK pS pp pm dS KK; have [R hR RR] := PS_sqrt hS pS.
have uR : R \in unitmx.
  rewrite unitmxE; have : \det R * \det R = 1 by rewrite -det_mulmx RR.
  by move=> e; apply/unitrP; exists (\det R).
have hRi : ct (invmx R) = invmx R.
  by apply: (can_inj (mulmxK uR)); rewrite mulVmx // -{2}hR -ctM mulmxV // ct1.
pose L := invmx R *m K *m invmx R.
have hL : ct L = L by rewrite /L !ctM hRi hK mulmxA.
have one : invmx R *m S *m invmx R = 1%:M by rewrite -RR mulmxA mulVmx // mul1mx mulmxV.
have p1 : PS (1%:M + L).
  have -> : 1%:M + L = ct (invmx R) *m (S + K) *m invmx R by rewrite hRi mulmxDr mulmxDl one.
  exact: PS_congr.
have p2 : PS (1%:M - L).
  have -> : 1%:M - L = ct (invmx R) *m (S - K) *m invmx R by rewrite hRi mulmxBr mulmxBl one.
  exact: PS_congr.
have [U [d [uU LE rd]]] := spectral_theorem hL; have UU := mulmx1C uU.
have b i : d 0 i \is Num.real /\ `|d 0 i| <= 1.
  split; first exact: rd.
  rewrite real_ler_norml //; apply/andP; split.
    rewrite -subr_ge0 opprK addrC; have := @PS_diag _ (\row_i (1 + d 0 i)) i; rewrite mxE; apply.
    have -> : diag_mx (\row_i (1 + d 0 i)) = ct U *m (1%:M + L) *m U.
      rewrite mulmxDr mulmxDl mulmx1 uU LE -!mulmxA uU mulmx1 mulmxA uU mul1mx.
      by apply/matrixP => k j; rewrite !mxE; case: eqP => [->|_]; rewrite ?mulr1n ?mulr0n ?addr0.
    exact: PS_congr.
  rewrite -subr_ge0; have := @PS_diag _ (\row_i (1 - d 0 i)) i; rewrite mxE; apply.
  have -> : diag_mx (\row_i (1 - d 0 i)) = ct U *m (1%:M - L) *m U.
    rewrite mulmxBr mulmxBl mulmx1 uU LE -!mulmxA uU mulmx1 mulmxA uU mul1mx.
    by apply/matrixP => k j; rewrite !mxE; case: eqP => [->|_]; rewrite ?mulr1n ?mulr0n ?subr0.
  exact: PS_congr.
have LLE : L *m L = U *m diag_mx (\row_i (d 0 i * d 0 i)) *m ct U.
  by rewrite LE !mulmxA -[U *m _ *m ct U *m U]mulmxA uU mulmx1 -[U *m _ *m diag_mx d]mulmxA diag_mul.
have dR : \det R * \det R = 1 by rewrite -det_mulmx RR.
have dL : \det (L *m L) = 1.
  rewrite /L !det_mulmx -(mulr1 (\det (invmx R) * _ * _ * _)).
  have kk : \det K * \det K = 1 by rewrite -det_mulmx KK det1.
  have ri : \det (invmx R) * \det (invmx R) = 1 by rewrite det_inv -invfM dR invr1.
  have -> : \det (invmx R) * \det K * \det (invmx R) * (\det (invmx R) * \det K * \det (invmx R)) * 1 =
     (\det (invmx R) * \det (invmx R)) * (\det (invmx R) * \det (invmx R)) * (\det K * \det K) by rring.
  by rewrite kk ri !mulr1.
have sq : \prod_i (d 0 i) ^+ 2 = 1.
  apply: etrans _ dL; rewrite LLE !det_mulmx mulrAC -det_mulmx UU det1 mul1r det_diag; apply: eq_bigr => i _; by rewrite mxE expr2.
have LL : L *m L = 1%:M.
  rewrite LLE; have -> : diag_mx (\row_i (d 0 i * d 0 i)) = 1%:M.
    by apply/matrixP => i j; rewrite !mxE -expr2 (prod_sq1 b sq).
  by rewrite mulmx1.
have TS : invmx R *m invmx R *m S = 1%:M by rewrite -RR mulmxA -[invmx R *m invmx R *m R]mulmxA mulVmx // mulmx1 mulVmx.
have e1 : K *m (invmx R *m invmx R) *m K = S.
  have := congr1 (fun X => R *m X *m R) LL; rewrite mulmx1 RR => <-.
  by rewrite /L !mulmxA mulmxV // mul1mx -!mulmxA mulVmx // mulmx1.
by rewrite -{1}e1 -!mulmxA (mulmxA K K) KK mul1mx (mulmxA _ _ S) TS mulmx1.
Qed.
End Mx.

Section Pure.
Variable C : numClosedFieldType.
Variable eigvalsh : nat -> (nat -> nat -> C) -> seq C.
Hypothesis eig : eigvalsh_ok eigvalsh.
Notation mat := (nat -> nat -> C).
Notation vec := (nat -> C).
Variables (N : nat) (cov : mat) (hbar : C).
Hypothesis rs : real_sym (2 * N) cov.
Hypothesis h0 : 0 < hbar.
Notation n2 := (2 * N)%N.
Let hn : hbar != 0. Proof. by rewrite gt_eqF. Qed.
Let t0 : 2%:R != 0 :> C. Proof. by rewrite pnatr_eq0. Qed.
Let S : 'M[C]_n2 := mxof n2 n2 (fun i j => 2%:R * cov i j / hbar).
Let Om : 'M[C]_n2 := mxof n2 n2 (Omega C N).
Let K : 'M[C]_n2 := 'i *: Om.

Lemma possemi_PS n (M : mat) : possemi n M <-> PS (mxof n n M).
Proof.
split=> [p v|p v]; last by have := p (\col_(i < n) v i); rewrite -qform_mx.
pose f k := if insub k is Some i then v i 0 else 0 : C.
have := p f; rewrite -/(qform n M f) qform_mx; congr (_ <= (ct _ *m _ *m _) _ _); by apply/colP => i; rewrite mxE /f valK.
Qed.

Lemma Om2 : Om *m Om = - 1%:M.
Proof.
apply/matrixP => i j; rewrite !mxE.
under eq_bigr => k _ do rewrite !mxE.
have hi := ltn_ord i; have hj := ltn_ord j.
pose k0 := (if (i < N)%N then N + i else i - N)%N.
have hk0 : (k0 < n2)%N by rewrite /k0; case: ifP; lia.
rewrite (bigD1 (Ordinal hk0)) //= big1 ?addr0 => [|k kk]; rewrite /Omega.
  rewrite -(inj_eq val_inj) /= /k0; case: (ltnP i N) => h.
    rewrite eqxx [(i == N + (N + i) :> nat)%N](_ : _ = false); last by apply/eqP; lia.
    rewrite [(j == N + (N + i) :> nat)%N](_ : _ = false); last by apply/eqP; lia.
    by rewrite eqn_add2l subr0 sub0r mul1r.
  rewrite [(i - N == N + i :> nat)%N](_ : _ = false); last by apply/eqP; lia.
  have -> : (N + (i - N) = i)%N by lia.
  rewrite eqxx sub0r mulN1r [(j == i :> nat)]eq_sym [(i - N == N + j :> nat)%N](_ : _ = false) ?subr0 //; apply/eqP; lia.
have hk := ltn_ord k.
have k1 : (k == N + i :> nat)%N = false.
  by apply: contraNF kk => /eqP e; apply/eqP/val_inj; rewrite /= /k0; case: ifP; lia.
have k2 : (i == N + k :> nat)%N = false.
  by apply: contraNF kk => /eqP e; apply/eqP/val_inj; rewrite /= /k0; case: ifP; lia.
by rewrite k1 k2 subrr mul0r.
Qed.
Lemma KK : K *m K = 1%:M.
Proof. by rewrite /K -scalemxAl -scalemxAr scalerA -expr2 sqrCi Om2 scaleN1r opprK. Qed.
Lemma hS : ct S = S.
Proof.
apply/matrixP => i j; rewrite !mxE; have [r ->] := rs (ltn_ord i) (ltn_ord j); have [r' _] := rs (ltn_ord j) (ltn_ord i).
by rewrite (CrealP _) // realM ?realM ?realn // realV gtr0_real.
Qed.
Lemma hK : ct K = K.
Proof. by apply/matrixP => i j; rewrite !mxE rmorphM /= conjCi Omega_conj Omega_anti mulrNN. Qed.

Lemma unc_mx : mxof n2 n2 (uncertainty N cov hbar) = (hbar / 2%:R) *: (S + K).
Proof.
apply/matrixP => i j; rewrite !mxE /uncertainty [RHS]mulrDr; congr (_ + _).
  by rewrite mulrC -!mulrA [hbar^-1 * _]mulrA mulVf // mul1r mulrCA divff ?mulr1.
by rewrite [RHS]mulrCA -mulrA.
Qed.
Lemma unc_PS : possemi n2 (uncertainty N cov hbar) -> [/\ PS (S + K), PS (S - K) & PS S].
Proof.
move=> /possemi_PS; rewrite unc_mx => p.
have hh : 0 < hbar / 2%:R by rewrite divr_gt0 ?ltr0n.
have p1 : PS (S + K).
  by move=> v; have := p v; rewrite -scalemxAr -scalemxAl mxE pmulr_rge0.
have p2 : PS (S - K).
  move=> v; have := p1 (map_mx conjC v); set x := (X in 0 <= X -> _) => x0.
  suff -> : (ct v *m (S - K) *m v) 0 0 = x^* by rewrite conjC_ge0.
  rewrite /x; set y := (map_mx _ v).
  transitivity ((map_mx conjC (ct y *m (S + K) *m y)) 0 0); last by rewrite mxE.
  rewrite !map_mxM; congr ((_ *m _ *m _) 0 0).
  - by apply/matrixP => i j; rewrite !mxE conjCK.
  - apply/matrixP => i j; rewrite !mxE rmorphD /=; congr (_ + _).
      by have [r _] := rs (ltn_ord i) (ltn_ord j); rewrite (CrealP _) // realM ?realM ?realn // realV gtr0_real.
    by rewrite rmorphM /= conjCi Omega_conj mulNr.
  - by apply/matrixP => i j; rewrite !mxE conjCK.
split=> // v; have := addr_ge0 (p1 v) (p2 v).
have -> : (ct v *m (S + K) *m v) 0 0 + (ct v *m (S - K) *m v) 0 0 = 2%:R * (ct v *m S *m v) 0 0.
  rewrite mulmxDr mulmxDl mulmxBr mulmxBl mulr_natl mulr2n.
  by move: (ct v *m S *m v) (ct v *m K *m v) => A B; rewrite [(A + B) 0 0]mxE [(A - B) 0 0]mxE [(- B) 0 0]mxE addrACA subrr addr0.
by rewrite pmulr_rge0 ?ltr0n.
Qed.

Lemma pure_mx : pure_cov N cov hbar <-> S *m Om *m S = Om.
Proof.
have e i j : (S *m Om *m S) i j = \sum_(k < n2) \sum_(l < n2) (2%:R * cov k i / hbar) * Omega C N k l * (2%:R * cov l j / hbar).
  rewrite -mulmxA mxE; apply: eq_bigr => k _; rewrite [(Om *m S) k j]mxE mulr_sumr; apply: eq_bigr => l _; rewrite !mxE mulrA; congr (_ * _ * _).
  by have [_ ->] := rs (ltn_ord i) (ltn_ord k).
split=> [p|p i j hi hj]; first by apply/matrixP => i j; rewrite e (p _ _ (ltn_ord i) (ltn_ord j)) mxE.
by have := e (Ordinal hi) (Ordinal hj); rewrite p mxE /= => <-.
Qed.

Lemma pure_det : pure_cov N cov hbar -> possemi n2 (uncertainty N cov hbar) -> \det S = 1.
Proof.
move=> /pure_mx p u; have [_ _ pS] := unc_PS u.
have d2 : \det Om * \det Om != 0.
  by rewrite -det_mulmx Om2 -scaleN1r detZ det1 mulr1 signr_eq0.
have dO : \det Om != 0 by apply: contra_neq d2 => ->; rewrite mul0r.
have : \det S * \det S = 1.
  apply: (mulfI dO); rewrite mulr1 -{2}p !det_mulmx; rring.
move=> /eqP; rewrite -expr2 -subr_eq0 subr_sqr_1 mulf_eq0 subr_eq0 => /orP[/eqP //|].
by rewrite addr_eq0 => /eqP e; have := PS_det hS pS; rewrite e oppr_ge0 lt_geF // ltr01.
Qed.

(** with zero tolerances is_pure_cov accepts exactly the pure states *)
Theorem is_pure_cov_exact : is_pure_cov eigvalsh n2 n2 cov hbar 0 0 <-> possemi n2 (uncertainty N cov hbar) /\ pure_cov N cov hbar.
Proof.
rewrite /is_pure_cov; split=> [/andP[/(is_valid_cov_correct eig rs h0 (lexx _) (lexx _)) /psd_upto0 u]|[u p]].
  rewrite /close mul0r addr0 normr_le0 subr_eq0 => /eqP e; split=> //.
  have dS : \det S = 1.
    have : (sqrtC (\det S)) ^+ 2 = 1 by rewrite -[sqrtC _]invrK -[(sqrtC _)^-1]mul1r e invr1 expr1n.
    by rewrite sqrtCK.
  have [p1 p2 pS] := unc_PS u; have := pure_key hS hK pS p1 p2 dS KK.
  rewrite /K -scalemxAr -scalemxAl => k; apply/pure_mx; apply: (scalerI (a := 'i)); first exact: neq0Ci.
  exact: k.
apply/andP; split; first by apply/(is_valid_cov_correct eig rs h0 (lexx _) (lexx _)); exact/psd_upto0.
by rewrite -/S pure_det // sqrtC1 divr1 /close subrr normr0 mul0r addr0.
Qed.

(** with any tolerances it accepts every pure state *)
Theorem is_pure_cov_accepts rtol atol : 0 <= rtol -> 0 <= atol -> possemi n2 (uncertainty N cov hbar) -> pure_cov N cov hbar ->
  is_pure_cov eigvalsh n2 n2 cov hbar rtol atol.
Proof.
move=> r0 a0 u p; rewrite /is_pure_cov; apply/andP; split.
  by apply/(is_valid_cov_correct eig rs h0 r0 a0) => v nz; left; exact: u.
by rewrite -/S pure_det // sqrtC1 divr1 /close subrr normr0 normr1 mulr1 addr_ge0.
Qed.
End Pure.

(** concrete cases: the vacuum is classical and pure; with hbar = 2 the state "vacuum in mode 0, squeezed by a factor 2 in mode 1"
    is pure, not classical, and has a classical subsystem of one mode *)
Section Cases.
Variable C : numClosedFieldType.
Variable eigvalsh : nat -> (nat -> nat -> C) -> seq C.
Hypothesis eig : eigvalsh_ok eigvalsh.
Notation mat := (nat -> nat -> C).
Definition sq_diag (i : nat) : C := if i == 1%N then 2%:R^-1 else if i == 3%N then 2%:R else 1.
Definition sq_cov : mat := fun i j => (i == j)%:R * sq_diag i.
Lemma sq_real_sym : real_sym 4 sq_cov.
Proof.
move=> i j _ _; rewrite /sq_cov eq_sym; split; last by case: eqP => [->|]; rewrite ?mul0r.
by rewrite realM ?realn // /sq_diag; do ![case: ifP => _]; rewrite ?realV ?realn ?real1.
Qed.
Lemma find_classical_case (atol : C) : 0 <= atol <= 2%:R^-1 -> find_classical_subsystem eigvalsh 4 4 sq_cov 2%:R atol = Ok 1%N.
Proof.
move=> /andP[a0 a1].
have [k -> [k2 pk mx]] := find_classical_subsystem_correct eig (N := 2) sq_real_sym (ltr0n C 2) a0.
have p1 : classical_prefix 2 sq_cov 2%:R atol 1.
  move=> v _; left; rewrite /qform big1 // => i _; rewrite big1 // => j _.
  rewrite /above_vacuum /prefix_cov divff ?pnatr_eq0 // mul1r.
  by case: i j => [[|[|i]] hi] // [[|[|j]] hj] //; rewrite /sq_cov /sq_diag /= ?mul1r ?mul0r subrr mulr0 mul0r.
have := mx 1%N isT p1; case: k k2 pk mx => [|[|[|k]]] // _ pk _ _; exfalso.
have nz : exists2 i, (i < 4)%N & ((i == 1)%N%:R : C) != 0 by exists 1%N; rewrite // oner_eq0.
have := pk (fun i => (i == 1)%N%:R) nz; rewrite /qform /sqnorm !big_ord_recl !big_ord0 /= !conjC0 conjC1 !mul0r !mulr0 !mul1r !add0r !addr0 mulr1.
rewrite normr0 normr1 expr1n expr0n /= ?add0r ?addr0 mulr1.
have -> : above_vacuum (prefix_cov 2 2 sq_cov) 2%:R 1 1 = - 2%:R^-1 :> C.
  rewrite /above_vacuum /prefix_cov /= divff ?pnatr_eq0 // mul1r /sq_cov /sq_diag /= mul1r.
  have t0 : 2%:R != 0 :> C by rewrite pnatr_eq0.
  by apply: (mulfI t0); rewrite mulrBr mulrN divff // mulr1; rring.
by case; rewrite ?ltr_opp2 ?oppr_ge0 => h; [have := lt_le_trans (_ : 0 < 2%:R^-1 :> C) h; rewrite ltxx invr_gt0 ltr0n => /(_ isT) | have := lt_le_trans h a1; rewrite ltxx].
Qed.
Lemma vacuum_checks N (hbar : C) rtol atol : 0 < hbar -> 0 <= rtol -> 0 <= atol ->
  let cov := fun i j => (i == j)%:R * (hbar / 2%:R) in
  [/\ is_valid_cov eigvalsh (2 * N) (2 * N) cov hbar rtol atol, is_classical_cov eigvalsh (2 * N) (2 * N) cov hbar atol &
      is_pure_cov eigvalsh (2 * N) (2 * N) cov hbar rtol atol].
Proof.
move=> h0 r0 a0 cov; have [rs _] := vacuum_cov_ok N h0.
have ab t : psd_upto t (2 * N) (above_vacuum cov hbar).
  move=> v _; left; rewrite /qform big1 // => i _; rewrite big1 // => j _.
  by rewrite /above_vacuum /cov [_%:R * _]mulrC subrr mulr0 mul0r.
have u : possemi (2 * N) (uncertainty N cov hbar) by apply/psd_upto0; exact: classical_valid.
split.
- by apply/(is_valid_cov_correct eig rs h0 r0 a0) => v nz; left; exact: u.
- exact/(is_classical_cov_correct eig rs h0 a0).
- by apply: is_pure_cov_accepts => //; exact: vac_pure.
Qed.
End Cases.
