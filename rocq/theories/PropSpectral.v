(** The spectral theorem for Hermitian matrices, used to show that the contract of np.linalg.eigvalsh is satisfiable. *)
From mathcomp Require Import all_ssreflect all_algebra zify.
From Verif Require Import Prelude PyBase MSymplectic SpecTor PropTor PropTor5.
Set Implicit Arguments.
Unset Strict Implicit.
Unset Printing Implicit Defensive.
Import Order.Theory GRing.Theory Num.Theory.
Local Open Scope ring_scope.

Section Spectral.
Variable C : numClosedFieldType.

Lemma ctK m n (A : 'M[C]_(m, n)) : ct (ct A) = A.
Proof. by apply/matrixP => i j; rewrite !mxE conjCK. Qed.
Lemma ctD m n (A B : 'M[C]_(m, n)) : ct (A + B) = ct A + ct B.
Proof. by apply/matrixP => i j; rewrite !mxE rmorphD. Qed.
Lemma ctN m n (A : 'M[C]_(m, n)) : ct (- A) = - ct A.
Proof. by apply/matrixP => i j; rewrite !mxE rmorphN. Qed.
Lemma ctZ m n a (A : 'M[C]_(m, n)) : ct (a *: A) = a^* *: ct A.
Proof. by apply/matrixP => i j; rewrite !mxE rmorphM. Qed.
Lemma ct1 n : ct (1%:M : 'M[C]_n) = 1%:M.
Proof. by rewrite /ct trmx1 map_mx1. Qed.
Lemma ct_row_norm n (v : 'rV[C]_n) : (v *m ct v) 0 0 = \sum_j `|v 0 j| ^+ 2.
Proof. by rewrite mxE; apply: eq_bigr => j _; rewrite !mxE normCK. Qed.
Lemma ct_row_ge0 n (v : 'rV[C]_n) : 0 <= (v *m ct v) 0 0.
Proof. by rewrite ct_row_norm sumr_ge0 // => j _; rewrite exprn_ge0. Qed.
Lemma ct_row_eq0 n (v : 'rV[C]_n) : ((v *m ct v) 0 0 == 0) = (v == 0).
Proof.
apply/eqP/eqP => [|->]; last by rewrite mul0mx mxE.
rewrite ct_row_norm => /eqP; rewrite psumr_eq0 => [|j _]; last by rewrite exprn_ge0.
move=> /allP h; apply/rowP => j; rewrite mxE; have := h j (mem_index_enum _).
by rewrite implyTb sqrf_eq0 normr_eq0 => /eqP.
Qed.
Lemma mx11 (A : 'M[C]_1) : A = (A 0 0)%:M.
Proof. exact: mx11_scalar. Qed.

(** a unitary Hermitian reflection whose first row is a multiple of the unit vector v *)
Lemma householder n (v : 'rV[C]_n.+1) : (v *m ct v) 0 0 = 1 ->
  exists (H : 'M[C]_n.+1) (a : C), [/\ ct H = H, H *m H = 1%:M, a != 0 & delta_mx 0 0 *m H = a *: v :> 'rV_n.+1].
Proof.
move=> nv; pose v0 := v 0 0.
pose al := if v0 == 0 then 1 else v0 / `|v0|.
have nal : al * al^* = 1.
  rewrite /al; case: eqP => [_|/eqP z]; first by rewrite conjC1 mulr1.
  by rewrite -normCK normf_div normr_id divff ?expr1n // normr_eq0.
have re : al^* * v0 = `|v0|.
  rewrite /al; case: eqP => [->|/eqP z]; first by rewrite mulr0 normr0.
  by rewrite rmorphM fmorphV conj_normC mulrAC [v0^* * v0]mulrC -normCK expr2 -mulrA divff ?mulr1 ?normr_eq0.
pose e0 : 'rV[C]_n.+1 := delta_mx 0 0.
have ee : (e0 *m ct e0) 0 0 = 1.
  rewrite ct_row_norm (bigD1 0) //= big1 => [|j /negPf j0]; first by rewrite mxE eqxx /= normr1 expr1n addr0.
  by rewrite mxE j0 andbF normr0 expr0n.
have ve : (v *m ct e0) 0 0 = v0.
  rewrite mxE (bigD1 0) //= big1 => [|j /negPf j0]; first by rewrite !mxE eqxx conjC1 mulr1 addr0.
  by rewrite !mxE j0 conjC0 mulr0.
have ev : (e0 *m ct v) 0 0 = v0^*.
  rewrite mxE (bigD1 0) //= big1 => [|j /negPf j0]; first by rewrite !mxE eqxx mul1r addr0.
  by rewrite !mxE j0 mul0r.
have b2 (A B : 'M[C]_1) : (A - B) 0 0 = A 0 0 - B 0 0 by rewrite !mxE.
have z2 a (A : 'M[C]_1) : (a *: A) 0 0 = a * A 0 0 by rewrite mxE.
pose w := v - al *: e0; pose s := (w *m ct w) 0 0.
have vw : (v *m ct w) 0 0 = 1 - `|v0|.
  by rewrite /w ctD ctN ctZ mulmxDr mulmxN -scalemxAr b2 z2 nv ve re.
have sw : s = 2%:R * (1 - `|v0|).
  have -> : s = (v *m ct w) 0 0 - al * (e0 *m ct w) 0 0.
    by rewrite /s {1}/w mulmxBl -scalemxAl b2 z2.
  rewrite vw /w ctD ctN ctZ mulmxDr mulmxN -scalemxAr b2 z2 ev ee mulr1 mulrBr nal.
  have -> : al * v0^* = `|v0| by rewrite -[LHS]conjCK rmorphM conjCK re conj_normC.
  by rewrite opprB addrA mulr2n mulrDl !mul1r addrA; congr (_ - _); rewrite addrAC.
have ww : w *m ct w = s%:M by rewrite [LHS]mx11.
pose H : 'M[C]_n.+1 := 1%:M - (2%:R / s) *: (ct w *m w).
have HH : H *m H = 1%:M.
  have AA : ct w *m w *m (ct w *m w) = s *: (ct w *m w).
    by rewrite mulmxA -[ct w *m w *m ct w]mulmxA ww mul_mx_scalar -scalemxAl.
  rewrite /H; move: AA; set A := ct w *m w => AA.
  case s0 : (s == 0); first by rewrite (eqP s0) invr0 mulr0 !scale0r !subr0 mulmx1.
  move cE : (2%:R / s) => c; have cc : c * (c * s) = c + c by rewrite -[X in _ * (X * s)]cE divfK ?s0 // mulr_natr mulr2n.
  rewrite mulmxBl mul1mx -scalemxAl mulmxBr mulmx1 -scalemxAr AA scalerBr !scalerA -mulrA cc scalerDl.
  by rewrite opprB [c *: A + c *: A - _]addrK addrNK.
have vH : v *m H = al *: e0.
  rewrite /H mulmxBr mulmx1 -scalemxAr mulmxA [v *m ct w]mx11 vw mul_scalar_mx scalerA.
  case s0 : (s == 0).
    have : w == 0 by rewrite -ct_row_eq0 -/s s0.
    by move=> /eqP w0; rewrite w0 scaler0 subr0; apply/eqP; rewrite -subr_eq0 -/w w0.
  have -> : 2%:R / s * (1 - `|v0|) = 1 by rewrite mulrAC -sw divff ?s0.
  by rewrite scale1r /w opprB addrC subrK.
exists H, al^*; split=> //.
- have sr : s^* = s by rewrite (CrealP _) // ger0_real // ct_row_ge0.
  by rewrite /H ctD ctN ctZ ctM ctK ct1 rmorphM fmorphV sr conjC_nat.
- by rewrite conjC_eq0; apply: contra_eq_neq nal => ->; rewrite mul0r eq_sym oner_neq0.
by rewrite -[v]mulmx1 -HH mulmxA vH -scalemxAl scalerA [al^* * al]mulrC nal scale1r.
Qed.

(** every Hermitian matrix is diagonalised by a unitary, with real eigenvalues *)
Theorem spectral_theorem n (M : 'M[C]_n) : ct M = M ->
  exists (U : 'M[C]_n) (d : 'rV[C]_n), [/\ ct U *m U = 1%:M, M = U *m diag_mx d *m ct U & forall i, d 0 i \is Num.real].
Proof.
elim: n M => [|n IH] M hM.
  by exists 1%:M, 0; split=> [||[]//]; apply/matrixP => [[]].
have [a ra] : exists a, root (char_poly M) a by apply/closed_rootP; rewrite size_char_poly.
rewrite -eigenvalue_root_char in ra; have /eigenvalueP [u uM u0] := ra.
pose nu := sqrtC ((u *m ct u) 0 0).
have nu0 : nu != 0 by rewrite sqrtC_eq0 ct_row_eq0.
have nur : nu^* = nu by rewrite (CrealP _) // ger0_real // sqrtC_ge0 ct_row_ge0.
pose v := nu^-1 *: u.
have nv : (v *m ct v) 0 0 = 1.
  rewrite /v ctZ -scalemxAl -scalemxAr scalerA mxE fmorphV nur -invfM -expr2 sqrtCK mulVf // ct_row_eq0 //.
have vM : v *m M = a *: v by rewrite /v -scalemxAl uM !scalerA mulrC.
have [H [al [hH HH al0 eH]]] := householder nv.
have [M' M'd] : exists M', M' = H *m M *m H by eexists.
have hM' : ct M' = M' by rewrite M'd !ctM hM hH mulmxA.
have eM' : delta_mx 0 0 *m M' = a *: delta_mx 0 0 :> 'rV[C]_n.+1.
  by rewrite M'd !mulmxA eH -scalemxAl vM scalerA mulrC -scalerA -eH -scalemxAl -mulmxA HH mulmx1.
have M'0 j : M' 0 j = a *+ (j == 0).
  have /matrixP/(_ 0 j) := eM'; rewrite [in X in _ = X]mxE [in X in _ = X]mxE eqxx /= mulr_natr => <-.
  by rewrite -rowE [RHS]mxE.
have M'c j : M' j 0 = a^* *+ (j == 0).
  by rewrite -hM' !mxE M'0; case: eqP => _; rewrite ?mulr0n ?conjC0.
have ar : a \is Num.real.
  by apply/CrealP; have := M'c 0; rewrite M'0 !mulr1n => <-.
pose M1 : 'M[C]_n := \matrix_(i, j) M' (lift 0 i) (lift 0 j).
have l0 (i : 'I_1) : lshift n i = (0 : 'I_n.+1) by apply: val_inj; case: i => [[]].
have r0 (i : 'I_n) : rshift 1 i = lift (0 : 'I_n.+1) i by apply: val_inj.
have M'E : M' = block_mx (a%:M : 'M_1) 0 0 M1 :> 'M_(1 + n).
  apply/matrixP => i j; rewrite -(splitK i) -(splitK j).
  case: (split i) => {}i; case: (split j) => {}j /=.
  - by rewrite block_mxEul !l0 M'0 !ord1 mxE.
  - by rewrite block_mxEur l0 r0 M'0 mxE.
  - by rewrite block_mxEdl l0 r0 M'c mxE.
  - by rewrite block_mxEdr !r0 mxE.
have hM1 : ct M1 = M1.
  by apply/matrixP => i j; rewrite !mxE -[in RHS]hM' !mxE.
have [U1 [d1 [uU1 M1E rd]]] := IH _ hM1.
pose B := block_mx (1%:M : 'M_1) 0 0 U1 : 'M[C]_(1 + n).
have ctB : ct B = block_mx (1%:M : 'M_1) 0 0 (ct U1) by rewrite /ct /B tr_block_mx map_block_mx !trmx0 !map_mx0 trmx1 map_mx1.
exists (H *m B), (row_mx a%:M d1 : 'rV_(1 + n)); split.
- have BB : ct B *m B = 1%:M.
    by rewrite ctB; apply: etrans (mulmx_block _ _ _ _ _ _ _ _) _; rewrite !mulmx0 !mul0mx !addr0 add0r uU1 mulmx1 -scalar_mx_block.
  by rewrite ctM hH mulmxA -[ct B *m H *m H]mulmxA HH mulmx1 BB.
- rewrite ctM hH; have -> : M = H *m M' *m H by rewrite M'd !mulmxA HH mul1mx -mulmxA HH mulmx1.
  rewrite !mulmxA; congr (_ *m _); rewrite -!mulmxA; congr (_ *m _).
  have -> : diag_mx (row_mx a%:M d1) *m ct B = block_mx (a%:M : 'M_1) 0 0 (diag_mx d1 *m ct U1).
    rewrite diag_mx_row ctB; apply: etrans (mulmx_block _ _ _ _ _ _ _ _) _; rewrite !mulmx0 !mul0mx !addr0 !add0r mulmx1; congr block_mx.
    by apply/matrixP => i j; rewrite !ord1 !mxE eqxx !mulr1n.
  have := mulmx_block (1%:M : 'M[C]_1) 0 0 U1 (a%:M : 'M_1) 0 0 (diag_mx d1 *m ct U1).
  by rewrite !mulmx0 !mul0mx !addr0 !add0r mul1mx mulmxA -M1E -M'E => <-.
- suff rr (i : 'I_(1 + n)) : row_mx (a%:M : 'M_1) d1 0 i \is Num.real by exact: rr.
  rewrite -(splitK i); case: (split i) => {}i /=; first by rewrite row_mxEl !ord1 mxE eqxx mulr1n.
  by rewrite row_mxEr rd.
Qed.

Notation mat := (nat -> nat -> C).
Notation vec := (nat -> C).
(** the quadratic form v^* M v and the squared norm *)
Definition qform n (M : mat) (v : vec) : C := \sum_(i < n) \sum_(j < n) (v i)^* * M i j * v j.
Definition sqnorm n (v : vec) : C := \sum_(i < n) `|v i| ^+ 2.
(** M is positive semidefinite up to atol: v^* M v is non-negative or above - atol |v|^2 *)
Definition psd_upto (atol : C) n (M : mat) : Prop :=
  forall v : vec, (exists2 i, (i < n)%N & v i != 0) -> 0 <= qform n M v \/ - atol * sqnorm n v < qform n M v.
(** the contract of np.linalg.eigvalsh: the eigenvalues of a Hermitian matrix, with multiplicity *)
Definition is_eigvals n (M : mat) (vals : seq C) : Prop :=
  [/\ size vals = n, all (fun x => x \is Num.real) vals &
      exists U : 'M[C]_n, ct U *m U = 1%:M /\ mxof n n M = U *m diag_mx (\row_i nth 0 vals i) *m ct U].
Definition eigvalsh_ok (eigvalsh : nat -> mat -> seq C) : Prop := forall n M, hermitian n M -> is_eigvals n M (eigvalsh n M).

Theorem eigvals_exist n (M : mat) : hermitian n M -> exists vals, is_eigvals n M vals.
Proof.
move=> h; have hM : ct (mxof n n M) = mxof n n M by apply/matrixP => i j; rewrite !mxE -h.
have [U [d [uU ME rd]]] := spectral_theorem hM.
exists [seq d 0 i | i <- enum 'I_n]; split; first by rewrite size_map -cardE card_ord.
  by apply/allP => x /mapP [i _ ->].
exists U; split=> //; rewrite ME; congr (_ *m diag_mx _ *m _).
by apply/rowP => i; rewrite mxE (nth_map i) ?nth_ord_enum // size_enum_ord.
Qed.

Lemma qform_mx n (M : mat) (v : vec) : qform n M v = (ct (\col_(i < n) v i) *m mxof n n M *m (\col_(i < n) v i)) 0 0.
Proof.
rewrite /qform mxE exchange_big; apply: eq_bigr => j _; rewrite mxE mulr_suml; apply: eq_bigr => k _.
by rewrite !mxE.
Qed.
Lemma sqnorm_mx n (v : vec) : sqnorm n v = (ct (\col_(i < n) v i) *m (\col_(i < n) v i)) 0 0.
Proof. by rewrite /sqnorm mxE; apply: eq_bigr => i _; rewrite !mxE normCK mulrC. Qed.
Lemma diag_qform n (d : 'rV[C]_n) (w : 'cV[C]_n) : (ct w *m diag_mx d *m w) 0 0 = \sum_i d 0 i * `|w i 0| ^+ 2.
Proof.
rewrite mxE; apply: eq_bigr => i _; by rewrite mul_mx_diag !mxE normCK mulrAC [_^* * _]mulrC mulrC.
Qed.
Lemma ct_col_norm n (w : 'cV[C]_n) : (ct w *m w) 0 0 = \sum_i `|w i 0| ^+ 2.
Proof. by rewrite mxE; apply: eq_bigr => i _; rewrite !mxE normCK mulrC. Qed.

(** the test made by is_valid_cov and is_classical_cov on the eigenvalues *)
Lemma eig_clean n (M : mat) (vals : seq C) (atol : C) : is_eigvals n M vals -> 0 <= atol ->
  all (fun x => (0 <= x) || (`|x| < atol)) vals <-> psd_upto atol n M.
Proof.
move=> [sv rv [U [uU ME]]] a0; have UU : U *m ct U = 1%:M by apply: mulmx1C.
set d := (\row_i _ : 'rV[C]_n) in ME; have dE i : d 0 i = nth 0 vals i by rewrite mxE.
have dr i : d 0 i \is Num.real by rewrite dE; apply: (allP rv); rewrite mem_nth // sv.
split=> [al v [i0 hi0 vi0]|ps].
  rewrite qform_mx sqnorm_mx; set x := (\col_i _ : 'cV[C]_n).
  pose w := ct U *m x; have xE : x = U *m w by rewrite /w mulmxA UU mul1mx.
  have -> : ct x *m mxof n n M *m x = ct w *m diag_mx d *m w.
    by rewrite xE ctM ME -!mulmxA; congr (_ *m _); rewrite !mulmxA uU mul1mx -!mulmxA; congr (_ *m _); rewrite mulmxA uU mul1mx.
  have -> : ct x *m x = ct w *m w by rewrite xE ctM -mulmxA (mulmxA (ct U)) uU mul1mx.
  rewrite diag_qform ct_col_norm.
  have dd i : 0 <= d 0 i \/ - atol < d 0 i.
    have := allP al (d 0 i); rewrite dE mem_nth ?sv // => /(_ isT) /orP [|l]; first by left.
    by right; rewrite -dE in l *; move: l; rewrite real_ltr_norml // => /andP[].
  have [n0|/negPn/existsP [i ni]] := boolP (~~ [exists i : 'I_n, ~~ (0 <= d 0 i)]).
    left; apply: sumr_ge0 => i _; rewrite mulr_ge0 ?exprn_ge0 //.
    by move: n0; rewrite negb_exists => /forallP/(_ i); rewrite negbK.
  right; have ap : 0 < atol.
    case: (dd i) => [h|h]; first by rewrite h in ni.
    rewrite lt_def a0 andbT; apply: contraNneq ni => e; rewrite e oppr0 in h; exact: ltW.
  have da j : - atol < d 0 j by case: (dd j) => // h; apply: lt_le_trans h; rewrite oppr_lt0.
  have [j wj] : exists j, w j 0 != 0.
    apply/existsP; rewrite -negb_forall; apply: contra vi0 => /forallP h.
    have w0 : w = 0 by apply/colP => j; rewrite [RHS]mxE; apply/eqP.
    have /colP/(_ (Ordinal hi0)) : x = 0 by rewrite xE w0 mulmx0.
    by rewrite !mxE /= => ->.
  rewrite mulr_sumr (bigD1 j) //= [X in _ < X](bigD1 j) //=; apply: ltr_le_add.
    by rewrite ltr_pmul2r // exprn_gt0 // normr_gt0.
  by apply: ler_sum => k _; rewrite ler_wpmul2r ?exprn_ge0 // ltW.
apply/allP => y /(nthP 0) [i hi <-]; rewrite sv in hi.
pose v k := nth 0 [seq U j (Ordinal hi) | j <- enum 'I_n] k.
have vE : \col_(k < n) v k = U *m delta_mx (Ordinal hi) 0 :> 'cV[C]_n.
  apply/colP => k; rewrite -colE !mxE /v (nth_map k) ?size_enum_ord // nth_ord_enum //.
have uv : ct U *m (\col_(k < n) v k) = delta_mx (Ordinal hi) 0 by rewrite vE mulmxA uU mul1mx.
have nzv : exists2 k, (k < n)%N & v k != 0.
  have : \col_(k < n) v k != 0 :> 'cV[C]_n.
    apply/eqP => e; move: uv; rewrite e mulmx0 => /colP/(_ (Ordinal hi)); rewrite !mxE !eqxx /=.
    by move/eqP; rewrite eq_sym oner_eq0.
  move=> nz; have [/existsP [k vk]|] := boolP [exists k : 'I_n, v k != 0]; first by exists k.
  by rewrite negb_exists => /forallP h; case/eqP: nz; apply/colP => k; rewrite !mxE; apply/eqP; have := h k; rewrite negbK.
have := ps v nzv; rewrite qform_mx sqnorm_mx ME !mulmxA.
have -> : ct (\col_(i < n) v i) *m U = ct (delta_mx (Ordinal hi) 0 : 'cV[C]_n) by rewrite -uv ctM ctK.
rewrite -[_ *m ct U *m _]mulmxA uv diag_qform.
rewrite (bigD1 (Ordinal hi)) //= big1 => [|k /negPf kn]; last by rewrite [delta_mx _ _ _ _]mxE kn normr0 expr0n mulr0.
rewrite [delta_mx _ _ _ _]mxE !eqxx normr1 expr1n mulr1 addr0 dE /=.
have -> : (ct (\col_(i < n) v i) *m (\col_(i < n) v i)) 0 0 = 1 :> C.
  have -> : \col_(i < n) v i = U *m (ct U *m (\col_(i < n) v i)) by rewrite mulmxA UU mul1mx.
  rewrite uv ctM -mulmxA (mulmxA (ct U)) uU mul1mx ct_col_norm (bigD1 (Ordinal hi)) //= big1 => [|k /negPf kn].
    by rewrite mxE !eqxx normr1 expr1n addr0.
  by rewrite mxE kn normr0 expr0n.
rewrite mulr1 => h; have r := dr (Ordinal hi); rewrite dE /= in r; case: h => [-> //|h].
case p : (0 <= _) => //=; rewrite real_ltr_norml // h /=.
have n0 : nth 0 vals i < 0 by rewrite real_ltNge ?real0 // p.
by apply: lt_le_trans n0 a0.
Qed.
End Spectral.
