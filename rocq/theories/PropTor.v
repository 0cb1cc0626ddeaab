(** Linear algebra for the torontonian: positive definite matrices, the incremental Cholesky factorisation. *)
From mathcomp Require Import all_ssreflect all_algebra zify.
From Verif Require Import Prelude PyBase ArrLoop MPowerHaf MHafnian MSymplectic SpecTor MTor.
Set Implicit Arguments.
Unset Strict Implicit.
Unset Printing Implicit Defensive.
Import Order.Theory GRing.Theory Num.Theory.
Local Open Scope ring_scope.

Lemma sum_sub (R : zmodType) n (r : seq nat) (G : nat -> R) : uniq r -> all (fun i => i < n)%N r ->
  \sum_(x < n) (if val x \in r then G x else 0) = \sum_(i < size r) G (nth 0%N r i).
Proof.
move=> u l; rewrite -(big_mkord xpredT (fun x => if x \in r then G x else 0)) -big_mkcond /= -big_filter.
rewrite (perm_big r) /=; first by rewrite (big_nth 0%N) big_mkord.
apply: uniq_perm => //; first by rewrite filter_uniq // iota_uniq.
move=> x; rewrite mem_filter mem_index_iota /=; case xr : (x \in r) => //=; exact: (allP l).
Qed.

Section LA.
Variable C : numClosedFieldType.
Notation mat := (nat -> nat -> C).
Notation vec := (nat -> C).

Lemma hermitian_ix n (M : mat) r : hermitian n M -> all (fun i => i < n)%N r -> hermitian (size r) (ix M r).
Proof. by move=> h l i j hi hj; apply: h; apply: (allP l); exact: mem_nth. Qed.
Lemma posdef_ix n (M : mat) r : posdef n M -> uniq r -> all (fun i => i < n)%N r -> posdef (size r) (ix M r).
Proof.
move=> pd u l v [i hi vi].
pose v' x := if x \in r then v (index x r) else 0.
have := pd v'; have nz : exists2 i, (i < n)%N & v' i != 0.
  by exists (nth 0%N r i); [apply: (allP l); exact: mem_nth|rewrite /v' mem_nth // index_uniq].
move=> /(_ nz); set S := (X in 0 < X -> _) => p; have -> : \sum_(i < size r) \sum_(j < size r) (v i)^* * ix M r i j * v j = S; last exact: p.
rewrite /S; transitivity (\sum_(x < n) (if val x \in r then \sum_(y < n) (if val y \in r then (v' x)^* * M x y * v' y else 0) else 0)).
  rewrite (@sum_sub _ n r (fun x => \sum_(y < n) (if val y \in r then (v' x)^* * M x y * v' y else 0))) //.
  apply: eq_bigr => a _; rewrite (@sum_sub _ n r (fun y => (v' (nth 0%N r a))^* * M (nth 0%N r a) y * v' y)) //.
  by apply: eq_bigr => b _; rewrite /v' !mem_nth // !index_uniq.
apply: eq_bigr => x _; case xr : (val x \in r); last by rewrite big1 // => y _; rewrite /v' xr conjC0 !mul0r.
by apply: eq_bigr => y _; case yr : (val y \in r) => //; rewrite /v' yr mulr0.
Qed.

(** conjugate transpose *)
Definition ct m n (A : 'M[C]_(m, n)) : 'M[C]_(n, m) := map_mx conjC A^T.
Lemma ctM m n p (A : 'M[C]_(m, n)) (B : 'M[C]_(n, p)) : ct (A *m B) = ct B *m ct A.
Proof. by rewrite /ct trmx_mul map_mxM. Qed.
Lemma ctK m n (A : 'M[C]_(m, n)) : ct (ct A) = A.
Proof. by apply/matrixP => i j; rewrite !mxE conjCK. Qed.
Lemma ctN m n (A : 'M[C]_(m, n)) : ct (- A) = - ct A.
Proof. by apply/matrixP => i j; rewrite !mxE rmorphN. Qed.
Lemma posdef_mx n (M : mat) (v : 'cV[C]_n) : posdef n M -> v != 0 -> 0 < (ct v *m mxof n n M *m v) 0 0.
Proof.
move=> pd vn.
pose w x : C := if insub x is Some i then v i 0 else 0.
have wE (i : 'I_n) : w i = v i 0 by rewrite /w; case: insubP => [i' _ /val_inj ->|] //; rewrite ltn_ord.
have nz : exists2 i, (i < n)%N & w i != 0.
  have /existsP[i hi] : [exists i, v i 0 != 0].
    apply: contraNT vn; rewrite negb_exists => /forallP h; apply/eqP/matrixP => i j; rewrite !mxE (ord1 j); apply/eqP; move: (h i); by rewrite negbK.
  by exists i => //; rewrite wE.
suff -> : (ct v *m mxof n n M *m v) 0 0 = \sum_(i < n) \sum_(j < n) (w i)^* * M i j * w j by exact: pd.
rewrite mxE exchange_big; apply: eq_bigr => j _; rewrite mxE mulr_suml; apply: eq_bigr => i _.
by rewrite !mxE !wE.
Qed.

(** the next pivot is positive *)
Lemma pivot_gt0 m (M L : mat) i : hermitian m M -> posdef m M -> (i < m)%N ->
  (forall a b, (a < i)%N -> (b <= a)%N -> M a b = \sum_(k < b.+1) L a k * (L b k)^*) ->
  (forall a, (a < i)%N -> 0 < L a a) ->
  (forall b, (b < i)%N -> M i b = \sum_(k < b.+1) L i k * (L b k)^*) ->
  0 < M i i - \sum_(k < i) L i k * (L i k)^*.
Proof.
move=> hM pM hi e1 dg e2.
pose T : 'M[C]_i := \matrix_(a, k) (if (k <= a)%N then L a k else 0).
pose l : 'rV[C]_i := \row_k L i k.
have uT : T \in unitmx.
  rewrite unitmxE det_trig; last by apply/is_trig_mxP => a b ab; rewrite mxE leqNgt ab.
  rewrite unitfE; apply/prodf_neq0 => a _; rewrite mxE leqnn gt_eqF // dg //.
have sumT (a b : 'I_i) (F : nat -> C) : (b <= a)%N -> \sum_(k < i) F k * (T b k)^* = \sum_(k < b.+1) F k * (L b k)^*.
  move=> ba; rewrite (big_ord_widen_cond i xpredT (fun k => F k * (L b k)^*)) //= [RHS]big_mkcond; apply: eq_bigr => k _.
  by rewrite mxE ltnS; case: ifP => //; rewrite conjC0 mulr0.
have MT (a b : 'I_i) : M a b = (T *m ct T) a b.
  have half (a' b' : 'I_i) : (b' <= a')%N -> M a' b' = (T *m ct T) a' b'.
    move=> ba; rewrite e1 // mxE -(@sumT a' b' (fun k => L a' k)) //; apply: eq_bigr => k _; rewrite !mxE.
    by case: (leqP k b') => kb; [rewrite (leq_trans kb ba)|rewrite conjC0 !mulr0].
  case: (leqP b a) => h; first exact: half.
  rewrite hM; last by rewrite (ltn_trans (ltn_ord _)).
    by rewrite half ?(ltnW h) // !mxE rmorph_sum; apply: eq_bigr => k _; rewrite !mxE rmorphM /= conjCK mulrC.
  by rewrite (ltn_trans (ltn_ord _)).
have Ml (b : 'I_i) : M i b = (l *m ct T) 0 b.
  by rewrite e2 // mxE -(@sumT b b (fun k => L i k)) //; apply: eq_bigr => k _; rewrite !mxE.
pose y := invmx (ct T) *m ct l.
have uT' : ct T \in unitmx by rewrite /ct map_unitmx unitmx_tr.
have Ty : ct T *m y = ct l by rewrite /y mulKVmx.
pose v : 'cV[C]_(i + 1) := col_mx (- y) (1%:M).
have vn : v != 0.
  apply/eqP => /matrixP/(_ (rshift i ord0) 0); rewrite col_mxEd !mxE eqxx => /eqP; exact/negP/oner_neq0.
have pd' : posdef (i + 1) M.
  have := @posdef_ix m M (iota 0 (i + 1)) pM (iota_uniq _ _); rewrite size_iota => h v0 nz.
  have {}h := h _ v0 nz; rewrite (eq_bigr (fun a : 'I__ => \sum_(b < i + 1) (v0 a)^* * ix M (iota 0 (i + 1)) a b * v0 b)).
    by apply: h; apply/allP => x; rewrite mem_iota; lia.
  by move=> a _; apply: eq_bigr => b _; rewrite /ix !nth_iota.
have := posdef_mx pd' vn.
have -> : mxof (i + 1) (i + 1) M = block_mx (T *m ct T) (T *m ct l) (l *m ct T) (M i i)%:M.
  apply/matrixP => a b; rewrite [LHS]mxE; case: (split_ordP a) => a' ->; case: (split_ordP b) => b' ->.
  - by rewrite block_mxEul MT.
  - rewrite block_mxEur /= (ord1 b') addn0 hM ?(ltn_trans (ltn_ord a') hi) // Ml !mxE.
    by rewrite rmorph_sum; apply: eq_bigr => k _; rewrite !mxE rmorphM /= conjCK mulrC.
  - by rewrite block_mxEdl /= (ord1 a') addn0 Ml.
  - by rewrite block_mxEdr /= (ord1 a') (ord1 b') addn0 mxE eqxx.
have -> : ct v = row_mx (- ct y) 1%:M.
  by rewrite /ct /v tr_col_mx map_row_mx -/(ct (- y)) ctN trmx1 map_mx1.
rewrite mul_row_block mul_row_col !mul1mx !mulNmx.
set lhs := (X in 0 < X 0 0).
have -> : lhs = (M i i)%:M - l *m ct l.
  rewrite /lhs mulmxN mulmx1 mulmxDl mulNmx -!mulmxA Ty.
  have -> : ct y *m (T *m ct l) = l *m ct l by rewrite mulmxA -{1}[T]ctK -ctM Ty ctK.
  by rewrite addNr oppr0 add0r addrC.
rewrite !mxE eqxx mulr1n => h; apply: etrans h; congr (0 < _ - _).
by apply: eq_bigr => k _; rewrite !mxE.
Qed.

(** C31: the incremental factorisation *)
Theorem quad_cholesky_correct (L M : mat) (Z : seq nat) idx : let m := size Z in (idx <= m)%N ->
  hermitian m M -> posdef m M ->
  (forall i j, (i < m)%N -> (j <= i)%N -> (j < idx)%N -> M i j = \sum_(k < j.+1) ix L Z i k * (ix L Z j k)^*) ->
  (forall i, (i < idx)%N -> 0 < ix L Z i i) ->
  is_cholesky m M (quad_cholesky L Z idx M).
Proof.
move=> m hidx hM pM e0 d0; rewrite /quad_cholesky -/m.
pose P (i : nat) (Ls : mat) := [/\ forall a b, (a < i)%N -> (b <= a)%N -> M a b = \sum_(k < b.+1) Ls a k * (Ls b k)^*,
   forall a, (a < i)%N -> 0 < Ls a a &
   forall a b, (i <= a)%N -> (a < m)%N -> (b < idx)%N -> M a b = \sum_(k < b.+1) Ls a k * (Ls b k)^*].
rewrite /pyrange; set body := (X in for_ _ _ X).
suff [p1 p2 _] : P (idx + (m - idx))%N (for_ (iota idx (m - idx)) (ix L Z) body).
  rewrite subnKC // in p1 p2; split=> // i j hi ji; exact: p1.
apply: for_inv; first split.
- by move=> a b ha ba; apply: e0 => //; lia.
- exact: d0.
- by move=> a b ha am hb; apply: e0 => //; lia.
move=> i Ls hi [p1 p2 p3]; rewrite /body /pyrange.
pose R (j : nat) (Ls' : mat) := (forall a b, (a != i) || (b < idx)%N -> Ls' a b = Ls a b) /\
   (forall b, (b < j)%N -> M i b = \sum_(k < b.+1) Ls' i k * (Ls b k)^*).
have {hi} [hi0 him] : (idx <= i)%N /\ (i < m)%N by lia.
set inner := (X in for_ (iota idx (i - idx)) Ls X).
have [r1 r2] : R (idx + (i - idx))%N (for_ (iota idx (i - idx)) Ls inner).
  apply: for_inv; first by split=> // b hb; exact: p3.
  move=> j Lj hj [r1 r2]; rewrite /inner; split.
    by move=> a b hab; rewrite /upd2; case: ifP => [/andP[/eqP ea /eqP eb]|_]; [lia|exact: r1].
  move=> b hb; set val := _ / _.
  have uE (k : nat) : upd2 Lj i j val i k = if k == j then val else Lj i k by rewrite /upd2 eqxx.
  move: hb; rewrite ltnS leq_eqVlt => /orP[/eqP ->|hb]; last first.
    rewrite r2 //; apply: eq_bigr => k _; rewrite uE ifF //; apply/negbTE; rewrite neq_ltn; have := ltn_ord k; lia.
  have nji : (j != i) by lia.
  have dj : 0 < Ls j j by apply: p2; lia.
  rewrite big_ord_recr /= uE eqxx (eq_bigr (fun k : 'I_j => Lj i k * (Lj j k)^*)); last first.
    by move=> k _; rewrite uE (ltn_eqF (ltn_ord k)) (r1 j) ?nji.
  rewrite /val for_sum add0r sum_iota [Lj j j]r1 ?nji // (CrealP (gtr0_real dj)) divfK ?gt_eqF // addrCA subrr addr0 //.
rewrite subnKC // in r1 r2; set Lr := for_ _ _ _ in r1 r2 *.
have rowE (a b : nat) : (a < i)%N -> Lr a b = Ls a b by move=> ha; apply: r1; lia.
have r2' b : (b < i)%N -> M i b = \sum_(k < b.+1) Lr i k * (Lr b k)^*.
  by move=> hb; rewrite r2 //; apply: eq_bigr => k _; rewrite (rowE b).
have piv := @pivot_gt0 m M Lr i hM pM him _ _ r2'.
have {}piv : 0 < M i i - \sum_(k < i) Lr i k * (Lr i k)^*.
  apply: piv => [a b ha ba|a ha]; last by rewrite rowE // p2.
  by rewrite p1 //; apply: eq_bigr => k _; rewrite !rowE //; lia.
rewrite for_sum add0r sum_iota; set pv := M i i - _ in piv *.
have sq : 0 < sqrtC pv by rewrite sqrtC_gt0.
have reS : 'Re (sqrtC pv) = sqrtC pv by apply/Creal_ReP; rewrite gtr0_real.
rewrite reS; set Lf := upd2 _ _ _ _.
have fE (a b : nat) : (a != i) || (b != i) -> Lf a b = Lr a b.
  by rewrite /Lf /upd2; case: ifP => // /andP[/eqP -> /eqP ->]; rewrite eqxx.
have fii : Lf i i = sqrtC pv by rewrite /Lf /upd2 !eqxx.
split.
- move=> a b; rewrite ltnS leq_eqVlt => /orP[/eqP -> bi|ha ba].
    move: bi; rewrite leq_eqVlt => /orP[/eqP ->|hb]; last first.
      rewrite r2' //; apply: eq_bigr => k _; rewrite !fE ?(ltn_eqF hb) //; have := ltn_ord k; lia.
    rewrite big_ord_recr /= fii (CrealP (gtr0_real sq)) -expr2 sqrtCK /pv.
    rewrite (eq_bigr (fun k : 'I_i => Lr i k * (Lr i k)^*)); last first.
      by move=> k _; have nk : (i != i) || (val k != i); [by rewrite (ltn_eqF (ltn_ord k)) orbT|rewrite (fE _ _ nk)].
    by rewrite [X in _ = X]addrC subrK.
  have na : a != i by rewrite (ltn_eqF ha).
  have nb : b != i by rewrite (ltn_eqF (leq_ltn_trans ba ha)).
  have lb : (b < i)%N := leq_ltn_trans ba ha.
  by rewrite p1 //; apply: eq_bigr => k _; rewrite (fE a k) ?na // (fE b k) ?nb // (rowE a k ha) (rowE b k lb).
- move=> a; rewrite ltnS leq_eqVlt => /orP[/eqP ->|ha]; first by rewrite fii.
  by rewrite fE ?rowE ?p2 //; lia.
- move=> a b ha am hb; rewrite p3 //; last by lia.
  have na : a != i by rewrite gtn_eqF.
  have nb : b != i by rewrite ltn_eqF // (leq_trans hb).
  by apply: eq_bigr => k _; rewrite (fE a k) ?na // (fE b k) ?nb // !r1 ?na ?nb.
Qed.

Section Chol.
Variables (n : nat) (M L : mat).
Hypothesis hM : hermitian n M.
Hypothesis ch : is_cholesky n M L.
Let T : 'M[C]_n := \matrix_(a, k) (if (k <= a)%N then L a k else 0).
Lemma chol_mx : mxof n n M = T *m ct T.
Proof.
have [e _] := ch.
have half (a b : 'I_n) : (b <= a)%N -> M a b = (T *m ct T) a b.
  move=> ba; rewrite e // mxE (big_ord_widen_cond n xpredT (fun k => L a k * (L b k)^*)) //= [LHS]big_mkcond; apply: eq_bigr => k _.
  by rewrite !mxE ltnS; case: (leqP k b) => kb; [rewrite (leq_trans kb ba)|rewrite conjC0 !mulr0].
apply/matrixP => a b; rewrite [LHS]mxE; case: (leqP b a) => h; first exact: half.
by rewrite hM // half ?(ltnW h) // !mxE rmorph_sum; apply: eq_bigr => k _; rewrite !mxE rmorphM /= conjCK mulrC.
Qed.
Lemma det_T : \det T = \prod_(i < n) L i i.
Proof.
rewrite det_trig; last by apply/is_trig_mxP => a b ab; rewrite mxE leqNgt ab.
by apply: eq_bigr => i _; rewrite mxE leqnn.
Qed.
Lemma prod_gt0 : 0 < \prod_(i < n) L i i.
Proof. by apply: prodr_gt0 => i _; exact: (proj2 ch). Qed.
Lemma diag_detE : diag_det n L = \det (mxof n n M).
Proof.
rewrite chol_mx det_mulmx /ct det_map_mx det_tr det_T (CrealP (gtr0_real prod_gt0)) /diag_det for_prod mul1r prod_iota expr2 //.
Qed.
Lemma sqrt_diag_det : sqrtC (diag_det n L) = \prod_(i < n) L i i.
Proof. by rewrite /diag_det for_prod mul1r prod_iota sqrCK // ltW // prod_gt0. Qed.
Lemma chol_unit : mxof n n M \in unitmx.
Proof. by rewrite unitmxE -diag_detE unitfE /diag_det for_prod mul1r prod_iota expf_neq0 // gt_eqF // prod_gt0. Qed.
End Chol.
End LA.
