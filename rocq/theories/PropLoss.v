(** C47: photon loss and noise on photon-number distributions. *)
From mathcomp Require Import all_ssreflect all_algebra zify.
From Verif Require Import Prelude PyBase ArrLoop SpecLoss MLoss.
Set Implicit Arguments.
Unset Strict Implicit.
Unset Printing Implicit Defensive.
Import Order.TTheory GRing.Theory Num.Theory.
Local Open Scope ring_scope.

Section Idx.
Variable R : fieldType.
Notation sum_idx := (@sum_idx R).
Lemma eq_sum_idx s F G : (forall k, in_shape s k -> F k = G k) -> sum_idx s F = sum_idx s G.
Proof.
elim: s F G => [|c s IH] F G h /=; first exact: h.
by apply: eq_bigr => v _; apply: IH => k /andP[/eqP sk ak]; apply: h; rewrite /in_shape /= sk eqxx ltn_ord.
Qed.
Lemma sum_idx_rcons s c F : sum_idx (rcons s c) F = sum_idx s (fun k => \sum_(v < c) F (rcons k v)).
Proof. by elim: s F => [|d s IH] F //=; apply: eq_bigr => v _; rewrite IH. Qed.
Lemma sum_idx_mulr s F x : sum_idx s F * x = sum_idx s (fun k => F k * x).
Proof. by elim: s F => [|c s IH] F //=; rewrite mulr_suml; apply: eq_bigr => v _; rewrite IH. Qed.
Lemma sum_idx_mull s F x : x * sum_idx s F = sum_idx s (fun k => x * F k).
Proof. by rewrite mulrC sum_idx_mulr; apply: eq_sum_idx => k _; rewrite mulrC. Qed.
Lemma sum_idx_sum s c (F : nat -> seq nat -> R) : \sum_(v < c) sum_idx s (F v) = sum_idx s (fun k => \sum_(v < c) F v k).
Proof.
elim: s F => [|d s IH] F //=; rewrite exchange_big /=; apply: eq_bigr => v _.
exact: (IH (fun x k => F x (val v :: k))).
Qed.
Lemma sum_idx_exch s t (F : seq nat -> seq nat -> R) : sum_idx s (fun k => sum_idx t (F k)) = sum_idx t (fun l => sum_idx s (fun k => F k l)).
Proof.
elim: s F => [|c s IH] F //=; rewrite -(sum_idx_sum t c (fun v l => sum_idx s (fun k => F (v :: k) l))).
by apply: eq_bigr => v _; rewrite IH.
Qed.
Lemma sum_idx_prod s (f : nat -> nat -> R) : sum_idx s (fun k => \prod_(i < size s) f i (nth 0%N k i)) = \prod_(i < size s) \sum_(v < nth 0%N s i) f i v.
Proof.
elim: s f => [|c s IH] f /=; first by rewrite !big_ord0.
rewrite big_ord_recl /= mulr_suml; apply: eq_bigr => v _.
have -> : \prod_(i < size s) (\sum_(x < nth 0%N s i) f i.+1 x) = sum_idx s (fun k => \prod_(i < size s) f i.+1 (nth 0%N k i)) by rewrite (IH (fun i => f i.+1)).
by rewrite sum_idx_mull; apply: eq_sum_idx => k _; rewrite big_ord_recl.
Qed.
(** maps acting on each axis separately *)
Definition axes (W : nat -> nat -> nat -> R) (shape : seq nat) (P : seq nat -> R) (idx : seq nat) : R :=
  sum_idx shape (fun k => (\prod_(i < size shape) W i (nth 0%N k i) (nth 0%N idx i)) * P k).
Lemma axes_comp W W' shape P idx : axes W' shape (axes W shape P) idx =
  axes (fun i l j => \sum_(v < nth 0%N shape i) W i l v * W' i v j) shape P idx.
Proof.
rewrite /axes.
have -> : sum_idx shape (fun k => (\prod_(i < size shape) W' i (nth 0%N k i) (nth 0%N idx i)) *
   sum_idx shape (fun l => (\prod_(i < size shape) W i (nth 0%N l i) (nth 0%N k i)) * P l)) =
   sum_idx shape (fun k => sum_idx shape (fun l => (\prod_(i < size shape) (W i (nth 0%N l i) (nth 0%N k i) * W' i (nth 0%N k i) (nth 0%N idx i))) * P l)).
  apply: eq_sum_idx => k _; rewrite sum_idx_mull; apply: eq_sum_idx => l _; rewrite big_split /= mulrA.
  by congr (_ * _); rewrite mulrC.
rewrite sum_idx_exch; apply: eq_sum_idx => l _; rewrite -sum_idx_mulr; congr (_ * _).
by rewrite -(sum_idx_prod shape (fun i v => W i (nth 0%N l i) v * W' i v (nth 0%N idx i))).
Qed.
Lemma axes_total (W : nat -> nat -> nat -> R) shape P : (forall i l, (i < size shape)%N -> (l < nth 0%N shape i)%N -> \sum_(j < nth 0%N shape i) W i l j = 1) ->
  sum_idx shape (axes W shape P) = sum_idx shape P.
Proof.
move=> h; rewrite /axes sum_idx_exch; apply: eq_sum_idx => l /andP[/eqP sl al]; rewrite -sum_idx_mulr.
rewrite (sum_idx_prod shape (fun i v => W i (nth 0%N l i) v)) big1 ?mul1r // => i _; apply: h => //.
by move: al; rewrite all2E => /andP[_ /(all_nthP (0, 0)%N) /(_ i)]; rewrite size_zip sl minnn => /(_ (ltn_ord i)); rewrite nth_zip.
Qed.
(** one axis *)
Definition step (i c : nat) (W : nat -> nat -> R) (P : seq nat -> R) (idx : seq nat) : R :=
  \sum_(v < c) W v (nth 0%N idx i) * P (set_nth 0%N idx i v).
Lemma steps_axes n c (W : nat -> nat -> nat -> R) P idx : size idx = n ->
  for_ (iota 0 n) P (fun P i => step i c (W i) P) idx = axes W (nseq n c) P idx.
Proof.
move=> sz; rewrite /axes size_nseq.
suff H t : (t <= n)%N -> forall idx, size idx = n -> for_ (iota 0 t) P (fun P i => step i c (W i) P) idx =
   sum_idx (nseq t c) (fun k => (\prod_(i < t) W i (nth 0%N k i) (nth 0%N idx i)) * P (k ++ drop t idx)).
  by rewrite H //; apply: eq_sum_idx => k _; rewrite drop_oversize ?sz // cats0.
clear idx sz; elim: t => [|t IH] ht idx sz; first by rewrite /= big_ord0 mul1r drop0.
have e : nseq t.+1 c = rcons (nseq t c) c by clear; elim: t => //= t ->.
rewrite for_iotaS add0n /step e sum_idx_rcons.
transitivity (\sum_(v < c) W t v (nth 0%N idx t) * sum_idx (nseq t c) (fun k => (\prod_(i < t) W i (nth 0%N k i) (nth 0%N idx i)) * P (rcons k v ++ drop t.+1 idx))).
  apply: eq_bigr => v _; rewrite IH ?size_set_nth ?sz //; [|by lia|by apply/maxn_idPr].
  congr (_ * _); apply: eq_sum_idx => k _.
  have -> : drop t (set_nth 0%N idx t v) = val v :: drop t.+1 idx.
    apply: (@eq_from_nth _ 0%N) => [|a _]; first by rewrite /= !size_drop size_set_nth sz; lia.
    rewrite nth_drop nth_set_nth /=; case: a => [|a]; first by rewrite addn0 eqxx.
    by rewrite /= nth_drop -[X in _ == X]addn0 eqn_add2l addnS.
  rewrite cat_rcons; congr (_ * _); apply: eq_bigr => i _; congr (W _ _ _).
  by rewrite nth_set_nth /= (ltn_eqF (ltn_ord i)).
have -> : sum_idx (nseq t c) (fun k => \sum_(v < c) (\prod_(i < t.+1) W i (nth 0%N (rcons k v) i) (nth 0%N idx i)) * P (rcons k v ++ drop t.+1 idx)) =
  sum_idx (nseq t c) (fun k => \sum_(v < c) W t v (nth 0%N idx t) * ((\prod_(i < t) W i (nth 0%N k i) (nth 0%N idx i)) * P (rcons k v ++ drop t.+1 idx))).
  apply: eq_sum_idx => k /andP[/eqP sk _]; rewrite size_nseq in sk; apply: eq_bigr => v _.
  rewrite big_ord_recr /= nth_rcons sk ltnn eqxx mulrA [W t v _ * _]mulrC; congr (_ * _ * _).
  by apply: eq_bigr => i _; rewrite nth_rcons sk ltn_ord.
rewrite -(sum_idx_sum _ c (fun v k => W t v (nth 0%N idx t) * ((\prod_(i < t) W i (nth 0%N k i) (nth 0%N idx i)) * P (rcons k v ++ drop t.+1 idx)))); apply: eq_bigr => v _; by rewrite sum_idx_mull.
Qed.
End Idx.

Section Loss.
Variable R : realFieldType.
Notation arr := (seq nat -> R).
Lemma binom_loss_gt (eta : R) i j : (i < j)%N -> binom_loss eta i j = 0.
Proof. by move=> h; rewrite /binom_loss bin_small // !mul0r. Qed.
Lemma binom_loss1 i j : binom_loss (1 : R) i j = (i == j)%:R.
Proof.
rewrite /binom_loss subrr expr1n mulr1; case: (ltngtP i j) => h.
- by rewrite bin_small // mul0r.
- by rewrite expr0n subn_eq0 leqNgt h mulr0.
- by rewrite h binn subnn expr0 mul1r.
Qed.
Lemma binom_loss_rec (eta : R) i j : eta != 1 -> (0 < j <= i)%N ->
  binom_loss eta i (j - 1) * (eta / (1 - eta)) * (i - j + 1)%:R / j%:R = binom_loss eta i j.
Proof.
move=> e1 /andP[j0 ji]; case: j j0 ji => // j _ ji; rewrite /binom_loss.
have o1 : (j.+1 - 1 = j)%N by lia.
have o2 : (i - j.+1 + 1 = i - j)%N by lia.
have o3 : (i - j = (i - j.+1).+1)%N by lia.
have mu0 : 1 - eta != 0 by rewrite subr_eq0 eq_sym.
have jn : j.+1%:R != 0 :> R by rewrite pnatr_eq0.
have := congr1 (fun x : nat => x%:R : R) (mul_bin_left i j); rewrite !natrM => hb.
have hx : (1 - eta) ^+ (i - j) = (1 - eta) * (1 - eta) ^+ (i - j.+1) by rewrite o3 exprS.
rewrite o1 o2 hx exprS; apply: (mulIf jn); rewrite mulfVK //.
rewrite [RHS](_ : _ = (j.+1%:R * 'C(i, j.+1)%:R) * (eta * eta ^+ j) * (1 - eta) ^+ (i - j.+1)); last by move: (eta ^+ j) ('C(i, j.+1)%:R) (j.+1%:R) ((1 - eta) ^+ _) => a b d x; rring.
rewrite hb.
set X := 'C(i, j)%:R; set Y := (i - j)%:R; set Z := eta ^+ j; set W := (1 - eta) ^+ _; set m := 1 - eta in mu0 *.
have -> : X * Z * (m * W) * (eta / m) * Y = X * Z * W * (m * m^-1) * eta * Y by rring.
by rewrite divff // mulr1; rring.
Qed.
Lemma loss_mat_correct (eta : R) c : 0 <= eta <= 1 -> (0 < c)%N ->
  exists2 L, loss_mat eta c = Ok L & forall i j, (i < c)%N -> (j < c)%N -> L i j = binom_loss eta i j.
Proof.
move=> /andP[e0 e1] c0; rewrite /loss_mat ltNge e0 ltNge e1 /=; case: eqP => [->|/eqP ne].
  by eexists; first reflexivity; move=> i j _ _; rewrite binom_loss1.
rewrite gtn_eqF //; eexists; first reflexivity.
set lm0 := fun i j => _; set inner := fun lm i => for_ _ _ _.
have innerE lm i a b : inner lm i a b = if (a == i) && (0 < b <= i)%N then
    for_ (pyrange 1 (i + 1)) lm (fun lm j => upd2 lm i j (lm i (j - 1)%N * (eta / (1 - eta)) * (i - j + 1)%:R / j%:R)) a b else lm a b.
  case: ifP => // /negbT h; rewrite /inner /pyrange addn1 subn1 /=.
  suff H t : (t <= i)%N -> for_ (iota 1 t) lm (fun lm j => upd2 lm i j (lm i (j - 1)%N * (eta / (1 - eta)) * (i - j + 1)%:R / j%:R)) a b = lm a b by apply: H.
  elim: t => [|t IH] ht //; rewrite for_iotaS /upd2 add1n.
  move: IH h; case: (a =P i) => [->|_] /= IH h; last by apply: IH; apply: ltnW.
  by move: h; case: (b =P t.+1) => [->|_ _]; [rewrite ht|apply: IH; apply: ltnW].
have row lm i : (forall b, lm i b = lm0 i b) -> forall b, inner lm i i b = binom_loss eta i b.
  move=> h b; rewrite /inner /pyrange addn1 subn1 /=.
  suff H t : (t <= i)%N -> forall b, for_ (iota 1 t) lm (fun lm j => upd2 lm i j (lm i (j - 1)%N * (eta / (1 - eta)) * (i - j + 1)%:R / j%:R)) i b =
     if (b <= t)%N then binom_loss eta i b else 0.
    by rewrite H //; case: leqP => // hb; rewrite binom_loss_gt.
  clear b; elim: t => [|t IH] ht b.
    by rewrite [LHS]h /lm0 leqn0; case: eqP => // ->; rewrite /binom_loss bin0 expr0 !mul1r subn0.
  rewrite for_iotaS /upd2 add1n eqxx /=; case: (b =P t.+1) => [->|ne'].
    rewrite IH ?(ltnW ht) // leqnn; have -> : (t.+1 - 1 <= t)%N by lia.
    by rewrite binom_loss_rec.
  by rewrite IH ?(ltnW ht) //; congr (if _ then _ else _); lia.
suff H t : forall i j, for_ (iota 0 t) lm0 inner i j = if (i < t)%N then binom_loss eta i j else lm0 i j.
  by move=> i j hi _; rewrite H hi.
elim: t => [|t IH] i j //; rewrite for_iotaS add0n; case: (i =P t) => [->|ne'].
  by rewrite ltnSn row // => b; rewrite IH ltnn.
rewrite innerE; have -> : (i == t) = false by apply/eqP.
by rewrite /= IH; congr (if _ then _ else _); lia.
Qed.
Lemma loss_mat_errors (eta : R) c : (eta < 0) || (1 < eta) -> loss_mat eta c = Err ValueError.
Proof. by rewrite /loss_mat => ->. Qed.
(** loss matrices compose multiplicatively and their rows add up to one *)
Lemma binom_loss_comp (e1 e2 : R) c l j : (l < c)%N -> \sum_(v < c) binom_loss e1 l v * binom_loss e2 v j = binom_loss (e1 * e2) l j.
Proof.
move=> lc; case: (ltnP l j) => lj.
  rewrite binom_loss_gt // big1 // => v _; case: (ltnP l v) => h; first by rewrite binom_loss_gt ?mul0r.
  by rewrite [X in _ * X]binom_loss_gt ?mulr0 // (leq_ltn_trans h).
rewrite -(big_mkord xpredT (fun v => binom_loss e1 l v * binom_loss e2 v j)) (@big_cat_nat _ _ _ j) /=; [|by []|by lia].
rewrite big_nat big1 ?add0r => [|v /andP[_ h]]; last by rewrite [X in _ * X]binom_loss_gt ?mulr0.
rewrite (@big_cat_nat _ _ _ l.+1) /=; [|by lia|by []].
rewrite [X in _ + X]big_nat [X in _ + X]big1 ?addr0 => [|v /andP[h _]]; last by rewrite binom_loss_gt ?mul0r.
have o1 : (l.+1 = (l - j).+1 + j)%N by lia.
rewrite o1 -{1}[j]add0n big_addn addnK big_mkord.
have -> : \sum_(i < (l - j).+1) binom_loss e1 l (i + j) * binom_loss e2 (i + j) j =
   \sum_(i < (l - j).+1) ('C(l, j)%:R * (e1 * e2) ^+ j) * (((1 - e1) ^+ (l - j - i) * (e1 * (1 - e2)) ^+ i) *+ 'C(l - j, i)).
  apply: eq_bigr => i _; have hi := ltn_ord i; rewrite /binom_loss.
  have o2 : (i + j - j = i)%N by lia.
  have o3 : (l - (i + j) = l - j - i)%N by lia.
  have := congr1 (fun x : nat => x%:R : R) (mul_bin_down l (i + j)) => _.
  have hb : ('C(l, i + j) * 'C(i + j, j) = 'C(l, j) * 'C(l - j, i))%N.
    have f0 : (0 < j`! * (i`! * (l - j - i)`!))%N by rewrite !muln_gt0 !fact_gt0.
    apply/eqP; rewrite -(eqn_pmul2r f0); apply/eqP.
    have b1 := @bin_fact l (i + j) ltac:(lia). have b2 := @bin_fact (i + j) j ltac:(lia).
    have b3 := @bin_fact l j ltac:(lia). have b4 := @bin_fact (l - j) i ltac:(lia).
    rewrite o3 in b1; rewrite o2 in b2.
    transitivity l`!; first by rewrite -b1 -b2; clear; lia.
    by rewrite -b3 -b4; clear; lia.
  rewrite o2 o3 exprD !exprMn -[X in _ = _ * X]mulr_natr.
  have -> : 'C(l, i + j)%:R * (e1 ^+ i * e1 ^+ j) * (1 - e1) ^+ (l - j - i) * ('C(i + j, j)%:R * e2 ^+ j * (1 - e2) ^+ i) =
    ('C(l, i + j)%:R * 'C(i + j, j)%:R) * (e1 ^+ j * e2 ^+ j) * ((1 - e1) ^+ (l - j - i) * (e1 ^+ i * (1 - e2) ^+ i)).
    by move: (e1 ^+ i) (e1 ^+ j) (e2 ^+ j) (_ ^+ _) (_ ^+ _) => a b d x y; rring.
  rewrite -natrM hb natrM.
  by move: (e1 ^+ i) (e1 ^+ j) (e2 ^+ j) (_ ^+ _) (_ ^+ _) => a b d x y; rring.
rewrite -mulr_sumr -exprDn /binom_loss; congr (_ * _ ^+ _); rring.
Qed.
Lemma binom_loss_total (eta : R) c l : (l < c)%N -> \sum_(j < c) binom_loss eta l j = 1.
Proof.
move=> lc; rewrite (eq_bigr (fun j : 'I_c => binom_loss eta l j * binom_loss 0 j 0)).
  by rewrite binom_loss_comp // mulr0 /binom_loss bin0 expr0 !mul1r subr0 expr1n.
by move=> j _; rewrite [X in _ * X]/binom_loss bin0 expr0 !mul1r subr0 expr1n mulr1.
Qed.
End Loss.
