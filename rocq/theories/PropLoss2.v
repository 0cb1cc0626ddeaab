(** C47: loss and noise applied to every mode of a photon-number distribution. *)
From mathcomp Require Import all_ssreflect all_algebra zify.
From Verif Require Import Prelude PyBase ArrLoop SpecLoss MLoss PropLoss.
Set Implicit Arguments.
Unset Strict Implicit.
Unset Printing Implicit Defensive.
Import Order.TTheory GRing.Theory Num.Theory.
Local Open Scope ring_scope.

Section Upd.
Variable R : realFieldType.
Notation arr := (seq nat -> R).
Lemma in_shapeP n c (idx : seq nat) : reflect (size idx = n /\ forall i, (i < n)%N -> (nth 0%N idx i < c)%N) (in_shape (nseq n c) idx).
Proof.
apply: (iffP andP) => -[].
  rewrite size_nseq => /eqP sz; rewrite all2E sz size_nseq eqxx => /(all_nthP (0, 0)%N) h; split=> // i hi.
  have := h i; rewrite size_zip sz size_nseq minnn => /(_ hi); rewrite nth_zip ?size_nseq //= nth_nseq hi //.
move=> sz h; rewrite size_nseq sz eqxx; split=> //; rewrite all2E sz size_nseq eqxx /=.
apply/(all_nthP (0, 0)%N) => i; rewrite size_zip sz size_nseq minnn => hi; rewrite nth_zip ?size_nseq //= nth_nseq hi; exact: h.
Qed.
Lemma in_shape_set n c idx i (v : 'I_c) : (i < n)%N -> in_shape (nseq n c) idx -> in_shape (nseq n c) (set_nth 0%N idx i v).
Proof.
move=> hi /in_shapeP[sz h]; apply/in_shapeP; split; first by rewrite size_set_nth sz; apply/maxn_idPr.
by move=> a ha; rewrite nth_set_nth /=; case: eqP => // _; apply: h.
Qed.
Lemma step_ext n c i W W' (P P' : arr) idx : (i < n)%N -> in_shape (nseq n c) idx ->
  (forall v j, (v < c)%N -> (j < c)%N -> W v j = W' v j) -> (forall k, in_shape (nseq n c) k -> P k = P' k) ->
  step i c W P idx = step i c W' P' idx.
Proof.
move=> hi hx hW hP; apply: eq_bigr => v _; have [sz h] := in_shapeP _ _ _ hx.
by rewrite hW ?h // hP // in_shape_set.
Qed.
Lemma axes_ext n c W W' (P P' : arr) idx : in_shape (nseq n c) idx ->
  (forall i v j, (i < n)%N -> (v < c)%N -> (j < c)%N -> W i v j = W' i v j) -> (forall k, in_shape (nseq n c) k -> P k = P' k) ->
  axes W (nseq n c) P idx = axes W' (nseq n c) P' idx.
Proof.
move=> hx hW hP; apply: eq_sum_idx => k hk; rewrite hP //; congr (_ * _).
have [sz h] := in_shapeP _ _ _ hx; have [szk hk'] := in_shapeP _ _ _ hk.
by apply: eq_bigr => i _; have := ltn_ord i; rewrite [X in (_ < X)%N]size_nseq => hi; rewrite hW ?h ?hk'.
Qed.
Lemma foldM_steps n c (body : arr -> nat -> res arr) W (P : arr) t : (t <= n)%N ->
  (forall P i, (i < n)%N -> exists2 f, body P i = Ok f & forall idx, in_shape (nseq n c) idx -> f idx = step i c (W i) P idx) ->
  exists2 f, foldM body P (iota 0 t) = Ok f & forall idx, in_shape (nseq n c) idx -> f idx = for_ (iota 0 t) P (fun P i => step i c (W i) P) idx.
Proof.
move=> ht hb; elim: t ht => [|t IH] ht; first by exists P.
have [f hf fE] := IH (ltnW ht); have [g hg gE] := hb f t ht.
exists g.
  have fc (l1 l2 : seq nat) (p : arr) : foldM body p (l1 ++ l2) = bind (foldM body p l1) (fun q => foldM body q l2).
    by elim: l1 p => //= a l1 IHl p; case: (body p a).
  by rewrite -addn1 iotaD fc hf /= add0n hg.
move=> idx hx; rewrite gE // for_iotaS add0n; exact: (@step_ext n).
Qed.
Lemma einsum_step c i (lm : nat -> nat -> R) (P : arr) : (i < 9)%N ->
  exists2 f, einsum2 c [:: ch_i; ch_j] (rcons (alphabet i) ch_i) (rcons (alphabet i) ch_j) (fun ij => lm (nth 0%N ij 0) (nth 0%N ij 1)) P = Ok f
  & forall idx, (i < size idx)%N -> f idx = step i c lm P idx.
Proof.
move=> hi; have ea : alphabet i = iota 0 i by rewrite /alphabet (minn_idPl _) //; lia.
have ni : ch_i \notin rcons (iota 0 i) ch_j by rewrite mem_rcons in_cons mem_iota /ch_i /ch_j /= add0n -leqNgt.
have nj : ch_j \notin iota 0 i by rewrite mem_iota /ch_j /= add0n -leqNgt ltnW.
rewrite /einsum2 ea rcons_uniq nj iota_uniq /=.
have -> : all (fun l => l \in [:: ch_i, ch_j & rcons (iota 0 i) ch_i]) (rcons (iota 0 i) ch_j).
  by apply/allP => l; rewrite !inE !mem_rcons !inE => /orP[-> //|->]; rewrite ?orbT.
rewrite ni mem_rcons inE eqxx /=.
have fl : [seq l <- rcons (iota 0 i) ch_i | l \notin rcons (iota 0 i) ch_j] = [:: ch_i].
  rewrite filter_rcons ni; suff -> : [seq l <- iota 0 i | l \notin rcons (iota 0 i) ch_j] = [::] by [].
  by apply/eqP; rewrite -[_ == _]negbK -has_filter; apply/hasPn => l hl; rewrite mem_rcons inE hl orbT.
rewrite fl /=; eexists; first reflexivity; move=> idx hx; apply: eq_bigr => v _ /=.
have ij : index ch_j (rcons (iota 0 i) ch_j) = i by rewrite -cats1 index_cat (negbTE nj) /= addn0 size_iota.
rewrite ij; congr (_ * P _); rewrite map_rcons /= size_rcons size_iota.
apply: (@eq_from_nth _ 0%N) => [|a ha].
  by rewrite size_cat size_rcons size_map size_iota size_drop size_set_nth; lia.
rewrite nth_cat size_rcons size_map size_iota nth_set_nth /= nth_rcons size_map size_iota.
have [ai|ai] := ltnP a i.
  have -> : (a < i.+1)%N by lia.
  rewrite (nth_map 0%N) ?size_iota // nth_iota // add0n.
  have -> : (a == ch_i) = false by apply/eqP => e; move: ai hi; rewrite e /ch_i; lia.
  rewrite (ltn_eqF ai) -cats1 index_cat mem_iota /= add0n ai.
  by rewrite -{1}[a]add0n -(nth_iota 0 0 ai) index_uniq ?iota_uniq ?size_iota.
case: (a =P i) => [->|ne]; first by rewrite ltnSn.
have -> : (a < i.+1)%N = false by lia.
by rewrite nth_drop subnKC //; lia.
Qed.

(** C47: up to nine modes with equal cutoffs, each mode loses photons independently and binomially *)
Theorem update_loss_correct n c (etas : seq R) (P : arr) : size etas = n -> (0 < n <= 9)%N -> (0 < c)%N -> all (fun e => 0 <= e <= 1) etas ->
  exists2 Q, update_probabilities_with_loss etas (nseq n c) P = Ok Q &
    forall idx, in_shape (nseq n c) idx -> Q idx = loss_spec etas (nseq n c) P idx.
Proof.
move=> sz /andP[n0 n9] c0 ae; rewrite /update_probabilities_with_loss size_nseq sz eqxx /=.
case E : (nseq n c) => [|c' s']; first by move: (congr1 size E); rewrite size_nseq /= => e; move: n0; rewrite e.
have ec : c' = c by case: n n0 E {sz n9} => //= n _ [].
rewrite -E ec; pose W i := binom_loss (nth 0 etas i) : nat -> nat -> R.
have hb (p : arr) (i : nat) : (i < n)%N -> exists2 f, bind (loss_mat (nth 0 etas i) c) (fun lm =>
    if nth 0%N (nseq n c) i != c then Err ValueError else
    einsum2 c [:: ch_i; ch_j] (rcons (alphabet i) ch_i) (rcons (alphabet i) ch_j) (fun ij => lm (nth 0%N ij 0) (nth 0%N ij 1)) p) = Ok f
    & forall idx, in_shape (nseq n c) idx -> f idx = step i c (W i) p idx.
  move=> hi; have := all_nthP 0 ae i; rewrite sz => /(_ hi) he.
  have [L -> hL] := loss_mat_correct he c0; rewrite /= nth_nseq hi eqxx /=.
  have [f hf fE] := @einsum_step c i L p (leq_trans hi n9); exists f => // idx hx.
  by rewrite fE ?(@step_ext n c i L (W i) p p) //; have [-> _] := in_shapeP _ _ _ hx.
have [f hf fE] := foldM_steps P (leqnn n) hb; exists f => //.
move=> idx hx; rewrite fE // steps_axes; last by have [] := in_shapeP _ _ _ hx.
by rewrite /loss_spec /axes.
Qed.
Lemma loss_specE (etas : seq R) shape (P : arr) idx : loss_spec etas shape P idx = axes (fun i => binom_loss (nth 0 etas i)) shape P idx.
Proof. by []. Qed.
(** C47: no probability is lost and none becomes negative *)
Theorem update_loss_total n c (etas : seq R) (P Q : arr) : size etas = n -> (0 < n <= 9)%N -> (0 < c)%N -> all (fun e => 0 <= e <= 1) etas ->
  update_probabilities_with_loss etas (nseq n c) P = Ok Q -> sum_idx (nseq n c) Q = sum_idx (nseq n c) P.
Proof.
move=> sz hn c0 ae; have [Q' -> hQ] := update_loss_correct P sz hn c0 ae => -[<-].
rewrite (eq_sum_idx hQ) /=; apply: (@axes_total R (fun i => binom_loss (nth 0 etas i))) => i l; rewrite size_nseq nth_nseq => hi; rewrite hi; exact: binom_loss_total.
Qed.
Theorem update_loss_ge0 n c (etas : seq R) (P Q : arr) : size etas = n -> (0 < n <= 9)%N -> (0 < c)%N -> all (fun e => 0 <= e <= 1) etas ->
  (forall idx, in_shape (nseq n c) idx -> 0 <= P idx) ->
  update_probabilities_with_loss etas (nseq n c) P = Ok Q -> forall idx, in_shape (nseq n c) idx -> 0 <= Q idx.
Proof.
move=> sz hn c0 ae hP; have [Q' -> hQ] := update_loss_correct P sz hn c0 ae => -[<-] idx hx; rewrite hQ // /loss_spec.
have sge s (F : seq nat -> R) : (forall k, in_shape s k -> 0 <= F k) -> 0 <= sum_idx s F.
  elim: s F => [|d s IH] F h /=; first exact: h.
  by apply: sumr_ge0 => v _; apply: IH => k /andP[/eqP sk ak]; apply: h; rewrite /in_shape /= sk eqxx ltn_ord.
apply: sge => k hk; apply: mulr_ge0; last exact: hP.
apply: prodr_ge0 => i _; have := ltn_ord i; rewrite [X in (_ < X)%N]size_nseq => hi.
have := all_nthP 0 ae i; rewrite sz => /(_ hi)/andP[e0 e1]; rewrite /binom_loss.
by rewrite mulr_ge0 ?mulr_ge0 ?ler0n ?exprn_ge0 ?subr_ge0.
Qed.
(** C47: successive losses compose by multiplying the transmissions *)
Theorem update_loss_comp n c (etas etas' : seq R) (P Q : arr) : size etas = n -> size etas' = n -> (0 < n <= 9)%N -> (0 < c)%N ->
  all (fun e => 0 <= e <= 1) etas -> all (fun e => 0 <= e <= 1) etas' ->
  update_probabilities_with_loss etas (nseq n c) P = Ok Q ->
  exists Q1 Q2, [/\ update_probabilities_with_loss etas' (nseq n c) Q = Ok Q1,
    update_probabilities_with_loss [seq p.1 * p.2 | p <- zip etas etas'] (nseq n c) P = Ok Q2 &
    forall idx, in_shape (nseq n c) idx -> Q1 idx = Q2 idx].
Proof.
move=> sz sz' hn c0 ae ae'; have [Q' -> hQ] := update_loss_correct P sz hn c0 ae => -[<-].
have [Q1 -> hQ1] := update_loss_correct Q' sz' hn c0 ae'.
have szz : size [seq p.1 * p.2 | p <- zip etas etas'] = n by rewrite size_map size_zip sz sz' minnn.
have az : all (fun e => 0 <= e <= 1) [seq p.1 * p.2 | p <- zip etas etas'].
  rewrite all_map; apply/(all_nthP (0, 0)) => i; rewrite size_zip sz sz' minnn => hi; rewrite nth_zip ?sz ?sz' //=.
  have := all_nthP 0 ae i; rewrite sz => /(_ hi)/andP[a0 a1].
  have := all_nthP 0 ae' i; rewrite sz' => /(_ hi)/andP[b0 b1].
  by rewrite mulr_ge0 //= mulr_ile1.
have [Q2 -> hQ2] := update_loss_correct P szz hn c0 az; exists Q1, Q2; split=> // idx hx.
rewrite hQ1 // hQ2 // !loss_specE.
rewrite (@axes_ext n c _ (fun i => binom_loss (nth 0 etas' i)) Q' (axes (fun i => binom_loss (nth 0 etas i)) (nseq n c) P)) //.
rewrite axes_comp; apply: axes_ext => // i v j hi hv hj; rewrite nth_nseq hi binom_loss_comp //.
by rewrite (nth_map (0, 0)) ?size_zip ?sz ?sz' ?minnn // nth_zip ?sz ?sz'.
Qed.
Theorem update_loss_errors (etas : seq R) shape (P : arr) : size shape != size etas -> update_probabilities_with_loss etas shape P = Err ValueError.
Proof. by rewrite /update_probabilities_with_loss => ->. Qed.

(** *** noise *)
Lemma update_1dE (P : arr) one_d c idx : (0 < size idx)%N -> (nth 0%N idx 0 < c)%N ->
  update_1d P one_d c idx = \sum_(v < c) gain one_d v (nth 0%N idx 0) * P (val v :: behead idx).
Proof.
move=> s0 hc; rewrite /update_1d.
have inner (nd : arr) i t : for_ (iota 0 t) nd (fun (new_d : arr) j => fun idx => if nth 0%N idx 0 == i then new_d idx + P ((i - j)%N :: behead idx) * nth 0 one_d j else new_d idx) idx =
   if nth 0%N idx 0 == i then nd idx + \sum_(j < t) P ((i - j)%N :: behead idx) * nth 0 one_d j else nd idx.
  elim: t => [|t IH]; first by rewrite big_ord0 addr0; case: ifP.
  by rewrite for_iotaS add0n IH big_ord_recr /=; case: (nth 0%N idx 0 == i); rewrite ?addrA.
have outer t : for_ (iota 0 t) (fun=> 0) (fun (new_d : arr) i =>
    for_ (iota 0 (minn i.+1 (size one_d))) new_d (fun (new_d : arr) j => fun idx => if nth 0%N idx 0 == i then new_d idx + P ((i - j)%N :: behead idx) * nth 0 one_d j else new_d idx)) idx =
   if (nth 0%N idx 0 < t)%N then \sum_(j < minn (nth 0%N idx 0).+1 (size one_d)) P ((nth 0%N idx 0 - j)%N :: behead idx) * nth 0 one_d j else 0.
  elim: t => [|t IH] //; rewrite for_iotaS add0n inner IH; case: eqP => [->|/eqP ne]; first by rewrite ltnn ltnSn add0r.
  by rewrite [in RHS]ltnS [in RHS]leq_eqVlt (negbTE ne).
rewrite outer hc; set i := nth 0%N idx 0 in hc *.
have -> : \sum_(j < minn i.+1 (size one_d)) P ((i - j)%N :: behead idx) * one_d`_j = \sum_(j < i.+1) P ((i - j)%N :: behead idx) * one_d`_j.
  have le : (minn i.+1 (size one_d) <= i.+1)%N by rewrite geq_minl.
  rewrite (big_ord_widen _ (fun j => P ((i - j)%N :: behead idx) * one_d`_j) le) [RHS](bigID (fun j : 'I_i.+1 => (j < minn i.+1 (size one_d))%N)) /=.
  rewrite [X in _ = _ + X]big1 ?addr0 // => j; have hj := ltn_ord j => h.
  by rewrite nth_default ?mulr0 // leqNgt; apply: contra h => h; rewrite leq_min hj h.
rewrite [RHS](bigID (fun v : 'I_c => (v < i.+1)%N)) /= [X in _ = _ + X]big1 ?addr0 => [|v]; last by rewrite -leqNgt /gain => h; rewrite leqNgt h mul0r.
rewrite -(big_ord_widen _ (fun v => gain one_d v i * P (v :: behead idx)) hc) (reindex_inj rev_ord_inj) /=.
apply: eq_bigr => j _; have hj := ltn_ord j; rewrite /gain.
have o1 : (i - (i.+1 - j.+1) = j)%N by lia.
have o2 : (i.+1 - j.+1 = i - j)%N by lia.
have o3 : (j <= i)%N by lia.
by rewrite o1 o2 o3 mulrC.
Qed.
Lemma noise_step n c k one_d (P : arr) idx : (k < n)%N -> in_shape (nseq n c) idx ->
  transpose0 k (update_1d (transpose0 k P) one_d c) idx = step k c (gain one_d) P idx.
Proof.
move=> hk /in_shapeP[sz h]; rewrite {1}/transpose0; have n0 : (0 < n)%N by lia.
have s0 : size (swap0 k idx) = n by rewrite size_map size_iota.
have e0 : nth 0%N (swap0 k idx) 0 = nth 0%N idx k by rewrite (nth_map 0%N) ?size_iota ?sz // nth_iota ?sz.
rewrite update_1dE ?s0 ?e0 ?h // /step; apply: eq_bigr => v _; congr (_ * _); rewrite /transpose0; congr (P _).
have szv : size (val v :: behead (swap0 k idx)) = n by rewrite /= size_behead s0 prednK.
have nthv a : (a < n)%N -> nth 0%N (val v :: behead (swap0 k idx)) a = if a == 0%N then val v else nth 0%N idx (if a == k then 0%N else a).
  case: a => [|a] ha //=; rewrite nth_behead (nth_map 0%N) ?size_iota ?sz // nth_iota ?sz //.
apply: (@eq_from_nth _ 0%N) => [|a]; rewrite {1}/swap0 size_map size_iota szv ?size_set_nth ?sz.
  by apply/esym/maxn_idPr.
move=> ha; rewrite /swap0 (nth_map 0%N) ?size_iota ?szv // nth_iota ?szv // add0n -/(swap0 k idx) nthv; last first.
  by case: ifP => // _; case: ifP.
rewrite nth_set_nth /=; case: (a =P 0%N) => [->|a0].
  by case: (k =P 0%N) => [->|k0]; rewrite ?eqxx //; case: (0%N =P k) => [e|_] //; move: k0; rewrite -e.
case E : (a == k); first by [].
by rewrite E; case: (a =P 0%N).
Qed.
(** C47: with equal cutoffs, every mode is convolved with its own noise distribution *)
Theorem update_noise_correct n c (noise : seq (seq R)) (P : arr) : size noise = n -> (0 < n)%N ->
  exists2 Q, update_probabilities_with_noise noise (nseq n c) P = Ok Q &
    forall idx, in_shape (nseq n c) idx -> Q idx = noise_spec noise (nseq n c) P idx.
Proof.
move=> sz n0; rewrite /update_probabilities_with_noise size_nseq sz eqxx /=.
case E : (nseq n c) => [|c' s']; first by move: (congr1 size E); rewrite size_nseq /= => e; move: n0; rewrite e.
have ec : c' = c by case: n n0 E {sz} => //= n _ [].
rewrite -E ec; eexists; first reflexivity; move=> idx hx.
rewrite /noise_spec -[RHS]/(axes (fun i => gain (nth [::] noise i)) (nseq n c) P idx) -steps_axes; last by have [] := in_shapeP _ _ _ hx.
suff H t : (t <= n)%N -> forall idx, in_shape (nseq n c) idx ->
   for_ (iota 0 t) P (fun probs k => transpose0 k (update_1d (transpose0 k probs) (nth [::] noise k) c)) idx =
   for_ (iota 0 t) P (fun P i => step i c (gain (nth [::] noise i)) P) idx by apply: H.
clear idx hx; elim: t => [|t IH] ht idx hx //; rewrite !for_iotaS !add0n (@noise_step n c) //.
by apply: (@step_ext n) => // k hk; apply: IH => //; apply: ltnW.
Qed.
Theorem update_noise_errors (noise : seq (seq R)) shape (P : arr) : (0 < size shape)%N -> size shape != size noise ->
  update_probabilities_with_noise noise shape P = Err ValueError.
Proof. by case: shape => //= c s _ h; rewrite /update_probabilities_with_noise /= h. Qed.
End Upd.
