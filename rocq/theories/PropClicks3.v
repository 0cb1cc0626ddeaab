(** C60: click cumulants. *)
From mathcomp Require Import all_ssreflect all_algebra zify fingroup perm.
From Verif Require Import Prelude PyBase ArrLoop SpecHaf MPowerHaf MHafnian PropHafnian SpecSymp MSymplectic PropSymplectic PropSymp2 PropGates PropChannels PropConversions MPermanent PropPerm2 SpecTor SpecThr MTor PropTor PropTor2 PropTor3 PropTor4 PropTor5 PropThr PropThr2 PropThr3 PropThr4 PropThr5 MPartition PropPartition MClicks PropClicks PropMeans4 PropMarg2.
Set Implicit Arguments.
Unset Strict Implicit.
Unset Printing Implicit Defensive.
Import Order.TTheory GRing.Theory Num.Theory.
Local Open Scope ring_scope.

Section Top.
Variable C : numClosedFieldType.
Notation mat := (nat -> nat -> C).
Notation vec := (nat -> C).
Variable sched : nat -> seq nat.
Hypothesis sched_ok : forall n, perm_eq (sched n) (iota 0 n).
Variable cholesky : nat -> mat -> res mat.
Variable exp : C -> C.
Hypothesis ch_ok : chol_ok cholesky.
Hypothesis e_ok : exp_ok exp.

Section State.
Variables (N : nat) (mu : vec) (cov : mat) (hbar atol rtol : C).
Hypothesis rs : real_sym (2 * N) cov.
Hypothesis ps : possemi (2 * N) cov.
Hypothesis h0 : 0 < hbar.
Hypothesis small : forall i, (i < 2 * N)%N -> close rtol atol (mu i) 0 -> mu i = 0.
Let rh : hbar \is Num.real. Proof. exact: gtr0_real. Qed.
Let Q := Qmat N cov hbar.
Let v := @vacuum_overlap C exp N (alpha_of N mu hbar) (fun i j => (Q i j)^*).

(** the overlap on a list of modes *)
Definition vol (l : seq nat) : C :=
  let r := rowsl N l in
  exp (- 2%:R^-1 * quad (fun i j => (Q i j)^*) (fun i => (alpha_of N mu hbar i)^*) (2 * size l) r) / sqrtC (\det (mxof (2 * size l) (2 * size l) (ix (fun i j => (Q i j)^*) r))).
Lemma size_rowsl l : size (rowsl N l) = (2 * size l)%N. Proof. by rewrite size_cat size_map mul2n addnn. Qed.
Lemma v_vol (T : {set 'I_N}) l : perm_eq l (set_modes T) -> v T = vol l.
Proof.
move=> p; have pr : perm_eq (rowsl N l) (set_rows T) by rewrite /rowsl /set_rows perm_cat // perm_map.
have s2 : size (set_rows T) = (2 * size l)%N by rewrite -(perm_size pr) size_rowsl.
have hQ := herm_conj (Qmat_hermitian rs h0); have pQ := pos_conj (Qmat_hermitian rs h0) (Qmat_posdef rs h0 ps).
have d0 := detQ_gt0 hQ pQ T.
rewrite /vol (det_ix_perm _ (size_rowsl l) s2 pr) (quad_perm _ (size_rowsl l) s2 pr); last first.
  by rewrite unitmxE unitfE -s2 -submxE gt_eqF.
rewrite /v /vacuum_overlap /quad -s2 -!submxE; congr (exp (_ * (_ *m _ *m _) _ _) / _).
by apply/matrixP => i j; rewrite !mxE conjCK.
Qed.

Section Sub.
Variable w : seq nat.
Hypothesis uw : uniq w.
Hypothesis aw : all (fun m => m < N)%N w.
Variables (mu' : vec) (cov' : mat).
Let k := size w.
Hypothesis em : forall a, (a < 2 * k)%N -> mu' a = mu (nth 0%N (rowsl N w) a).
Hypothesis ec : forall a b, (a < 2 * k)%N -> (b < 2 * k)%N -> cov' a b = cov (nth 0%N (rowsl N w) a) (nth 0%N (rowsl N w) b).
Lemma row_lo a : (a < k)%N -> nth 0%N (rowsl N w) a = nth 0%N w a.
Proof. by move=> h; rewrite nth_cat h. Qed.
Lemma row_hi a : (a < k)%N -> nth 0%N (rowsl N w) (k + a) = (N + nth 0%N w a)%N.
Proof. by move=> h; rewrite nth_cat ltnNge leq_addr /= addKn (nth_map 0%N). Qed.
Lemma w_lt a : (a < k)%N -> (nth 0%N w a < N)%N.
Proof. by move=> h; apply: (allP aw); exact: mem_nth. Qed.
Lemma rs' : real_sym (2 * k) cov'.
Proof.
move=> i j hi hj; rewrite !ec //; apply: rs.
  have : (i < size (rowsl N w))%N by rewrite size_rowsl.
  by move=> /(mem_nth 0%N); move: (nth _ _ _) => x; rewrite mem_cat => /orP[/(allP aw)|/mapP[y /(allP aw) h ->]]; lia.
have : (j < size (rowsl N w))%N by rewrite size_rowsl.
by move=> /(mem_nth 0%N); move: (nth _ _ _) => x; rewrite mem_cat => /orP[/(allP aw)|/mapP[y /(allP aw) h ->]]; lia.
Qed.
Lemma Q_sub a b : (a < 2 * k)%N -> (b < 2 * k)%N -> Qmat k cov' hbar a b = Q (nth 0%N (rowsl N w) a) (nth 0%N (rowsl N w) b).
Proof.
have sp c : (c < 2 * k)%N -> exists2 c', (c' < k)%N & (c = c' \/ c = (k + c')%N).
  by move=> hc; case: (ltnP c k) => h; [exists c; [|left]|exists (c - k)%N; [|right]]; lia.
move=> /sp[a' ha ea] /sp[b' hb eb].
have [_ q1 q2 q3 q4] := Qmat_parts rs' rh ha hb.
have [_ r1 r2 r3 r4] := Qmat_parts rs rh (w_lt ha) (w_lt hb).
have ne : (a' == b') = (nth 0%N w a' == nth 0%N w b') by rewrite nth_uniq.
have l1 : (a' < 2 * k)%N by lia. have l2 : (b' < 2 * k)%N by lia.
have l3 : (k + a' < 2 * k)%N by lia. have l4 : (k + b' < 2 * k)%N by lia.
by case: ea eb => -> [] ->; rewrite ?(row_hi ha) ?(row_hi hb) ?(row_lo ha) ?(row_lo hb) /Q (q1, q2, q3, q4) (r1, r2, r3, r4) !ec // (row_hi ha) (row_hi hb) (row_lo ha) (row_lo hb) ?ne.
Qed.
Lemma alpha_sub a : (a < 2 * k)%N -> alpha_of k mu' hbar a = alpha_of N mu hbar (nth 0%N (rowsl N w) a).
Proof.
move=> ha; case: (ltnP a k) => h.
  have l1 : (k + a < 2 * k)%N by lia.
  by rewrite row_lo // /alpha_of h (w_lt h) !em // (row_lo h) (row_hi h).
have e : a = (k + (a - k))%N by lia. have h' : (a - k < k)%N by lia.
have l1 : (a - k < 2 * k)%N by lia. have l2 : (k + (a - k) < 2 * k)%N by lia.
by rewrite e (row_hi h') /alpha_of !ltnNge !leq_addr /= !addKn !em // (row_lo h') (row_hi h').
Qed.
Lemma set_modes_ltk (T : {set 'I_k}) i : i \in set_modes T -> (i < k)%N.
Proof. by move=> /mapP[y _ ->]; exact: ltn_ord. Qed.
Lemma rows_sub' (T : {set 'I_k}) : rowsl N [seq nth 0%N w i | i <- set_modes T] = [seq nth 0%N (rowsl N w) i | i <- set_rows T].
Proof.
rewrite /set_rows /rowsl map_cat -!map_comp; congr (_ ++ _); apply/eq_in_map => i iT; have h : (i < k)%N := ltn_ord i; rewrite /=.
  by rewrite row_lo.
by rewrite row_hi.
Qed.
Lemma v_sub (T : {set 'I_k}) : vacuum_overlap exp (alpha_of k mu' hbar) (fun i j => (Qmat k cov' hbar i j)^*) T = vol [seq nth 0%N w i | i <- set_modes T].
Proof.
rewrite /vol size_map; have -> : (2 * size (set_modes T))%N = size (set_rows T) by rewrite size_cat size_map mul2n addnn.
have lt (i : 'I_(size (set_rows T))) : (nth 0%N (set_rows T) i < 2 * k)%N by apply: (allP (set_rows_lt T)); exact: mem_nth.
have Es : submx (fun i j => (Qmat k cov' hbar i j)^*) (set_rows T) = mxof (size (set_rows T)) (size (set_rows T)) (ix (fun i j => (Q i j)^*) (rowsl N [seq nth 0%N w i | i <- set_modes T])).
  by apply/matrixP => i j; rewrite !mxE Q_sub // /ix rows_sub' !(nth_map 0%N).
rewrite /vacuum_overlap Es /quad; congr (exp (_ * (_^T *m _ *m _) _ _) / _).
  by apply/matrixP => i j; rewrite !mxE rows_sub' (nth_map 0%N) // alpha_sub.
by apply/matrixP => i j; rewrite !mxE conjCK rows_sub' (nth_map 0%N) // alpha_sub.
Qed.

Lemma fset_lt (i : 'I_k) : (nth 0%N w i < N)%N. Proof. exact: w_lt. Qed.
Definition fmode (i : 'I_k) : 'I_N := Ordinal (fset_lt i).
Lemma fmode_inj : injective fmode.
Proof. by move=> i j /(congr1 val) /eqP /=; rewrite nth_uniq // => /eqP /val_inj. Qed.
Lemma v_image (T : {set 'I_k}) : vol [seq nth 0%N w i | i <- set_modes T] = v (fmode @: T).
Proof.
apply/esym/v_vol; apply: uniq_perm.
- rewrite /set_modes -map_comp (eq_map (f2 := fun i => val (fmode i))) // map_inj_uniq ?enum_uniq //.
  by move=> i j /val_inj/fmode_inj.
- by rewrite map_inj_uniq ?enum_uniq //; exact: val_inj.
move=> x; apply/mapP/mapP => [[y /mapP[i iT ->] ->]|[y]].
  by rewrite mem_enum in iT; exists (fmode i); rewrite // mem_enum imset_f.
rewrite mem_enum => /imsetP[i iT ->] ->; exists (val i) => //; apply: map_f; by rewrite mem_enum.
Qed.
Lemma small' : all (fun i => close rtol atol (mu' i) 0) (iota 0 (2 * k)) -> forall i, (i < 2 * k)%N -> mu' i = 0.
Proof.
move=> /allP h i hi; have := h i; rewrite mem_iota hi em // => /(_ isT); apply: small.
have : (i < size (rowsl N w))%N by rewrite size_rowsl.
by move=> /(mem_nth 0%N); move: (nth _ _ _) => x; rewrite mem_cat => /orP[/(allP aw)|/mapP[y /(allP aw) hy ->]]; lia.
Qed.
Lemma ps' : possemi (2 * k) cov'.
Proof.
apply: possemi_ext (sub_possemi ps uw aw) => i j hi hj; rewrite ec //.
Qed.
(** the probability that all modes of the list click *)
Lemma click_all : threshold_detection_prob sched cholesky exp k mu' cov' (nseq k 1%N) hbar atol rtol =
  Ok (\sum_(D : {set 'I_N} | [set i : 'I_N | val i \in w] \subset D) exactly v D).
Proof.
have <- : pattern (setT : {set 'I_k}) = nseq k 1%N.
  apply: (@eq_from_nth _ 0%N); rewrite ?size_pattern ?size_nseq // => i hi.
  by rewrite nth_nseq hi /pattern (nth_map (Ordinal hi)) ?size_enum_ord // inE.
rewrite (threshold_detection_prob_correct sched_ok ch_ok e_ok rs' ps' h0 small'); congr Ok.
rewrite exactly_clicked /exactly (eq_bigl xpredT) => [|Z]; last by rewrite subsetT.
have inj2 : injective (fun T : {set 'I_k} => fmode @: T) := imset_inj fmode_inj.
have wE : [set i : 'I_N | val i \in w] = fmode @: [set: 'I_k].
  apply/setP => x; rewrite inE; apply/idP/imsetP => [xw|[i _ ->]]; last by rewrite /= mem_nth.
  have hi : (index (val x) w < k)%N by rewrite index_mem.
  by exists (Ordinal hi) => //; apply: val_inj; rewrite /= nth_index.
rewrite (reindex_inj (@setC_inj _)) /= (eq_bigr (fun T : {set 'I_k} => (-1) ^+ #|fmode @: T| * v (fmode @: T))) => [|T _]; last first.
  by rewrite setCK v_sub v_image card_imset; [rewrite cardsT -cardsCs|exact: fmode_inj].
rewrite [RHS](eq_bigl (fun T => T \in [set fmode @: (T' : {set 'I_k}) | T' : {set 'I_k} in [set: {set 'I_k}]])).
  by rewrite big_imset /= => [|? ? _ _ /inj2 //]; apply: eq_bigl => T; rewrite inE.
move=> T; apply/idP/imsetP => [TS|[T' _ ->]]; last by rewrite wE imsetS ?subsetT.
exists (fmode @^-1: T) => //; apply/setP => x; apply/idP/imsetP => [xT|[i]]; last by rewrite inE => h ->.
have := subsetP TS _ xT; rewrite wE => /imsetP[i _ e]; exists i => //; by rewrite inE -e.
Qed.
End Sub.

(** C60: the click cumulant of the listed modes (with repetitions), in terms of the pattern probabilities *)
Variable order : seq nat -> seq nat.
Hypothesis order_ok : forall s, perm_eq (order s) (undup s).
Lemma click_block B : all (fun k => k < N)%N B ->
  bind (reduced_gaussian N mu cov (order B)) (fun mc => let: (mu_red, cov_red) := mc in
    threshold_detection_prob sched cholesky exp (size (order B)) mu_red cov_red (nseq (size (order B)) 1%N) hbar atol rtol) =
  Ok (\sum_(D : {set 'I_N} | all (fun m => m \in set_modes D) B) exactly v D).
Proof.
move=> hB; have p := order_ok B; have uo : uniq (order B) by rewrite (perm_uniq p) undup_uniq.
have mo : order B =i B by move=> x; rewrite (perm_mem p) mem_undup.
have ao : all (fun m => m < N)%N (order B) by apply/allP => x; rewrite mo; exact: (allP hB).
have sE (w : seq nat) : w =i B -> \sum_(D : {set 'I_N} | [set i : 'I_N | val i \in w] \subset D) exactly v D = \sum_(D : {set 'I_N} | all (fun m => m \in set_modes D) B) exactly v D.
  move=> mw; apply: eq_bigl => D; apply/subsetP/allP => [h m mB|h i].
    by apply/mapP; exists (Ordinal (allP hB _ mB)); rewrite // mem_enum; apply: h; rewrite inE mw.
  by rewrite inE mw => /h/mapP[j]; rewrite mem_enum => jD /val_inj ->.
have hh : has (fun m => N < m)%N (order B) = false.
  by apply/negbTE/hasPn => x /(allP ao) h; rewrite -leqNgt ltnW.
rewrite /reduced_gaussian hh; case: (size (order B) =P N) => [e|_] /=.
  have m2 : iota 0 N =i B.
    have sub : {subset order B <= iota 0 N} by move=> x /(allP ao); rewrite mem_iota.
    have [_ h] := uniq_min_size uo sub (eq_leq (esym (etrans e (esym (size_iota 0 N))))).
    by move=> x; rewrite -h mo.
  have r0 a : (a < 2 * N)%N -> nth 0%N (rowsl N (iota 0 N)) a = a.
    move=> ha; rewrite nth_cat size_iota; case: ltnP => h; first by rewrite nth_iota.
    by rewrite (nth_map 0%N) ?size_iota ?nth_iota; lia.
  rewrite -(sE (iota 0 N)) // e -[in LHS](size_iota 0 N); apply: click_all; rewrite ?iota_uniq ?size_iota //.
  - by apply/allP => x; rewrite mem_iota.
  - by move=> a ha; rewrite r0.
  by move=> a b ha hb; rewrite !r0.
have ha : all (fun i => i < 2 * N)%N (order B ++ [seq (m + N)%N | m <- order B]).
  by rewrite all_cat all_map; apply/andP; split; apply/allP => x /(allP ao) /=; lia.
have rE : order B ++ [seq (m + N)%N | m <- order B] = rowsl N (order B) by rewrite /rowsl; congr (_ ++ _); apply: eq_map => x; rewrite addnC.
by rewrite /take_modes ha rE /= -(sE (order B)) // click_all.
Qed.
Theorem click_cumulant_correct modes : modes <> [::] -> all (fun k => k < N)%N modes ->
  exists2 p : {set 'I_N} -> C,
    (forall D, threshold_detection_prob sched cholesky exp N mu cov (pattern D) hbar atol rtol = Ok (p D)) &
    click_cumulant sched cholesky exp order N mu cov modes hbar atol rtol =
    Ok (\sum_(P : {set {set 'I_(size modes)}} | finset.partition P [set: 'I_(size modes)])
          (-1) ^+ (#|P| - 1) * ((#|P| - 1)`!)%:R *
          \prod_(B in P) \sum_(D : {set 'I_N} | [forall i in B, nth 0%N modes i \in set_modes D]) p D).
Proof.
move=> ne hm; exists (exactly v).
  move=> D; apply: (threshold_detection_prob_correct sched_ok ch_ok e_ok rs ps h0) => /allP h i hi.
  by apply: small => //; apply: h; rewrite mem_iota.
have [pl [hpart hperm hu hall]] := partition_enumerates 0%N ne.
rewrite /click_cumulant hpart /=.
pose I := 'I_(size modes).
pose blk (B : {set I}) := \sum_(D : {set 'I_N} | [forall i in B, nth 0%N modes i \in set_modes D]) exactly v D.
pose cl (B : seq nat) := \sum_(D : {set 'I_N} | all (fun m => m \in set_modes D) B) exactly v D.
pose g (pi : seq (seq I)) := (-1) ^+ (size pi - 1) * ((size pi - 1)`!)%:R * \prod_(B <- blocks pi) blk B.
have sumE (fm : C -> seq (seq nat) -> res C) x0 :
   (forall x p, p \in pl -> fm x [seq [seq nth 0%N modes (val i) | i <- B] | B <- p] = Ok (x + g p)) ->
   foldM fm x0 [seq [seq [seq nth 0%N modes (val i) | i <- B] | B <- p] | p <- pl] = Ok (x0 + \sum_(p <- pl) g p).
  elim: (pl) x0 => [|p l IH] x0 h /=; first by rewrite big_nil addr0.
  rewrite h ?mem_head //= IH ?big_cons ?addrA // => x q ql; apply: h; by rewrite inE ql orbT.
rewrite sumE; last first.
  move=> x p pp; have [pf ub] := hperm p pp.
  rewrite (@foldM_prod _ _ _ _ _ cl); last first.
    move=> y B /mapP[B' hB' eB].
    have hB : all (fun k => k < N)%N B.
      by apply/allP => k; rewrite eB => /mapP[i _ ->]; apply: (allP hm); rewrite mem_nth //; exact: ltn_ord.
    have := click_block hB; case: (reduced_gaussian _ _ _ _) => //= -[m c] ->; by [].
  rewrite size_map /g; congr (Ok (x + _)).
  rewrite [_%:R * _]mulrC; congr (_ * _); rewrite /blocks !big_map; apply: eq_bigr => B _; rewrite /cl /blk.
  apply: eq_bigl => D; rewrite all_map; apply/allP/forall_inP => h i; first by rewrite inE => /h.
  by move=> iB; apply: h; rewrite inE.
rewrite add0r; congr Ok.
transitivity (\sum_(P <- [seq toset p | p <- pl]) ((-1) ^+ (#|P| - 1) * ((#|P| - 1)`!)%:R * \prod_(B in P) blk B)); last first.
  rewrite (perm_big (enum (fun P : {set {set I}} => finset.partition P [set: I]))); first by rewrite big_enum.
  by apply: uniq_perm; rewrite ?enum_uniq // => P; rewrite hall mem_enum.
rewrite big_map big_seq [RHS]big_seq; apply: eq_bigr => p /hperm[pf ub]; rewrite /g.
have pe : perm_eq (enum (toset p)) (blocks p).
  by apply: uniq_perm; rewrite ?enum_uniq // => B; rewrite mem_enum /toset inE.
have sz : size p = #|toset p| by rewrite cardE (perm_size pe) size_map.
by rewrite sz -[in RHS]big_enum (perm_big _ pe).
Qed.
End State.
End Top.

(** a state meeting the hypotheses: the displaced vacuum with one mean above the tolerance *)
Section Case.
Variable C : numClosedFieldType.
Lemma click_case (N : nat) (hbar atol rtol : C) : 0 < hbar -> 0 <= rtol -> 0 <= atol ->
  let cov := fun i j : nat => (i == j)%:R * (hbar / 2%:R) in
  let mu := fun i : nat => if i == 0%N then atol + 1 else 0 in
  [/\ real_sym (2 * N) cov, possemi (2 * N) cov & forall i, (i < 2 * N)%N -> close rtol atol (mu i) 0 -> mu i = 0].
Proof.
move=> h r a; have [c1 c2] := vacuum_cov_ok N h; split=> // i _; case: eqP => // _.
rewrite /close subr0 normr0 mulr0 addr0 ger0_norm ?addr_ge0 ?ler01 // => le.
have l1 : atol < atol + 1 by rewrite ltr_addl ltr01.
by have := lt_le_trans l1 le; rewrite ltxx.
Qed.
End Case.
Print Assumptions click_cumulant_correct.
