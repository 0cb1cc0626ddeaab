(** C53: threshold_detection_prob is the inclusion-exclusion probability of the click pattern. *)
From mathcomp Require Import all_ssreflect all_algebra zify fingroup perm.
From Verif Require Import Prelude PyBase ArrLoop MPowerHaf MHafnian MSymplectic PropChannels ThPerm SpecTor SpecThr MTor PropTor PropTor2 PropTor3 PropTor4 PropTor5 PropThr.
Set Implicit Arguments.
Unset Strict Implicit.
Unset Printing Implicit Defensive.
Import Order.Theory GRing.Theory Num.Theory.
Local Open Scope ring_scope.

Lemma set_modes_sorted n (Z : {set 'I_n}) : sorted ltn (set_modes Z).
Proof. by rewrite set_modes_mask; apply: subseq_sorted (mask_subseq _ _) (iota_ltn_sorted _ _); exact: ltn_trans. Qed.
Lemma mem_set_modes n (Z : {set 'I_n}) (i : 'I_n) : (val i \in set_modes Z) = (i \in Z).
Proof. by rewrite (mem_map val_inj) mem_enum. Qed.
Lemma set_modes_imset n (S : {set 'I_n}) (Y : {set 'I_#|S|}) :
  set_modes [set enum_val y | y in Y] = [seq nth 0%N (set_modes S) i | i <- set_modes Y].
Proof.
apply: (irr_sorted_eq ltn_trans ltnn); first exact: set_modes_sorted.
  rewrite (set_modes_mask Y) map_mask.
  have -> : [seq nth 0%N (set_modes S) i | i <- iota 0 #|S|] = set_modes S.
    by rewrite -[in RHS](mkseq_nth 0%N (set_modes S)) size_set_modes.
  by apply: subseq_sorted (mask_subseq _ _) (set_modes_sorted _); exact: ltn_trans.
have nE (y : 'I_#|S|) : nth 0%N (set_modes S) y = enum_val y.
  by rewrite /set_modes (nth_map (enum_val y)) -?cardE // -enum_val_nth.
move=> x; apply/mapP/mapP => [[i]|[y]].
  rewrite mem_enum => /imsetP[y yY ->] ->; exists (val y); last by rewrite nE.
  by rewrite mem_set_modes.
move=> /mapP[y' y'Y ->] ->; exists (enum_val y'); last by rewrite nE.
by rewrite mem_enum; apply: imset_f; rewrite mem_enum in y'Y.
Qed.
Lemma sub_sum (R : zmodType) n (S : {set 'I_n}) (G : seq nat -> R) :
  \sum_(Y : {set 'I_#|S|}) G [seq nth 0%N (set_modes S) i | i <- set_modes Y] = \sum_(Z : {set 'I_n} | Z \subset S) G (set_modes Z).
Proof.
rewrite [RHS](reindex_onto (fun Y : {set 'I_#|S|} => [set enum_val y | y in Y]) (fun Z => [set y | enum_val y \in Z])) /=.
  apply: eq_big => [Y|Y _]; last by rewrite set_modes_imset.
  apply/esym/andP; split; first by apply/subsetP => x /imsetP[y _ ->]; apply: enum_valP.
  by apply/eqP/setP => y; rewrite inE mem_imset //; apply: enum_val_inj.
move=> Z ZS; apply/setP => x; apply/imsetP/idP => [[y]|xZ]; first by rewrite inE => ? ->.
by have xS := subsetP ZS _ xZ; exists (enum_rank_in xS x); rewrite ?inE enum_rankK_in.
Qed.
Lemma set_rows_perm n (Z : {set 'I_n}) : perm_eq (set_rows Z ++ set_rows (~: Z)) (iota 0 (2 * n)).
Proof.
have u (T : {set 'I_n}) : uniq (set_rows T).
  by rewrite -(perm_uniq (perm_inter n (set_modes T))) inter_uniq //; case: (good_set T).
have mem (T : {set 'I_n}) x : (x \in set_rows T) = [exists i in T, (x == val i) || (x == (n + val i)%N)].
  rewrite mem_cat; apply/orP/existsP => [[/mapP[i]|/mapP[y /mapP[i]]]|[i /andP[iT /orP[]/eqP ->]]].
  - by rewrite mem_enum => iT ->; exists i; rewrite iT eqxx.
  - by rewrite mem_enum => iT -> ->; exists i; rewrite iT eqxx orbT.
  - by left; rewrite mem_set_modes.
  - by right; apply: map_f; rewrite mem_set_modes.
apply: uniq_perm; [|exact: iota_uniq|].
  rewrite cat_uniq; have -> := u Z; have -> := u (~: Z); rewrite andbT /=; apply/hasPn => x; rewrite mem => /existsP[i /andP[iZ e]]; apply/negP => xZ; have : x \in set_rows Z by exact: xZ.
  rewrite mem => /existsP[j /andP[jZ e']].
  have ij : i = j by apply: val_inj; have := ltn_ord i; have := ltn_ord j; move: e e'; rewrite /= => /orP[]/eqP-> /orP[]/eqP; clear; lia.
  by move: iZ; rewrite ij inE jZ.
move=> x; rewrite mem_cat !mem mem_iota add0n /=; apply/idP/idP => [/orP[]/existsP[i /andP[_ /orP[]/eqP ->]]|hx]; try (have := ltn_ord i; lia).
have [i e] : exists i : 'I_n, (x == val i) || (x == (n + val i)%N).
  case: (ltnP x n) => h; first by exists (Ordinal h); rewrite eqxx.
  have h' : (x - n < n)%N by lia.
  by exists (Ordinal h'); rewrite /= subnKC // eqxx orbT.
by case iZ : (i \in Z); apply/orP; [left|right]; apply/existsP; exists i; rewrite ?inE iZ e.
Qed.
Definition rowsl n (l : seq nat) := l ++ [seq (n + x)%N | x <- l].
Lemma rows_sub n (S : {set 'I_n}) (Y : {set 'I_#|S|}) :
  [seq nth 0%N (set_rows S) i | i <- set_rows Y] = rowsl n [seq nth 0%N (set_modes S) i | i <- set_modes Y].
Proof.
have lt i : i \in set_modes Y -> (i < #|S|)%N by move=> /mapP[y _ ->]; exact: ltn_ord.
rewrite /set_rows map_cat /rowsl; have sc := size_set_modes S.
move: (set_modes Y) lt (set_modes S) sc => sY lt c sc; rewrite -!map_comp; congr (_ ++ _); apply/eq_in_map => i iY; have h := lt i iY.
  by rewrite nth_cat sc h.
rewrite /= nth_cat sc ltnNge leq_addr /= addKn (nth_map 0%N) ?sc //.
Qed.
Lemma set_rows_uniq n (Z : {set 'I_n}) : uniq (set_rows Z).
Proof. by rewrite -(perm_uniq (perm_inter n (set_modes Z))) inter_uniq //; case: (good_set Z). Qed.
Lemma set_rows_lt n (Z : {set 'I_n}) : all (fun i => i < 2 * n)%N (set_rows Z).
Proof. by rewrite -(perm_all _ (perm_inter n (set_modes Z))) inter_all //; case: (good_set Z). Qed.

Section Sub.
Variable C : numClosedFieldType.
Notation mat := (nat -> nat -> C).
Notation vec := (nat -> C).
Variables (n : nat) (S : {set 'I_n}) (O : mat) (g : vec).
Lemma one_minus_ix i j : (i < 2 * #|S|)%N -> (j < 2 * #|S|)%N -> ix (one_minus O) (set_rows S) i j = one_minus (ix O (set_rows S)) i j.
Proof. by move=> hi hj; rewrite /ix /one_minus nth_uniq ?size_set_rows ?set_rows_uniq. Qed.
Lemma sub_ix (Y : {set 'I_#|S|}) a b : (a < 2 * #|Y|)%N -> (b < 2 * #|Y|)%N ->
  ix (one_minus (ix O (set_rows S))) (set_rows Y) a b = ix (one_minus O) (rowsl n [seq nth 0%N (set_modes S) i | i <- set_modes Y]) a b.
Proof.
move=> ha hb; have hl x : (x < 2 * #|Y|)%N -> (nth 0%N (set_rows Y) x < 2 * #|S|)%N.
  by move=> hx; apply: (allP (set_rows_lt Y)); rewrite mem_nth // size_set_rows.
by rewrite {1}/ix -one_minus_ix ?hl // -rows_sub /ix !(nth_map 0%N) ?size_set_rows.
Qed.
Lemma herm_sub : hermitian (2 * n) (one_minus O) -> hermitian (2 * #|S|) (one_minus (ix O (set_rows S))).
Proof.
move=> h; apply: hermitian_eq one_minus_ix _; rewrite -(size_set_rows S); exact: hermitian_ix h (set_rows_lt S).
Qed.
Lemma pos_sub : posdef (2 * n) (one_minus O) -> posdef (2 * #|S|) (one_minus (ix O (set_rows S))).
Proof.
move=> h; apply: posdef_eq one_minus_ix _; rewrite -(size_set_rows S); exact: posdef_ix h (set_rows_uniq S) (set_rows_lt S).
Qed.
Definition Dl (M : mat) l : C := \det (mxof (2 * size l) (2 * size l) (ix M (rowsl n l))).
Lemma det1mD (Z : {set 'I_n}) : det1m O Z = Dl (one_minus O) (set_modes Z).
Proof. by rewrite /det1m submxE size_set_rows /Dl size_set_modes. Qed.
Lemma det1m_sub (Y : {set 'I_#|S|}) : det1m (ix O (set_rows S)) Y = Dl (one_minus O) [seq nth 0%N (set_modes S) i | i <- set_modes Y].
Proof. by rewrite /det1m submxE size_set_rows (mxof_eq (@sub_ix Y)) /Dl size_map size_set_modes. Qed.
Theorem tor_sub : tor_spec #|S| (ix O (set_rows S)) = \sum_(Z : {set 'I_n} | Z \subset S) (-1) ^+ (#|S| - #|Z|) / sqrtC (det1m O Z).
Proof.
have := sub_sum S (fun l => (-1) ^+ (#|S| - size l) / sqrtC (Dl (one_minus O) l)).
under [in RHS]eq_bigr do rewrite size_set_modes -det1mD.
move=> <-; apply: eq_bigr => Y _; by rewrite det1m_sub size_map size_set_modes.
Qed.
Definition ql (M : mat) l : C := quad M g (2 * size l) (rowsl n l).
Lemma quad1mD (Z : {set 'I_n}) : quad1m O g Z = ql (one_minus O) (set_modes Z).
Proof. by rewrite /quad1m submxE /ql /quad /subcol size_set_rows size_set_modes. Qed.
Lemma quad1m_sub (Y : {set 'I_#|S|}) : quad1m (ix O (set_rows S)) (fun i => g (nth 0%N (set_rows S) i)) Y =
   ql (one_minus O) [seq nth 0%N (set_modes S) i | i <- set_modes Y].
Proof.
rewrite /quad1m submxE /subcol /ql /quad size_set_rows (mxof_eq (@sub_ix Y)) size_map size_set_modes.
congr ((_^T *m _ *m _) 0 0); apply/matrixP => i j; rewrite !mxE; do ?congr (_^*); congr (g _);
  by rewrite -rows_sub (nth_map 0%N) ?size_set_rows.
Qed.
Theorem ltor_sub exp : ltor_spec exp #|S| (ix O (set_rows S)) (fun i => g (nth 0%N (set_rows S) i)) =
  \sum_(Z : {set 'I_n} | Z \subset S) (-1) ^+ (#|S| - #|Z|) * exp (2%:R^-1 * quad1m O g Z) / sqrtC (det1m O Z).
Proof.
have := sub_sum S (fun l => (-1) ^+ (#|S| - size l) * exp (2%:R^-1 * ql (one_minus O) l) / sqrtC (Dl (one_minus O) l)).
under [in RHS]eq_bigr do rewrite size_set_modes -det1mD -quad1mD.
move=> <-; apply: eq_bigr => Y _; by rewrite det1m_sub quad1m_sub size_map size_set_modes.
Qed.
End Sub.
