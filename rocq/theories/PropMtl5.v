(** C33: the reference montrealer equals the sum over cyclic orders. *)
From mathcomp Require Import all_ssreflect all_fingroup all_algebra zify.
From Verif Require Import Prelude PyBase ArrLoop SpecMtl MMtl PropMtl3 PropMtl4.
Set Implicit Arguments.
Unset Strict Implicit.
Unset Printing Implicit Defensive.
Import GRing.Theory.

Section Lists.
Variable m : nat.
Let n := m.+1.
Lemma plist_inj : injective (@plist m).
Proof. by move=> s t /eq_in_map e; apply/permP => i; apply: val_inj; apply: e; rewrite mem_enum. Qed.
Lemma blist_inj : injective (@blist m).
Proof.
move=> b c e; apply/ffunP => i; have := nth_blist b i; rewrite e nth_blist.
by case: (b i); case: (c i).
Qed.
Lemma perms0 : perm_eq [seq behead (plist s) | s <- enum [pred s : 'S_n | s ord0 == ord0]] (permutations (iota 1 m)).
Proof.
apply: uniq_perm.
- rewrite map_inj_in_uniq ?enum_uniq // => s t; rewrite !mem_enum !inE => /eqP s0 /eqP t0 e.
  by apply: plist_inj; rewrite plistE // e -plistE.
- exact: permutations_uniq.
move=> p; rewrite mem_permutations; apply/mapP/idP => [[s hs ->]|].
  move: hs; rewrite mem_enum inE => /eqP s0; rewrite -(perm_cons 0) -plistE // -[0 :: iota 1 m]/(iota 0 n).
  apply: uniq_perm; rewrite ?iota_uniq //; first by rewrite map_inj_uniq -?enumT ?enum_uniq // => a b /val_inj/perm_inj.
  move=> i; rewrite mem_iota /=; apply/mapP/idP => [[j _ ->]|hi]; first exact: ltn_ord.
  by exists ((s^-1)%g (Ordinal hi)); rewrite ?mem_enum // permKV.
rewrite -(perm_cons 0) -[0 :: iota 1 m]/(iota 0 n) -val_enum_ord => pp.
have sz : size [seq val i | i <- enum 'I_n] == n by rewrite size_map size_enum_ord.
have /tuple_permP[s es] : perm_eq (0 :: p) (Tuple sz) by [].
have e : 0 :: p = plist s.
  rewrite es /plist /=; apply: eq_map => i.
  by rewrite (tnth_nth 0) /= (nth_map i) ?size_enum_ord // nth_ord_enum.
exists s; last by rewrite -e.
rewrite mem_enum inE; apply/eqP; apply: val_inj; have := congr1 (nth 0 ^~ 0) e.
by rewrite /plist enum_ordSl /= => <-.
Qed.
Lemma mem_product01 k t : (t \in product01 k) = (size t == k) && all (fun x => x < 2) t.
Proof.
elim: k t => [|k IH] t /=; first by rewrite inE; case: t.
rewrite mem_cat; case: t => [|x t].
  by rewrite /=; apply/orP => -[] /mapP[].
rewrite /= eqSS; apply/orP/idP => [[] /mapP[t' ht' [-> ->]]|/andP[sz /andP[x2 at_]]].
- by move: ht'; rewrite IH => /andP[-> ->].
- by move: ht'; rewrite IH => /andP[-> ->].
have tp : t \in product01 k by rewrite IH sz.
by case: x x2 => [|[|//]] _; [left|right]; apply: map_f.
Qed.
Lemma product01_uniq k : uniq (product01 k).
Proof.
elim: k => //= k IH; rewrite cat_uniq !map_inj_uniq ?IH //= ?andbT; try by move=> a b [].
by apply/hasP => -[x /mapP[a _ ->] /mapP[b _]].
Qed.
Lemma bits0 : perm_eq (bitstrings n) [seq blist b | b <- enum [pred b : {ffun 'I_n -> bool} | ~~ b ord0]].
Proof.
apply: uniq_perm.
- by rewrite map_inj_uniq ?product01_uniq // => a b [].
- by rewrite map_inj_uniq -?enumT ?enum_uniq //; exact: blist_inj.
have sb (b : {ffun 'I_n -> bool}) : size (blist b) = n by rewrite size_map -?enumT size_enum_ord.
move=> t; apply/mapP/mapP => [[u hu ->]|[b hb ->]].
  move: hu; rewrite subn1 mem_product01 => /andP[/eqP su /allP au].
  pose b : {ffun 'I_n -> bool} := [ffun i : 'I_n => nth 0 (0 :: u) i != 0].
  exists b; first by rewrite mem_enum inE ffunE.
  apply: (@eq_from_nth _ 0) => [|i hi]; first by rewrite sb /= su.
  have hn : i < n by move: hi; rewrite /= su.
  rewrite (nth_blist b (Ordinal hn)) ffunE /=.
  case: i {hn} hi => [|i] //= hi; have := au (nth 0 u i) (mem_nth _ _); rewrite -ltnS => /(_ hi).
  by case: (nth 0 u i) => [|[|]].
move: hb; rewrite mem_enum inE => b0.
have e : blist b = 0 :: behead (blist b) by rewrite /blist enum_ordSl /= (negbTE b0).
exists (behead (blist b)) => //; rewrite subn1 mem_product01 size_behead sb eqxx /=; apply/allP => x /mem_behead/mapP[i _ ->].
by case: (b i).
Qed.
End Lists.

Section Ref.
Local Open Scope ring_scope.
Variable R : fieldType.
Variable permutations_py : seq nat -> seq (seq nat).
(** itertools.permutations lists every permutation once *)
Hypothesis py_ok : forall l, uniq l -> perm_eq (permutations_py l) (permutations l).
Definition mprod (A : nat -> nat -> R) (e : seq (nat * nat)) : R := \prod_(a <- e) A a.1 a.2.
Definition val_of (F : seq (nat * nat) -> R) (r : res (seq (nat * nat))) : R := if r is Ok e then F e else 0.
Lemma sum_ok A (l : seq (res (seq (nat * nat)))) t : all (@is_ok _) l ->
  foldM (fun net_sum s => bind s (fun s => let net_prod := for_ s 1 (fun net_prod a => net_prod * A a.1 a.2) in Ok (net_sum + net_prod))) t l =
  Ok (t + \sum_(r <- l) val_of (mprod A) r).
Proof.
elim: l t => [|[e|er] l IH] t //=; first by rewrite big_nil addr0.
by move=> h; rewrite IH // big_cons addrA /mprod /= (for_prod _ _ (fun a => A a.1 a.2)) mul1r.
Qed.
Variable m : nat.
Let n := m.+1.
Lemma rpmpE (F : seq (nat * nat) -> R) : all (@is_ok _) (rpmp permutations_py (iota 0 (2 * n))) /\
  \sum_(r <- rpmp permutations_py (iota 0 (2 * n))) val_of F r =
  \sum_(s : 'S_n | s ord0 == ord0) \sum_(b : {ffun 'I_n -> bool} | b ord0) F (res_pairs (s^-1)%g [ffun i => ~~ b i]).
Proof.
rewrite /rpmp size_iota; have -> : (2 * n %/ 2)%N = n by lia.
have pe : perm_eq (permutations_py (pyrange 1 n)) [seq behead (plist s) | s <- enum [pred s : 'S_n | s ord0 == ord0]].
  apply: perm_trans (py_ok _) _; first exact: iota_uniq.
  by rewrite perm_sym /pyrange subn1 perms0.
split.
  apply/all_allpairsP => p b; rewrite (perm_mem pe) (perm_mem (bits0 m)) => /mapP[s hs ->] /mapP[c _ ->].
  by move: hs; rewrite mem_enum inE => /eqP s0; rewrite mapper_correct.
rewrite big_allpairs_dep /= (perm_big _ pe) /= big_map big_enum /=.
rewrite [RHS](reindex_inj invg_inj) /=; apply: eq_big => [s|s].
  by rewrite !inE; apply/eqP/eqP => e; [rewrite -{1}e permK|rewrite -{1}e permKV].
rewrite inE => /eqP s0; rewrite (perm_big _ (bits0 m)) /= big_map big_enum /=.
have fK : involutive (fun b : {ffun 'I_n -> bool} => [ffun i => ~~ b i] : {ffun 'I_n -> bool}) by move=> b; apply/ffunP => i; rewrite !ffunE negbK.
rewrite [RHS](reindex_inj (inv_inj fK)) /=; apply: eq_big => [b|b _]; first by rewrite inE ffunE.
rewrite mapper_correct //= invgK; congr (F (res_pairs _ _)); exact/esym/fK.
Qed.
Hypothesis n0 : (2 * n)%:R != 0 :> R.
Variable A : nat -> nat -> R.
Hypothesis sA : forall i j, (i < 2 * n)%N -> (j < 2 * n)%N -> A i j = A j i.
Lemma mprod_res (s : 'S_n) (b : {ffun 'I_n -> bool}) : mprod A (res_pairs (s^-1)%g [ffun i => ~~ b i]) = cycle_weight A s b.
Proof.
have pE (i : 'I_n) c : pos (s^-1)%g [ffun i => ~~ b i] i c = node n (s i) (c (+) ~~ b i) by rewrite /pos invgK ffunE.
rewrite /mprod /res_pairs -cats1 big_cat big_seq1 /= /cycle_weight big_ord_recr /= !pE; congr (_ * _).
  rewrite big_map prod_iota; apply: eq_bigr => k _; have hk := ltn_ord k; rewrite !pE /= ?negbK ?addbF ?addTb.
  have kn : (k < m.+1)%N by apply: ltnW.
  have -> : widen_ord (leqnSn m) k = inord k by apply: val_inj; rewrite /= inordK.
  by have -> : @nextI m (inord k) = inord k.+1 by apply: val_inj; rewrite /= !inordK ?modn_small.
have -> : nextI ord_max = ord0 :> 'I_n by apply: val_inj; rewrite /= modnn.
by rewrite /= negbK sA ?node_lt2.
Qed.
(** C33 *)
Theorem ref_mtl_correct : ref_mtl permutations_py (2 * n) A false = Ok (mtl_spec m A).
Proof.
have [h1 h2] := rpmpE (mprod A).
rewrite /ref_mtl /= sum_ok // add0r h2 mtl_spec_once // /tot; congr Ok; apply: eq_bigr => s _.
by apply: eq_big => [b|b _]; [rewrite eqb_id|rewrite mprod_res].
Qed.

(** *** loops *)
Lemma rspm_ok (spl : seq (nat * nat) -> seq (seq (nat * nat))) (l : seq (res (seq (nat * nat)))) : all (@is_ok _) l ->
  all (@is_ok _) (flatten [seq (match r with Ok e => [seq Ok x | x <- spl e] | Err er => [:: Err er] end) | r <- l]) /\
  \sum_(r <- flatten [seq (match r with Ok e => [seq Ok x | x <- spl e] | Err er => [:: Err er] end) | r <- l]) val_of (mprod A) r =
  \sum_(r <- l) val_of (fun e => \sum_(x <- spl e) mprod A x) r.
Proof.
elim: l => [|[e|er] l IH] //= h; first by rewrite !big_nil.
have [h1 h2] := IH h; rewrite big_cons /= -h2.
have a1 : all (@is_ok _) [seq Ok x | x <- spl e] by elim: (spl e).
have a2 : \sum_(r <- [seq Ok x | x <- spl e]) val_of (mprod A) r = \sum_(x <- spl e) mprod A x by rewrite big_map.
by split; [rewrite all_cat a1|rewrite big_cat /= a2].
Qed.
Lemma mprod_split (e : seq (nat * nat)) : \sum_(x <- splitter e) mprod A x = mprod A e +
  \sum_(i < size e) (A (nth (0, 0)%N e i).1 (nth (0, 0)%N e i).1 * A (nth (0, 0)%N e i).2 (nth (0, 0)%N e i).2 *
     \prod_(k < size e | k != i) A (nth (0, 0)%N e k).1 (nth (0, 0)%N e k).2).
Proof.
rewrite /splitter big_cons; congr (_ + _); rewrite big_map sum_iota; apply: eq_bigr => i _.
rewrite /mprod !big_cat !big_seq1 /= !big_map mulrCA [X in _ = _ * _ * X](_ : _ =
   \prod_(j <- pyrange i.+1 (size e)) A (nth (0, 0)%N e j).1 (nth (0, 0)%N e j).2 * \prod_(j <- iota 0 i) A (nth (0, 0)%N e j).1 (nth (0, 0)%N e j).2); last first.
  have hi := ltn_ord i.
  have -> : \prod_(k < size e | k != i) A (nth (0, 0)%N e k).1 (nth (0, 0)%N e k).2 =
     \prod_(k <- iota 0 (size e) | k != i :> nat) A (nth (0, 0)%N e k).1 (nth (0, 0)%N e k).2.
    by rewrite -[iota _ _]val_enum_ord big_map big_enum_cond /=; apply: eq_bigl => k; rewrite -val_eqE.
  have -> : iota 0 (size e) = iota 0 i ++ (i : nat) :: pyrange i.+1 (size e).
    by rewrite /pyrange -[X in iota 0 X](subnKC (ltnW hi)) iotaD add0n -[(size e - i)%N]prednK ?subn_gt0 //= subnS.
  rewrite big_cat big_cons /= eqxx /= mulrC; congr (_ * _).
    rewrite big_seq_cond [RHS]big_seq; apply: eq_bigl => k; rewrite mem_iota; case: eqP => [->|]; rewrite ?andbT ?ltnn //.
  rewrite big_seq_cond [RHS]big_seq; apply: eq_bigl => k; rewrite mem_iota; case: eqP => [->|_]; rewrite ?andbT ?andbF //.
  by rewrite add0n ltnn andbF.
have com (P A2 I A1 : R) : P * (A2 * (I * A1)) = A1 * A2 * (P * I) by rewrite [I * A1]mulrC [A2 * _]mulrA [A2 * A1]mulrC mulrCA.
exact: com.
Qed.
Definition partner (v : nat) : nat := if (v < n)%N then (v + n)%N else (v - n)%N.
Lemma partner_node (i : 'I_n) c : partner (node n i c) = node n i (~~ c).
Proof.
have hi := ltn_ord i; rewrite /partner /node; case: c; rewrite /= ?mul1n ?mul0n ?addn0 ?hi //.
by rewrite ltnNge leq_addl /= addnK.
Qed.
Lemma nth_res (s : 'S_n) (b : {ffun 'I_n -> bool}) (k : 'I_n) :
  let x := node n (s k) (~~ b k) in let y := node n (s (nextI k)) (b (nextI k)) in
  nth (0, 0)%N (res_pairs (s^-1)%g [ffun i => ~~ b i]) k = if (k < m)%N then (x, y) else (y, x).
Proof.
have pE (i : 'I_n) c : pos (s^-1)%g [ffun i => ~~ b i] i c = node n (s i) (c (+) ~~ b i) by rewrite /pos invgK ffunE.
rewrite /= /res_pairs nth_rcons size_map size_iota; have hk := ltn_ord k; case: (ltnP k m) => hm.
  have ek : inord k = k :> 'I_n by apply: val_inj; rewrite /= inordK.
  have e1 : inord k.+1 = nextI k :> 'I_n by apply: val_inj; rewrite /= inordK ?modn_small.
  by rewrite (nth_map 0%N) ?size_iota // nth_iota // add0n ek e1 !pE /= ?negbK ?addbF ?addTb.
have km : k = m :> nat by lia.
have -> : k = ord_max by apply: val_inj.
have e0 : nextI ord_max = ord0 :> 'I_n by apply: val_inj; rewrite /= modnn.
by rewrite /= eqxx e0 !pE /= ?negbK ?addbF ?addTb.
Qed.
Lemma split_res (s : 'S_n) (b : {ffun 'I_n -> bool}) : \sum_(x <- splitter (res_pairs (s^-1)%g [ffun i => ~~ b i])) mprod A x =
  cycle_weight A s b + cuts A (fun v => A v v) s b.
Proof.
rewrite mprod_split mprod_res; congr (_ + _).
have sz : size (res_pairs (s^-1)%g [ffun i => ~~ b i]) = n by rewrite size_rcons size_map size_iota.
have eqA (k : 'I_n) : A (nth (0, 0)%N (res_pairs (s^-1)%g [ffun i => ~~ b i]) k).1 (nth (0, 0)%N (res_pairs (s^-1)%g [ffun i => ~~ b i]) k).2 =
   A (node n (s k) (~~ b k)) (node n (s (nextI k)) (b (nextI k))).
  by rewrite nth_res; case: ifP => _ //=; rewrite sA ?node_lt2.
rewrite sz; apply: eq_bigr => i _; rewrite /cut; congr (_ * _).
  by rewrite nth_res; case: ifP => _ //=; rewrite mulrC.
by apply: eq_bigr => k _; rewrite eqA.
Qed.
Lemma path_cut (s : 'S_n) (b : {ffun 'I_n -> bool}) :
  path_weight (fun v => A v v) (fun v => A (partner v) (partner v)) A s b = cut A (fun v => A v v) s b ord_max.
Proof.
rewrite /path_weight /cut partner_node.
have e0 : nextI ord_max = ord0 :> 'I_n by apply: val_inj; rewrite /= modnn.
rewrite e0; congr (_ * _); first by rewrite mulrC.
rewrite [RHS]big_mkcond big_ord_recr /= eqxx mulr1; apply: eq_bigr => k _; have hk := ltn_ord k.
have kn : (k < n)%N by apply: ltnW.
have -> : widen_ord (leqnSn m) k = inord k by apply: val_inj; rewrite /= inordK.
have -> : @nextI m (inord k) = inord k.+1 by apply: val_inj; rewrite /= !inordK ?modn_small.
by rewrite -val_eqE /= inordK // (ltn_eqF hk).
Qed.
(** C33 *)
Theorem ref_lmtl_correct : ref_mtl permutations_py (2 * n) A true =
  Ok (lmtl_spec m (fun v => A v v) (fun v => A (partner v) (partner v)) A).
Proof.
have [h1 h2] := rpmpE (fun e => \sum_(x <- splitter e) mprod A x).
have [h3 h4] := rspm_ok splitter h1.
rewrite /ref_mtl /= sum_ok // add0r h4 h2 /lmtl_spec mtl_spec_once //.
have -> : (\sum_(s : 'S_n) \sum_(b : {ffun 'I_n -> bool}) path_weight (fun v => A v v) (fun v => A (partner v) (partner v)) A s b) =
   \sum_(s : 'S_n) \sum_(b : {ffun 'I_n -> bool}) cut A (fun v => A v v) s b ord_max.
  by apply: eq_bigr => s _; apply: eq_bigr => b _; rewrite path_cut.
rewrite cuts_once // /tot -big_split /=; congr Ok; apply: eq_bigr => s _; rewrite -big_split /=.
by apply: eq_big => [b|b _]; [rewrite eqb_id|rewrite split_res].
Qed.
End Ref.
