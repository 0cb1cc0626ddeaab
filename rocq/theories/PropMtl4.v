(** C33: the reference montrealer. *)
From mathcomp Require Import all_ssreflect all_fingroup all_algebra zify.
From Verif Require Import Prelude PyBase ArrLoop SpecMtl MMtl PropMtl3.
Set Implicit Arguments.
Unset Strict Implicit.
Unset Printing Implicit Defensive.
Import GRing.Theory.

Section Dicts.
Lemma dset_new (d : dict) k v : k \notin map fst d -> dset d k v = rcons d (k, v).
Proof. by elim: d => //= kv d IH; rewrite inE negb_or eq_sym => /andP[/negbTE -> /IH ->]. Qed.
Lemma dget_zip ks vs k : size ks = size vs -> k \in ks -> dget (zip ks vs) k = Ok (nth 0 vs (index k ks)).
Proof.
elim: ks vs => [|a ks IH] [|b vs] //= [sz]; rewrite inE [k == a]eq_sym; case: eqP => //= _ h; exact: IH.
Qed.
Lemma dict_of l d : uniq (map fst d ++ map fst l) -> for_ l d (fun d kv => dset d kv.1 kv.2) = d ++ l.
Proof.
elim: l d => [|[k v] l IH] d /=; first by move=> *; rewrite cats0.
move=> u; have kd : k \notin map fst d.
  by move: u; rewrite uniq_catC /= mem_cat negb_or => /andP[/andP[_ ->]].
rewrite dset_new // -cats1 IH -?catA //.
by rewrite map_cat -catA /=.
Qed.
Lemma dict_ofM l f d (body : dict -> nat * nat -> res dict) :
  (forall d x, x \in l -> body d x = Ok (dset d (f x).1 (f x).2)) ->
  uniq (map fst d ++ [seq (f x).1 | x <- l]) -> foldM body d l = Ok (d ++ map f l).
Proof.
elim: l d => [|x l IH] d hb /=; first by move=> *; rewrite cats0.
move=> u; have kd : (f x).1 \notin map fst d.
  by move: u; rewrite uniq_catC /= mem_cat negb_or => /andP[/andP[_ ->]].
rewrite hb ?mem_head //= dset_new // -cats1 -surjective_pairing IH ?catA /= -?catA //.
  by move=> d' y hy; apply: hb; rewrite inE hy orbT.
by rewrite map_cat -catA /=.
Qed.
Lemma get_all (B : seq nat) l acc : all (fun i => i < size B) l ->
  foldM (fun l i => bind (getl 0 B i) (fun x => Ok (rcons l x))) acc l = Ok (acc ++ [seq nth 0 B i | i <- l]).
Proof.
elim: l acc => [|i l IH] acc /=; first by move=> *; rewrite cats0.
by move=> /andP[hi hl]; rewrite /getl hi /= IH // cat_rcons.
Qed.
Lemma zip_iota (l : seq nat) : zip (iota 0 (size l)) l = [seq (i, nth 0 l i) | i <- iota 0 (size l)].
Proof.
apply: (@eq_from_nth _ (0, 0)); rewrite ?size_map ?size_zip ?size_iota ?minnn // => i hi.
by rewrite nth_zip ?size_iota // (nth_map 0) ?size_iota // nth_iota.
Qed.
Lemma for_map (T U S : Type) (f : T -> U) l (s : S) body : for_ (map f l) s body = for_ l s (fun s x => body s (f x)).
Proof. by elim: l s => //= x l IH s; rewrite IH. Qed.
Lemma mkseq_in (T : Type) (f g : nat -> T) n : (forall i, i < n -> f i = g i) -> mkseq f n = mkseq g n.
Proof. by move=> h; apply/eq_in_map => i; rewrite mem_iota; apply: h. Qed.
Lemma set_mkseq f n k (v : nat) : k < n -> set_nth 0 (mkseq f n) k v = mkseq (fun i => if i == k then v else f i) n.
Proof.
move=> kn; apply: (@eq_from_nth _ 0) => [|i]; rewrite size_set_nth !size_mkseq (maxn_idPr kn) // => hi.
by rewrite nth_set_nth /= !nth_mkseq.
Qed.
(** the swapped lists of nodes *)
Lemma swaps (n : nat) (bit : seq nat) : size bit = n ->
  for_ (zip (iota 0 n) bit) (iota 0 n, pyrange n (2 * n)) (fun B ij =>
     let: (B0, B1) := B in
     if ij.2 != 0 then (set_nth 0 B0 ij.1 (nth 0 B1 ij.1), set_nth 0 B1 ij.1 (nth 0 B0 ij.1)) else (B0, B1)) =
  (mkseq (fun i => node n i (nth 0 bit i != 0)) n, mkseq (fun i => node n i (nth 0 bit i == 0)) n).
Proof.
move=> sz; rewrite -{1}sz zip_iota for_map sz.
pose B0 k := mkseq (fun i => node n i ((i < k) && (nth 0 bit i != 0))) n.
pose B1 k := mkseq (fun i => node n i ((k <= i) || (nth 0 bit i == 0))) n.
have lt1 i k : i != k -> (i < k) = (i < k.+1) by lia.
have le1 i k : i != k -> (k <= i) = (k.+1 <= i) by lia.
have inv k : k <= n -> for_ (iota 0 k) (iota 0 n, pyrange n (2 * n)) (fun B i =>
     let: (B0, B1) := B in
     if nth 0 bit i != 0 then (set_nth 0 B0 i (nth 0 B1 i), set_nth 0 B1 i (nth 0 B0 i)) else (B0, B1)) = (B0 k, B1 k).
  elim: k => [|k IH] hk.
    rewrite /=; congr pair; apply: (@eq_from_nth _ 0); rewrite ?size_mkseq ?size_iota; try lia.
      by move=> i hi; rewrite nth_mkseq // nth_iota // /node addn0.
    by move=> i hi; rewrite nth_mkseq ?nth_iota /node /=; lia.
  rewrite for_iotaS (IH (ltnW hk)) add0n; case: eqP => e /=.
    congr pair; apply: mkseq_in => i hi; congr (node n i _); case: (i =P k) => [->|/eqP ik]; rewrite ?e ?eqxx ?andbF ?orbT // ?(lt1 _ _ ik) ?(le1 _ _ ik) //.
  rewrite /B0 /B1 !nth_mkseq // !set_mkseq // ltnn leqnn /=.
  have e' : (nth 0 bit k == 0) = false by apply/eqP.
  congr pair; apply: mkseq_in => i hi; case: (i =P k) => [->|/eqP ik]; rewrite ?ltnSn ?ltnn ?e' //; congr (node n i _); rewrite ?(lt1 _ _ ik) ?(le1 _ _ ik) //.
rewrite inv //; congr pair; apply: mkseq_in => i hi; rewrite ?hi //.
by rewrite leqNgt hi.
Qed.
Lemma dico_of (B : seq nat) j d : uniq (map fst d ++ B) ->
  for_ (zip (iota j (size B)) B) d (fun d ij => dset d ij.2 ij.1.+1) = d ++ zip B [seq i.+1 | i <- iota j (size B)].
Proof.
elim: B j d => [|b B IH] j d; first by move=> _; rewrite /= cats0.
move=> u; have kd : b \notin map fst d.
  by move: u; rewrite uniq_catC /= mem_cat negb_or => /andP[/andP[_ ->]].
rewrite /= dset_new // IH ?cat_rcons // map_rcons cat_rcons //.
Qed.
End Dicts.

Section Mapper.
Variables (m : nat).
Let n := m.+1.
Variables (s : 'S_n) (be : {ffun 'I_n -> bool}).
Hypothesis s0 : s ord0 = ord0.
Definition plist : seq nat := [seq val (s k) | k <- enum 'I_n].
Definition blist : seq nat := [seq nat_of_bool (be i) | i <- enum 'I_n].
Lemma plistE : plist = 0 :: behead plist.
Proof. by rewrite /plist enum_ordSl /= s0. Qed.
Lemma node_inj (i j : 'I_n) c d : node n i c = node n j d -> i = j /\ c = d.
Proof.
have hi := ltn_ord i; have hj := ltn_ord j; rewrite /node => e.
have cd : c = d by case: c d e => -[]; rewrite ?mul0n ?mul1n; lia.
by split=> //; apply: val_inj; move: e; rewrite cd => /addIn.
Qed.
Definition Bl : seq nat := [seq node n (s k) (be (s k)) | k <- enum 'I_n] ++ [seq node n (s k) (~~ be (s k)) | k <- enum 'I_n].
Lemma Bl_uniq : uniq Bl.
Proof.
rewrite /Bl cat_uniq; apply/and3P; split.
- by rewrite map_inj_uniq ?enum_uniq // => a b /node_inj[/perm_inj].
- by apply/hasP => -[x /mapP[a _ ->] /mapP[b _]] /node_inj[/perm_inj ->]; case: (be _).
- by rewrite map_inj_uniq ?enum_uniq // => a b /node_inj[/perm_inj].
Qed.
Definition pos (i : 'I_n) (c : bool) : nat := node n ((s^-1)%g i) (c (+) be i).
Lemma size_Bl : size Bl = 2 * n. Proof. by rewrite /Bl size_cat !size_map -enumT size_enum_ord addnn mul2n. Qed.
Lemma pos_lt i c : pos i c < 2 * n. Proof. exact: node_lt2. Qed.
Lemma nth_pos i c : nth 0 Bl (pos i c) = node n i c.
Proof.
have h := ltn_ord ((s^-1)%g i).
rewrite /Bl /pos /node nth_cat size_map size_enum_ord.
case E : (c (+) be i); rewrite ?mul1n ?mul0n ?addn0 ?h.
  rewrite ltnNge leq_addl /= addnK (nth_map i) ?size_enum_ord // nth_ord_enum permKV.
  by have -> : ~~ be i = c by case: c (be i) E => -[].
by rewrite (nth_map i) ?size_enum_ord // nth_ord_enum permKV; have -> : be i = c by case: c (be i) E => -[].
Qed.
Lemma mem_Bl (i : 'I_n) c : node n i c \in Bl. Proof. by rewrite -nth_pos mem_nth // size_Bl pos_lt. Qed.
Lemma index_Bl (i : 'I_n) c : index (node n i c) Bl = pos i c.
Proof. by rewrite -[in LHS]nth_pos index_uniq ?Bl_uniq // size_Bl pos_lt. Qed.
Lemma pos_inj i j c d : pos i c = pos j d -> i = j /\ c = d.
Proof. by move=> e; apply: node_inj; rewrite -!nth_pos e. Qed.
Definition res_pairs : seq (nat * nat) :=
  rcons [seq (pos (inord k) false, pos (inord k.+1) true) | k <- iota 0 m] (pos ord0 true, pos ord_max false).
Definition in_pairs : seq (nat * nat) :=
  rcons [seq (node n (inord k : 'I_n) false, node n (inord k.+1 : 'I_n) true) | k <- iota 0 m] (node n (ord0 : 'I_n) true, node n (ord_max : 'I_n) false).
Lemma in_pairsE : zip (rcons (pyrange 0 (n - 1)) n) (rcons (pyrange (n + 1) (2 * n)) (n - 1)) = in_pairs.
Proof.
rewrite zip_rcons; last by rewrite !size_iota /n; lia.
rewrite /in_pairs /node /= add0n mul1n addn0 subn1 /=; congr rcons.
apply: (@eq_from_nth _ (0, 0)); rewrite ?size_zip ?size_map ?size_iota /n; first by lia.
move=> i hi; have hm : i < m by lia.
rewrite nth_zip ?size_iota; last by lia.
by rewrite (nth_map 0) ?size_iota // !nth_iota ?inordK ?add0n //; try lia; congr pair; lia.
Qed.
Lemma nth_blist (i : 'I_n) : nth 0 blist i = be i :> nat.
Proof. by rewrite (nth_map i) ?size_enum_ord // nth_ord_enum. Qed.
Theorem mapper_correct : mapper (behead plist) blist (iota 0 (2 * n)) = Ok res_pairs.
Proof.
have sb : size blist = n by rewrite size_map size_enum_ord.
rewrite /mapper sb swaps // -plistE; cbv iota beta zeta.
have lt : all (fun i => i < n) plist by apply/allP => x /mapP[k _ ->]; exact: ltn_ord.
rewrite get_all ?size_mkseq // [bind (Ok _) _]/= get_all ?size_mkseq // [bind (Ok _) _]/=.
have -> : [seq nth 0 (mkseq (fun i => node n i (nth 0 blist i != 0)) n) i | i <- plist] ++ [seq nth 0 (mkseq (fun i => node n i (nth 0 blist i == 0)) n) i | i <- plist] = Bl.
  by rewrite /Bl /plist -!map_comp; congr (_ ++ _); apply: eq_map => k /=; rewrite nth_mkseq ?nth_blist // ?eqb0 ?negbK.
rewrite dico_of ?Bl_uniq // cat0s in_pairsE.
rewrite (@dict_ofM _ (fun x => (index x.1 Bl, index x.2 Bl))).
- rewrite /= /in_pairs /res_pairs map_rcons !index_Bl; congr (Ok (rcons _ _)).
  by rewrite -map_comp; apply: eq_map => k; rewrite /= !index_Bl.
- move=> d x hx; have [i [j [c [e ->]]]] : exists i j c e, x = (node n (i : 'I_n) c, node n (j : 'I_n) e).
    move: hx; rewrite mem_rcons inE => /orP[/eqP->|/mapP[k _ ->]]; by do 4 eexists.
  have gB (v : 'I_n) b : dget (zip Bl [seq i.+1 | i <- iota 0 (size Bl)]) (node n v b) = Ok (pos v b).+1.
    rewrite dget_zip ?size_map ?size_iota ?mem_Bl // index_Bl (nth_map 0) ?size_iota ?size_Bl ?pos_lt // nth_iota ?pos_lt //.
  have gl (v : 'I_n) b : getl 0 (iota 0 (2 * n)) ((pos v b).+1 - 1) = Ok (pos v b).
    by rewrite /getl subn1 size_iota pos_lt nth_iota ?pos_lt.
  have bE (T U : Type) (y : T) (f : T -> res U) : bind (Ok y) f = f y by [].
  by rewrite [(_, _).1]/fst [(_, _).2]/snd !gB !bE !gl !bE !index_Bl.
rewrite /= /in_pairs map_rcons rcons_uniq -map_comp; apply/andP; split.
  apply/mapP => -[k _] /= e; have := index_Bl ord0 true; rewrite /= e index_Bl => /pos_inj[] //.
rewrite map_inj_in_uniq ?iota_uniq // => a b; rewrite !mem_iota !add0n => /andP[_ ha] /andP[_ hb] /=.
rewrite !index_Bl => /pos_inj[/(congr1 val) /=]; rewrite !inordK //; exact: ltnW.
Qed.
End Mapper.
