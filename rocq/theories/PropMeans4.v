(** C46 (continued): general photon-number moments and cumulants. *)
From mathcomp Require Import all_ssreflect all_algebra algC zify.
From Verif Require Import Prelude PyBase ArrLoop SpecHaf ThHaf MHafnian PropPowerHaf PropHafnian MHermite SpecSymp MSymplectic
  PropSymplectic PropSymp2 PropGates PropChannels PropConversions MPartition SpecGauss PropPartition MMeans PropMeans PropMeans2 PropMeans3.
Set Implicit Arguments.
Unset Strict Implicit.
Unset Printing Implicit Defensive.
Import Order.Theory GRing.Theory Num.Theory.
Local Open Scope ring_scope.

Lemma foldM_sum (T : eqType) (R : ringType) (l : seq T) (x0 : R) (f : R -> T -> res R) (g : T -> R) :
  (forall x a, a \in l -> f x a = Ok (x + g a)) -> foldM f x0 l = Ok (x0 + \sum_(a <- l) g a).
Proof.
elim: l x0 => [|a l IH] x0 h /=; first by rewrite big_nil addr0.
rewrite h ?mem_head //= IH ?big_cons ?addrA // => x b bl; apply: h; by rewrite inE bl orbT.
Qed.
Lemma foldM_prod (T : eqType) (R : ringType) (l : seq T) (x0 : R) (f : R -> T -> res R) (g : T -> R) :
  (forall x a, a \in l -> f x a = Ok (x * g a)) -> foldM f x0 l = Ok (x0 * \prod_(a <- l) g a).
Proof.
elim: l x0 => [|a l IH] x0 h /=; first by rewrite big_nil mulr1.
rewrite h ?mem_head //= IH ?big_cons ?mulrA // => x b bl; apply: h; by rewrite inE bl orbT.
Qed.
Lemma mem_product (T : eqType) (ls : seq (seq T)) t : (t \in product ls) = (size t == size ls) && all2 (fun x l => x \in l) t ls.
Proof.
elim: ls t => [|l ls IH] [|x t] //=.
  by apply/negbTE/negP => /flattenP[s /mapP[y _ ->] /mapP[]].
apply/flattenP/idP => [[s /mapP[y yl ->] /mapP[t' ht' [-> ->]]]|/andP[s1 /andP[s2 s3]]].
  by move: ht'; rewrite IH eqSS yl => /andP[-> ->].
exists [seq x :: t | t <- product ls]; first by apply/mapP; exists x.
by apply/mapP; exists t => //; rewrite IH s3 andbT -eqSS.
Qed.

Definition setmany (ks item : seq nat) (acc : seq nat) := foldl (fun r kq => set_nth 0%N r kq.1 kq.2.+1) acc (zip ks item).
Lemma size_setmany N ks item acc : all (fun k => k < N)%N ks -> size acc = N -> size (setmany ks item acc) = N.
Proof.
rewrite /setmany; elim: ks item acc => [|k ks IH] [|q item] acc //= /andP[hk hks] sa.
by apply: IH => //; rewrite size_set_nth sa; lia.
Qed.

Section Mom.
Variable C : numClosedFieldType.
Variable sched : nat -> seq nat.
Variable oracle : nat -> (nat -> nat -> C) -> nat -> C.
Hypothesis sched_ok : forall n, perm_eq (sched n) (iota 0 n).
Notation mat := (nat -> nat -> C).
Notation vec := (nat -> C).
Variables (N : nat) (mu : vec) (cov : mat) (hbar : C).

Notation Enp := (E_npow N mu cov hbar).

(** the order in which the modes are expanded does not matter *)
Lemma E_npow_pull (l : seq (nat * nat)) acc x : uniq [seq kv.1 | kv <- l] -> x \in l ->
  Enp l acc = \sum_(q < x.2.+1) (stirling2 x.2 q)%:R * Enp (rem x l) (set_nth 0%N acc x.1 q).
Proof.
elim: l acc => [|y l IH] acc //=; rewrite inE => /andP[yl ul].
have [-> _|ne] := eqVneq x y; first by case: y yl.
move=> /= xl.
case: y yl ne => k m yl ne /=.
have nk : k != x.1 by apply: contraNneq yl => /= ->; apply: map_f.
transitivity (\sum_(q < m.+1) \sum_(p < x.2.+1) (stirling2 m q)%:R * ((stirling2 x.2 p)%:R * Enp (rem x l) (set_nth 0%N (set_nth 0%N acc k q) x.1 p))).
  by apply: eq_bigr => q _; rewrite IH // mulr_sumr.
rewrite exchange_big; apply: eq_bigr => p _; rewrite mulr_sumr; apply: eq_bigr => q _.
by rewrite set_set_nth (negPf nk) mulrCA.
Qed.
Lemma E_npow_perm (l l' : seq (nat * nat)) acc : uniq [seq kv.1 | kv <- l] -> perm_eq l l' -> Enp l acc = Enp l' acc.
Proof.
elim: l l' acc => [|x l IH] l' acc; first by move=> _ /perm_size; case: l'.
move=> u p; have xl : x \in l' by rewrite -(perm_mem p) mem_head.
have u' : uniq [seq kv.1 | kv <- l'] by rewrite -(perm_uniq (perm_map _ p)).
rewrite (E_npow_pull _ u' xl); case: x u p xl => k m /= /andP[_ u] p xl.
apply: eq_bigr => q _; congr (_ * _); apply: IH => //.
by rewrite -(perm_cons (k, m)) (perm_trans p) // perm_to_rem.
Qed.
Lemma number_product_perm s s' : perm_eq s s' -> number_product N mu cov hbar s = number_product N mu cov hbar s'.
Proof.
move=> p; rewrite /number_product /number_moment; apply: E_npow_perm.
  by rewrite -map_comp /= (eq_map (f2 := id)) ?map_id ?undup_uniq.
have -> : [seq (k, count_mem k s) | k <- undup s] = [seq (k, count_mem k s') | k <- undup s].
  by apply: eq_map => k; rewrite (permP p).
by apply/perm_map/perm_undup/perm_mem.
Qed.

Hypothesis rc : real_sym (2 * N) cov.
Hypothesis rmu : forall a, (a < 2 * N)%N -> mu a \is Num.real.
Hypothesis hp : 0 < hbar.

Lemma E_npow_real l acc : size acc = N -> all (fun kv => kv.1 < N)%N l -> Enp l acc \is Num.real.
Proof.
elim: l acc => [|[k m] l IH] acc sa /=.
  move=> _; apply: smom_real => //; first by rewrite size_cat sa; lia.
  by move=> t ht; rewrite !nth_cat sa ht; case: ltnP; [lia|rewrite addKn].
move=> /andP[hk hl]; apply: rpred_sum => q _; rewrite rpredM ?realn //; apply: IH => //.
by rewrite size_set_nth sa; lia.
Qed.

Hypothesis rob : robust N mu cov hbar.

Lemma setmany_gen ks acc o (F : nat -> nat) :
  foldl (fun rpt ik => set_nth 0%N rpt ik.2 (F ik.1).+1) acc (zip (iota o (size ks)) ks) = setmany ks (map F (iota o (size ks))) acc.
Proof. by rewrite /setmany; elim: ks acc o => [|k ks IH] acc o //=; rewrite IH. Qed.
Lemma setmany_loop ks item acc : size item = size ks ->
  for_ (zip (iota 0 (size ks)) ks) acc (fun rpt ik => set_nth 0%N rpt ik.2 (nth 0%N item ik.1).+1) = setmany ks item acc.
Proof. by move=> e; rewrite /for_ (setmany_gen ks acc 0 (nth 0%N item)) -e (mkseq_nth 0%N item : map _ _ = _). Qed.
Lemma zip_prod (R : comRingType) (cs : seq (seq R)) (item : seq nat) (G : seq R -> nat -> R) : size item = size cs ->
  \prod_(ic <- zip (iota 0 (size item)) item) G (nth [::] cs ic.1) ic.2 = \prod_(x <- zip cs item) G x.1 x.2.
Proof.
have gen o ds : drop o ds = cs -> size item = size cs -> 
    \prod_(ic <- zip (iota o (size item)) item) G (nth [::] ds ic.1) ic.2 = \prod_(x <- zip cs item) G x.1 x.2; last first.
  by apply: gen; rewrite drop0.
elim: item cs o => [|q item IH] [|c cs] o //= e; first by rewrite !big_nil.
move=> [sz]; rewrite !big_cons /=; congr (_ * _); first by rewrite -[o]addn0 -nth_drop e.
by apply: (IH cs o.+1) => //; rewrite -addn1 addnC -drop_drop e /= drop0.
Qed.

Lemma zip_mapl (A B D : Type) (f : A -> B) (l : seq A) (t : seq D) : zip (map f l) t = [seq (f x.1, x.2) | x <- zip l t].
Proof. by elim: l t => [|a l IH] [|d t] //=; rewrite IH. Qed.
Lemma moment_sum (l : seq (nat * nat)) acc : all (fun kv => 0 < kv.2)%N l ->
  \sum_(item <- product [seq iota 0 kv.2 | kv <- l])
     (\prod_(x <- zip l item) (stirling2 x.1.2 x.2.+1)%:R)
      * s_ordered_moment N mu cov hbar 1 (setmany [seq kv.1 | kv <- l] item acc ++ setmany [seq kv.1 | kv <- l] item acc)
  = Enp l acc.
Proof.
elim: l acc => [|[k m] l IH] acc /=.
  by move=> _; rewrite big_seq1 big_nil mul1r.
move=> /andP[m0 hl]; rewrite big_flatten big_map big_ord_recl stirling20 // mul0r add0r.
rewrite -(subn0 m) -/(index_iota 0 m) big_mkord subn0; apply: eq_bigr => q _ /=.
rewrite big_map -IH // mulr_sumr; apply: eq_bigr => item _.
by rewrite big_cons /= -mulrA.
Qed.

(** C46: the moment, for powers >= 1 of distinct modes *)
Theorem photon_number_moment_correct (l : seq (nat * nat)) :
  uniq [seq kv.1 | kv <- l] -> all (fun kv => (kv.1 < N)%N && (0 < kv.2)%N) l ->
  photon_number_moment sched oracle N mu cov l hbar = Ok (number_moment N mu cov hbar l).
Proof.
move=> u hl.
have hN : all (fun kv => kv.1 < N)%N l by apply: sub_all hl => kv /andP[].
have h0 : all (fun kv => 0 < kv.2)%N l by apply: sub_all hl => kv /andP[].
have hk : all (fun k => k < N)%N [seq kv.1 | kv <- l] by rewrite all_map.
rewrite /photon_number_moment -map_comp.
set ks := [seq kv.1 | kv <- l] in hk *.
have -> : has (fun key => N <= key)%N ks = false.
  by apply/negbTE; rewrite -all_predC; apply: sub_all hk => k /=; rewrite -ltnNge.
pose g item := (\prod_(x <- zip l item) (stirling2 x.1.2 x.2.+1)%:R) * s_ordered_moment N mu cov hbar 1 (setmany ks item (nseq N 0%N) ++ setmany ks item (nseq N 0%N)).
rewrite (@foldM_sum _ _ _ _ _ g); last first.
  move=> x item; rewrite mem_product size_map => /andP[/eqP sz ai].
  rewrite setmany_loop ?size_map //.
  rewrite normal_ok //; last by rewrite size_cat !(@size_setmany N) ?size_nseq //; lia.
  congr (Ok (_ + _ * _)).
  rewrite (@zip_prod C _ _ (fun s i => nth 0 s i)) ?size_map //.
  rewrite zip_mapl big_map /= big_seq [RHS]big_seq; apply: eq_bigr => -[[k m] q] /= xz.
  have qm : (q < m)%N.
    clear -xz ai; elim: l item ai xz => [|y l IH] [|z item] //= /andP[hz ai]; rewrite inE => /orP[/eqP e|]; last exact: IH.
    by move: hz; case: e => <- <-; rewrite mem_iota.
  by rewrite (nth_map 0%N) ?size_iota // nth_iota // coeff_normal_ordered_stirling ?add1n //; exact: char_num.
rewrite /= add0r /g moment_sum // /real_if_close.
have r : Enp l (nseq N 0%N) \is Num.real by apply: E_npow_real; rewrite ?size_nseq.
by rewrite (Creal_ImP _ r) normr0 ifT ?(Creal_ReP _ r) // /ric_tol mulr_gt0 ?ltr0n // invr_gt0 exprn_gt0 ?ltr0n.
Qed.
(** a mode listed with power 0 makes the result 0 instead of leaving the moment of the others unchanged *)
Theorem photon_number_moment_zero_power (l : seq (nat * nat)) k : (k, 0%N) \in l ->
  photon_number_moment sched oracle N mu cov l hbar = Ok 0.
Proof.
move=> kl; rewrite /photon_number_moment.
have -> : product [seq iota 0 i | i <- [seq kv.2 | kv <- l]] = [::].
  elim: l kl => [|[k' m'] l IH] //=; rewrite inE => /orP[/eqP[_ <-] //|/IH ->].
  by elim: (iota 0 m') => [|? ?] //=.
by rewrite /= /real_if_close !(Creal_ImP _ (rpred0 _)) !(Creal_ReP _ (rpred0 _)) if_same.
Qed.

(** C46: cumulants.  [order] is the iteration order of Python sets: any enumeration of the distinct elements. *)
Variable order : seq nat -> seq nat.
Hypothesis order_ok : forall s, perm_eq (order s) (undup s).
Definition cumulant_spec (modes : seq nat) : C :=
  \sum_(P : {set {set 'I_(size modes)}} | finset.partition P [set: 'I_(size modes)])
    (-1) ^+ (#|P| - 1) * ((#|P| - 1)`!)%:R * \prod_(B in P) number_product N mu cov hbar [seq nth 0%N modes (val i) | i <- enum B].
Lemma moment_block (B : seq nat) : all (fun k => k < N)%N B ->
  photon_number_moment sched oracle N mu cov (list_to_freq_dict order B) hbar = Ok (number_product N mu cov hbar B).
Proof.
move=> hB; have ek : [seq kv.1 | kv <- list_to_freq_dict order B] = order B.
  by rewrite /list_to_freq_dict -map_comp /= (eq_map (f2 := id)) ?map_id.
rewrite photon_number_moment_correct ?ek ?(perm_uniq (order_ok B)) ?undup_uniq //.
  congr Ok; rewrite /number_product /number_moment; apply: E_npow_perm; first by rewrite ek (perm_uniq (order_ok B)) undup_uniq.
  exact: perm_map.
rewrite all_map; apply/allP => k; rewrite (perm_mem (order_ok B)) mem_undup => kB /=.
by rewrite (allP hB) //= -has_count has_pred1.
Qed.
Theorem photon_number_cumulant_correct modes : modes <> [::] -> all (fun k => k < N)%N modes ->
  photon_number_cumulant sched oracle order N mu cov modes hbar = Ok (cumulant_spec modes).
Proof.
move=> ne hm; have [ps [hpart hperm hu hall]] := partition_enumerates 0%N ne.
rewrite /photon_number_cumulant hpart /=.
pose I := 'I_(size modes).
pose blk (B : {set I}) := number_product N mu cov hbar [seq nth 0%N modes (val i) | i <- enum B].
pose g (pi : seq (seq I)) := (-1) ^+ (size pi - 1) * ((size pi - 1)`!)%:R * \prod_(B <- blocks pi) blk B.
have sumE (fm : C -> seq (seq nat) -> res C) x0 :
   (forall x p, p \in ps -> fm x [seq [seq nth 0%N modes (val i) | i <- B] | B <- p] = Ok (x + g p)) ->
   foldM fm x0 [seq [seq [seq nth 0%N modes (val i) | i <- B] | B <- p] | p <- ps] = Ok (x0 + \sum_(p <- ps) g p).
  elim: (ps) x0 => [|p l IH] x0 h /=; first by rewrite big_nil addr0.
  rewrite h ?mem_head //= IH ?big_cons ?addrA // => x q ql; apply: h; by rewrite inE ql orbT.
rewrite sumE; last first.
  move=> x p pp; have [pf ub] := hperm p pp.
  rewrite (@foldM_prod _ _ _ _ _ (fun B => number_product N mu cov hbar B)); last first.
    move=> y B /mapP[B' hB' ->]; rewrite moment_block //.
    apply/allP => k /mapP[i _ ->]; apply: (allP hm); rewrite mem_nth //; exact: ltn_ord.
  rewrite size_map /g; congr (Ok (x + _)).
  rewrite [_%:R * _]mulrC; congr (_ * _); rewrite /blocks !big_map.
  rewrite big_seq [RHS]big_seq; apply: eq_bigr => B hB; rewrite /blk; apply: number_product_perm; apply: perm_map.
  apply: uniq_perm; rewrite ?enum_uniq //; last by move=> i; rewrite mem_enum inE.
  have : uniq (flatten p) by rewrite (perm_uniq pf) enum_uniq.
  clear -hB; elim: p hB => [|B' p IH] //=; rewrite inE cat_uniq => /orP[/eqP -> /and3P[]//|hB /and3P[_ _]]; exact: IH.
rewrite add0r; congr Ok; rewrite /cumulant_spec.
transitivity (\sum_(P <- [seq toset p | p <- ps]) ((-1) ^+ (#|P| - 1) * ((#|P| - 1)`!)%:R * \prod_(B in P) blk B)); last first.
  rewrite (perm_big (enum (fun P : {set {set I}} => finset.partition P [set: I]))); first by rewrite big_enum.
  by apply: uniq_perm; rewrite ?enum_uniq // => P; rewrite hall mem_enum.
rewrite big_map big_seq [RHS]big_seq; apply: eq_bigr => p /hperm[pf ub]; rewrite /g.
have pe : perm_eq (enum (toset p)) (blocks p).
  by apply: uniq_perm; rewrite ?enum_uniq // => B; rewrite mem_enum /toset inE.
have sz : size p = #|toset p| by rewrite cardE (perm_size pe) size_map.
by rewrite sz -[in RHS]big_enum (perm_big _ pe).
Qed.
End Mom.
