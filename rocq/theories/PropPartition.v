(** C50: [partition] enumerates the set partitions, each exactly once; Stirling numbers. *)
From mathcomp Require Import all_ssreflect all_algebra.
From mathcomp Require Import zify.
From Verif Require Import Prelude PyBase ArrLoop MPartition SpecGauss.
Set Implicit Arguments.
Unset Strict Implicit.
Unset Printing Implicit Defensive.
Import GRing.Theory.
Local Open Scope ring_scope.

(** naturality: [partition] never inspects the elements *)
Lemma extend_partition_map (T U : Type) (f : T -> U) x s :
  extend_partition (f x) [seq [seq f i | i <- B] | B <- s] = [seq [seq [seq f i | i <- B] | B <- p] | p <- extend_partition x s].
Proof.
rewrite /extend_partition map_cat /=; congr (_ ++ _); rewrite size_map -map_comp; apply/eq_in_map => n.
rewrite mem_iota add0n => /andP[_ hn] /=.
by rewrite map_cat /= map_take map_drop (nth_map [::]).
Qed.
Lemma partition_map_ (T U : Type) (f : T -> U) x l :
  partition_ (f x) [seq f i | i <- l] = [seq [seq [seq f i | i <- B] | B <- p] | p <- partition_ x l].
Proof.
elim: l x => [|y l IH] x //=; rewrite IH map_flatten -!map_comp; congr flatten; apply: eq_map => s /=.
exact: extend_partition_map.
Qed.

Lemma partition_flatten (T : eqType) (x : T) l p : p \in partition_ x l -> perm_eq (flatten p) (x :: l).
Proof.
elim: l x p => [|y l IH] x p; first by rewrite inE => /eqP ->.
move=> /flatten_mapP[q hq]; have {}IH := IH _ _ hq.
rewrite /extend_partition mem_cat => /orP[/mapP[n]|]; last first.
  by rewrite inE => /eqP -> /=; rewrite perm_cons.
rewrite mem_iota add0n => /andP[_ hn] ->.
rewrite flatten_cat /= -cat_cons perm_catCA /= perm_cons; apply: perm_trans IH.
have -> : flatten q = flatten (take n q) ++ nth [::] q n ++ flatten (drop n.+1 q).
  by rewrite -[in LHS](cat_take_drop n q) (drop_nth [::] hn) flatten_cat.
by rewrite perm_catCA.
Qed.

Section Sets.
Variable T : finType.
Implicit Types (s : seq {set T}) (D : {set T}) (P : {set {set T}}).
Definition blocks (p : seq (seq T)) : seq {set T} := [seq [set y in B] | B <- p].
Definition toset (p : seq (seq T)) : {set {set T}} := [set B in blocks p].

(** insertion of x in the n-th block, at the level of lists of sets *)
Definition ins (x : T) (s : seq {set T}) n := take n s ++ (x |: nth set0 s n) :: drop n.+1 s.
Lemma blocks_ext x p : map blocks (extend_partition x p) = [seq ins x (blocks p) n | n <- iota 0 (size p)] ++ [:: [set x] :: blocks p].
Proof.
rewrite /extend_partition map_cat -map_comp /=; congr (_ ++ _); last first.
  by rewrite /blocks /=; congr [:: _ :: _]; apply/setP => y; rewrite !inE.
apply/eq_in_map => n; rewrite mem_iota add0n => /andP[_ hn] /=.
rewrite /blocks map_cat /ins map_take /= map_drop (nth_map [::]) //; congr (_ ++ (_ :: _)).
by apply/setP => y; rewrite !inE.
Qed.

Definition good (D : {set T}) (s : seq {set T}) := uniq s && finset.partition [set B in s] D.
(** forget x *)
Definition forget x P := [set B :\ x | B in P] :\ set0.

Lemma mem_ins x s n B : (n < size s)%N -> uniq s -> 
  (B \in ins x s n) = (B == x |: nth set0 s n) || (B \in s) && (B != nth set0 s n).
Proof.
move=> hn us; rewrite /ins mem_cat inE.
have e : s = take n s ++ nth set0 s n :: drop n.+1 s by rewrite -drop_nth // cat_take_drop.
move: us; rewrite {1}e cat_uniq /= negb_or => /and3P[u1 /andP[na _] /andP[nb u2]].
have -> : (B \in s) = (B \in take n s) || (B == nth set0 s n) || (B \in drop n.+1 s) by rewrite {1}e mem_cat inE orbA.
have [->|nB] := eqVneq B (nth set0 s n); first by rewrite (negPf na) (negPf nb) !andbF !orbF.
by rewrite andbT orbF orbCA.
Qed.
Lemma sub_good D s B : good D s -> B \in s -> B \subset D.
Proof.
case/andP => us /and3P[/eqP <- _ _] hB; apply: (bigcup_max B) => //; by rewrite inE.
Qed.
Lemma good_ne D s B : good D s -> B \in s -> B != set0.
Proof. by case/andP => us /and3P[_ _ h0] hB; apply: contraNneq h0 => <-; rewrite inE. Qed.
Lemma notin_good D s x B : x \notin D -> good D s -> B \in s -> x \notin B.
Proof. by move=> xD g hB; apply: contraNN xD => xB; apply: (subsetP (sub_good g hB)). Qed.

Lemma forget_ins D s x n : x \notin D -> good D s -> (n < size s)%N -> forget x [set B in ins x s n] = [set B in s].
Proof.
move=> xD g hn; have us : uniq s by case/andP: g.
have hin : nth set0 s n \in s by exact: mem_nth.
apply/setP => B; rewrite !inE; apply/andP/idP => [[B0 /imsetP[B']]|hB].
  rewrite inE mem_ins // => /orP[/eqP ->|/andP[hB' _]] ->.
    by rewrite setU1K // (notin_good xD g).
  have := notin_good xD g hB'; rewrite -[_ :\ x]setD0 => nx; rewrite setD0.
  by have -> : B' :\ x = B' by apply/setDidPl; rewrite disjoint_sym disjoints1.
split; first exact: good_ne g hB.
have [->|nB] := eqVneq B (nth set0 s n).
  apply/imsetP; exists (x |: nth set0 s n); first by rewrite inE mem_ins // eqxx.
  by rewrite setU1K // (notin_good xD g).
apply/imsetP; exists B; first by rewrite inE mem_ins // hB nB orbT.
by have := notin_good xD g hB => nx; symmetry; apply/setDidPl; rewrite disjoint_sym disjoints1.
Qed.
Lemma forget_cons D s x : x \notin D -> good D s -> forget x [set B in [set x] :: s] = [set B in s].
Proof.
move=> xD g; apply/setP => B; rewrite !inE; apply/andP/idP => [[B0 /imsetP[B']]|hB].
  rewrite !inE => /orP[/eqP ->|hB'] e; first by move: B0; rewrite e setDv eqxx.
  by rewrite e (_ : B' :\ x = B') //; apply/setDidPl; rewrite disjoint_sym disjoints1 (notin_good xD g).
split; first exact: good_ne g hB.
apply/imsetP; exists B; first by rewrite !inE hB orbT.
by symmetry; apply/setDidPl; rewrite disjoint_sym disjoints1 (notin_good xD g).
Qed.

Lemma partitionE P D : reflect [/\ (forall y, (y \in D) = [exists B in P, y \in B]),
   {in P &, forall A B : {set T}, A != B -> [disjoint A & B]} & set0 \notin P] (finset.partition P D).
Proof.
apply: (iffP and3P) => [[/eqP <- /trivIsetP t h0]|[c t h0]].
  split=> // y; apply/bigcupP/existsP => [[B hB yB]|[B /andP[hB yB]]]; exists B => //; exact/andP.
split=> //; last exact/trivIsetP.
apply/eqP/setP => y; rewrite c; apply/bigcupP/existsP => [[B hB yB]|[B /andP[hB yB]]]; exists B => //; exact/andP.
Qed.

Lemma good_cons D s x : x \notin D -> good D s -> good (x |: D) ([set x] :: s).
Proof.
move=> xD g; rewrite /good /=; have /andP[us /partitionE[c t h0]] := g.
have nx : [set x] \notin s by apply: contraNN xD => h; apply: (subsetP (sub_good g h)); rewrite inE.
rewrite nx us /=; apply/partitionE; split.
- move=> y; rewrite !inE c; apply/orP/existsP => [[/eqP ->|/existsP[B /andP[hB yB]]]|[B /andP[]]].
  + by exists [set x]; rewrite !inE !eqxx.
  + by exists B; rewrite yB andbT; move: hB; rewrite !inE => ->; rewrite orbT.
  rewrite !inE => /orP[/eqP ->|hB] yB; first by left; rewrite inE in yB.
  by right; apply/existsP; exists B; rewrite inE hB.
- move=> A B; rewrite !inE => /orP[/eqP ->|hA] /orP[/eqP ->|hB] nAB.
  + by rewrite eqxx in nAB.
  + by rewrite disjoints1 (notin_good xD g).
  + by rewrite disjoint_sym disjoints1 (notin_good xD g).
  by apply: t => //; rewrite inE.
rewrite !inE negb_or; move: h0; rewrite inE => ->; rewrite andbT.
by apply/eqP => /setP/(_ x); rewrite !inE eqxx.
Qed.
Lemma good_ins D s x n : x \notin D -> good D s -> (n < size s)%N -> good (x |: D) (ins x s n).
Proof.
move=> xD g hn; have /andP[us /partitionE[c t h0]] := g.
have hin : nth set0 s n \in s by exact: mem_nth.
have e : s = take n s ++ nth set0 s n :: drop n.+1 s by rewrite -drop_nth // cat_take_drop.
have nxs : x |: nth set0 s n \notin s.
  apply: contraNN xD => h; apply: (subsetP (sub_good g h)); by rewrite !inE eqxx.
apply/andP; split.
  have : ~~ ((x |: nth set0 s n \in take n s) || (x |: nth set0 s n == nth set0 s n) || (x |: nth set0 s n \in drop n.+1 s)).
    by rewrite -orbA -in_cons -mem_cat -e.
  rewrite !negb_or => /andP[/andP[n1 _] n2].
  move: us; rewrite {1}e /ins !cat_uniq /= !negb_or n1 n2 => /and3P[-> /andP[_ ->] /andP[_ ->]] //.
apply/partitionE; split.
- move=> y; rewrite !inE c; apply/orP/existsP => [[/eqP ->|/existsP[B /andP[hB yB]]]|[B /andP[]]].
  + by exists (x |: nth set0 s n); rewrite !inE mem_ins // !eqxx.
  + have [eB|nB] := eqVneq B (nth set0 s n).
      by exists (x |: nth set0 s n); rewrite !inE mem_ins // !eqxx -eB yB orbT.
    by exists B; rewrite yB andbT; move: hB; rewrite !inE mem_ins // => ->; rewrite nB orbT.
  rewrite inE mem_ins // => /orP[/eqP ->|/andP[hB _]] yB.
    move: yB; rewrite !inE => /orP[->|yB]; first by left.
    by right; apply/existsP; exists (nth set0 s n); rewrite inE hin.
  by right; apply/existsP; exists B; rewrite inE hB.
- have hd B : B \in s -> B != nth set0 s n -> [disjoint x |: nth set0 s n & B].
    move=> hB nB; rewrite -setI_eq0 setIUl setU_eq0 !setI_eq0 disjoints1 (notin_good xD g hB) /=.
    by apply: t; rewrite ?inE // eq_sym.
  move=> A B; rewrite !inE !mem_ins // => /orP[/eqP ->|/andP[hA nA]] /orP[/eqP ->|/andP[hB nB]] nAB.
  + by rewrite eqxx in nAB.
  + exact: hd.
  + by rewrite disjoint_sym; apply: hd.
  by apply: t => //; rewrite inE.
rewrite inE mem_ins // negb_or; move: h0; rewrite inE => /negPf ->; rewrite andbT.
by apply/eqP => /setP/(_ x); rewrite !inE eqxx.
Qed.

(** every partition of x |: D comes from its restriction to D *)
Lemma forget_partition P D x : x \notin D -> finset.partition P (x |: D) -> finset.partition (forget x P) D.
Proof.
move=> xD /partitionE[c t h0]; apply/partitionE; split.
- move=> y; apply/idP/existsP => [yD|[B /andP[]]].
    have /existsP[B /andP[hB yB]] : [exists B in P, y \in B] by rewrite -c !inE yD orbT.
    have yx : y != x by apply: contraNneq xD => <-.
    have yBx : y \in B :\ x by rewrite !inE yx.
    exists (B :\ x); rewrite yBx andbT !inE; apply/andP; split; last by apply/imsetP; exists B.
    by apply/set0Pn; exists y.
  rewrite !inE => /andP[_ /imsetP[B' hB' ->]]; rewrite !inE => /andP[yx yB].
  have : y \in x |: D by rewrite c; apply/existsP; exists B'; rewrite hB'.
  by rewrite !inE (negPf yx).
- move=> A B; rewrite !inE => /andP[_ /imsetP[A' hA ->]] /andP[_ /imsetP[B' hB ->]] nAB.
  have nAB' : A' != B' by apply: contraNneq nAB => ->.
  by apply: disjointWl (subD1set _ _) _; apply: disjointWr (subD1set _ _) _; apply: t.
by rewrite !inE eqxx.
Qed.

Lemma ins_forget P D x s : x \notin D -> finset.partition P (x |: D) -> good D s -> forget x P = [set B in s] ->
  P = [set B in [set x] :: s] \/ exists2 n, (n < size s)%N & P = [set B in ins x s n].
Proof.
move=> xD pP g fP; have us : uniq s by case/andP: g.
have /partitionE[c t h0] := pP.
have /existsP[B0 /andP[hB0 xB0]] : [exists B in P, x \in B] by rewrite -c !inE eqxx.
have nxB (B : {set T}) : B \in P -> B != B0 -> x \notin B.
  by move=> hB nB; rewrite (disjointFl (t _ _ hB hB0 nB)).
have dx (B : {set T}) : x \notin B -> B :\ x = B by move=> nx; apply/setDidPl; rewrite disjoint_sym disjoints1.
have inP (B : {set T}) : B != B0 -> B != B0 :\ x -> (B \in P) = (B \in s).
  move=> n0 n1; have : (B \in forget x P) = (B \in s) by rewrite fP inE.
  move=> <-; rewrite !inE; apply/idP/andP => [hB|[ne /imsetP[B' hB' e]]].
    split; first by apply: contraNneq h0 => <-.
    by apply/imsetP; exists B => //; rewrite dx // nxB.
  have [e0|nB] := eqVneq B' B0; first by rewrite e e0 eqxx in n1.
  by rewrite e dx // nxB.
have B0s : B0 \notin s by apply: contraNN xD => h; apply: (subsetP (sub_good g h)).
have [e0|ne0] := eqVneq (B0 :\ x) set0.
  have eB : B0 = [set x] by rewrite -(setD1K xB0) e0 setU0.
  left; apply/setP => B; rewrite !inE -eB.
  have [->|nB] := eqVneq B B0; first by rewrite hB0.
  have [e1|nB1] := eqVneq B (B0 :\ x); last by rewrite inP.
  rewrite e1 e0 (negPf h0); apply/esym/negP => h; by have := good_ne g h; rewrite eqxx.
right.
have B1s : B0 :\ x \in s.
  by have : B0 :\ x \in forget x P; [rewrite !inE ne0; apply/imsetP; exists B0 | rewrite fP inE].
exists (index (B0 :\ x) s); first by rewrite index_mem.
apply/setP => B; rewrite inE mem_ins ?index_mem // nth_index // setD1K //.
have [->|nB] := eqVneq B B0; first by rewrite hB0.
have [e1|nB1] := eqVneq B (B0 :\ x); last by rewrite inP // andbT.
rewrite andbF; apply/negP => hB.
have := t _ _ hB hB0 nB; rewrite e1 => /disjoint_setI0.
by rewrite (setIidPl (subD1set _ _)) => e; rewrite e eqxx in ne0.
Qed.

Lemma partition_good x l : uniq (x :: l) -> forall p, p \in partition_ x l -> good [set y in x :: l] (blocks p).
Proof.
elim: l x => [|y l IH] x.
  move=> _ p; rewrite inE => /eqP ->; rewrite /good /=.
  apply/partitionE; split.
  - move=> z; rewrite !inE; apply/idP/existsP => [zx|[B]]; first by exists [set z in [:: x]]; rewrite !inE eqxx zx.
    by rewrite !inE => /andP[/eqP ->]; rewrite !inE.
  - by move=> A B; rewrite !inE => /eqP -> /eqP ->; rewrite eqxx.
  by rewrite !inE; apply/eqP => /setP/(_ x); rewrite !inE eqxx.
move=> /= /andP[xl ul] p /flatten_mapP[q hq] hp.
have g := IH y ul q hq.
have xD : x \notin [set z in y :: l] by rewrite inE.
have -> : [set z in [:: x, y & l]] = x |: [set z in y :: l] by apply/setP => z; rewrite !inE.
have : blocks p \in map blocks (extend_partition x q) by exact: map_f.
rewrite blocks_ext mem_cat => /orP[/mapP[n]|]; last by rewrite inE => /eqP ->; exact: good_cons.
by rewrite mem_iota add0n => /andP[_ hn] ->; apply: good_ins => //; rewrite size_map.
Qed.

Lemma toset_ext x q : map toset (extend_partition x q) =
  [seq [set B in ins x (blocks q) n] | n <- iota 0 (size q)] ++ [:: [set B in [set x] :: blocks q]].
Proof.
have -> : map toset (extend_partition x q) = [seq [set B in s] | s <- map blocks (extend_partition x q)] by rewrite -map_comp.
by rewrite blocks_ext map_cat -map_comp.
Qed.

Lemma partition_uniq x l : uniq (x :: l) -> uniq (map toset (partition_ x l)).
Proof.
elim: l x => [|y l IH] x //.
move=> /= /andP[xl ul]; have u := IH y ul; have g := partition_good ul.
have xD : x \notin [set z in y :: l] by rewrite inE.
rewrite map_flatten -map_comp; elim: (partition_ y l) u g => [|q qs IHq] //= /andP[nq uq] g.
have gq : good [set z in y :: l] (blocks q) by apply: g; rewrite inE eqxx.
have gqs p : p \in qs -> good [set z in y :: l] (blocks p) by move=> h; apply: g; rewrite inE h orbT.
have fext q' P : good [set z in y :: l] (blocks q') -> P \in map toset (extend_partition x q') -> forget x P = toset q'.
  move=> g'; rewrite toset_ext mem_cat => /orP[/mapP[n]|]; last first.
    by rewrite inE => /eqP ->; exact: forget_cons xD g'.
  by rewrite mem_iota add0n => /andP[_ hn] ->; apply: forget_ins xD g' _; rewrite size_map.
rewrite cat_uniq IHq // andbT; apply/andP; split.
  rewrite toset_ext cat_uniq /= andbT orbF; apply/andP; split; last first.
    apply/negP => /mapP[n]; rewrite mem_iota add0n => /andP[_ hn] /setP/(_ [set x]).
    rewrite !inE eqxx /= mem_ins ?size_map //; last by case/andP: gq.
    have hn' : (n < size (blocks q))%N by rewrite size_map.
    have hin : nth set0 (blocks q) n \in blocks q by exact: mem_nth.
    move=> /esym/orP[/eqP e|/andP[h _]]; last first.
      by have := notin_good xD gq h; rewrite inE eqxx.
    have /set0Pn[z hz] := good_ne gq hin.
    have := notin_good xD gq hin; have : z \in [set x] by rewrite e !inE hz orbT.
    by rewrite inE => /eqP <-; rewrite hz.
  rewrite map_inj_in_uniq ?iota_uniq // => n m; rewrite !mem_iota !add0n => /andP[_ hn] /andP[_ hm].
  have ub : uniq (blocks q) by case/andP: gq.
  have hn' : (n < size (blocks q))%N by rewrite size_map.
  have hm' : (m < size (blocks q))%N by rewrite size_map.
  move=> /setP/(_ (x |: nth set0 (blocks q) n)); rewrite !inE !mem_ins // eqxx /=.
  have hin : nth set0 (blocks q) n \in blocks q by exact: mem_nth.
  have him : nth set0 (blocks q) m \in blocks q by exact: mem_nth.
  move=> /esym/orP[/eqP e|/andP[h _]]; last first.
    by have := notin_good xD gq h; rewrite !inE eqxx.
  have : nth set0 (blocks q) n = nth set0 (blocks q) m.
    by rewrite -(setU1K (notin_good xD gq hin)) e (setU1K (notin_good xD gq him)).
  by move/eqP; rewrite nth_uniq // => /eqP.
apply/negP => /hasP[P /flatten_mapP[q' hq' hP'] hP]; move: nq.
rewrite -(fext _ _ gq hP) (fext q' P (gqs _ hq') hP') => /negP; apply.
exact: map_f.
Qed.

Lemma partition_complete x l P : uniq (x :: l) -> finset.partition P [set y in x :: l] -> P \in map toset (partition_ x l).
Proof.
elim: l x P => [|y l IH] x P.
  move=> _ pP; rewrite /= inE; apply/eqP.
  have /partitionE[c t h0] := pP.
  have sx B : B \in P -> B = [set x].
    move=> hB; apply/eqP; rewrite eqEsubset; have hs : B \subset [set x].
      apply/subsetP => z zB; have : z \in [set y in [:: x]] by rewrite c; apply/existsP; exists B; rewrite hB.
      by rewrite !inE.
    rewrite hs /= sub1set; have /set0Pn[z zB] : B != set0 by apply: contraNneq h0 => <-.
    by have := subsetP hs _ zB; rewrite inE => /eqP <-.
  have /existsP[B0 /andP[hB0 xB0]] : [exists B in P, x \in B] by rewrite -c !inE eqxx.
  have e1 : [set y in [:: x]] = [set x] by apply/setP => z; rewrite !inE.
  apply/setP => B; rewrite !inE e1; apply/idP/eqP => [|->]; first exact: sx.
  by rewrite -(sx _ hB0).
move=> /= /andP[xl ul] pP.
have xD : x \notin [set z in y :: l] by rewrite inE.
have eD : [set z in [:: x, y & l]] = x |: [set z in y :: l] by apply/setP => z; rewrite !inE.
move: pP; rewrite eD => pP.
have /mapP[q hq fq] := IH y _ ul (forget_partition xD pP).
have g := partition_good ul hq.
rewrite map_flatten -map_comp; apply/flatten_mapP; exists q => //=; rewrite toset_ext mem_cat.
have [->|[n hn ->]] := ins_forget xD pP g fq; first by rewrite inE eqxx orbT.
apply/orP; left; apply: map_f; rewrite mem_iota add0n /=; by rewrite size_map in hn.
Qed.
End Sets.

(** C50.  [set_partition_sum]: for every nonempty list of modes [l] (repetitions allowed), the values yielded by
    [partition(l)] are, position by position, exactly the set partitions of the positions {0..n-1}, each once:
    there are lists of blocks of positions [ps] such that the yielded values are [ps] with positions replaced by
    elements of [l], every [p] in [ps] consists of pairwise distinct blocks without repetition of positions, and
    the corresponding sets of sets run through all set partitions of {0..n-1} without repetition. *)
Theorem partition_enumerates (T : Type) (x0 : T) (l : seq T) : l <> [::] ->
  exists ps : seq (seq (seq 'I_(size l))),
   [/\ partition l = Ok [seq [seq [seq nth x0 l (val i) | i <- B] | B <- p] | p <- ps],
       forall p, p \in ps -> perm_eq (flatten p) (enum 'I_(size l)) /\ uniq (blocks p),
       uniq [seq toset p | p <- ps] &
       forall P : {set {set 'I_(size l)}}, (P \in [seq toset p | p <- ps]) = finset.partition P [set: 'I_(size l)]].
Proof.
case: l => [//|x l] _; set L := x :: l.
have hn : (0 < size L)%N by [].
pose o0 : 'I_(size L) := Ordinal hn.
have [e el] : exists e, enum 'I_(size L) = o0 :: e.
  have s0 : (0 < size (enum 'I_(size L)))%N by rewrite -cardE card_ord.
  have : nth o0 (enum 'I_(size L)) 0 = o0 by apply: val_inj; rewrite /= nth_enum_ord.
  by case: (enum 'I_(size L)) s0 => // a e _ /= ->; exists e.
have u : uniq (o0 :: e) by rewrite -el enum_uniq.
have eT : [set y in o0 :: e] = setT by apply/setP => y; rewrite -el !inE mem_enum.
have eL : L = [seq nth x0 L (val i) | i <- o0 :: e].
  rewrite -el -[LHS](mkseq_nth x0) /mkseq -val_enum_ord -map_comp //.
exists (partition_ o0 e); split.
- by rewrite {1}eL -[RHS]/(Ok _) -partition_map_.
- move=> p hp; have g := partition_good u hp; split; last by case/andP: g.
  by rewrite el; exact: partition_flatten.
- exact: partition_uniq.
move=> P; apply/idP/idP => [/mapP[p hp ->]|h]; last by apply: partition_complete => //; rewrite eT.
by have /andP[_] := partition_good u hp; rewrite eT.
Qed.

(** [partition([])] raises: the generator evaluates [collection[0]] on the empty sequence *)
Theorem partition_empty (T : Type) : partition (@nil T) = Err IndexError. Proof. by []. Qed.

(** ** Stirling numbers of the second kind *)
Lemma stirling2_gt m k : (m < k)%N -> stirling2 m k = 0%N.
Proof.
elim: m k => [|m IH] [|k] //= mk; rewrite !IH ?muln0 //; lia.
Qed.
Lemma stirling20 m : (0 < m)%N -> stirling2 m 0 = 0%N. Proof. by case: m. Qed.

(** the defining property: they expand powers in falling factorials *)
Theorem stirling2_falling n m : (n ^ m = \sum_(0 <= k < m.+1) stirling2 m k * n ^_ k)%N.
Proof.
elim: m => [|m IH]; first by rewrite big_nat1.
rewrite expnS IH big_distrr /= [RHS]big_nat_recl // /= add0n.
have e k : (n * n ^_ k = n ^_ k.+1 + k * n ^_ k)%N.
  rewrite ffactnSr; have [lt|le] := ltnP n k; first by rewrite ffact_small // !muln0.
  by rewrite mulnC [(k * _)%N]mulnC -mulnDr subnK.
under eq_bigr => k _ do rewrite mulnCA e mulnDr.
under [RHS]eq_bigr => k _ do rewrite mulnDl addnC.
rewrite !big_split /=; congr (_ + _)%N.
rewrite [LHS]big_nat_recl // mul0n muln0 add0n.
rewrite [RHS]big_nat_recr //= (stirling2_gt (ltnSn m)) muln0 mul0n addn0.
by apply: eq_bigr => k _; rewrite mulnCA mulnA.
Qed.

(** the number of set partitions with k blocks yielded by [partition] *)
Theorem partition_count (T : Type) (x : T) (l : seq T) k :
  count (fun p => size p == k) (partition_ x l) = stirling2 (size l).+1 k.
Proof.
have key (y : T) s j :
   count (fun p => size p == j.+1) (flatten [seq extend_partition y p | p <- s])
   = (j.+1 * count (fun p => size p == j.+1) s + count (fun p => size p == j) s)%N.
  elim: s => [|p s IH] /=; first by rewrite muln0.
  rewrite count_cat IH.
  have -> : count (fun p0 => size p0 == j.+1) (extend_partition y p) = (j.+1 * (size p == j.+1) + (size p == j))%N.
    rewrite /extend_partition count_cat /= addn0 eqSS; congr (_ + _)%N; rewrite count_map.
    rewrite (eq_in_count (a2 := fun=> size p == j.+1)); last first.
      move=> n; rewrite mem_iota add0n => /andP[_ hn] /=; rewrite size_cat /= size_take hn size_drop.
      by congr (_ == _); lia.
    by case: eqP => e; rewrite ?count_predT ?count_pred0 ?size_iota ?muln1 ?muln0.
  by rewrite mulnDr; lia.
have key0 (y : T) s : count (fun p => size p == 0%N) (flatten [seq extend_partition y p | p <- s]) = 0%N.
  elim: s => [|p s IH] //=; rewrite count_cat IH addn0 /extend_partition count_cat /= !addn0 count_map.
  rewrite (eq_in_count (a2 := pred0)) ?count_pred0 // => n; rewrite mem_iota add0n => /andP[_ hn] /=.
  by rewrite size_cat /= addnS //.
elim: l x k => [|a l IH] x [|k] //; [by case: k => [|k] //=; rewrite muln0 | exact: key0 | by rewrite [LHS]key !IH].
Qed.

(** the coefficients computed by the code are the Stirling numbers *)
Section Coeff.
Variable F : fieldType.
Hypothesis char0 : [char F] =i pred0.
Let fact_neq0 n : (n`!)%:R != 0 :> F. Proof. by move/charf0P: char0 => ->; rewrite -lt0n fact_gt0. Qed.
Lemma coeff_term m k mu : (1 / ((mu`!)%:R * ((k - mu)`!)%:R)) * ((-1) ^+ (k - mu) * (mu%:R ^+ m)) =
  (-1) ^+ (k - mu) * mu%:R ^+ m / ((mu`!)%:R * ((k - mu)`!)%:R) :> F.
Proof. by rewrite mul1r mulrC. Qed.
(** C50: for every field of characteristic 0 (in particular exact rationals) *)
Theorem coeff_normal_ordered_stirling m k : coeff_normal_ordered F m k = (stirling2 m k)%:R.
Proof.
elim: m k => [|m IH] k.
  rewrite /coeff_normal_ordered.
  have -> : \sum_(mu <- iota 0 k.+1) (1 / ((mu`!)%:R * ((k - mu)`!)%:R)) * ((-1) ^+ (k - mu) * (mu%:R ^+ 0)) =
            (k`!)%:R^-1 * (-1 + 1) ^+ k :> F.
    rewrite exprDn mulr_sumr -(subn0 k.+1) -/(index_iota 0 k.+1) big_mkord subn0; apply: eq_bigr => mu _.
    have hmu : (mu <= k)%N by rewrite -ltnS.
    rewrite coeff_term expr0 mulr1 expr1n mulr1 -(bin_fact hmu) -[_ *+ 'C(k, mu)]mulr_natr !natrM.
    have b0 : ('C(k, mu))%:R != 0 :> F by move/charf0P: char0 => ->; rewrite -lt0n bin_gt0.
    have f1 := fact_neq0 mu; have f2 := fact_neq0 (k - mu).
    by ffield; rewrite !mulf_neq0.
  by rewrite addNr; case: k => [|k]; rewrite ?expr0 ?mulr1 ?invr1 ?exprS ?mul0r ?mulr0.
case: k => [|k]; first by rewrite /coeff_normal_ordered big_seq1 exprS mul0r !mulr0.
rewrite /= natrD natrM -!IH /coeff_normal_ordered mulr_sumr.
rewrite -(subn0 k.+2) -/(index_iota 0 k.+2) -(subn0 k.+1) -/(index_iota 0 k.+1).
rewrite [in X in _ = X + _]big_nat_recr // [LHS]big_nat_recr //= addrAC -big_split /=; congr (_ + _); last first.
  by rewrite subnn !fact0 expr0 exprS; ffield; rewrite ?mulf_neq0 ?fact_neq0 ?oner_neq0.
rewrite !big_mkord; apply: eq_bigr => mu _; have hmu : (mu <= k)%N by rewrite -ltnS.
have -> : (k.+1 - mu = (k - mu).+1)%N by lia.
have f1 := fact_neq0 mu; have f2 := fact_neq0 (k - mu).
have f3 : (k - mu).+1%:R != 0 :> F by move/charf0P: char0 => ->.
have ek : k.+1%:R = mu%:R + (k - mu).+1%:R :> F by rewrite -natrD; congr _%:R; lia.
rewrite factS natrM !exprS ek; ffield; by rewrite ?mulf_neq0.
Qed.
End Coeff.
(** examples: the 15 partitions of a 4-element set; S(5,3) = 25 *)
Lemma partition_example : omap size (if partition [:: 3; 3; 7; 9]%N is Ok p then Some p else None) = Some 15%N.
Proof. by []. Qed.
Lemma stirling_example : coeff_normal_ordered rat_fieldType 5 3 = 25%:R.
Proof. by rewrite coeff_normal_ordered_stirling //; exact: Num.Theory.char_num. Qed.
