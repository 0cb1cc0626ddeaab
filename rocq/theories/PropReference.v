(** Theorems about thewalrus/reference.py: C01, C02, C03. *)
From mathcomp Require Import all_ssreflect all_fingroup all_algebra zify.
From Verif Require Import Prelude PyBase SpecHaf ThHaf MReference.
Set Implicit Arguments.
Unset Strict Implicit.
Unset Printing Implicit Defensive.
Import GRing.Theory.
Local Open Scope ring_scope.

Section Struct.
Variable T : eqType.
Implicit Types (s t : seq T) (p : pitem T).

(** The blocks of a yielded item. *)
Definition iblocks p : seq (seq T) := match p with Flat t => [:: t] | Blocks bs => bs end.

Lemma iblocks_prepend b p : iblocks (prepend b p) = b :: iblocks p.
Proof. by case: p. Qed.

Lemma rest_rem x t i : uniq t -> (i < size t)%N ->
  drop 1 (take i.+1 (x :: t)) ++ drop i.+2 (x :: t) = rem (nth x t i) t.
Proof. by move=> ut it; rewrite remE index_uniq //= drop0. Qed.

Lemma flatten_pyrange (S : Type) x t (g : nat -> seq S) (h : T -> seq S) :
  (forall i, (i < size t)%N -> g i.+1 = h (nth x t i)) ->
  flatten [seq g i | i <- pyrange 1 (size t).+1] = flatten [seq h y | y <- t].
Proof.
move=> gh; rewrite /pyrange subn1 /=; congr flatten.
rewrite -[in RHS](mkseq_nth x t) /mkseq -map_comp (iotaDl 1 0) -map_comp.
apply/eq_in_map => i; rewrite mem_iota /= add0n => it; exact: gh.
Qed.

Lemma partitions_fuel n m s sg pr : (size s < n)%N -> (size s < m)%N ->
  partitions_rec n s sg pr = partitions_rec m s sg pr.
Proof.
elim: n m s => [|n IH] [|m] s //= sn sm.
case: s sn sm => [|x [|y [|z t]]] // sn sm; rewrite ltnS in sn; rewrite ltnS in sm.
rewrite (IH m) //; congr (_ ++ _); congr (if _ then _ else _); congr flatten.
apply/eq_in_map => i; rewrite mem_pyrange => /andP[i0 is_].
have ss : size (drop 1 (take i [:: x, y, z & t]) ++ drop i.+1 [:: x, y, z & t]) = (size t).+1.
  rewrite size_cat !size_drop size_take; move: is_ i0 sn; rewrite /=; case: ifP; lia.
by rewrite (IH m) // ss; move: sn sm; rewrite /=; lia.
Qed.

Lemma partitions3 x t sg pr : uniq t -> (1 < size t)%N ->
  partitions (x :: t) sg pr =
  (if sg then map (prepend [:: x]) (partitions t sg pr) else [::])
  ++ (if pr then flatten [seq map (prepend [:: x; y]) (partitions (rem y t) sg pr) | y <- t] else [::]).
Proof.
move=> ut st; rewrite {1}/partitions.
have -> : forall n, partitions_rec n.+1 (x :: t) sg pr =
  (if sg then map (prepend [:: x]) (partitions_rec n t sg pr) else [::]) ++
  (if pr then flatten [seq map (prepend [:: x; nth x (x :: t) i])
     (partitions_rec n (drop 1 (take i (x :: t)) ++ drop i.+1 (x :: t)) sg pr)
     | i <- pyrange 1 (size (x :: t))] else [::]).
  by case: t ut st => [|y [|z t]].
congr (_ ++ _); case: pr => //; rewrite -[size (x :: t)]/((size t).+1); set tt := t.
rewrite (@flatten_pyrange _ x tt _ (fun v => map (prepend [:: x; v]) (partitions (rem v tt) sg true))) // => i it.
rewrite rest_rem // -[nth x (x :: tt) i.+1]/(nth x tt i); congr map.
by apply: partitions_fuel => //; rewrite size_rem ?mem_nth //; lia.
Qed.

Lemma partitions2 (x y : T) sg pr : partitions [:: x; y] sg pr =
  (if sg then [:: Blocks [:: [:: x]; [:: y]]] else [::]) ++ (if pr then [:: Flat [:: x; y]] else [::]).
Proof. by []. Qed.

Lemma partitions1 (x : T) sg pr : partitions [:: x] sg pr = if sg then [:: Flat [:: x]] else [::].
Proof. by rewrite /partitions /=; case: pr; rewrite cats0. Qed.

(** The generator read as block lists: one uniform recursion. *)
Definition bparts s sg pr := map iblocks (partitions s sg pr).

Lemma bparts1 x sg pr : bparts [:: x] sg pr = if sg then [:: [:: [:: x]]] else [::].
Proof. by rewrite /bparts partitions1; case: sg. Qed.

Lemma bparts_cons x t sg pr : uniq t -> (1 < size t)%N ->
  bparts (x :: t) sg pr =
  (if sg then map (cons [:: x]) (bparts t sg pr) else [::])
  ++ (if pr then flatten [seq map (cons [:: x; y]) (bparts (rem y t) sg pr) | y <- t] else [::]).
Proof.
move=> ut st; rewrite /bparts partitions3 // map_cat; congr (_ ++ _).
  by case: sg => //; rewrite -!map_comp; apply: eq_map => p /=; rewrite iblocks_prepend.
case: pr => //; rewrite map_flatten -map_comp; congr flatten; apply: eq_map => y /=.
by rewrite -!map_comp; apply: eq_map => p /=; rewrite iblocks_prepend.
Qed.

(** For three labels or more every yielded item is a tuple of tuples. *)
Lemma partitions_blocks s sg pr : uniq s -> (2 < size s)%N ->
  partitions s sg pr = map (@Blocks T) (bparts s sg pr).
Proof.
case: s => [|x t] //= /andP[_ ut] st; rewrite /bparts partitions3 //.
have pp b q : Blocks (iblocks (prepend b q)) = prepend b q by case: q.
rewrite -map_comp map_cat; congr (_ ++ _).
  by case: sg => //; rewrite -map_comp; apply: eq_map => q /=; rewrite pp.
case: pr => //; rewrite map_flatten -map_comp; congr flatten; apply: eq_map => y /=.
by rewrite -map_comp; apply: eq_map => q /=; rewrite pp.
Qed.

(** Induction principle for the recursion of the generator. *)
Lemma bparts_ind (P : seq T -> Prop) :
  (forall x, P [:: x]) -> (forall x y, x != y -> P [:: x; y]) ->
  (forall x t, x \notin t -> uniq t -> (1 < size t)%N -> P t -> (forall y, y \in t -> P (rem y t)) -> P (x :: t)) ->
  forall s, uniq s -> (0 < size s)%N -> P s.
Proof.
move=> h1 h2 h3 s; move: {2}(size s) (leqnn (size s)) => n.
elim: n s => [|n IH] [|x t] // sn /= /andP[xt ut] _; rewrite ltnS in sn.
case: t sn xt ut => [|y [|z t]] sn xt ut; first exact: h1.
  by apply: h2; move: xt; rewrite inE.
apply: h3 => //; first exact: IH.
by move=> v vt; apply: IH; rewrite ?rem_uniq ?size_rem //=; apply: leq_trans sn.
Qed.
End Struct.

(** *** C01 / C02 *)
Section HafSum.
Variables (R : comRingType) (T : eqType) (A : T -> T -> R) (mu : T -> R).

Definition bwt (b : seq T) : R := match b with [:: x] => mu x | [:: x; y] => A x y | _ => 0 end.

Lemma sum_bparts (sg : bool) s : uniq s -> (0 < size s)%N ->
  \sum_(p <- bparts s sg true) \prod_(b <- p) bwt b = lhq A (fun x => if sg then mu x else 0) s.
Proof.
move: s; apply: bparts_ind => [x|x y xy|x t xt ut st IH1 IH2].
- rewrite bparts1 lhq_cons lhq_nil big_nil addr0 mulr1.
  by case: sg; rewrite ?big_seq1 ?big_nil.
- rewrite /bparts partitions2 !lhq_cons !lhq_nil !big_seq1 /= eqxx lhq_nil !big_nil !mulr1 addr0.
  by case: sg; rewrite /= ?big_cons ?big_nil ?mul0r ?add0r /= ?mulr1 ?addr0.
rewrite bparts_cons // big_cat lhq_cons; congr (_ + _).
  case: sg IH1 {IH2} => [IH1|_]; last by rewrite big_nil mul0r.
  by rewrite big_map -IH1 mulr_sumr; apply: eq_bigr => p _; rewrite big_cons.
rewrite big_flatten big_map; apply: eq_big_seq => y yt.
rewrite big_map -IH2 // mulr_sumr; apply: eq_bigr => p _; by rewrite big_cons.
Qed.

Lemma bparts_shape (sg : bool) (s : seq T) : uniq s -> (0 < size s)%N ->
  {in bparts s sg true, forall p, all (fun b : seq T => (size b == 2)%N || sg && (size b == 1)%N) p}.
Proof.
move: s; apply: bparts_ind => [x|x y xy|x t xt ut st IH1 IH2] p.
- by rewrite bparts1; case: sg => //; rewrite inE => /eqP ->.
- by rewrite /bparts partitions2; case: sg; rewrite !inE; try (case/orP); move=> /eqP ->.
rewrite bparts_cons // mem_cat => /orP[|/flattenP[l /mapP[y yt ->]]].
  by case: sg IH1 {IH2} => // IH1 /mapP[q hq ->] /=; exact: IH1.
by move=> /mapP[q hq ->] /=; apply: (IH2 y yt).
Qed.
End HafSum.

Section Ref.
Variable R : comRingType.

Lemma matching_prodE (M : nat -> nat -> R) bs : all (fun b : seq nat => size b == 2%N) bs ->
  matching_prod M bs = Ok (\prod_(b <- bs) bwt M (fun=> 0) b).
Proof.
rewrite /matching_prod -[X in Ok X]mul1r; move: {1 2}(1 : R) => a.
elim: bs a => [|b bs IH] a /=; first by rewrite big_nil mulr1.
case: b => [|x [|y [|]]] //= /IH ->; by rewrite big_cons /= mulrA.
Qed.

Lemma foldM_sum (M : nat -> nat -> R) (ps : seq (seq (seq nat))) :
  all (all (fun b : seq nat => size b == 2%N)) ps ->
  foldM (fun tot i => bind i (fun bs => bind (matching_prod M bs) (fun r => Ok (tot + r)))) 0 (map (@Ok _) ps)
  = Ok (\sum_(p <- ps) \prod_(b <- p) bwt M (fun=> 0) b).
Proof.
rewrite -[X in Ok X]add0r; move: {1 2}(0 : R) => a.
elim: ps a => [|p ps IH] a /=; first by rewrite big_nil addr0.
by case/andP=> hp /IH {}IH; rewrite matching_prodE //= IH big_cons addrA.
Qed.

(** C01: on every matrix of square shape the reference hafnian returns the perfect-matching sum. *)
Theorem ref_hafnian_correct (n : nat) (M : nat -> nat -> R) :
  ref_hafnian n n M false = Ok (haf_spec n M).
Proof.
rewrite haf_spec_lhq /ref_hafnian eqxx /=; case: (ltnP 2 n) => n2; last first.
  case: n n2 => [|[|[|n]]] //= _.
  - by rewrite lhq_cons lhq_nil big_nil mul0r addr0.
  - by rewrite !lhq_cons !lhq_nil !big_cons !big_nil /= lhq_nil !mul0r !addr0 add0r mulr1.
have [-> -> ->] : [/\ (n == 0%N) = false, (n == 1%N) = false & (n == 2%N) = false] by split; lia.
set s := iota _ _; rewrite -/s; have us : uniq s := iota_uniq 0 n.
have sz : (size s = n)%N by rewrite size_iota.
rewrite /pmp partitions_blocks ?sz ?(ltnW (ltnW n2)) // -map_comp.
rewrite (eq_map (f2 := @Ok _)) // foldM_sum; last first.
  apply/allP => p hp; have := @bparts_shape _ false s us _ p hp.
  by rewrite sz (ltnW (ltnW n2)) => /(_ isT); apply: sub_all => b; rewrite orbF.
rewrite sum_bparts ?sz ?(ltnW (ltnW n2)) //; congr Ok; exact: eq_lhq.
Qed.

Corollary ref_hafnian_odd n (M : nat -> nat -> R) : odd n -> ref_hafnian n n M false = Ok 0.
Proof. by move=> on; rewrite ref_hafnian_correct haf_spec_lhq lhq_odd ?size_iota. Qed.

(** C02: loop hafnian. *)
Theorem ref_loop_hafnian_correct (n : nat) (M : nat -> nat -> R) :
  ref_hafnian n n M true = Ok (lhaf_spec n M (fun i => M i i)).
Proof.
rewrite lhaf_spec_lhq /ref_hafnian eqxx /=; case: (ltnP 2 n) => n2; last first.
  case: n n2 => [|[|[|n]]] //= _.
  - by rewrite lhq_cons lhq_nil big_nil mulr1 addr0.
  - by rewrite !lhq_cons !lhq_nil !big_cons !big_nil /= lhq_nil !addr0 !mulr1 addrC.
have [-> -> ->] : [/\ (n == 0%N) = false, (n == 1%N) = false & (n == 2%N) = false] by split; lia.
set s := iota _ _; rewrite -/s; have us : uniq s := iota_uniq 0 n.
have sz : (size s = n)%N by rewrite size_iota.
rewrite /spm partitions_blocks ?sz ?(ltnW (ltnW n2)) // -map_comp.
rewrite (eq_map (f2 := @Ok _ \o map (@clone_if_single nat))) // map_comp foldM_sum; last first.
  apply/allP => _ /mapP[p hp ->]; have := @bparts_shape _ true s us _ p hp.
  rewrite sz all_map (ltnW (ltnW n2)) => /(_ isT); apply: sub_all => b /=.
  by case: b => [|x [|y [|]]].
rewrite big_map -(@sum_bparts _ _ M (fun i => M i i) true) ?sz ?(ltnW (ltnW n2)) //; congr Ok.
apply: eq_big_seq => p hp; rewrite big_map; apply: eq_big_seq => b hb.
have := @bparts_shape _ true s us _ p hp; rewrite sz (ltnW (ltnW n2)) => /(_ isT)/allP/(_ b hb) /=.
by case: b {hb} => [|x [|y [|]]].
Qed.

Theorem ref_hafnian_nonsquare n m (M : nat -> nat -> R) loop :
  n != m -> ref_hafnian n m M loop = Err ValueError.
Proof. by rewrite /ref_hafnian => ->. Qed.
End Ref.

(** *** C03: the generators enumerate matchings exactly once. *)
Section Enum.
Variable T : finType.
Implicit Types (s t : seq T) (P : {set {set T}}).

(** The set partition described by a list of tuples. *)
Definition set_of_blocks (m : seq (seq T)) : {set {set T}} :=
  [set B in [seq [set x in b] | b : seq T <- m]].

(** Spec: [P] is a partition of the label set into pairs (and singletons if allowed). *)
Definition is_matching (singles : bool) P (D : {set T}) : bool :=
  partition P D && [forall B in P, (#|B| == 2)%N || singles && (#|B| == 1)%N].

Lemma set_of_blocks_cons b m : set_of_blocks (b :: m) = [set x in b] |: set_of_blocks m.
Proof. by apply/setP => B; rewrite !inE. Qed.

Lemma set_of_blocks_nil : set_of_blocks [::] = set0.
Proof. by apply/setP => B; rewrite !inE. Qed.

Lemma is_matching_nil sg P : is_matching sg P [set x in [::]] = (P == set0).
Proof.
rewrite /is_matching (_ : [set x in [::]] = set0 :> {set T}); last by apply/setP => x; rewrite !inE.
rewrite partition_set0; case: eqP => //= ->; apply/forallP => B; by rewrite inE.
Qed.

Lemma is_matching_cons sg P B (D : {set T}) : B != set0 -> [disjoint B & D] ->
  (#|B| == 2)%N || sg && (#|B| == 1)%N -> is_matching sg P D -> is_matching sg (B |: P) (B :|: D).
Proof.
move=> B0 dis cB /andP[pP /forallP fP]; rewrite /is_matching partitionU1 //=.
by apply/forallP => C; apply/implyP; rewrite in_setU1 => /orP[/eqP->//|hC]; move: (fP C); rewrite hC.
Qed.

Lemma is_matching_inv sg P (D : {set T}) x : x \in D -> is_matching sg P D ->
  exists B, [/\ B \in P, x \in B, B \subset D, is_matching sg (P :\ B) (D :\: B)
    & (#|B| == 2)%N || sg && (#|B| == 1)%N].
Proof.
move=> xD /andP[pP /forallP fP]; have cP := cover_partition pP.
have xc : x \in cover P by rewrite cP.
exists (pblock P x); have hB := pblock_mem xc; split => //.
- by rewrite mem_pblock.
- by rewrite -cP; apply: (bigcup_max (pblock P x)).
- rewrite /is_matching partitionD1 //=; apply/forallP => C; apply/implyP => /setD1P[_ hC].
  by move: (fP C); rewrite hC.
by move: (fP (pblock P x)); rewrite hB.
Qed.

(** Extension of [bparts] with one empty matching of the empty tuple: uniform recursion. *)
Definition bp s sg := if s is [::] then [:: [::]] else bparts s sg true.

Lemma bp_cons x t sg : uniq (x :: t) -> bp (x :: t) sg =
  (if sg then map (cons [:: x]) (bp t sg) else [::])
  ++ flatten [seq map (cons [:: x; y]) (bp (rem y t) sg) | y <- t].
Proof.
case/andP=> xt ut; rewrite /bp; case: t xt ut => [|y [|z t]] xt ut.
- by rewrite bparts1 /=; case: sg.
- by rewrite /bparts partitions2 /= eqxx partitions1; case: sg.
rewrite bparts_cons //; congr (_ ++ flatten _); apply/eq_in_map => v vt.
by have := size_rem vt; case: (rem v _).
Qed.

Lemma bp_ind (Q : seq T -> Prop) : Q [::] ->
  (forall x t, x \notin t -> uniq t -> Q t -> (forall y, y \in t -> Q (rem y t)) -> Q (x :: t)) ->
  forall s, uniq s -> Q s.
Proof.
move=> h0 h1 s; move: {2}(size s) (leqnn (size s)) => n.
elim: n s => [|n IH] [|x t] // sn /= /andP[xt ut]; rewrite ltnS in sn.
apply: h1 => //; first exact: IH.
by move=> v vt; apply: IH; rewrite ?rem_uniq ?size_rem //; apply: leq_trans (leq_pred _) sn.
Qed.

Lemma uniq_flatten_map (I S : eqType) (F : I -> seq S) (t : seq I) :
  uniq t -> {in t, forall y, uniq (F y)} -> {in t &, forall y z a, a \in F y -> a \in F z -> y = z} ->
  uniq (flatten [seq F y | y <- t]).
Proof.
elim: t => //= y t IH /andP[yt ut] h1 h2; rewrite cat_uniq h1 ?mem_head //= IH //.
- rewrite andbT; apply/hasPn => a /flattenP[l /mapP[z zt ->] az]; apply/negP => ay.
  have zt' : z \in y :: t by rewrite inE zt orbT.
  by move: yt; rewrite (h2 y z (mem_head _ _) zt' a ay az) zt.
- by move=> z zt; apply: h1; rewrite inE zt orbT.
by move=> z w zt wt; apply: h2; rewrite inE ?zt ?wt orbT.
Qed.

Lemma set_rem y t : uniq t -> [set z in rem y t] = [set z in t] :\ y.
Proof. by move=> ut; apply/setP => z; rewrite !inE mem_rem_uniq // inE. Qed.

Lemma bp_matching sg s : uniq s ->
  [/\ uniq (map set_of_blocks (bp s sg)),
      forall P, (P \in map set_of_blocks (bp s sg)) = is_matching sg P [set x in s]
    & {in bp s sg, forall m, perm_eq (flatten m) s}].
Proof.
move: s; apply: bp_ind => [|x t xt ut [IHu IHm IHp] IH].
  split => //= [P|m]; last by rewrite inE => /eqP ->.
  by rewrite inE is_matching_nil set_of_blocks_nil.
have xs : [set z in x :: t] = x |: [set z in t] by apply/setP => z; rewrite !inE.
have utx : uniq (x :: t) by rewrite /= xt.
have pr1 m : m \in map (cons [:: x]) (bp t sg) -> perm_eq (flatten m) (x :: t).
  by case/mapP=> q hq -> /=; rewrite perm_cons IHp.
have pr2 y m : y \in t -> m \in map (cons [:: x; y]) (bp (rem y t) sg) -> perm_eq (flatten m) (x :: t).
  move=> yt /mapP[q hq -> /=]; rewrite perm_cons perm_sym.
  rewrite (perm_trans (perm_to_rem yt)) // perm_cons perm_sym.
  by case: (IH y yt) => _ _; apply.
have notin (q : seq (seq T)) (r : seq T) B : perm_eq (flatten q) r -> B \in set_of_blocks q -> x \notin r -> x \notin B.
  move=> pq; rewrite inE => /mapP[b bq ->]; apply: contra; rewrite inE => xb; rewrite -(perm_mem pq).
  by apply/flattenP; exists b.
have B2 y : y \in t -> #|[set z in [:: x; y]]| = 2%N.
  move=> yt; rewrite (_ : [set z in [:: x; y]] = [set x; y]); last by apply/setP => z; rewrite !inE.
  by rewrite cards2; case: eqP xt => // ->; rewrite yt.
have xrem y : x \notin rem y t by apply: contra xt; apply: mem_rem.
have blk1 P : P \in map set_of_blocks (map (cons [:: x]) (bp t sg)) ->
    exists2 P', P' \in map set_of_blocks (bp t sg) & P = [set x] |: P' /\ [set x] \notin P'.
  case/mapP=> m /mapP[q hq ->] ->; exists (set_of_blocks q); first exact: map_f.
  rewrite set_of_blocks_cons (_ : [set z in [:: x]] = [set x]); last by apply/setP => z; rewrite !inE.
  split=> //; apply/negP => h; have := notin _ _ _ (IHp q hq) h xt; by rewrite inE eqxx.
have blk2 y P : y \in t -> P \in map set_of_blocks (map (cons [:: x; y]) (bp (rem y t) sg)) ->
    exists2 P', P' \in map set_of_blocks (bp (rem y t) sg) & P = [set x; y] |: P' /\
       (forall B, B \in P' -> x \notin B).
  move=> yt /mapP[m /mapP[q hq ->] ->]; exists (set_of_blocks q); first exact: map_f.
  rewrite set_of_blocks_cons (_ : [set z in [:: x; y]] = [set x; y]); last by apply/setP => z; rewrite !inE.
  split=> // B hB; apply: (notin q (rem y t)) => //; by case: (IH y yt) => _ _; apply.
have blk1n P : P \in map set_of_blocks (map (cons [:: x]) (bp t sg)) -> [set x] \in P.
  by move=> /blk1[P' _ [-> _]]; rewrite setU11.
have blk2n y P : y \in t -> P \in map set_of_blocks (map (cons [:: x; y]) (bp (rem y t) sg)) ->
    forall B, B \in P -> x \in B -> B = [set x; y].
  move=> yt /blk2 -/(_ yt) [P' _ [-> h]] B; rewrite in_setU1 => /orP[/eqP//|/h/negPf->//].
rewrite bp_cons //; split.
- rewrite map_cat map_flatten -map_comp cat_uniq; apply/and3P; split.
  + case: sg IHu IHm IHp IH pr1 pr2 blk1 blk2 blk1n blk2n => // IHu IHm IHp IH pr1 pr2 blk1 blk2 blk1n blk2n.
    rewrite -map_comp (eq_map (f2 := (fun P => [set x] |: P) \o set_of_blocks)) => [|m]; last first.
      by rewrite /= set_of_blocks_cons; congr (_ |: _); apply/setP => z; rewrite !inE.
    rewrite map_comp map_inj_in_uniq // => P Q /mapP[q hq hP] /mapP[q' hq' hQ] e.
    have nP : [set x] \notin P.
      by rewrite hP; apply/negP => h; have := notin _ _ _ (IHp q hq) h xt; rewrite inE eqxx.
    have nQ : [set x] \notin Q.
      by rewrite hQ; apply/negP => h; have := notin _ _ _ (IHp q' hq') h xt; rewrite inE eqxx.
    by rewrite -(setU1K nP) e setU1K.
  + apply/hasPn => P /flattenP[l /mapP[y yt ->]] /=; rewrite -/(map _ _) => hP; apply/negP => hP1.
    case: sg hP1 hP IHu IHm IHp IH pr1 pr2 blk1 blk2 blk1n blk2n
      => // hP1 hP IHu IHm IHp IH pr1 pr2 blk1 blk2 blk1n blk2n.
    have := blk2n y P yt hP _ (blk1n _ hP1); rewrite inE eqxx => /(_ isT) e.
    have := B2 y yt; have -> : [set z in [:: x; y]] = [set x].
      by rewrite e; apply/setP => z; rewrite !inE.
    by rewrite cards1.
  apply: uniq_flatten_map => // [y yt|y z yt zt P /=].
    rewrite /= -map_comp (eq_map (f2 := (fun P => [set x; y] |: P) \o set_of_blocks)) => [|m]; last first.
      by rewrite /= set_of_blocks_cons; congr (_ |: _); apply/setP => z; rewrite !inE.
    case: (IH y yt) => IHu' _ IHp'.
    rewrite map_comp map_inj_in_uniq // => P Q /mapP[q hq hP] /mapP[q' hq' hQ] e.
    have nP : [set x; y] \notin P.
      by rewrite hP; apply/negP => h; have := notin _ _ _ (IHp' q hq) h (xrem y); rewrite !inE eqxx.
    have nQ : [set x; y] \notin Q.
      by rewrite hQ; apply/negP => h; have := notin _ _ _ (IHp' q' hq') h (xrem y); rewrite !inE eqxx.
    by rewrite -(setU1K nP) e setU1K.
  move=> hP hP'; have [P' _ [e _]] := blk2 y P yt hP.
  have h := blk2n z P zt hP' [set x; y]; rewrite {1}e setU11 !inE eqxx in h.
  have := h isT isT => /setP/(_ y); rewrite !inE eqxx orbT => /esym/orP[/eqP yx|/eqP//].
  by move: xt; rewrite -yx yt.
- move=> P; rewrite map_cat mem_cat map_flatten -map_comp; apply/orP/idP.
  + case.
    * case: sg IHu IHm IHp IH pr1 pr2 blk1 blk2 blk1n blk2n => // IHu IHm IHp IH pr1 pr2 blk1 blk2 blk1n blk2n.
      case/blk1=> P'; rewrite IHm => hP' [-> _]; rewrite xs; apply: is_matching_cons => //.
      - by apply/set0Pn; exists x; rewrite inE.
      - by rewrite disjoints1 inE.
      by rewrite cards1.
    * case/flattenP=> l /mapP[y yt ->] /= /(blk2 y P yt)[P'].
      case: (IH y yt) => _ IHm' _; rewrite IHm' => hP' [-> _].
      have -> : [set z in x :: t] = [set x; y] :|: [set z in rem y t].
        apply/setP => z; rewrite set_rem // !inE; case: eqP => //= _; case: eqP => // ->; by rewrite yt.
      apply: is_matching_cons => //.
      - by apply/set0Pn; exists x; rewrite !inE eqxx.
      - rewrite disjoints_subset; apply/subsetP => z; rewrite set_rem // !inE => /orP[]/eqP->.
          by rewrite (negPf xt) andbF.
        by rewrite eqxx.
      by rewrite -(B2 y yt) (_ : [set z in _] = [set x; y]) ?eqxx //; apply/setP => z; rewrite !inE.
  + move=> hP; have xin : x \in [set z in x :: t] by rewrite inE mem_head.
    have [B [BP xB BD hP' cB]] := is_matching_inv xin hP.
    case/orP: cB => [/cards2P[a [b [ab e]]]|/andP[sgt /cards1P[a e]]].
      have [y yB] : exists y, B = [set x; y] /\ y != x.
        move: xB; rewrite e !inE => /orP[]/eqP->; [exists b|exists a]; split => //.
          by rewrite eq_sym.
        by rewrite setUC.
      case: yB => eB yx; have yt : y \in t.
        have := subsetP BD y; rewrite eB !inE eqxx orbT (negPf yx) /=; exact.
      right; apply/flattenP; exists (map set_of_blocks (map (cons [:: x; y]) (bp (rem y t) sg))).
        by apply/mapP; exists y.
      case: (IH y yt) => _ IHm' _.
      have : P :\ B \in map set_of_blocks (bp (rem y t) sg).
        rewrite IHm'; move: hP'; congr (is_matching _ _ _); apply/setP => z; rewrite set_rem // eB !inE.
        case: (z =P x) => [->|] /=; last by case: eqP.
        by rewrite (negPf xt) andbF.
      case/mapP=> q hq e'; apply/mapP; exists ([:: x; y] :: q); first exact: map_f.
      rewrite set_of_blocks_cons -e' (_ : [set z in _] = B) ?setD1K //.
      by rewrite eB; apply/setP => z; rewrite !inE.
    have ax : a = x by apply/eqP; move: xB; rewrite e inE eq_sym.
    left; rewrite {1}sgt; have : P :\ B \in map set_of_blocks (bp t sg).
      rewrite IHm; move: hP'; congr (is_matching _ _ _); apply/setP => z; rewrite e ax !inE.
      by case: (z =P x) => [->|] //=; rewrite (negPf xt).
    case/mapP=> q hq e'; apply/mapP; exists ([:: x] :: q); first exact: map_f.
    rewrite set_of_blocks_cons -e' (_ : [set z in _] = B) ?setD1K //.
    by rewrite e ax; apply/setP => z; rewrite !inE.
move=> m; rewrite mem_cat => /orP[|/flattenP[l /mapP[y yt ->]]].
  by case: ifP => // _ /pr1.
exact: (pr2 y m yt).
Qed.
End Enum.

(** Telephone numbers. *)
Lemma T_rec n : MReference.T n.+2 = (MReference.T n.+1 + n.+1 * MReference.T n)%N.
Proof. by rewrite /MReference.T /=; case: (T_pair n). Qed.

Lemma map_const_nseq (I S : Type) (c : S) (t : seq I) : map (fun=> c) t = nseq (size t) c.
Proof. by elim: t => //= y t ->. Qed.

Section Count.
Variable T : finType.

Lemma size_bp_loop (s : seq T) : uniq s -> size (bp s true) = MReference.T (size s).
Proof.
move: s; apply: bp_ind => [//|x t xt ut IH1 IH2].
rewrite bp_cons ?size_cat /= ?xt // size_map IH1 size_flatten /shape -map_comp.
case: t xt ut IH1 IH2 => [|z t] // xt ut _ IH2.
rewrite (_ : map _ _ = map (fun=> MReference.T (size t)) (z :: t)); last first.
  by apply/eq_in_map => y yt; rewrite /= size_map IH2 // size_rem.
by rewrite map_const_nseq sumn_nseq /= T_rec mulnC.
Qed.

(** number of perfect matchings: (n-1)!! for even n, 0 for odd n *)
Fixpoint odd_fact (n : nat) : nat := (* product of the odd numbers below 2n *)
  if n is n'.+1 then (2 * n' + 1) * odd_fact n' else 1.

Lemma size_bp_pm (s : seq T) : uniq s ->
  size (bp s false) = if odd (size s) then 0%N else odd_fact (size s)./2.
Proof.
move: s; apply: bp_ind => [//|x t xt ut IH1 IH2].
rewrite bp_cons ?size_cat /= ?xt // size_flatten /shape -map_comp.
case: t xt ut {IH1} IH2 => [|z t] // xt ut IH2.
rewrite (_ : map _ _ = map (fun=> if odd (size t) then 0%N else odd_fact (size t)./2) (z :: t)); last first.
  by apply/eq_in_map => y yt; rewrite /= size_map IH2 // size_rem.
rewrite map_const_nseq sumn_nseq /= negbK; case: ifP => ot; first by rewrite mul0n.
by rewrite mulnC; congr (_ * _)%N; have := odd_double_half (size t); rewrite ot; lia.
Qed.

(** C03 (spm): on at least three distinct labels the generator yields, as pairs [(x,y)] and cloned singles
    [(x,x)], every partition of the labels into singletons and pairs exactly once and nothing else, and their
    number is the telephone number. *)
Theorem spm_enumerates (s : seq T) : uniq s -> (2 < size s)%N ->
  exists ms : seq (seq (seq T)),
  [/\ spm s = map (@Ok _) ms,
      uniq (map (@set_of_blocks T) ms),
      (forall P, (P \in map (@set_of_blocks T) ms) = is_matching true P [set x in s]),
      {in ms, forall m, all (fun b => size b == 2%N) m /\ size m = #|set_of_blocks m|}
    & size ms = MReference.T (size s)].
Proof.
move=> us s3; exists (map (map (@clone_if_single T)) (bparts s true true)).
have s0 : (0 < size s)%N by lia.
have bpE : bp s true = bparts s true true by case: s s0 {us s3}.
have [hu hm hp] := bp_matching true us; rewrite bpE in hu hm hp.
have shp := bparts_shape (sg := true) us s0.
have cl b : [set x in clone_if_single b] = [set x in b].
  by case: b => [|x [|]] //=; apply/setP => z; rewrite !inE orbb.
have clm m : set_of_blocks (map (@clone_if_single T) m) = set_of_blocks m.
  rewrite /set_of_blocks -map_comp; apply/setP => B; rewrite !inE.
  by congr (B \in _); apply: eq_map => b /=; rewrite cl.
have e : map (@set_of_blocks T) (map (map (@clone_if_single T)) (bparts s true true))
       = map (@set_of_blocks T) (bparts s true true) by rewrite -map_comp; apply: eq_map.
split; rewrite ?e //.
- by rewrite /spm partitions_blocks // -!map_comp; apply: eq_map.
- move=> _ /mapP[m hm' ->]; split.
    rewrite all_map; have /allP h := shp m hm'; apply/allP => b /h /=.
    by case: b => [|x [|y [|]]].
  rewrite clm size_map; have pm := hp m hm'; have /allP h := shp m hm'.
  have um : uniq (flatten m) by rewrite (perm_uniq pm).
  rewrite -(size_map (fun b : seq T => [set x in b])) /set_of_blocks cardsE.
  symmetry; apply/card_uniqP; elim: m um h {hm' pm} => //= b m IH; rewrite cat_uniq => /and3P[ub bm um] h.
  rewrite IH ?andbT //; last by move=> c cm; apply: h; rewrite inE cm orbT.
  apply/negP => /mapP[c cm ebc]; move/hasPn: bm => bm.
  have : (size b == 2%N) || (size b == 1%N) by apply: h; rewrite mem_head.
  case: b ebc {IH h ub} bm => [|x b] // ebc bm _.
  have xc : x \in c by move/setP/(_ x): ebc; rewrite !inE eqxx /= => /esym.
  have xf : x \in flatten m by apply/flattenP; exists c.
  by have := bm x xf; rewrite /= mem_head.
by rewrite size_map -bpE size_bp_loop.
Qed.

(** C03 (pmp) *)
Theorem pmp_enumerates (s : seq T) : uniq s -> (2 < size s)%N ->
  exists ms : seq (seq (seq T)),
  [/\ pmp s = map (@Blocks T) ms,
      uniq (map (@set_of_blocks T) ms),
      (forall P, (P \in map (@set_of_blocks T) ms) = is_matching false P [set x in s]),
      {in ms, forall m, all (fun b => size b == 2%N) m}
    & size ms = if odd (size s) then 0%N else odd_fact (size s)./2].
Proof.
move=> us s3; exists (bparts s false true).
have s0 : (0 < size s)%N by lia.
have bpE : bp s false = bparts s false true by case: s s0 {us s3}.
have [hu hm hp] := bp_matching false us; rewrite bpE in hu hm hp.
split => //; first by rewrite /pmp partitions_blocks.
- move=> m /(bparts_shape (sg := false) us s0); apply: sub_all => b; by rewrite orbF.
by rewrite -bpE size_bp_pm.
Qed.
End Count.

(** Telephone recursion as documented. *)
Theorem telephone_rec : [/\ MReference.T 0 = 1%N, MReference.T 1 = 1%N &
  forall n, MReference.T n.+2 = (MReference.T n.+1 + n.+1 * MReference.T n)%N].
Proof. by split=> // n; exact: T_rec. Qed.

(** Non-vacuity: the generators on four labels. *)
Example spm4 : size (spm (iota 0 4)) = 10%N /\ size (pmp (iota 0 4)) = 3%N. Proof. by vm_compute. Qed.
Example ref_hafnian_ex :
  let M := fun i j => ((i + 1) * (j + 1))%:Z in ref_hafnian 4 4 M false = Ok 72%:Z.
Proof. by vm_compute. Qed.
