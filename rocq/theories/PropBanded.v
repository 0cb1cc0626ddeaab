(** C15: [hafnian_banded]. *)
From mathcomp Require Import all_ssreflect all_fingroup all_algebra all_field zify.
From Verif Require Import Prelude PyBase ArrLoop SpecHaf ThHaf MCharpoly MPowerHaf MRecursive MHafnian
  PropCharpoly PropPowerHaf PropRecursive PropHafnian PropSparse.
Set Implicit Arguments.
Unset Strict Implicit.
Unset Printing Implicit Defensive.
Import Order.Theory GRing.Theory Num.Theory.
Local Open Scope ring_scope.

Lemma foldM_cat A S (f : S -> A -> res S) s l1 l2 : foldM f s (l1 ++ l2) = bind (foldM f s l1) (fun s' => foldM f s' l2).
Proof. by elim: l1 s => //= a l1 IH s; case: (f s a). Qed.

(** [powerset] enumerates exactly the subsequences *)
Lemma mem_combinations l r c : (c \in combinations l r) = subseq c l && (size c == r).
Proof.
elim: l r c => [|x l IH] [|r] c //=.
- by rewrite inE; case: c.
- by rewrite in_nil; case: c.
- by rewrite inE; case: c => //= y c; case: ifP; rewrite andbF.
- rewrite mem_cat IH; case: c => [|y c].
    by rewrite sub0seq orbF; apply/mapP => -[].
  case: (eqVneq y x) => [->|yx].
    rewrite mem_map => [|a b []//]; rewrite IH eqSS /= ?eqxx; apply/orP/idP => [[//|/andP[s ->]]|->]; last by left.
    by rewrite andbT; apply: subseq_trans s; apply: subseq_cons.
  rewrite ?(negPf yx).
  suff -> : (y :: c \in [seq x :: c0 | c0 <- combinations l r]) = false by [].
  by apply/mapP => -[a _ [e _]]; rewrite e eqxx in yx.
Qed.
Theorem powerset_correct l c : (c \in powerset l) = subseq c l.
Proof.
rewrite /powerset; apply/flattenP/idP => [[s /mapP[r _ ->]]|sc]; first by rewrite mem_combinations => /andP[].
exists (combinations l (size c)); last by rewrite mem_combinations sc eqxx.
by apply: map_f; rewrite mem_iota ltnS size_subseq.
Qed.

Lemma filter_subseq_l (T : eqType) (a : pred T) s1 s2 : subseq s1 s2 -> subseq (filter a s1) (filter a s2).
Proof. by move=> h; rewrite subseq_filter filter_all /=; apply: subseq_trans h; apply: filter_subseq. Qed.

Section Banded.
Variable C : numClosedFieldType.
Notation mat := (nat -> nat -> C).
Notation vec := (nat -> C).

(** [bandwidth] is the index of the last upper diagonal that is not close to zero *)
Theorem bandwidth_beyond n (A : mat) i j : (i < j < n)%N -> (bandwidth n A < j - i)%N ->
  close (rtol0 C) (atol0 C) (A i j) 0.
Proof.
move=> ij; rewrite /bandwidth; set P := fun i => ~~ _; set s := [seq _ <- _ | _] => w.
have srt : sorted geq s.
  apply: sorted_filter; first by move=> a b c /= ba ac; apply: leq_trans ac ba.
  by rewrite rev_sorted; apply: sub_sorted (iota_ltn_sorted _ _) => a b /= /ltnW.
have hd x : x \in s -> (x <= head 0 s)%N.
  case: (s) srt => // y l; rewrite /= in_cons => /order_path_min h /orP[/eqP-> //|xl].
  have tr : transitive geq by move=> a b c /= ba ac; apply: leq_trans ac ba.
  by have /allP/(_ _ xl) := h tr.
have : (j - i)%N \notin s by apply/negP => /hd; rewrite leqNgt w.
rewrite mem_filter mem_rev mem_iota (_ : (1 <= j - i < 1 + n.-1)%N); last by lia.
rewrite andbT negbK => /allP /(_ i); rewrite mem_iota (_ : (0 <= i < 0 + (n - (j - i)))%N); last by lia.
by rewrite (_ : i + (j - i) = j)%N; [apply | lia].
Qed.

Variables (n : nat) (B : mat).
Hypothesis symB : sym_upto n B.
Let Bs i j := symmetrize n B (i - 1)%N (j - 1)%N.
Let symBs i j : Bs i j = Bs j i. Proof. exact: symmetrize_sym. Qed.
Let g (k : seq nat) := lhq Bs (fun i => Bs i i) k.
Variable w : nat.
Hypothesis beyond : forall i j, (i < j < n)%N -> (w < j - i)%N -> B i j = 0.

Let low t := (t - (2 * w).+1)%N.
Lemma lower_endE t : (if (2 * w + 1 < t)%N then pyrange 1 (t - 2 * w) else [::]) = iota 1 (low t).
Proof.
rewrite /low /pyrange; case: ltnP => h.
  by congr iota; lia.
by rewrite (_ : (t - (2 * w).+1 = 0)%N) //; lia.
Qed.
Lemma diffE t : [seq x <- pyrange 1 t.+1 | x \notin iota 1 (low t)] = iota (low t).+1 (t - low t).
Proof.
have e : pyrange 1 t.+1 = iota 1 (low t) ++ iota (low t).+1 (t - low t).
  by rewrite -[(low t).+1]add1n -iotaD /pyrange; congr iota; rewrite /low; lia.
rewrite e filter_cat.
have -> : [seq x <- iota 1 (low t) | x \notin iota 1 (low t)] = [::].
  by apply/eqP; rewrite -[_ == _]negbK -has_filter; apply/hasPn => x; rewrite negbK.
by apply/all_filterP/allP => x; rewrite !mem_iota; lia.
Qed.

Definition correct (d : dict C) := forall k v, dget d k = Some v -> v = g k.
Definition present (d : dict C) k := dget d k <> None.
Definition pre t d := forall D, subseq D (iota (low t).+1 (t - 1 - low t)) -> present d (iota 1 (low t) ++ D).
Definition post t d := forall D, subseq D (iota (low t).+1 (t - low t)) -> present d (iota 1 (low t) ++ D).

Lemma dget_cons k v (d : dict C) k' : dget ((k, v) :: d) k' = if k == k' then Some v else dget d k'.
Proof. by rewrite /dget /=; case: eqP. Qed.

Lemma post_pre t d : post t d -> pre t.+1 d.
Proof.
move=> h D; case: (ltnP t (2 * w).+1) => tw.
  have e1 : low t.+1 = low t by rewrite /low; lia.
  by rewrite e1 subn1 /= => /h.
have e1 : low t.+1 = (low t).+1 by rewrite /low; lia.
rewrite e1 => sD; rewrite (_ : iota 1 (low t).+1 = iota 1 (low t) ++ [:: (low t).+1]); last first.
  by rewrite -[X in iota 1 X]addn1 iotaD add1n.
rewrite -catA; apply: h.
have e2 : (t - low t = (t.+1 - 1 - (low t).+1).+1)%N by rewrite /low; lia.
by rewrite e2 /= eqxx.
Qed.

Lemma banded_sumE d t key D : (forall i, i \in D -> dget d [seq x <- key | (x != i) && (x != t)] = Some (g [seq x <- key | (x != i) && (x != t)])) ->
  banded_sum B d t key D = Some (\sum_(i <- D) B (i - 1)%N (t - 1)%N * g [seq x <- key | (x != i) && (x != t)]).
Proof.
elim: D => [|i D IH] h /=; first by rewrite big_nil.
by rewrite h ?mem_head // IH ?big_cons // => j jD; apply: h; rewrite in_cons jD orbT.
Qed.

Lemma insert_value t D : (0 < t <= n)%N -> subseq D (iota (low t).+1 (t - low t)) -> t \in D ->
  g (iota 1 (low t) ++ D) =
  \sum_(i <- D) B (i - 1)%N (t - 1)%N * g [seq x <- iota 1 (low t) ++ D | (x != i) && (x != t)].
Proof.
move=> tn sD tD; set key := _ ++ D.
have uD : uniq D := subseq_uniq sD (iota_uniq _ _).
have Dr i : i \in D -> (low t < i <= t)%N by move=> /(mem_subseq sD); rewrite mem_iota /low; lia.
have uk : uniq key.
  rewrite /key cat_uniq iota_uniq uD andbT; apply/hasPn => i /Dr hi /=; rewrite mem_iota; lia.
have tk : t \in key by rewrite mem_cat tD orbT.
have kr i : i \in key -> (0 < i <= t)%N.
  by rewrite mem_cat mem_iota => /orP[|/Dr]; rewrite /low; lia.
have Bsv i j : (0 < i <= n)%N -> (0 < j <= n)%N -> Bs i j = B (i - 1)%N (j - 1)%N.
  by move=> hi hj; rewrite /Bs /symmetrize ifT //; lia.
rewrite /g (lhq_expand _ symBs tk).
have tl : t \notin iota 1 (low t) by rewrite mem_iota /low; lia.
have remk : rem t key = iota 1 (low t) ++ rem t D.
  by rewrite !rem_filter // /key filter_cat; congr (_ ++ _); apply/all_filterP/allP => x; rewrite mem_iota /low /=; lia.
have frem : [seq x <- key | (x != t) && (x != t)] = rem t key.
  by rewrite rem_filter //; apply: eq_filter => x; rewrite andbb.
rewrite (perm_big _ (perm_to_rem tD)) big_cons /= frem; congr (_ + _); first by rewrite Bsv.
rewrite remk big_cat /= big1_seq ?add0r; last first.
  move=> z; rewrite mem_iota => /= hz; have hz2 : (0 < z /\ z + 2 * w < t)%N by move: hz; rewrite /low; lia.
  have b0 : B (z - 1)%N (t - 1)%N = 0 by apply: beyond; lia.
  by rewrite symBs Bsv ?b0 ?mul0r //; lia.
apply: eq_big_seq => z zD; rewrite -remk.
have zD' := mem_rem zD; have := Dr _ zD' => hz.
rewrite symBs Bsv //; last by lia.
congr (_ * lhq _ _ _).
rewrite (rem_filter z) ?rem_uniq // rem_filter // -filter_predI; exact: eq_filter.
Qed.

Lemma inner t (Ds : seq (seq nat)) d : (0 < t <= n)%N ->
  (forall D, D \in Ds -> subseq D (iota (low t).+1 (t - low t))) ->
  correct d -> pre t d ->
  exists d', [/\ foldM (fun d D => let key := iota 1 (low t) ++ D in
         if dget d key is Some _ then Ok d
         else if banded_sum B d t key D is Some v then Ok ((key, v) :: d) else Err KeyError) d Ds = Ok d',
     correct d', (forall k, present d k -> present d' k) & forall D, D \in Ds -> present d' (iota 1 (low t) ++ D)].
Proof.
move=> tn; elim: Ds d => [|D Ds IH] d sD cd pd; first by exists d.
have sD' D0 : D0 \in Ds -> subseq D0 (iota (low t).+1 (t - low t)) by move=> h; apply: sD; rewrite in_cons h orbT.
have {sD} sD := sD _ (mem_head _ _).
set key := iota 1 (low t) ++ D.
case E: (dget d key) => [v|].
  have [d' [h1 h2 h3 h4]] := IH _ sD' cd pd.
  exists d'; split=> //; first by rewrite /= -/key E.
  by move=> D0; rewrite in_cons => /orP[/eqP->|/h4//]; apply: h3; rewrite /present -/key E.
have tD : t \in D.
  apply/negPn/negP => tD; apply: (pd D) E.
  have e : iota (low t).+1 (t - low t) = iota (low t).+1 (t - 1 - low t) ++ [:: t].
    have e1 : (t - low t = (t - 1 - low t) + 1)%N by rewrite /low; lia.
    by rewrite {1}e1 iotaD /=; congr (_ ++ [:: _]); rewrite /low; lia.
  have : subseq D [seq x <- iota (low t).+1 (t - low t) | x != t].
    have -> : D = [seq x <- D | x != t].
      by apply/esym/all_filterP/allP => x xD; apply/eqP => e'; rewrite -e' xD in tD.
    exact: filter_subseq_l.
  rewrite e filter_cat /= eqxx cats0 => /subseq_trans; apply; exact: filter_subseq.
have ok i : i \in D -> dget d [seq x <- key | (x != i) && (x != t)] = Some (g [seq x <- key | (x != i) && (x != t)]).
  move=> iD; suff : present d [seq x <- key | (x != i) && (x != t)].
    by rewrite /present; case E2: (dget _ _) => [v|] // _; rewrite (cd _ _ E2).
  have hi : (low t < i <= t)%N by have := mem_subseq sD iD; rewrite mem_iota /low; lia.
  rewrite filter_cat (_ : [seq x <- iota 1 (low t) | _] = iota 1 (low t)); last first.
    by apply/all_filterP/allP => x; rewrite mem_iota; lia.
  apply: pd; apply: subseq_trans (_ : subseq _ [seq x <- D | x != t]) _.
    by rewrite (eq_filter (a2 := predI (fun x => x != i) (fun x => x != t))) // filter_predI; apply: filter_subseq.
  have e : iota (low t).+1 (t - low t) = iota (low t).+1 (t - 1 - low t) ++ [:: t].
    have e1 : (t - low t = (t - 1 - low t) + 1)%N by rewrite /low; lia.
    by rewrite {1}e1 iotaD /=; congr (_ ++ [:: _]); rewrite /low; lia.
  have : subseq [seq x <- D | x != t] [seq x <- iota (low t).+1 (t - low t) | x != t] by apply: filter_subseq_l.
  rewrite e filter_cat /= eqxx cats0 => /subseq_trans; apply; exact: filter_subseq.
have bs := banded_sumE ok.
set v := \sum_(i <- D) _ in bs.
have [||d' [h1 h2 h3 h4]] := IH ((key, v) :: d) sD'.
- by move=> k v0; rewrite dget_cons; case: eqP => [<- [<-]|_ /cd//]; rewrite insert_value.
- by move=> D0 s0; rewrite /present dget_cons; case: eqP => // _; apply: pd.
exists d'; split=> //.
- by rewrite /= -/key E bs.
- by move=> k pk; apply: h3; rewrite /present dget_cons; case: eqP.
- move=> D0; rewrite in_cons => /orP[/eqP->|/h4//]; apply: h3.
  by rewrite /present dget_cons eqxx.
Qed.

Lemma outer m d : (m <= n)%N -> correct d -> pre 1 d -> 
  exists d', [/\ foldM (fun d t =>
      let lower_end := if (2 * w + 1 < t)%N then pyrange 1 (t - 2 * w) else [::] in
      let diff := [seq x <- pyrange 1 t.+1 | x \notin lower_end] in
      foldM (fun d D =>
         let key := lower_end ++ D in
         if dget d key is Some _ then Ok d
         else if banded_sum B d t key D is Some v then Ok ((key, v) :: d) else Err KeyError)
        d (powerset diff)) d (iota 1 m) = Ok d', correct d' & pre m.+1 d'].
Proof.
move=> mn cd pd; elim: m mn => [|m IH] mn; first by exists d.
have [d1 [e1 c1 p1]] := IH (ltnW mn).
have tn : (0 < m.+1 <= n)%N by [].
have [D|d2 [e2 c2 p2 p3]] := inner tn (Ds := powerset (iota (low m.+1).+1 (m.+1 - low m.+1))) _ c1 p1.
  by rewrite powerset_correct.
exists d2; split=> //; last by apply: post_pre => D sD; apply: p3; rewrite powerset_correct.
move: e1; set F := fun (d : dict C) (t : nat) => _ => e1.
have FE : F d1 m.+1 = Ok d2 by rewrite /F lower_endE diffE.
by rewrite -[X in iota 1 X]addn1 iotaD foldM_cat e1 /= add1n FE.
Qed.
End Banded.

Lemma haf_or_lhaf_drop (C : numClosedFieldType) n (A : nat -> nat -> C) loop : sym_upto n A ->
  haf_or_lhaf loop n A = lhq (drop_diag loop A) (fun i => drop_diag loop A i i) (iota 0 n).
Proof.
move=> sA; rewrite -(sub_haf_lhq loop sA) ?iota_uniq //; last by apply/allP => i; rewrite mem_iota.
rewrite /sub_haf size_iota !haf_or_lhaf_lhq; apply: eq_lhq => [i j|i]; rewrite !mem_iota.
  by move=> hi hj; rewrite !nth_iota.
by case: (loop) => // hi; rewrite nth_iota.
Qed.

(** C15: for every symmetric non-empty matrix whose entries beyond the detected bandwidth are exactly zero. *)
Theorem hafnian_banded_correct (C : numClosedFieldType) n (A : nat -> nat -> C) loop rtol atol :
  0 <= rtol -> 0 <= atol -> (0 < n)%N -> sym_upto n A ->
  (forall i j, (i < j < n)%N -> (bandwidth n A < j - i)%N -> A i j = 0) ->
  hafnian_banded (PyArr (arr_of n n A)) loop rtol atol = Ok (haf_or_lhaf loop n A).
Proof.
move=> r0 a0 n0 sA hb; rewrite /hafnian_banded input_validation_ok //= -/(vals (arr_of n n A)).
rewrite (_ : vals (arr_of n n A) = A) // (negPf (lt0n_neq0 n0)).
set w := bandwidth n A; set B := drop_diag loop A.
have sB : sym_upto n B.
  by move=> i j hi hj; rewrite /B /drop_diag; case: (loop); rewrite sA // [j == i]eq_sym; case: eqP => // ->.
have bB i j : (i < j < n)%N -> (w < j - i)%N -> B i j = 0.
  move=> ij wj; rewrite /B /drop_diag hb //; case: (loop) => //.
  by case: eqP; rewrite ?subrr.
set d0 := [:: ([::], 1); _].
have c0 : correct n B d0.
  move=> k v; rewrite /d0 !dget_cons; case: eqP => [<- [<-]|_]; first by rewrite lhq_nil.
  case: eqP => // <- [<-]; rewrite lhq_cons lhq_nil big_nil addr0 mulr1 /symmetrize /=.
  by rewrite !subnn n0.
have p0 : pre w 1 d0.
  move=> D; have -> : (1 - (2 * w).+1 = 0)%N by lia.
  by case: D.
have [d1 [e1 c1 p1]] := outer sB bB (leqnn n) c0 p0.
rewrite /pyrange subn1 /= e1 /=.
have : dget d1 (iota 1 n) <> None.
  have := p1 (iota (n.+1 - (2 * w).+1).+1 (n.+1 - 1 - (n.+1 - (2 * w).+1))) (subseq_refl _).
  rewrite /present -[(_ - _).+1]add1n -iotaD.
  by have -> : (n.+1 - (2 * w).+1 + (n.+1 - 1 - (n.+1 - (2 * w).+1)) = n)%N by lia.
case E: (dget _ _) => [v|] // _; congr Ok; rewrite (c1 _ _ E) haf_or_lhaf_drop //.
rewrite -[1%N]addn0 iotaDl lhq_map_inj => [|x y _ _ /addnI//].
apply: eq_lhq => [i j|i]; rewrite !mem_iota /symmetrize addn0 !add1n !subn1 /=.
  by move=> hi hj; rewrite hi hj.
by move=> hi; rewrite hi.
Qed.

(** the hypothesis on the bandwidth holds as soon as no non-zero entry is within the default tolerance of 0 *)
Corollary hafnian_banded_correct_tol (C : numClosedFieldType) n (A : nat -> nat -> C) loop rtol atol :
  0 <= rtol -> 0 <= atol -> (0 < n)%N -> sym_upto n A ->
  (forall i j, (i < j < n)%N -> close (rtol0 C) (atol0 C) (A i j) 0 -> A i j = 0) ->
  hafnian_banded (PyArr (arr_of n n A)) loop rtol atol = Ok (haf_or_lhaf loop n A).
Proof.
move=> r0 a0 n0 sA h; apply: hafnian_banded_correct => // i j ij wj.
by apply: h => //; apply: bandwidth_beyond wj.
Qed.

(** invalid input is rejected as in [hafnian]; the 0 x 0 matrix, whose hafnian is 1, raises IndexError *)
Theorem hafnian_banded_validates (C : numClosedFieldType) (A : pyobj C) loop rtol atol e :
  input_validation A rtol atol = Err e -> hafnian_banded A loop rtol atol = Err e.
Proof. by rewrite /hafnian_banded => ->. Qed.
Theorem hafnian_banded_empty_refuted (C : numClosedFieldType) (A : nat -> nat -> C) loop rtol atol :
  0 <= rtol -> 0 <= atol ->
  hafnian_banded (PyArr (arr_of 0 0 A)) loop rtol atol = Err IndexError /\ haf_or_lhaf loop 0 A = 1.
Proof.
by move=> r0 a0; rewrite /hafnian_banded input_validation_ok //; split=> //; rewrite haf_or_lhaf_lhq.
Qed.

Example hafnian_banded_ex : hafnian_banded (C := [numClosedFieldType of algC])
   (PyArr (arr_of 3 3 (fun i j => if (i - j <= 1)%N && (j - i <= 1)%N then 1 else 0))) true 0 0 = Ok 3%:R.
Proof.
rewrite hafnian_banded_correct_tol // => [|i j _ _|i j _]; first last.
- case: ifP => // _; rewrite /close subr0 normr0 mulr0 addr0 normr1.
  by move=> /le_lt_trans /(_ (atol0_lt1 _)); rewrite ltxx.
- by rewrite andbC.
by rewrite haf_or_lhaf_lhq /= !(lhq_cons, lhq_nil, big_cons, big_nil) /=; congr Ok; rring.
Qed.
