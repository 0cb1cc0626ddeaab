(** C24-C27: perm, permanent_repeated, brs, ubrs, fock_prob, fock_threshold_prob. *)
From mathcomp Require Import all_ssreflect all_fingroup all_algebra all_field zify.
From Verif Require Import Prelude PyBase ArrLoop SpecHaf ThHaf ThGray ThPerm ThPerm2 ThRec MPowerHaf PropKernels
  MHafnian MPermanent PropPowerHaf PropHafnian PropPermanent.
Set Implicit Arguments.
Unset Strict Implicit.
Unset Printing Implicit Defensive.
Import Order.Theory GRing.Theory Num.Theory.
Local Open Scope ring_scope.

Section Main.
Variable C : numClosedFieldType.
Notation mat := (nat -> nat -> C).
Let two0 : 2%:R != 0 :> C. Proof. by rewrite pnatr_eq0. Qed.

(** the user-facing [perm], both methods *)
Theorem perm_correct n (A : mat) bbfg : perm (PyArr (arr_of n n A)) bbfg = Ok (perm_spec n A).
Proof.
rewrite /perm /= eqxx /= (_ : has _ _ = false); last by apply/hasP => -[i _ /hasP[j _]].
rewrite (_ : vals _ = A) //.
case: n => [|[|[|[|n]]]]; last by case: bbfg; rewrite /= ?perm_bbfg_correct ?perm_ryser_correct.
all: rewrite /= perm_spec_pq /= ?(big_cons, big_nil) /= ?(big_cons, big_nil) /= ?(big_cons, big_nil) /=; congr Ok; try rring.
Qed.
Theorem perm_rejects (A : pyobj C) bbfg :
  match A with
  | PyOther => perm A bbfg = Err TypeError
  | PyArr a => nrows a <> ncols a \/ (exists i j, [/\ (i < nrows a)%N, (j < ncols a)%N & ent a i j = None]) ->
      perm A bbfg = Err ValueError
  end.
Proof.
case: A => [a|] //=; case: eqP => //= e [//|[i [j [hi hj hN]]]].
rewrite ifT //; apply/hasP; exists i; rewrite ?mem_iota //; apply/hasP; exists j; rewrite ?mem_iota //; exact/eqP.
Qed.

Variable sched : nat -> seq nat.
Hypothesis sched_ok : forall s, perm_eq (sched s) (iota 0 s).

Lemma rep_index_cat r1 r2 : rep_index (r1 ++ r2) = rep_index r1 ++ [seq (size r1 + i)%N | i <- rep_index r2].
Proof.
rewrite /rep_index size_cat iotaD map_cat flatten_cat map_flatten -map_comp; congr (flatten _ ++ flatten _).
  by apply/eq_in_map => i; rewrite mem_iota => hi; rewrite nth_cat ifT.
rewrite add0n -[X in iota X _]addn0 iotaDl -map_comp; apply: eq_map => i /=.
by rewrite map_nseq nth_cat ifF ?addKn //; lia.
Qed.

(** the matrix with row and column i repeated rpt_i times *)
Definition repeated (A : mat) (rpt : seq nat) : mat :=
  fun i j => A (nth 0%N (rep_index rpt) i) (nth 0%N (rep_index rpt) j).

(** haf([[0, A], [A^T, 0]]) with repetitions is the permanent of the repeated matrix *)
Theorem haf_bipartite_perm (A : mat) rpt :
  haf_rep_spec (rpt ++ rpt) (bipartite (size rpt) A) = perm_spec (sumn rpt) (repeated A rpt).
Proof.
have sB : forall i j, bipartite (size rpt) A i j = bipartite (size rpt) A j i.
  by move=> i j; rewrite /bipartite; case: ltnP; case: ltnP.
rewrite haf_rep_lhaf lhaf_rep_lhq_lt; last by move=> i j _ _; apply: sB.
rewrite rep_index_cat (lhq_bip (n := size rpt)) //; last by apply/allP => i /rep_index_lt.
by rewrite -perm_spec_nth // size_rep_index.
Qed.

(** C26 *)
Theorem permanent_repeated_correct (A : mat) rpt :
  (allclose (rtol0 C) (atol0 C) (2 * size rpt) (2 * size rpt) (bipartite (size rpt) A) (fun _ _ => 0) ->
     forall i j, (i < size rpt)%N -> (j < size rpt)%N -> A i j = 0) ->
  permanent_repeated sched (size rpt) A (rats rpt) = Ok (perm_spec (sumn rpt) (repeated A rpt)).
Proof.
move=> hz; rewrite -haf_bipartite_perm /permanent_repeated.
have -> : rats rpt ++ rats rpt = rats (rpt ++ rpt) by rewrite /rats map_cat.
have e2 : (2 * size rpt = size (rpt ++ rpt))%N by rewrite size_cat; lia.
rewrite e2 in hz *.
rewrite (@hafnian_repeated_correct _ _ sched_ok (rpt ++ rpt) _ None) //.
- by rewrite exprn_ge0 // invr_ge0 ler0n.
- by rewrite exprn_ge0 // invr_ge0 ler0n.
- by move=> i j _ _; rewrite /bipartite; case: ltnP; case: ltnP.
move=> /hz {}hz i j; rewrite -e2 /bipartite => hi hj.
by case: ltnP => h1; case: ltnP => h2 //; apply: hz => //; lia.
Qed.

(** *** Bristolian *)
(** Sum over the subsets Y of the m rows, with sign (-1)^(m - |Y|) *)
Definition subset_sum (m : nat) (h : {set 'I_m} -> C) : C := \sum_(Y : {set 'I_m}) (-1) ^+ (m - #|Y|) * h Y.
(** [perm(A_Y^H A_Y + E)] *)
Definition perm_gram m n (A E : mat) (Y : {set 'I_m}) : C :=
  perm_spec n (fun i k => \sum_(r in Y) (A r i)^* * A r k + E i k).

Lemma foldM_sum (l : seq nat) (g : nat -> C) (body : C -> nat -> res C) s :
  (forall t j, body t j = Ok (t + g j)) -> foldM body s l = Ok (s + \sum_(j <- l) g j).
Proof. by move=> h; elim: l s => [|j l IH] s; rewrite ?big_nil ?addr0 //= h /= IH big_cons addrA. Qed.

Definition kset m j : {set 'I_m} := [set r : 'I_m | nth 0%N (find_kept_edges j (nseq m 1%N)) r != 0%N].
Lemma prod_ones m : (\prod_(r <- nseq m 1) r.+1 = 2 ^ m)%N.
Proof. by rewrite big_nseq; elim: m => //= m ->; rewrite expnS. Qed.
Lemma kset_inj m : injective (fun j : 'I_(2 ^ m) => kset m j).
Proof.
move=> a b e; apply: val_inj => /=; have u := find_kept_edges_uniq (nseq m 1%N); rewrite prod_ones in u.
have mem (j : 'I_(2 ^ m)) : find_kept_edges j (nseq m 1%N) \in [seq find_kept_edges i (nseq m 1%N) | i <- iota 0 (\prod_(r <- nseq m 1%N) r.+1)].
  by apply: map_f; rewrite prod_ones mem_iota add0n ltn_ord.
have [sa ha] := find_kept_edges_box _ _ (mem a); have [sb hb] := find_kept_edges_box _ _ (mem b).
have fe : find_kept_edges a (nseq m 1%N) = find_kept_edges b (nseq m 1%N).
  apply: (@eq_from_nth _ 0%N); first by rewrite sa sb.
  move=> i; rewrite sa size_nseq => hi; have := ha i; have := hb i; rewrite nth_nseq hi.
  have /setP/(_ (Ordinal hi)) := e; rewrite !inE /=.
  by case: (nth _ _ _) => [|[|x]]; case: (nth _ _ _) => [|[|y]].
have ia : nth [::] [seq find_kept_edges i (nseq m 1%N) | i <- iota 0 (2 ^ m)] a = find_kept_edges a (nseq m 1%N).
  by rewrite (nth_map 0%N) ?size_iota // nth_iota.
have ib : nth [::] [seq find_kept_edges i (nseq m 1%N) | i <- iota 0 (2 ^ m)] b = find_kept_edges b (nseq m 1%N).
  by rewrite (nth_map 0%N) ?size_iota // nth_iota.
apply/eqP; rewrite -(nth_uniq [::] _ _ u) ?size_map ?size_iota //; apply/eqP; rewrite ia ib fe //.
Qed.
Lemma kset_sum m (h : {set 'I_m} -> C) : \sum_(j < 2 ^ m) h (kset m j) = \sum_(Y : {set 'I_m}) h Y.
Proof.
rewrite [RHS](reindex (fun k : 'I_(2 ^ m) => kset m k)) //; apply: onW_bij; apply: inj_card_bij (@kset_inj m) _.
by rewrite -[X in (X <= _)%N]cardsT -powersetT card_powerset cardsT !card_ord.
Qed.
Lemma kept_rowsE m j (F : nat -> C) : \sum_(r <- kept_rows m j) F r = \sum_(r in kset m j) F r.
Proof.
rewrite /kept_rows big_filter -[iota 0 m]val_enum_ord big_map big_enum_cond /=.
by apply: eq_bigl => r; rewrite inE.
Qed.
Lemma size_kept_rows m j : size (kept_rows m j) = #|kset m j|.
Proof.
rewrite -sum1_card /kept_rows size_filter -sum1_count -[iota 0 m]val_enum_ord big_map big_enum_cond /=.
by apply: eq_bigl => r; rewrite inE.
Qed.
Lemma eq_perm_spec n (A B : mat) : (forall i j, (i < n)%N -> (j < n)%N -> A i j = B i j) -> perm_spec n A = perm_spec n B.
Proof. by move=> e; apply: eq_bigr => s _; apply: eq_bigr => i _; apply: e. Qed.

(** C27 *)
Theorem brs_correct m n (A E : mat) : brs sched m n A E = Ok (subset_sum (@perm_gram m n A E)).
Proof.
rewrite /brs (@foldM_sum _ (fun j => (-1) ^+ (m - #|kset m j|) * perm_gram n A E (kset m j))) ?add0r.
  by rewrite (perm_big _ (sched_ok _)) /= sum_iota (kset_sum (fun Y => (-1) ^+ (m - #|Y|) * perm_gram n A E Y)).
move=> t j; rewrite perm_bbfg_correct // /= size_kept_rows modn2 signr_odd; congr (Ok (_ + _ * _)).
by apply: eq_perm_spec => i k _ _; rewrite /gram for_sum add0r kept_rowsE.
Qed.

Lemma kset0 m : kset m 0 = set0.
Proof.
apply/setP => r; rewrite !inE.
have z rs : find_kept_edges 0 rs = nseq (size rs) 0%N.
  by elim: rs => [|x rs IH]; rewrite ?fke_nil // fke_cons IH div0n mod0n.
by rewrite z nth_nseq size_nseq; case: ifP.
Qed.
Theorem ubrs_correct m n (A : mat) : (0 < n)%N -> ubrs sched m n A = brs sched m n A (fun _ _ => 0).
Proof.
move=> n0; rewrite brs_correct /ubrs (@foldM_sum _ (fun j => (-1) ^+ (m - #|kset m j.+1|) * perm_gram n A (fun _ _ => 0) (kset m j.+1))) ?add0r.
  rewrite (perm_big _ (sched_ok _)) /= sum_iota /subset_sum -(kset_sum (fun Y => (-1) ^+ (m - #|Y|) * perm_gram n A _ Y)).
  have e : (2 ^ m = (2 ^ m - 1).+1)%N by have := expn_gt0 2 m; lia.
  have h (F : nat -> C) : \sum_(j < 2 ^ m) F j = F 0%N + \sum_(j < 2 ^ m - 1) F j.+1.
    by move: (2 ^ m - 1)%N e => q ->; rewrite big_ord_recl.
  rewrite (h (fun j => (-1) ^+ (m - #|kset m j|) * perm_gram n A (fun _ _ => 0) (kset m j))) kset0.
  rewrite [X in _ = Ok (_ * X + _)](_ : _ = 0) ?mulr0 ?add0r //.
  case: n n0 => // n _; rewrite /perm_gram /perm_spec big1 // => s _.
  by rewrite big_ord_recl big_set0 addr0 mul0r.
move=> t j; rewrite perm_bbfg_correct // /= size_kept_rows modn2 signr_odd; congr (Ok (_ + _ * _)).
by apply: eq_perm_spec => i k _ _; rewrite /gram for_sum add0r kept_rowsE addr0.
Qed.
End Main.

Example perm_ex bbfg : perm (PyArr (arr_of 5 5 (fun _ _ => 1 : algC))) bbfg = Ok 120%:R.
Proof.
rewrite (perm_correct (C := [numClosedFieldType of algC])) /perm_spec; congr Ok.
by rewrite (eq_bigr (fun=> 1)) => [|s _]; [rewrite sumr_const card_Sn|rewrite big1].
Qed.
