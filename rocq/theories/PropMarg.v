(** C48: n_body_marginals *)
From mathcomp Require Import all_ssreflect all_algebra algC zify.
From Verif Require Import Prelude PyBase ArrLoop SpecHaf ThHaf MHafnian PropPowerHaf PropHafnian MHermite PropHermite PropHermite2 SpecSymp MSymplectic
  PropSymplectic PropSymp2 PropGates PropChannels PropConversions SpecGauss MMeans PropMeans SpecTor PropTor5 PropThr4 PropThr5 SpecFock MFock PropFock PropFock2 PropFock3 PropFock4 PropFock5 PropFock6 PropFock7 MMarg.
Set Implicit Arguments.
Unset Strict Implicit.
Unset Printing Implicit Defensive.
Import Order.Theory GRing.Theory Num.Theory.

Section Lex.
Lemma sorted_lex s t : sorted leq s -> perm_eq s t -> s != t -> lexlt s t.
Proof.
elim: s t => [|x s IH] [|y t] // ss st ne.
- by move/perm_size: st.
- by move/perm_size: st.
have hs : all (leq x) s by apply: order_path_min ss; exact: leq_trans.
have xy : x <= y.
  have : y \in x :: s by rewrite (perm_mem st) mem_head.
  by rewrite inE => /orP[/eqP -> //|/(allP hs)].
rewrite /=; case: (ltngtP x y) xy => // e _; subst y; rewrite /=.
move: st ne; rewrite perm_cons eqseq_cons eqxx /= => st ne; apply: IH => //; exact: path_sorted ss.
Qed.
Lemma lex_before (L L1 L2 : seq (seq nat)) x y : pairwise lexlt L -> L = L1 ++ x :: L2 -> y \in L -> lexlt y x -> y \in L1.
Proof.
move=> pL e; rewrite {1}e mem_cat inE => /orP[//|/orP[/eqP ->|yL]] yx; first by rewrite lexlt_irr in yx.
have : lexlt x y by move: pL; rewrite e pairwise_cat => /and3P[_ _ /= /andP[/allP h _]]; exact: h.
by move/lexlt_asym; rewrite yx.
Qed.
Lemma mem_fromkeys s : fromkeys s =i s.
Proof. by move=> x; rewrite /fromkeys mem_rev mem_undup mem_rev. Qed.
Lemma fromkeys_uniq s : uniq (fromkeys s).
Proof. by rewrite /fromkeys rev_uniq undup_uniq. Qed.
Lemma fromkeys_cons x s : fromkeys (x :: s) = x :: [seq y <- fromkeys s | y != x].
Proof.
rewrite /fromkeys rev_cons; move: (rev s) => r; elim: r => //= y r IH.
rewrite mem_rcons inE; case: (eqVneq y x) => [->|yx] /=.
  rewrite IH; case: ifP => // xr.
  by rewrite rev_cons -cats1 filter_cat /= eqxx cats0.
case: ifP => yr; first exact: IH.
by rewrite rev_cons IH /= rev_cons -!cats1 filter_cat /= yx.
Qed.
Lemma fromkeys_sorted s : sorted leq s -> fromkeys s = sort leq (undup s).
Proof.
move=> ss; apply: (@sorted_eq _ leq leq_trans anti_leq); last first.
- rewrite perm_sym perm_sort; apply: uniq_perm (undup_uniq s) (fromkeys_uniq s) _ => x.
  by rewrite mem_fromkeys mem_undup.
- exact: (sort_sorted leq_total).
- elim: s ss => // x s IH ss; rewrite fromkeys_cons /=; have ss' := path_sorted ss.
  rewrite path_sortedE; last exact: leq_trans.
  apply/andP; split; last by apply: sorted_filter (IH ss'); exact: leq_trans.
  apply/allP => y; rewrite mem_filter mem_fromkeys => /andP[_ ys].
  by have /allP := order_path_min leq_trans ss; apply.
Qed.
Lemma fromkeys_uniq_id v : uniq v -> fromkeys v = v.
Proof. by move=> u; rewrite /fromkeys undup_id ?revK // rev_uniq. Qed.
Lemma fromkeys_pad n x v : uniq (x :: v) -> fromkeys (nseq n x ++ x :: v) = x :: v.
Proof.
move=> u; elim: n => [|n IH]; first by rewrite fromkeys_uniq_id.
rewrite /= fromkeys_cons IH /= eqxx /=; congr (_ :: _); apply/all_filterP/allP => y yv.
by apply: contraTneq yv => ->; case/andP: u.
Qed.
End Lex.

(** ** spec: probability that mode v_i has x_i photons, in terms of a distribution p over increasing lists of modes *)
Definition assign (v x : seq nat) : seq nat := [seq nth 0 x (index m v) | m <- sort leq v].
(** a tuple of modes whose sorting permutation is its own inverse (all tuples of length at most 2) *)
Definition involutive_order (v : seq nat) : Prop :=
  forall i, i < size v -> nth 0 (argsort v) (nth 0 (argsort v) i) = i.
Section Arg.
Variable v : seq nat.
Hypothesis uv : uniq v.
Lemma perm_argsort : perm_eq (argsort v) (iota 0 (size v)).
Proof. by rewrite /argsort perm_sort. Qed.
Lemma size_argsort : size (argsort v) = size v.
Proof. by rewrite (perm_size perm_argsort) size_iota. Qed.
Lemma argsort_uniq : uniq (argsort v).
Proof. by rewrite (perm_uniq perm_argsort) iota_uniq. Qed.
Lemma argsort_lt i : i < size v -> nth 0 (argsort v) i < size v.
Proof.
move=> h; have : nth 0 (argsort v) i \in argsort v by rewrite mem_nth // size_argsort.
by rewrite (perm_mem perm_argsort) mem_iota.
Qed.
Lemma argsort_sorts : [seq nth 0 v i | i <- argsort v] = sort leq v.
Proof.
apply: (@sorted_eq _ leq leq_trans anti_leq).
- rewrite /argsort; have : sorted (fun i j => nth 0 v i <= nth 0 v j) (argsort v).
    by apply: sort_sorted => i j; exact: leq_total.
  by rewrite /argsort sorted_map.
- exact: (sort_sorted leq_total).
- rewrite perm_sym perm_sort perm_sym; apply: perm_trans (perm_map _ perm_argsort) _.
  by rewrite -[X in perm_eq _ X](mkseq_nth 0) /mkseq.
Qed.
Lemma index_sort i : i < size v -> index (nth 0 (sort leq v) i) v = nth 0 (argsort v) i.
Proof.
move=> h; rewrite -argsort_sorts (nth_map 0) ?size_argsort // index_uniq //; exact: argsort_lt.
Qed.
(** what the code's transpose does *)
Definition transposed (x : seq nat) : seq nat := [seq nth 0 x (index j (argsort v)) | j <- iota 0 (size v)].
Lemma transposed_assign x : involutive_order v -> transposed x = assign v x.
Proof.
move=> inv; rewrite /transposed /assign; apply: (@eq_from_nth _ 0); first by rewrite !size_map size_iota size_sort.
move=> i; rewrite size_map size_iota => hi.
rewrite (nth_map 0) ?size_iota // nth_iota // add0n (nth_map 0) ?size_sort // index_sort //; congr (nth 0 x _).
have hj := argsort_lt hi.
by rewrite -{1}(inv i hi) index_uniq ?argsort_uniq ?size_argsort.
Qed.
End Arg.
Lemma argsort_sorted v : sorted leq v -> argsort v = iota 0 (size v).
Proof.
move=> sv; rewrite /argsort; apply: sorted_sort; first by move=> a b c; exact: leq_trans.
apply/(sortedP 0) => i; rewrite size_iota => hi; rewrite !nth_iota ?add0n; try lia.
by have /(sortedP 0) := sv; apply.
Qed.
Lemma transposed_sorted v x : sorted leq v -> size x = size v -> transposed v x = x.
Proof.
move=> sv sx; rewrite /transposed argsort_sorted // -[RHS](mkseq_nth 0) sx /mkseq; apply/eq_in_map => j.
rewrite mem_iota add0n => /andP[_ hj]; congr (nth 0 x _).
have e : nth 0 (iota 0 (size v)) j = j by rewrite nth_iota.
by rewrite -{1}e index_uniq ?iota_uniq ?size_iota.
Qed.
Lemma transposed_range v x c : uniq v -> size x = size v -> all (fun k => k < c) x ->
  size (transposed v x) = size v /\ all (fun k => k < c) (transposed v x).
Proof.
move=> uv sx ax; rewrite size_map size_iota; split=> //; apply/allP => y /mapP[j]; rewrite mem_iota add0n => /andP[_ hj] ->.
apply: (allP ax); apply: mem_nth; rewrite sx -(size_argsort v) index_mem (perm_mem (perm_argsort v)) mem_iota //.
Qed.
Lemma involutive2 v : uniq v -> size v <= 2 -> involutive_order v.
Proof.
case: v => [|a [|b [|//]]] //= u _ i /=; case: i => [|[|//]] //= _; rewrite /argsort /=.
all: have -> : sort (fun i j : nat => nth 0 [:: a; b] i <= nth 0 [:: a; b] j) [:: 0; 1] = if a <= b then [:: 0; 1] else [:: 1; 0] by cbv -[leq]; case: (leq a b).
all: by case: leqP.
Qed.

Local Open Scope ring_scope.
Section Marg.
Variable C : numClosedFieldType.
Notation mat := (nat -> nat -> C).
Notation vec := (nat -> C).
Variable sched : nat -> seq nat.
Variable oracle : nat -> (nat -> nat -> C) -> nat -> C.
Hypothesis sched_ok : forall n, perm_eq (sched n) (iota 0 n).
Variable oob : nat -> C.
Variable trunc : C -> C.
Variable exp : C -> C.
Variable eigvalsh : nat -> mat -> seq C.
Hypothesis e_ok : cexp_ok exp.
Variable set_order : seq nat -> seq nat.
Notation probs := (probabilities sched oracle oob trunc exp eigvalsh).
Notation nbm := (n_body_marginals sched oracle oob trunc exp eigvalsh set_order).

Section Loop.
Variables (M : nat) (mean : vec) (cov : mat) (cutoff n : nat) (hbar : C).
Hypothesis set_inc : forall ind, ind \in itproduct M n -> set_order ind = sort leq (undup ind).
Hypothesis n0 : (0 < n)%N.
Hypothesis nM : (n <= M)%N.
Variable val : seq nat -> seq nat -> C.
Hypothesis calc : forall w, sorted ltn w -> (0 < size w <= n)%N -> all (fun m => m < M)%N w ->
  exists st p, [/\ reduced_state M mean cov w = Ok st, probs (size w) st.1 st.2 cutoff false hbar (rtol0 C) (atol0 C) = Ok p &
    forall k, size k = size w -> all (fun x => x < cutoff)%N k -> tent p k = val w k].
Let L := itproduct M n.
Let good (G : seq nat -> seq nat -> C) (v : seq nat) := forall x, size x = size v -> all (fun y => y < cutoff)%N x ->
  G v x = val (sort leq v) (transposed v x).
Let inv (L1 : seq (seq nat)) G := (forall ind, ind \in L1 -> good G (fromkeys ind)) /\
  (forall v, v \notin map fromkeys L1 -> G v = fun=> 0).
Lemma mem_L ind : ind \in L = (size ind == n) && all (fun m => m < M)%N ind.
Proof. by rewrite /L itproductE mem_ndindex below_nseq. Qed.
Lemma sort_keys ind : sort leq (undup ind) = sort leq (fromkeys ind).
Proof.
apply/perm_sortP; [exact: leq_total | exact: leq_trans | exact: anti_leq |].
by apply: uniq_perm (undup_uniq _) (fromkeys_uniq _) _ => x; rewrite mem_undup mem_fromkeys.
Qed.
Lemma sort_inc (v : seq nat) : uniq v -> sorted ltn (sort leq v).
Proof. by move=> u; rewrite ltn_sorted_uniq_leq sort_uniq u sort_sorted //; exact: leq_total. Qed.
Lemma size_keys ind : (0 < size ind)%N -> (0 < size (fromkeys ind) <= size ind)%N.
Proof.
move=> h; rewrite /fromkeys size_rev -(size_rev ind) size_undup andbT; move: h; rewrite -size_rev.
by case: (rev ind) => // a s _; have : a \in undup (a :: s) by [rewrite mem_undup mem_head]; case: (undup (a :: s)).
Qed.
Lemma keys_range ind : ind \in L -> [/\ (0 < size (fromkeys ind) <= n)%N, all (fun m => m < M)%N (fromkeys ind) & uniq (fromkeys ind)].
Proof.
rewrite mem_L => /andP[/eqP si ai]; split; last exact: fromkeys_uniq.
  by rewrite -si size_keys // si.
by apply/allP => x; rewrite mem_fromkeys => /(allP ai).
Qed.

Theorem n_body_marginals_loop : exists2 r, nbm (2 * M)%N mean (2 * M, 2 * M)%N cov cutoff n hbar = Ok r &
  (forall v x, uniq v -> (0 < size v <= n)%N -> all (fun m => m < M)%N v -> size x = size v -> all (fun y => y < cutoff)%N x ->
     r v x = val (sort leq v) (transposed v x)) /\
  (forall v x, ~~ uniq v -> r v x = 0).
Proof.
rewrite /n_body_marginals eqxx /= mul2n odd_double doubleK ltnNge nM /= (_ : (n == 0)%N = false) ?(gtn_eqF n0) // -/L.
match goal with |- context [foldM ?b _ _] => pose body := b end; rewrite -/body.
have pL : pairwise lexlt L by rewrite /L itproductE ndindex_sorted.
have step L2 : forall L1 G, L = L1 ++ L2 -> inv L1 G -> exists2 r, foldM body G L2 = Ok r & inv L r.
  elim: L2 => [|ind L2 IH] L1 G eL [h1 h2]; first by exists G => //; rewrite eL cats0.
  have indL : ind \in L by rewrite eL mem_cat mem_head orbT.
  have [/andP[k0 kn] ka ku] := keys_range indL.
  rewrite /=; suff [G' -> [g1 g2]] : exists2 G', body G ind = Ok G' & good G' (fromkeys ind) /\ forall v, v != fromkeys ind -> G' v = G v.
    apply: (IH (rcons L1 ind)); first by rewrite cat_rcons.
    split=> [i|v].
      rewrite mem_rcons inE => /orP[/eqP -> //|iL]; case: (eqVneq (fromkeys i) (fromkeys ind)) => [-> //|ne].
      by move=> x sx ax; rewrite g2 //; exact: h1.
    rewrite map_rcons mem_rcons inE negb_or => /andP[ne nv]; by rewrite g2 // h2.
  rewrite /body set_inc // sort_keys; set w := sort leq (fromkeys ind).
  have sw : size w = size (fromkeys ind) by rewrite /w size_sort.
  have wi : sorted ltn w by exact: sort_inc.
  have lw : sorted leq w by apply: sort_sorted; exact: leq_total.
  have ww : sort leq w = w by exact: (sorted_sort leq_trans).
  case: eqP => es.
    have ss : sorted leq ind by rewrite es; apply: sort_sorted; exact: leq_total.
    have ew : fromkeys ind = w by rewrite /w -sort_keys fromkeys_sorted.
    have [||st [p [e1 e2 pE]]] := calc wi; first by rewrite sw k0.
      by apply/allP => x; rewrite mem_sort => /(allP ka).
    rewrite e1 /bind e2; eexists; first by reflexivity.
    rewrite ew; split=> [x sx ax|v /negPf ->] //.
    by rewrite eqxx pE // ww transposed_sorted.
  have jL : sort leq ind \in L by move: indL; rewrite !mem_L size_sort => /andP[-> /=]; rewrite all_sort.
  have jl : lexlt (sort leq ind) ind.
    apply: sorted_lex; [by apply: sort_sorted; exact: leq_total | by rewrite perm_sort | by apply/eqP => e; apply: es].
  have jL1 := lex_before pL eL jL jl.
  have gw : good G w.
    have := h1 _ jL1; rewrite fromkeys_sorted; last by apply: sort_sorted; exact: leq_total.
    suff -> : sort leq (undup (sort leq ind)) = w by [].
    rewrite /w -sort_keys; apply/perm_sortP; [exact: leq_total | exact: leq_trans | exact: anti_leq |].
    by apply: uniq_perm; rewrite ?undup_uniq // => x; rewrite !mem_undup mem_sort.
  eexists; first by reflexivity.
  split=> [x sx ax|v /negPf ->] //; rewrite eqxx /= size_argsort -/(transposed (fromkeys ind) x).
  have [s1 a1] := transposed_range ku sx ax.
  by rewrite gw ?sw // ww transposed_sorted // s1 sw.
have [||r -> [g1 g2]] := step L [::] (fun _ _ => 0) => //.
exists r => //; split=> [v x uv /andP[v0 vn] av sx ax|v x nu].
  pose ind := nseq (n - size v) (head 0%N v) ++ v.
  have ef : fromkeys ind = v by rewrite /ind; case: (v) uv v0 => // a s us _; exact: fromkeys_pad.
  rewrite -[in LHS]ef g1 ?ef //; rewrite mem_L /ind size_cat size_nseq subnK // eqxx /= all_cat av andbT.
  by apply/allP => y /nseqP[-> _]; apply: (allP av); case: (v) v0 => //= a s _; exact: mem_head.
rewrite g2 //; apply/mapP => -[ind _ e]; by rewrite e fromkeys_uniq in nu.
Qed.
End Loop.
End Marg.
