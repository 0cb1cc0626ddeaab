(** Integer kernels of the hafnian algorithms: C52 (binomials), C12 (matched_reps), C13 (find_kept_edges). *)
From mathcomp Require Import all_ssreflect all_algebra zify.
From Verif Require Import Prelude PyBase ArrLoop ThMpoly MPowerHaf.
Set Implicit Arguments.
Unset Strict Implicit.
Unset Printing Implicit Defensive.

(** ** C52: binomial coefficients *)
Theorem nb_binom_correct n k : nb_binom n k = 'C(n, k).
Proof.
rewrite /nb_binom; case: ltnP => kn; first by rewrite bin_small.
case: ifP => [/orP[/eqP->|/eqP->]|h]; first by rewrite bin0.
  by rewrite binn.
have loop t : t <= n -> for_ (iota 0 t) 1 (fun binom i => (binom * (n - i)) %/ i.+1) = 'C(n, t).
  elim: t => [|t IH] tn; first by rewrite bin0.
  rewrite for_iotaS IH; last by lia.
  by rewrite add0n mulnC -mul_bin_left mulKn.
rewrite loop; last by lia.
by rewrite /minn; case: ifP => // _; rewrite bin_sub.
Qed.

(** every table entry the sieves can read *)
Theorem precompute_binoms_correct m i j : i <= m -> j <= m -> precompute_binoms m i j = 'C(i, j).
Proof.
move=> im jm; rewrite -nb_binom_correct /precompute_binoms.
have row b i0 t : (forall a c, for_ (iota 0 t) b (fun b j => upd2 b i0 j (nb_binom i0 j)) a c =
    if (a == i0) && (c < t) then nb_binom a c else b a c).
  elim: t => [|t IH] a c; first by rewrite andbF.
  rewrite for_iotaS add0n /upd2 IH; case: eqP => [->|_] //=.
  by case: eqP => [->|h] /=; [rewrite ltnSn|rewrite ltnS [c <= t]leq_eqVlt (introF eqP h)].
have all t : for_ (iota 0 t) (fun _ _ => 0) (fun b i =>
    for_ (iota 0 m.+1) b (fun b j => upd2 b i j (nb_binom i j))) i j = if i < t then nb_binom i j else 0.
  elim: t => [|t IH] //; rewrite for_iotaS add0n row ltnS jm andbT IH.
  by rewrite ltnS [i <= t]leq_eqVlt; case: eqP => [->|_] /=.
by rewrite all ltnS im.
Qed.

(** ** C13: find_kept_edges enumerates the box *)
Lemma fke_loop j rs : for_ (rev [seq r.+1 | r <- rs]) (j, [::])
     (fun st base => let: (num, out) := st in (num %/ base, rcons out (num %% base)))
  = (j %/ \prod_(r <- rs) r.+1, rev (find_kept_edges j rs)).
Proof.
rewrite /find_kept_edges revK; set st := for_ _ _ _.
suff: st.1 = j %/ \prod_(r <- rs) r.+1 by case: st => a b /= ->.
rewrite /st {st}; elim: rs => [|r rs IH]; first by rewrite big_nil divn1.
rewrite map_cons rev_cons -cats1 for_cat /= big_cons.
move: IH; case: (for_ _ _ _) => a b /= ->.
by rewrite /for_ /= -divnMA mulnC.
Qed.

Lemma fke_nil j : find_kept_edges j [::] = [::]. Proof. by []. Qed.
Lemma fke_cons j r rs : find_kept_edges j (r :: rs) =
  ((j %/ \prod_(r <- rs) r.+1) %% r.+1) :: find_kept_edges j rs.
Proof.
rewrite {1}/find_kept_edges map_cons rev_cons -cats1 for_cat fke_loop /for_ /=.
by rewrite rev_rcons revK.
Qed.

Lemma prodS_gt0 rs : 0 < \prod_(r <- rs) r.+1.
Proof. by elim: rs => [|r rs IH]; rewrite ?big_nil // big_cons muln_gt0. Qed.

Lemma fke_add j k rs : find_kept_edges (k * \prod_(r <- rs) r.+1 + j) rs = find_kept_edges j rs.
Proof.
elim: rs k => [|r rs IH] k //; rewrite !fke_cons big_cons mulnA IH.
by rewrite divnMDl ?prodS_gt0 // modnMDl.
Qed.

Lemma iotaM h P : iota 0 (h * P) = [seq (k * P + j)%N | k <- iota 0 h, j <- iota 0 P].
Proof.
elim: h => [|h IH] //; rewrite -[in RHS]addn1 iotaD allpairs_cat -IH mulSnr iotaD; congr (_ ++ _).
rewrite /= cats0 add0n.
by rewrite -{1}[h * P]addn0 iotaDl.
Qed.

(** lexicographic prefix of the box: the first digit stays below [h] *)
Lemma fke_prefix h r rs : h <= r.+1 ->
  [seq find_kept_edges j (r :: rs) | j <- iota 0 (h * \prod_(r <- rs) r.+1)]
   = [seq k :: ks | k <- iota 0 h, ks <- box rs].
Proof.
elim: rs h r => [|r' rs IH] h r hr.
  rewrite big_nil muln1 /box /= -[RHS]/[seq k :: ks | k <- iota 0 h, ks <- [:: [::]]].
  rewrite (_ : [seq k :: ks | k <- iota 0 h, ks <- [:: [::]]] = [seq [:: k] | k <- iota 0 h]); last first.
    by elim: (iota 0 h) => //= a l ->.
  apply/eq_in_map => j; rewrite mem_iota add0n => /andP[_ jh].
  by rewrite fke_cons big_nil divn1 modn_small //; lia.
rewrite iotaM map_allpairs box_cons -(IH r'.+1 r') //.
rewrite (_ : (r'.+1 * _)%N = \prod_(r <- r' :: rs) r.+1); last by rewrite big_cons.
rewrite allpairs_mapr; apply/eq_in_allpairs => k j; rewrite !mem_iota !add0n /= => kh jP.
rewrite fke_cons fke_add divnMDl ?prodS_gt0 // divn_small // addn0 modn_small //; lia.
Qed.

(** C13: as the step index runs through 0 .. prod(r_i + 1) - 1, [find_kept_edges] runs through all vectors
    k <= reps, each exactly once (in lexicographic order). *)
Theorem find_kept_edges_enumerates rs :
  [seq find_kept_edges j rs | j <- iota 0 (\prod_(r <- rs) r.+1)] = box rs.
Proof.
case: rs => [|r rs]; first by rewrite big_nil.
by rewrite big_cons fke_prefix.
Qed.
Theorem find_kept_edges_box rs ks :
  reflect (size ks = size rs /\ forall e, nth 0 ks e <= nth 0 rs e)
          (ks \in [seq find_kept_edges j rs | j <- iota 0 (\prod_(r <- rs) r.+1)]).
Proof.
rewrite find_kept_edges_enumerates boxP; apply: (iffP andP) => -[h1 h2].
  split; first exact/eqP.
  move: h2; elim: ks rs {h1} => [|k ks IH] [|r rs] //=.
  by case/andP => kr /IH h [|e] //=.
split; first exact/eqP.
elim: ks rs h1 h2 => [|k ks IH] [|r rs] //= [] h1 h2.
by rewrite (h2 0) /=; apply: IH => // e; apply: (h2 e.+1).
Qed.
Theorem find_kept_edges_uniq rs : uniq [seq find_kept_edges j rs | j <- iota 0 (\prod_(r <- rs) r.+1)].
Proof. by rewrite find_kept_edges_enumerates box_uniq. Qed.
Example find_kept_edges_ex : find_kept_edges 7 [:: 2; 1; 3] = [:: 0; 1; 3] /\ find_kept_edges 23 [:: 2; 1; 3] = [:: 2; 1; 3].
Proof. by vm_compute. Qed.

(** ** C12: matched_reps *)
Definition wt (l : seq (nat * nat)) (i : nat) : nat := \sum_(p <- l) p.1 * (p.2 == i).
(** number of times vertex i is covered by the edges (A_e, B_e) taken er_e times *)
Definition ewt (er A B : seq nat) (i : nat) : nat :=
  \sum_(e < size er) nth 0 er e * ((nth 0 A e == i) + (nth 0 B e == i)).
Definition tot (l : seq (nat * nat)) : nat := \sum_(p <- l) p.1.

Lemma lexge_total : total lexge. Proof. by move=> [a b] [c d]; rewrite /lexge /=; lia. Qed.
Lemma lexge_trans : transitive lexge. Proof. by move=> [a b] [c d] [e f]; rewrite /lexge /=; lia. Qed.
Lemma wt_perm l l' i : perm_eq l l' -> wt l i = wt l' i. Proof. exact: perm_big. Qed.
Lemma tot_perm l l' : perm_eq l l' -> tot l = tot l'. Proof. exact: perm_big. Qed.
Lemma sort_perm l : perm_eq (sort_desc l) l. Proof. by rewrite perm_sort. Qed.

Lemma ewt_rcons er A B r a b i : size A = size er -> size B = size er ->
  ewt (rcons er r) (rcons A a) (rcons B b) i = ewt er A B i + r * ((a == i) + (b == i)).
Proof.
move=> sA sB; rewrite /ewt size_rcons big_ord_recr /=; congr (_ + _).
  by apply: eq_bigr => e _; rewrite !nth_rcons sA sB ltn_ord.
by rewrite !nth_rcons sA sB ltnn eqxx.
Qed.

Definition mr_inv (w : nat -> nat) (T : nat) (st : mrstate) :=
  tot (mr_l st) + 2 * sumn (mr_r st) = T /\
  [/\ size (mr_A st) = size (mr_r st), size (mr_B st) = size (mr_r st), all (fun r => 0 < r) (mr_r st),
      all (fun p => 0 < p.1) (mr_l st) & forall i, wt (mr_l st) i + ewt (mr_r st) (mr_A st) (mr_B st) i = w i].

Lemma mr_step w T st : mr_guard (mr_l st) -> mr_inv w T st ->
  mr_inv w T (mr_body st) /\ tot (mr_l (mr_body st)) < tot (mr_l st).
Proof.
case: st => l A B er /= g [/= hT [sA sB hr hl hw]].
pose l' := sort_desc l; have pl : perm_eq l' l := sort_perm l.
have so : sorted lexge l' by apply: sort_sorted; exact: lexge_total.
have hl' : all (fun p => 0 < p.1) l' by rewrite (perm_all _ pl).
have g' : mr_guard l'.
  move: g; rewrite /mr_guard (perm_size pl) => /orP[->//|/andP[/eqP s1 h]]; rewrite s1 /= in h *.
  rewrite -[l']/(sort_desc l) /sort_desc; case: (l) s1 h => [|p [|q t]] //.
rewrite -(tot_perm pl) in hT *.
have hw' i : wt l' i + ewt er A B i = w i by rewrite (wt_perm i pl).
rewrite /mr_body /= -/l'; move: l' hT so hl' g' hw' {pl} => l' hT so hl' g' hw'.
case: l' hT so hl' g' hw' => [|[r0 x0] t] //= hT so /andP[r0p ht] g' hw'.
have hself : (0 < r0 %/ 2) -> 
  mr_inv w T (MR (if r0 %% 2 == 0 then t else (1, x0) :: t) (rcons A x0) (rcons B x0) (rcons er (r0 %/ 2))) /\
  tot (if r0 %% 2 == 0 then t else (1, x0) :: t) < tot ((r0, x0) :: t).
  move=> h2; split; last by rewrite {2}/tot big_cons; case: ifP => _; rewrite /tot ?big_cons /=; lia.
  split; first by rewrite /= -hT sumn_rcons /tot; case: ifP => h; rewrite ?big_cons /=; lia.
  split => /=; rewrite ?size_rcons ?all_rcons ?sA ?sB /= ?h2 ?hr //; first by case: ifP.
  move=> i; rewrite ewt_rcons // -hw' /wt big_cons /=.
  case: ifP => h; rewrite ?big_cons /=; case: (x0 == i) => /=; lia.
case: t hT so ht g' hw' hself => [|[r1 x1] t] hT so /= ht g' hw' hself; first by apply: hself; rewrite /mr_guard /= in g'; lia.
case/andP: ht => r1p ht; case/andP: so; rewrite /lexge /= => r01 so.
case: ifP => h; first by apply: hself; lia.
split; last by rewrite drop0 {2}/tot !big_cons; case: ifP => _; rewrite /tot ?big_cons /=; lia.
split; first by rewrite /= drop0 -hT sumn_rcons /tot; case: ifP => h'; rewrite ?big_cons /=; lia.
split => /=; rewrite ?size_rcons ?all_rcons ?sA ?sB /= ?r1p ?hr ?drop0 //.
  by case: ifP => // h'; rewrite /= ht andbT; lia.
move=> i; rewrite ewt_rcons // -hw' /wt !big_cons /=.
by case: ifP => h'; rewrite ?big_cons /=; case: (x0 == i); case: (x1 == i) => /=; lia.
Qed.

Lemma mr_loopP w T fuel st : tot (mr_l st) <= fuel -> mr_inv w T st ->
  exists st', [/\ mr_loop fuel st = Some st', mr_inv w T st' & ~~ mr_guard (mr_l st')].
Proof.
elim: fuel st => [|fuel IH] st hf hi /=; case: ifP => g; try by exists st.
  by have [_] := mr_step (negbFE g) hi; lia.
have [hi' ht] := mr_step (negbFE g) hi.
by apply: IH => //; lia.
Qed.

Lemma wt_zip reps i o : wt (zip reps (iota o (size reps))) i = if o <= i then nth 0 reps (i - o) else 0.
Proof.
elim: reps o => [|r reps IH] o; first by rewrite /wt big_nil nth_nil if_same.
rewrite /wt big_cons /= -/(wt _ i) IH.
case: (ltngtP o i) => h /=; last by rewrite h subnn muln1 addn0.
  have -> : (i - o = (i - o.+1).+1)%N by lia.
  by rewrite muln0.
by rewrite muln0.
Qed.

Lemma tot_zip reps o : tot (zip reps (iota o (size reps))) = sumn reps.
Proof.
elim: reps o => [|r reps IH] o; first by rewrite /tot big_nil.
by rewrite /tot big_cons /= -/(tot _) IH.
Qed.

(** C12.  [matched_reps reps] always terminates with a matching: the x list is made of two halves A, B of
    the length of the edge list; every edge is repeated at least once; and every index i is covered exactly
    reps[i] times by the edges and the unpaired index, which exists exactly when sum(reps) is odd. *)
Theorem matched_reps_correct reps : exists A B er o,
  [/\ matched_reps reps = Some (A ++ B, er, o), size A = size er /\ size B = size er, all (fun r => 0 < r) er,
      (forall i, nth 0 reps i = ewt er A B i + (o == Some i)) & sumn reps = 2 * sumn er + o].
Proof.
rewrite /matched_reps; case: eqP => [s0|_].
  exists [::], [::], [::], None; split=> //= i.
  rewrite /ewt big_ord0; 
  by elim: reps i s0 => [|r reps IH] [|i] //= s0; [lia|apply: IH; lia].
set l := [seq p <- _ | _].
have hfil (q : seq (nat * nat)) i : wt [seq p <- q | 0 < p.1] i = wt q i.
  rewrite /wt big_filter [RHS](bigID (fun p => 0 < p.1)) /= [X in _ + X]big1 ?addn0 // => p; lia.
have hft (q : seq (nat * nat)) : tot [seq p <- q | 0 < p.1] = tot q.
  rewrite /tot big_filter [RHS](bigID (fun p => 0 < p.1)) /= [X in _ + X]big1 ?addn0 // => p; lia.
have [||[l' A B er] [-> [/= hT [/= sA sB hr hl hw]] g]] := @mr_loopP (fun i => nth 0 reps i) (sumn reps) (sumn reps) (MR l [::] [::] [::]).
- by rewrite /l hft (tot_perm (sort_perm _)) tot_zip.
- split; first by rewrite /= muln0 addn0 /l hft (tot_perm (sort_perm _)) tot_zip.
  split=> //=; first by apply/allP => p; rewrite mem_filter => /andP[].
  by move=> i; rewrite /ewt big_ord0 addn0 /l hfil (wt_perm _ (sort_perm _)) wt_zip leq0n subn0.
rewrite /= in g; exists A, B, er, (if size l' == 1 then Some (nth (0, 0) l' 0).2 else None).
have [h|[p lE p1]] : l' = [::] \/ exists2 p, l' = [:: p] & p.1 = 1.
  move: g; rewrite /mr_guard; case: (l') hl => [|p [|q t]] //=; first by left.
  by rewrite andbT => p0 h; right; exists p => //; lia.
- split=> // [i|]; first by rewrite -hw h /wt big_nil addnC.
  by rewrite -hT h /tot big_nil /=; lia.
split=> // [i|]; last by rewrite -hT lE /tot big_seq1 p1 /=; lia.
rewrite -hw lE /wt big_seq1 p1 mul1n addnC /=; congr (_ + _); exact/congr1/inj_eq/Some_inj.
Qed.

(** all indices produced are indices of [reps] *)
Theorem matched_reps_range reps x er o : matched_reps reps = Some (x, er, o) ->
  all (fun i => i < size reps) x /\ (forall i, o = Some i -> i < size reps).
Proof.
move=> hm; have [A [B [er' [o' [e [sA sB] hr hw _]]]]] := matched_reps_correct reps.
move: hm; rewrite e => -[ex eer eo]; rewrite -ex -eo => {ex eer eo e}.
have pos i : 0 < ewt er' A B i + (o' == Some i) -> i < size reps.
  by rewrite -hw; case: (ltnP i (size reps)) => // h; rewrite nth_default.
split; last by move=> i eo; apply: pos; rewrite eo eqxx addn1.
apply/allP => i; rewrite mem_cat => hi; apply: pos; rewrite addn_gt0; apply/orP; left.
have [e he hn] : exists2 e, e < size er' & (nth 0 A e == i) || (nth 0 B e == i).
  case/orP: hi => hi; [exists (index i A); rewrite -?sA|exists (index i B); rewrite -?sB];
    by rewrite ?index_mem ?nth_index ?hi ?eqxx ?orbT.
rewrite /ewt (bigD1 (Ordinal he)) //= ltn_addr // muln_gt0 (allP hr) ?mem_nth //=.
by case/orP: hn => ->; rewrite // addn1.
Qed.
Example matched_reps_ex : matched_reps [:: 1; 5; 0; 2] = Some ([:: 1; 3; 3; 1; 1; 0], [:: 2; 1; 1], None)
  /\ matched_reps [:: 1; 0; 2] = Some ([:: 2; 0], [:: 1], Some 2).
Proof. by vm_compute. Qed.
