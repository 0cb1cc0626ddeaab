(** C06, C10, C11: the power-trace algorithms return the hafnian / loop hafnian. *)
From mathcomp Require Import all_ssreflect all_fingroup all_algebra all_field zify.
From SsrMultinomials Require Import mpoly.
From Verif Require Import Prelude PyBase ArrLoop SpecHaf ThHaf ThTrace ThMpoly ThSieve ThHess MCharpoly PropCharpoly
  MPowerHaf PropKernels ThComb ThSub ThPower.
Set Implicit Arguments.
Unset Strict Implicit.
Unset Printing Implicit Defensive.
Import GRing.Theory Num.Theory.
Local Open Scope ring_scope.

(** ** Index lists *)
Lemma count_rep_index reps y : count_mem y (rep_index reps) = nth 0%N reps y.
Proof.
rewrite /rep_index count_flatten -map_comp sumnE big_map.
rewrite (eq_bigr (fun i => if i == y then nth 0%N reps i else 0%N)); last first.
  by move=> i _ /=; rewrite count_nseq /=; case: eqP => _; rewrite ?mul1n.
rewrite -big_mkcond /=; case: (ltnP y (size reps)) => h.
  by rewrite -big_filter filter_pred1_uniq ?iota_uniq ?mem_iota // big_seq1.
rewrite nth_default // big1_seq // => i /andP[/eqP->]; rewrite mem_iota; lia.
Qed.
Lemma mem_rep_index reps y : (y \in rep_index reps) = (0 < nth 0%N reps y)%N.
Proof. by rewrite -has_pred1 has_count count_rep_index. Qed.
Lemma rep_index_lt reps y : y \in rep_index reps -> (y < size reps)%N.
Proof. by rewrite mem_rep_index; case: (ltnP y) => // h; rewrite nth_default. Qed.
Lemma size_rep_index reps : size (rep_index reps) = sumn reps.
Proof.
rewrite /rep_index size_flatten /shape -map_comp (eq_map (f2 := nth 0%N reps)); last by move=> i; rewrite /= size_nseq.
by rewrite map_nth_iota0 // take_size.
Qed.
Lemma rep_index_ones n : rep_index (nseq n 1%N) = iota 0 n.
Proof.
rewrite /rep_index size_nseq; have -> : [seq nseq (nth 0%N (nseq n 1%N) i) i | i <- iota 0 n] = [seq [:: i] | i <- iota 0 n].
  by apply/eq_in_map => i; rewrite mem_iota nth_nseq => /andP[_ ->].
by elim: (iota 0 n) => [|i l IH] /=; rewrite ?IH.
Qed.

Section Ext.
Variable R : comRingType.
Lemma eq_lhaf_spec n (A B : nat -> nat -> R) mu nu : (forall i j, (i < n)%N -> (j < n)%N -> A i j = B i j) ->
  (forall i, (i < n)%N -> mu i = nu i) -> lhaf_spec n A mu = lhaf_spec n B nu.
Proof.
move=> hA hm; apply: eq_bigr => s _; congr (_ * _); apply: eq_bigr => i _; [exact: hA|exact: hm].
Qed.
Lemma lhaf_rep_ones n (A : nat -> nat -> R) mu : lhaf_rep_spec (nseq n 1%N) A mu = lhaf_spec n A mu.
Proof.
rewrite /lhaf_rep_spec rep_index_ones size_iota.
by apply: eq_lhaf_spec => [i j hi hj|i hi]; rewrite ?nth_iota.
Qed.
Lemma haf_rep_lhaf r (A : nat -> nat -> R) : haf_rep_spec r A = lhaf_rep_spec r A (fun=> 0).
Proof. by rewrite /haf_rep_spec haf_spec_lhaf. Qed.
Lemma haf_rep_ones n (A : nat -> nat -> R) : haf_rep_spec (nseq n 1%N) A = haf_spec n A.
Proof. by rewrite haf_rep_lhaf lhaf_rep_ones haf_spec_lhaf. Qed.

(** only the entries with indices below [size r] matter *)
Lemma lhaf_rep_spec_ext r (A B : nat -> nat -> R) mu nu :
  (forall i j, (i < size r)%N -> (j < size r)%N -> A i j = B i j) ->
  (forall i, (i < size r)%N -> mu i = nu i) -> lhaf_rep_spec r A mu = lhaf_rep_spec r B nu.
Proof.
move=> hA hm; have lt i : (i < size (rep_index r))%N -> (nth 0%N (rep_index r) i < size r)%N.
  by move=> h; apply: rep_index_lt; apply: mem_nth.
by apply: eq_lhaf_spec => [i j /lt hi /lt hj|i /lt hi]; [exact: hA|exact: hm].
Qed.
Lemma lhaf_rep_lhq_lt r (A : nat -> nat -> R) mu :
  (forall i j, (i < size r)%N -> (j < size r)%N -> A i j = A j i) ->
  lhaf_rep_spec r A mu = lhq A mu (rep_index r).
Proof.
move=> symA; pose A' i j := if (i < size r)%N && (j < size r)%N then A i j else 0.
have e i j : (i < size r)%N -> (j < size r)%N -> A i j = A' i j by move=> hi hj; rewrite /A' hi hj.
rewrite (lhaf_rep_spec_ext e (nu := mu)) // lhaf_rep_spec_lhq; last first.
  by move=> i j; rewrite /A' andbC; case: ifP => // /andP[hj hi]; exact: symA.
by apply: eq_lhq => // i j /rep_index_lt hi /rep_index_lt hj; rewrite -e.
Qed.
End Ext.

Section Main.
Variable K : fieldType.
Hypothesis char0 : [char K] =i pred0.
Notation mat := (nat -> nat -> K).
Notation vec := (nat -> K).
Variable pt : nat -> mat -> nat -> seq K.
Hypothesis pt_ok : forall s M n k, (k < n)%N -> nth 0 (pt s M n) k = \tr (mxpow (mx_of s M) k).
Variables (sched : nat -> seq nat).
Hypothesis sched_ok : forall s, perm_eq (sched s) (iota 0 s).
Variables (reps : seq nat) (A : mat).
Let n := size reps.
Hypothesis symA : forall i j, (i < n)%N -> (j < n)%N -> A i j = A j i.

Section Edges.
Variable D : vec.
Variables (x er : seq nat) (o : option nat) (EA EB : seq nat).
Hypothesis hm : matched_reps reps = Some (x, er, o).
Hypothesis hx : x = EA ++ EB.
Hypothesis sEA : size EA = size er.
Hypothesis sEB : size EB = size er.
Hypothesis hw : forall i, nth 0%N reps i = (ewt er EA EB i + (o == Some i))%N.
Notation m := (size er).
Definition oi : nat := odflt 0%N o.
Definition xv (v : vert m) : nat := if v is Some _ then nth 0%N x (vidx v) else oi.
Let Ax : mat := fun i j => A (nth 0%N x i) (nth 0%N x j).
Let Dx : vec := fun i => D (nth 0%N x i).
Let oV : vec := fun i => A oi (nth 0%N x i).

Lemma xlt i : (i < m + m)%N -> (nth 0%N x i < n)%N.
Proof.
have [/allP h _] := matched_reps_range hm.
by move=> hi; apply: h; apply: mem_nth; rewrite hx size_cat sEA sEB.
Qed.
Lemma olt : isSome o -> (oi < n)%N.
Proof. have [_ h] := matched_reps_range hm; rewrite /oi; case: o h => //= i h _; exact: h. Qed.

Lemma edges_perm : perm_eq [seq xv v | v <- mends (rer er) ++ overt er o] (rep_index reps).
Proof.
apply/allP => y _; apply/eqP; rewrite /= count_map count_cat count_mends count_rep_index hw.
congr (_ + _)%N.
  rewrite /ewt; apply: eq_bigr => e _; rewrite mnmE /= hx !nth_cat sEA addn0 mul1n ltn_ord.
  by rewrite [(e + m < m)%N]ltnNge leq_addl addnK.
by rewrite /overt /xv /oi; case: o => [i|] //=; rewrite addn0.
Qed.
Lemma edges_lhq ol oo : (o -> ol = D oi) -> oo = A oi oi ->
  lhq (@Av K er Ax oo oV) (@Dv K er Dx ol) (mends (rer er) ++ overt er o) = lhaf_rep_spec reps A D.
Proof.
move=> hol hoo; pose A' i j := if (i < n)%N && (j < n)%N then A i j else 0.
have symA' i j : A' i j = A' j i by rewrite /A' andbC; case: ifP => // /andP[hj hi]; exact: symA.
have e i j : (i < n)%N -> (j < n)%N -> A i j = A' i j by move=> hi hj; rewrite /A' hi hj.
rewrite (lhaf_rep_spec_ext e (nu := D)) // lhaf_rep_spec_lhq // -(lhq_perm _ symA' edges_perm) lhq_map //.
have vin v : v \in mends (rer er) ++ overt er o -> (xv v < n)%N /\ (v = None -> o).
  case: v => [[e' b]|] h; split=> //.
  - by apply: xlt; apply: (vidx_lt char0 (Some (e', b))); apply: leq_trans (ltn_ord e').
  - apply: olt; move: h; rewrite mem_cat; case: (o) => [i|] //=; rewrite orbF => /flattenP[l /mapP[e' _ ->]].
    by elim: (rer er e') => //= k IH; rewrite !inE.
  - move=> _; move: h; rewrite mem_cat; case: (o) => [i|] //=; rewrite orbF => /flattenP[l /mapP[e' _ ->]].
    by elim: (rer er e') => //= k IH; rewrite !inE.
apply: eq_lhq => [u v /vin[hu ou] /vin[hv ov]|u /vin [hu ou]].
  rewrite -e //; case: u v ou ov hu hv => [u|] [v|] // _ _ hu hv; exact: symA.
by case: u ou hu => [u|] // ou hu; apply: hol; apply: ou.
Qed.
End Edges.

Lemma haf_main glynn : haf_ pt sched n A (Some reps) glynn = Ok (haf_rep_spec reps A).
Proof.
rewrite /haf_; case: eqP => [N0|N0].
  rewrite haf_rep_lhaf /lhaf_rep_spec size_rep_index N0 lhaf_spec_lhq; congr Ok.
rewrite modn2 eqb1; case: ifP => oN.
  by rewrite /haf_rep_spec haf_spec_lhq lhq_odd // size_iota size_rep_index.
rewrite eqxx /=; have [EA [EB [er [o [hm [sA sB] _ hw hN]]]]] := matched_reps_correct reps.
rewrite hm size_cat sA sB; congr Ok.
have o0 : o = None by case: (o) hN => // i /= hN; rewrite hN in oN; lia.
subst o; have s0 : (0 < sumn er)%N by move: hN; rewrite /=; lia.
rewrite haf_rep_lhaf -(edges_lhq (D := fun=> 0) hm (erefl _) sA sB hw (ol := 0) _ (erefl _)) // cats0.
apply: (calc_hafnianE char0 pt_ok sched_ok) => //.
  by move=> i j hi hj; apply: symA; apply: (xlt hm (erefl _) sA sB).
by case.
Qed.

Lemma loop_main D glynn : loop_hafnian pt sched n A (Some (D, n)) (Some reps) glynn = Ok (lhaf_rep_spec reps A D).
Proof.
rewrite /loop_hafnian; case: eqP => [N0|N0].
  by rewrite /lhaf_rep_spec size_rep_index N0 lhaf_spec_lhq.
case: eqP => [N1|N1].
  congr Ok; rewrite lhaf_rep_lhq_lt //.
  have -> : rep_index reps = [:: index 1%N reps].
    have : size (rep_index reps) = 1%N by rewrite size_rep_index.
    case E : (rep_index reps) => [|i [|j l]] // _; congr [:: _].
    have hi y : nth 0%N reps y = (i == y) by rewrite -count_rep_index E /= addn0.
    have hin : (i < size reps)%N by apply: rep_index_lt; rewrite E inE.
    have h1 : 1%N \in reps by apply/(nthP 0%N); exists i => //; rewrite hi eqxx.
    by have := hi (index 1%N reps); rewrite nth_index //; case: eqP.
  by rewrite lhq_cons lhq_nil big_nil mulr1 addr0.
rewrite !eqxx /=; have [EA [EB [er [o [hm [sA sB] _ hw hN]]]]] := matched_reps_correct reps.
rewrite hm size_cat sA sB; congr Ok.
have s0 : o || (0 < sumn er)%N by move: hN; case: (o) => //=; lia.
rewrite -(edges_lhq hm (erefl _) sA sB hw (ol := D (oi o)) _ (erefl _)) //.
have sy i j : (i < size er + size er)%N -> (j < size er + size er)%N ->
    A (nth 0%N (EA ++ EB) i) (nth 0%N (EA ++ EB) j) = A (nth 0%N (EA ++ EB) j) (nth 0%N (EA ++ EB) i).
  by move=> hi hj; apply: symA; apply: (xlt hm (erefl _) sA sB).
rewrite -(calc_loop_hafnianE char0 pt_ok sched_ok _ _ _ _ sy glynn s0).
by case: (o).
Qed.
End Main.

(** ** The theorems, over an algebraically closed numerical field (the complex numbers) with the model of
    [charpoly.powertrace], for every execution order [sched] of the parallel loop *)
Section Complex.
Variable C : numClosedFieldType.
Let char0 : [char C] =i pred0. Proof. exact: char_num. Qed.
Lemma pt_ok s (M : nat -> nat -> C) n k : (k < n)%N -> nth 0 (powertrace s M n) k = \tr (mxpow (mx_of s M) k).
Proof. by move=> kn; have [h1 h2] := powertrace_correct s M n; apply: h2; apply: leq_trans h1. Qed.

Variable sched : nat -> seq nat.
Hypothesis sched_ok : forall s, perm_eq (sched s) (iota 0 s).
Variables (n : nat) (A : nat -> nat -> C).
Hypothesis symA : forall i j, (i < n)%N -> (j < n)%N -> A i j = A j i.

Theorem haf_rep_correct reps glynn : size reps = n ->
  haf_ (@powertrace C) sched n A (Some reps) glynn = Ok (haf_rep_spec reps A).
Proof. by move=> h; subst n; apply: haf_main => //; exact: pt_ok. Qed.

Theorem haf_correct glynn : haf_ (@powertrace C) sched n A None glynn = Ok (haf_spec n A).
Proof.
by rewrite -haf_rep_ones -(@haf_rep_correct (nseq n 1%N) glynn) ?size_nseq.
Qed.

Theorem loop_hafnian_rep_correct reps D glynn : size reps = n ->
  loop_hafnian (@powertrace C) sched n A (Some (D, n)) (Some reps) glynn = Ok (lhaf_rep_spec reps A D).
Proof. by move=> h; subst n; apply: loop_main => //; exact: pt_ok. Qed.

(** [D] omitted: the diagonal of A is used;  [reps] omitted: every index once. *)
Theorem loop_hafnian_diag_correct reps glynn : size reps = n ->
  loop_hafnian (@powertrace C) sched n A None (Some reps) glynn = Ok (lhaf_rep_spec reps A (fun i => A i i)).
Proof. by move=> h; rewrite -(loop_hafnian_rep_correct _ glynn h). Qed.
Theorem loop_hafnian_correct glynn :
  loop_hafnian (@powertrace C) sched n A None None glynn = Ok (lhaf_spec n A (fun i => A i i)).
Proof. by rewrite -lhaf_rep_ones -(@loop_hafnian_diag_correct (nseq n 1%N) glynn) ?size_nseq. Qed.

(** mismatched lengths are rejected, except where the value does not depend on them *)
Theorem haf_rep_mismatch reps glynn : size reps <> n -> ~~ odd (sumn reps) -> (0 < sumn reps)%N ->
  haf_ (@powertrace C) sched n A (Some reps) glynn = Err AssertionError.
Proof.
move=> h oN N0; rewrite /haf_ modn2 (negPf oN) /=; case: eqP N0 => [->|_ _] //.
by case: eqP h => // ->.
Qed.
Theorem loop_hafnian_mismatch reps D lenD glynn : size reps <> n \/ lenD <> n -> (1 < sumn reps)%N ->
  loop_hafnian (@powertrace C) sched n A (Some (D, lenD)) (Some reps) glynn = Err AssertionError.
Proof.
move=> h N0; rewrite /loop_hafnian; case: eqP N0 => [->|_] //; case: eqP => [->|_ _] //.
case: eqP => //= e; case: eqP => // e'; case: h => h //; by case: h; rewrite e.
Qed.
End Complex.

(** Concrete instances: all-ones matrices (4 points: 3 perfect matchings;
    loop hafnian with multiplicities (2,1) and D = 2: 2^3 + 3*2 = 14). *)
Example haf_ex : haf_ (@powertrace [numClosedFieldType of algC]) (iota 0) 4 (fun _ _ => 1) None true = Ok 3%:R.
Proof.
rewrite haf_correct // haf_spec_lhq /= !(lhq_cons, lhq_nil, big_cons, big_nil) /=; congr Ok.
by rring.
Qed.
Example loop_hafnian_ex : loop_hafnian (@powertrace [numClosedFieldType of algC]) (fun s => rev (iota 0 s)) 2 (fun _ _ => 1)
   (Some (fun=> 2%:R, 2%N)) (Some [:: 2; 1]%N) false = Ok 14%:R.
Proof.
rewrite loop_hafnian_rep_correct // ?lhaf_rep_lhq_lt // => [|s]; last by rewrite perm_rev.
congr Ok; rewrite (_ : rep_index _ = [:: 0; 0; 1]%N) //.
by rewrite !(lhq_cons, lhq_nil, big_cons, big_nil) /=; rring.
Qed.
