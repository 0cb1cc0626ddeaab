(** Reasoning about random programs. *)
From mathcomp Require Import all_ssreflect all_algebra.
From Verif Require Import PyBase PyRand.
Set Implicit Arguments.
Unset Strict Implicit.
Unset Printing Implicit Defensive.
Import GRing.Theory Num.Theory.
Local Open Scope ring_scope.

Section Prog.
Variable K : numDomainType.
Local Notation prog := (prog K).
Fixpoint ex T (p : prog T) (g : T -> K) : K :=
  match p with
  | Ret x => g x
  | Raise _ => 0
  | Pick ps k => \sum_(i <- iota 0 (size ps)) nth 0 ps i * ex (k i) g
  end.
Lemma lawE (T : eqType) (p : prog T) y : law p y = ex p (fun x => (x == y)%:R).
Proof. by elim: p => //= ps k IH; apply: eq_bigr => i _; rewrite IH. Qed.
Lemma eq_ex T (p : prog T) g g' : g =1 g' -> ex p g = ex p g'.
Proof. by move=> h; elim: p => //= ps k IH; apply: eq_bigr => i _; rewrite IH. Qed.
Lemma ex_bind T U (p : prog T) (f : T -> prog U) g : ex (pbind p f) g = ex p (fun x => ex (f x) g).
Proof. by elim: p => //= ps k IH; apply: eq_bigr => i _; rewrite IH. Qed.
Lemma ex0 T (p : prog T) g : (forall x, g x = 0) -> ex p g = 0.
Proof. by move=> h; elim: p => //= ps k IH; rewrite big1 // => i _; rewrite IH mulr0. Qed.
Lemma exZ T (p : prog T) a g : ex p (fun x => a * g x) = a * ex p g.
Proof. by elim: p => /= [//|_|ps k IH]; rewrite ?mulr0 // mulr_sumr; apply: eq_bigr => i _; rewrite IH mulrCA. Qed.
Lemma law_bind_ret (T U : eqType) (p : prog T) (f : T -> U) y : law (pbind p (fun x => Ret (f x))) y = ex p (fun x => (f x == y)%:R).
Proof. by rewrite lawE ex_bind. Qed.
Lemma ex_choice n (ps : seq K) g : ex (np_choice n ps) g =
  if (size ps == n) && all (fun x => 0 <= x) ps && (\sum_(x <- ps) x == 1) then \sum_(i <- iota 0 n) nth 0 ps i * g i else 0.
Proof. by rewrite /np_choice; case: ifP => // /andP[/andP[/eqP <-]]. Qed.

Lemma outcome_retE T (x : T) r : outcome (Ret x : prog T) r <-> r = Ok x.
Proof. by split=> [h|->]; [inversion h|constructor]. Qed.
Lemma outcome_raiseE T e r : outcome (Raise e : prog T) r <-> r = Err e.
Proof. by split=> [h|->]; [inversion h|constructor]. Qed.
Lemma outcome_pickE T ps (k : nat -> prog T) r : outcome (Pick ps k) r <-> exists i, [/\ (i < size ps)%N, nth 0 ps i != 0 & outcome (k i) r].
Proof.
split=> [h|[i [h1 h2 h3]]]; last exact: OutPick h1 h2 h3.
by inversion h; exists i.
Qed.
Lemma outcome_bindE T U (p : prog T) (f : T -> prog U) r :
  outcome (pbind p f) r <-> (exists x, outcome p (Ok x) /\ outcome (f x) r) \/ (exists e, outcome p (Err e) /\ r = Err e).
Proof.
elim: p => [x|e|ps k IH] /=.
- split=> [h|[[x' []]|[e []]]]; first by left; exists x; split=> //; constructor.
    by rewrite outcome_retE => -[->].
  by rewrite outcome_retE.
- rewrite outcome_raiseE; split=> [->|[[x []]|[e' []]]]; first by right; exists e; split=> //; constructor.
    by rewrite outcome_raiseE.
  by rewrite outcome_raiseE => -[->] ->.
rewrite outcome_pickE; split=> [[i [h1 h2 /IH[[x [hx h]]|[e [he ->]]]]]|[[x []]|[e []]]].
- by left; exists x; split=> //; apply: OutPick h1 h2 hx.
- by right; exists e; split=> //; apply: OutPick h1 h2 he.
- by rewrite outcome_pickE => -[i [h1 h2 hx]] h; exists i; split=> //; apply: (proj2 (IH i)); left; exists x.
by rewrite outcome_pickE => -[i [h1 h2 he]] re; exists i; split=> //; apply: (proj2 (IH i)); right; exists e.
Qed.
Lemma outcome_bindOk T U (p : prog T) (f : T -> prog U) y :
  outcome (pbind p f) (Ok y) <-> exists x, outcome p (Ok x) /\ outcome (f x) (Ok y).
Proof. by rewrite outcome_bindE; split=> [[//|[e [_]]]|h]; [|left]. Qed.
Lemma outcome_of_res T (r r' : res T) : outcome (of_res K r) r' <-> r' = r.
Proof. by case: r => [x|e] /=; rewrite ?outcome_retE ?outcome_raiseE. Qed.
Lemma outcome_choice n (ps : seq K) i : outcome (np_choice n ps) (Ok i) -> (i < n)%N /\ nth 0 ps i != 0.
Proof.
rewrite /np_choice; case: ifP => [/andP[/andP[/eqP <- _] _]|_]; last by rewrite outcome_raiseE.
by rewrite outcome_pickE => -[j [h1 h2]]; rewrite outcome_retE => -[->].
Qed.
(** invariant of a loop *)
Lemma outcome_pfold X S (body : S -> X -> prog S) (I : S -> Prop) l s s' :
  I s -> (forall t x t', I t -> outcome (body t x) (Ok t') -> I t') -> outcome (pfold body s l) (Ok s') -> I s'.
Proof.
move=> h0 hS; elim: l s h0 => [|x l IH] s h0 /=; first by rewrite outcome_retE => -[->].
by rewrite outcome_bindOk => -[t [ht]]; apply: IH; apply: hS ht.
Qed.
Lemma outcome_pmap X T (f : X -> prog T) (P : T -> Prop) l ys :
  (forall x y, outcome (f x) (Ok y) -> P y) -> outcome (pmap f l) (Ok ys) -> size ys = size l /\ (forall i y0, (i < size ys)%N -> P (nth y0 ys i)).
Proof.
move=> h; elim: l ys => [|x l IH] ys /=; first by rewrite outcome_retE => -[->].
rewrite outcome_bindOk => -[y [hy]]; rewrite outcome_bindOk => -[zs [/IH[hz1 hz2]]]; rewrite outcome_retE => -[->] /=.
by split=> [|[|i] y0 hi]; rewrite ?hz1 //; [apply: h hy|apply: hz2].
Qed.

(** a value has non-zero probability exactly if it is a possible outcome *)
Fixpoint wf T (p : prog T) : Prop := match p with Pick ps k => all (fun x => 0 <= x) ps /\ forall i, wf (k i) | _ => True end.
Lemma law_ge0 (T : eqType) (p : prog T) x : wf p -> 0 <= law p x.
Proof.
elim: p => [y|e|ps k IH] /=; [by rewrite ler0n|by []|].
case=> /allP h0 hk; rewrite big_seq sumr_ge0 // => i; rewrite mem_iota => hi; apply: mulr_ge0; last exact: IH.
by apply: h0; apply: mem_nth.
Qed.
Theorem outcome_law (T : eqType) (p : prog T) x : wf p -> outcome p (Ok x) <-> law p x != 0.
Proof.
elim: p => [y|e|ps k IH] /=.
- by rewrite outcome_retE pnatr_eq0 eqb0 negbK => _; split=> [[->]|/eqP ->].
- by rewrite outcome_raiseE eqxx.
case=> /allP h0 hk; rewrite outcome_pickE.
have ge0 i : i \in iota 0 (size ps) -> 0 <= nth 0 ps i * law (k i) x.
  by rewrite mem_iota => hi; apply: mulr_ge0; [apply: h0; apply: mem_nth|apply: law_ge0].
rewrite big_seq psumr_eq0 // -has_predC; split=> [[i [h1 h2 h3]]|/hasP[i hi /=]].
  apply/hasP; exists i; rewrite /= ?mem_iota //= h1 /= mulf_neq0 //.
  exact: (proj1 (IH i (hk i))).
rewrite hi /= mulf_eq0 negb_or => /andP[h1 h2]; move: hi; rewrite mem_iota => /andP[_ hi].
by exists i; split=> //; apply: (proj2 (IH i (hk i))).
Qed.
Lemma wf_bind T U (p : prog T) (f : T -> prog U) : wf p -> (forall x, wf (f x)) -> wf (pbind p f).
Proof. by move=> h hf; elim: p h => //= ps k IH [h0 hk]; split=> // i; apply: IH. Qed.
Lemma wf_of_res T (r : res T) : wf (of_res K r). Proof. by case: r. Qed.
Lemma wf_choice n (ps : seq K) : wf (np_choice n ps).
Proof. by rewrite /np_choice; case: ifP => // /andP[/andP[_ h] _]. Qed.
Lemma wf_pfold X S (body : S -> X -> prog S) l s : (forall t x, wf (body t x)) -> wf (pfold body s l).
Proof. by move=> h; elim: l s => //= x l IH s; apply: wf_bind. Qed.
Lemma wf_pmap X T (f : X -> prog T) l : (forall x, wf (f x)) -> wf (pmap f l).
Proof. by move=> h; elim: l => //= x l IH; apply: wf_bind => // y; apply: wf_bind. Qed.
(** independent repetitions *)
Lemma law_pmap X (T : eqType) (f : X -> prog T) l ys :
  law (pmap f l) ys = if size ys == size l then \prod_(a <- zip l ys) law (f a.1) a.2 else 0.
Proof.
elim: l ys => [|x l IH] ys /=; first by case: ys => [|y ys]; rewrite ?eqxx ?big_nil.
rewrite lawE ex_bind (@eq_ex _ _ _ (fun y => (if ys is z :: zs then (y == z)%:R * law (pmap f l) zs else 0))) => [|y]; last first.
  rewrite ex_bind /=; case: ys => [|z zs] /=; first by apply: ex0.
  by rewrite lawE -exZ; apply: eq_ex => zs'; rewrite eqseq_cons -natrM mulnb.
case: ys => [|z zs] /=; first by apply: ex0.
rewrite (@eq_ex _ _ _ (fun y => law (pmap f l) zs * (y == z)%:R)) => [|y]; last by rewrite mulrC.
by rewrite exZ -lawE IH eqSS; case: eqP => _; rewrite ?mul0r // big_cons mulrC.
Qed.
End Prog.
