(** C33: the power-trace algorithm of the montrealer is the sum over cyclic orders of the modes. *)
From mathcomp Require Import all_ssreflect all_fingroup all_algebra zify.
From Verif Require Import Prelude PyBase ArrLoop SpecHaf ThPerm ThHess MCharpoly PropCharpoly MHafnian MSymplectic PropConversions MMisc PropMisc MPermanent PropPerm2 SpecTor MTor SpecMtl MMtl.
Set Implicit Arguments.
Unset Strict Implicit.
Unset Printing Implicit Defensive.
Import GRing.Theory Num.Theory.
Local Open Scope ring_scope.

Section Walks.
Variable R : comRingType.
Notation mat := (nat -> nat -> R).
Notation vec := (nat -> R).
Variable M : mat.
(** z seen from a after k steps on the list r *)
Fixpoint V (r : seq nat) k (z : vec) a : R := if k is k'.+1 then \sum_(x <- r) M a x * V r k' z x else z a.
Lemma eq_V r k (z z' : vec) a : z =1 z' -> V r k z a = V r k z' a.
Proof. by move=> e; elim: k a => [|k IH] a /=; rewrite ?e //; apply: eq_bigr => x _; rewrite IH. Qed.
Lemma mxpow_V r k (i j : 'I_(size r)) : mxpow (mx_of (size r) (fun i j => M (nth 0%N r i) (nth 0%N r j))) k.+1 i j = V r k (fun a => M a (nth 0%N r j)) (nth 0%N r i).
Proof.
elim: k i => [|k IH] i; first by rewrite /mxpow /= mulmx1 mxE.
rewrite /mxpow iterS -/(mxpow _ k.+1) mxE [RHS]/= (big_nth 0%N) big_mkord; apply: eq_bigr => x _; by rewrite IH mxE.
Qed.
Lemma trace_V r k : \tr (mxpow (mx_of (size r) (fun i j => M (nth 0%N r i) (nth 0%N r j))) k.+1) = \sum_(a <- r) V r k (fun y => M y a) a.
Proof. by rewrite /mxtrace (big_nth 0%N) big_mkord; apply: eq_bigr => i _; rewrite mxpow_V. Qed.

(** sums over tuples *)
Lemma sum_tuple_cons (T : finType) k (F : seq T -> R) : \sum_(w : k.+1.-tuple T) F w = \sum_(x : T) \sum_(w : k.-tuple T) F (x :: w).
Proof.
rewrite pair_big /= (reindex (fun p : T * k.-tuple T => [tuple of p.1 :: p.2])) /=; first by [].
exists (fun w => (thead w, [tuple of behead w])) => [[x w] _|w _] /=; last by rewrite [w in RHS]tuple_eta; apply: val_inj.
by congr pair; apply: val_inj.
Qed.
Variables (T : finType) (nd : T -> nat) (P : T -> bool) (r : seq nat).
Hypothesis rP : forall f : nat -> R, \sum_(x <- r) f x = \sum_(t : T | P t) f (nd t).
(** weight of the walk x, w_1, ..., w_k with end weight z *)
Fixpoint walk (z : vec) (x : T) (w : seq T) : R := if w is y :: w' then M (nd x) (nd y) * walk z y w' else z (nd x).
Lemma V_walk k z x : V r k z (nd x) = \sum_(w : k.-tuple T) (all P w)%:R * walk z x w.
Proof.
elim: k x => [|k IH] x.
  by rewrite /= (big_pred1 [tuple of [::]]) /= ?mul1r // => w; rewrite [w]tuple0 /= eqxx.
rewrite (sum_tuple_cons k (fun w => (all P w)%:R * walk z x w)) /= rP [LHS]big_mkcond /=; apply: eq_bigr => y _.
case: (P y) => /=; last by rewrite big1 // => w _; rewrite mul0r.
by rewrite IH mulr_sumr; apply: eq_bigr => w _; rewrite mulrCA.
Qed.
Lemma closed_walk k (Z : nat -> vec) : \sum_(a <- r) V r k (Z a) a =
  \sum_(w : k.+1.-tuple T) (all P w)%:R * (if tval w is x :: w' then walk (Z (nd x)) x w' else 0).
Proof.
rewrite (sum_tuple_cons k (fun w => (all P w)%:R * (if w is x :: w' then walk (Z (nd x)) x w' else 0))) /= rP [LHS]big_mkcond /=; apply: eq_bigr => x _.
case: (P x) => /=; last by rewrite big1 // => w _; rewrite mul0r.
by rewrite V_walk.
Qed.
Lemma walkE z x w : walk z x w = z (nd (last x w)) * \prod_(k < size w) M (nd (nth x (x :: w) k)) (nd (nth x w k)).
Proof.
elim: w x => [|y w IH] x /=; first by rewrite big_ord0 mulr1.
rewrite IH mulrCA big_ord_recl /=; congr (_ * (_ * _)); apply: eq_bigr => k _.
have h := ltn_ord k; rewrite /bump /=; congr (M (nd _) (nd _)); apply: set_nth_default => /=; lia.
Qed.
End Walks.

Section IncExc.
Variable R : comRingType.
Variable n : nat.
Let T := ('I_n * bool)%type.
Definition inS (S : {set 'I_n}) (t : T) : bool := t.1 \in S.
Definition mkw (f : 'I_n -> 'I_n) (b : {ffun 'I_n -> bool}) : n.-tuple T := [tuple (f k, b k) | k < n].
Lemma all_mkw (P : pred T) f b : all P (mkw f b) = [forall k, P (f k, b k)].
Proof.
apply/all_tnthP/forallP => h k; have := h k; by rewrite tnth_mktuple.
Qed.
Lemma sum_mkw (G : n.-tuple T -> R) : \sum_(w : n.-tuple T) G w = \sum_(f : {ffun 'I_n -> 'I_n}) \sum_(b : {ffun 'I_n -> bool}) G (mkw f b).
Proof.
rewrite pair_big /= (reindex (fun p : {ffun 'I_n -> 'I_n} * {ffun 'I_n -> bool} => mkw p.1 p.2)) //=.
exists (fun w : n.-tuple T => ([ffun k => (tnth w k).1], [ffun k => (tnth w k).2])) => [[f b] _|w _] /=.
  by congr pair; apply/ffunP => k; rewrite ffunE tnth_mktuple.
by apply: eq_from_tnth => k; rewrite tnth_mktuple !ffunE -surjective_pairing.
Qed.
Lemma moebius (f : {ffun 'I_n -> 'I_n}) (b : {ffun 'I_n -> bool}) :
  \sum_(S : {set 'I_n}) (-1) ^+ (n - #|S|) * (all (inS S) (mkw f b))%:R = (injectiveb f)%:R :> R.
Proof.
case: (boolP (injectiveb f)) => [fi|/injN_missed[r hr]].
  rewrite (bigD1 setT) //= [X in _ + X]big1 ?addr0 => [|S ST].
    rewrite cardsT card_ord subnn mul1r (_ : all _ _ = true) //; apply/allP => x _; by rewrite /inS inE.
  rewrite (_ : all _ _ = false) ?mulr0 //; apply: contraNF ST; rewrite all_mkw => /forallP h; apply/eqP/setP => x; rewrite inE.
  have fb : bijective f by apply: injF_bij; apply/injectiveP.
  by case: fb => g _ gk; have := h (g x); rewrite /inS /= gk.
rewrite (toggle_sum (r := r)) // => S rS; rewrite !all_mkw.
have -> : [forall k, inS (r |: S) (f k, b k)] = [forall k, inS S (f k, b k)].
  by apply: eq_forallb => k; rewrite /inS /= in_setU1 (negbTE (hr k)).
have lt : (#|S| < n)%N by rewrite -[X in (_ < X)%N]card_ord -cardsT; apply: proper_card; apply/properP; split; [exact: subsetT|exists r; rewrite ?inE].
rewrite cardsU1 rS /=; have -> : (n - #|S|)%N = (n - (1 + #|S|)).+1 by lia.
by rewrite exprS mulN1r mulNr opprK.
Qed.
Lemma incl_excl (F : n.-tuple T -> R) :
  \sum_(S : {set 'I_n}) (-1) ^+ (n - #|S|) * (\sum_(w : n.-tuple T) (all (inS S) w)%:R * F w) =
  \sum_(s : 'S_n) \sum_(b : {ffun 'I_n -> bool}) F (mkw s b).
Proof.
under eq_bigr do rewrite mulr_sumr.
rewrite exchange_big /=.
under eq_bigr do (under eq_bigr do rewrite mulrA; rewrite -mulr_suml).
rewrite sum_mkw.
rewrite (eq_bigr (fun f : {ffun 'I_n -> 'I_n} => if injectiveb f then \sum_(b : {ffun 'I_n -> bool}) F (mkw f b) else 0)); last first.
  move=> f _; transitivity (\sum_(b : {ffun 'I_n -> bool}) (injectiveb f)%:R * F (mkw f b)).
    by apply: eq_bigr => b _; congr (_ * _); exact: moebius.
  by rewrite -mulr_sumr; case: (injectiveb f); rewrite ?mul1r ?mul0r.
rewrite -big_mkcond /= (@sum_inj_perm R n (fun f => \sum_(b : {ffun 'I_n -> bool}) F (mkw f b))) // => f g e.
by apply: eq_bigr => b _; congr F; apply: eq_from_tnth => k; rewrite !tnth_mktuple e.
Qed.
End IncExc.
