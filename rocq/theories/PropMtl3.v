(** C33: symmetries of the sum over cyclic orders; the reference implementation. *)
From mathcomp Require Import all_ssreflect all_fingroup all_algebra zify.
From Verif Require Import Prelude PyBase SpecMtl MMtl.
Set Implicit Arguments.
Unset Strict Implicit.
Unset Printing Implicit Defensive.
Import GRing.Theory.
Local Open Scope ring_scope.

Section Sym.
Variable R : fieldType.
Variable m : nat.
Let n := m.+1.
Lemma nextIE (k : 'I_n) : nextI k = k + inZp 1.
Proof. by apply: val_inj; rewrite /= modnDmr addn1. Qed.
Lemma nextI_add (k j : 'I_n) : nextI (k + j) = nextI k + j.
Proof. by rewrite !nextIE addrAC. Qed.
Lemma nextI_inj : injective (@nextI m).
Proof. by move=> a b; rewrite !nextIE => /addIr. Qed.
Definition rotp (j : 'I_n) : 'S_n := perm (@addIr _ j).
Definition rfp : 'S_n := perm (@oppr_inj [zmodType of 'I_n]).
Variable A : nat -> nat -> R.
Notation cw := (cycle_weight A).
Lemma cw_rot j (s : 'S_n) (b : {ffun 'I_n -> bool}) : cw (rotp j * s)%g [ffun k => b (k + j)] = cw s b.
Proof.
rewrite /cycle_weight [RHS](reindex_inj (@addIr _ j)) /=; apply: eq_bigr => k _.
by rewrite nextI_add !permM !permE !ffunE.
Qed.
Hypothesis sA : forall i j, (i < 2 * n)%N -> (j < 2 * n)%N -> A i j = A j i.
Lemma node_lt2 (i : 'I_n) c : (node n i c < 2 * n)%N.
Proof. by have h := ltn_ord i; rewrite /node; case: c; rewrite ?mul1n ?mul0n; lia. Qed.
Lemma cw_rev (s : 'S_n) (b : {ffun 'I_n -> bool}) : cw (rfp * s)%g [ffun k => ~~ b (- k)] = cw s b.
Proof.
have inj : injective (fun k : 'I_n => - nextI k) by move=> x y /oppr_inj/nextI_inj.
rewrite /cycle_weight (reindex_inj inj) /=; apply: eq_bigr => k _.
have e : nextI (- nextI k) = - k by rewrite !nextIE opprD addrNK.
by rewrite !permM !permE !ffunE e !opprK negbK sA ?node_lt2.
Qed.
(** sums of a function of the cyclic order that does not depend on the starting point and the direction *)
Section Inv.
Variable G : 'S_n -> {ffun 'I_n -> bool} -> R.
Hypothesis G_rot : forall j (s : 'S_n) (b : {ffun 'I_n -> bool}), G (rotp j * s)%g [ffun k => b (k + j)] = G s b.
Hypothesis G_rev : forall (s : 'S_n) (b : {ffun 'I_n -> bool}), G (rfp * s)%g [ffun k => ~~ b (- k)] = G s b.
Definition tot (c : bool) : R := \sum_(s : 'S_n | s ord0 == ord0) \sum_(b : {ffun 'I_n -> bool} | b ord0 == c) G s b.
Lemma tot_rev : tot true = tot false.
Proof.
pose f (b : {ffun 'I_n -> bool}) : {ffun 'I_n -> bool} := [ffun k => ~~ b (- k)].
have fK : involutive f by move=> b; apply/ffunP => k; rewrite !ffunE opprK negbK.
rewrite /tot [LHS](reindex_inj (@mulgI _ rfp)) /=; apply: eq_big => [s|s _].
  by rewrite permM permE oppr0.
rewrite (reindex_inj (inv_inj fK)); apply: eq_big => [b|b _]; last by rewrite G_rev.
by rewrite ffunE oppr0; case: (b ord0).
Qed.
Theorem orders_total : \sum_(s : 'S_n) \sum_(b : {ffun 'I_n -> bool}) G s b = (2 * n)%:R * tot true.
Proof.
have -> : \sum_(s : 'S_n) \sum_(b : {ffun 'I_n -> bool}) G s b =
   \sum_(j < n) \sum_(s : 'S_n | s ord0 == ord0) \sum_(b : {ffun 'I_n -> bool}) G s b.
  rewrite (partition_big (fun s : 'S_n => (s^-1)%g ord0) xpredT) //=; apply: eq_bigr => j _.
  rewrite [RHS](reindex_inj (@mulgI _ (rotp j))) /=; apply: eq_big => [s|s _].
    have z : ord0 + j = j :> 'I_n by exact: (@add0r [zmodType of 'I_n]).
    rewrite permM [rotp j ord0]permE z; apply/eqP/eqP => [<-|<-]; by rewrite ?permKV ?permK.
  pose f (b : {ffun 'I_n -> bool}) : {ffun 'I_n -> bool} := [ffun k => b (k + j)].
  have fi : injective f.
    by move=> b b' /ffunP e; apply/ffunP => k; have := e (k - j); rewrite !ffunE subrK.
  by rewrite [RHS](reindex_inj fi) /=; apply: eq_bigr => b _; rewrite G_rot.
rewrite sumr_const card_ord mulnC natrM -mulrA -[LHS]mulr_natl; congr (_ * _).
have -> : \sum_(s : 'S_n | s ord0 == ord0) \sum_(b : {ffun 'I_n -> bool}) G s b = tot true + tot false.
  rewrite /tot -big_split /=; apply: eq_bigr => s _; rewrite (bigID (fun b : {ffun 'I_n -> bool} => b ord0 == true)) /=.
  by congr (_ + _); apply: eq_bigl => b; case: (b ord0).
by rewrite tot_rev -mulr2n mulr_natl.
Qed.
End Inv.
Theorem mtl_spec_once : (2 * n)%:R != 0 :> R -> mtl_spec m A = tot cw true.
Proof. by move=> h; rewrite /mtl_spec (orders_total cw_rot cw_rev) mulrAC divff // mul1r. Qed.

(** the cycle opened at the edge i, with the weights D at the two open ends *)
Variable D : nat -> R.
Definition cut (s : 'S_n) (b : {ffun 'I_n -> bool}) (i : 'I_n) : R :=
  D (node n (s i) (~~ b i)) * D (node n (s (nextI i)) (b (nextI i))) *
  \prod_(k < n | k != i) A (node n (s k) (~~ b k)) (node n (s (nextI k)) (b (nextI k))).
Definition cuts s b := \sum_(i < n) cut s b i.
Lemma cut_rot j (s : 'S_n) (b : {ffun 'I_n -> bool}) i : cut (rotp j * s)%g [ffun k => b (k + j)] i = cut s b (i + j).
Proof.
rewrite /cut nextI_add !permM !permE !ffunE; congr (_ * _).
rewrite [RHS](reindex_inj (@addIr _ j)) /=; apply: eq_big => [k|k _]; first by rewrite (inj_eq (@addIr _ j)).
by rewrite nextI_add !permM !permE !ffunE.
Qed.
Lemma cuts_rot j (s : 'S_n) (b : {ffun 'I_n -> bool}) : cuts (rotp j * s)%g [ffun k => b (k + j)] = cuts s b.
Proof. by rewrite /cuts [RHS](reindex_inj (@addIr _ j)) /=; apply: eq_bigr => i _; rewrite cut_rot. Qed.
Lemma cuts_rev (s : 'S_n) (b : {ffun 'I_n -> bool}) : cuts (rfp * s)%g [ffun k => ~~ b (- k)] = cuts s b.
Proof.
have inj : injective (fun k : 'I_n => - nextI k) by move=> x y /oppr_inj/nextI_inj.
have e k : nextI (- nextI k) = - k :> 'I_n by rewrite !nextIE opprD addrNK.
rewrite /cuts (reindex_inj inj) /=; apply: eq_bigr => i _; rewrite /cut.
rewrite e !permM !permE !ffunE !opprK negbK [D _ * D _]mulrC; congr (_ * _).
rewrite (reindex_inj inj) /=; apply: eq_big => [k|k _]; first by rewrite (inj_eq inj).
by rewrite e !permM !permE !ffunE !opprK negbK sA ?node_lt2.
Qed.
Lemma cut_any i j : \sum_(s : 'S_n) \sum_(b : {ffun 'I_n -> bool}) cut s b (i + j) = \sum_(s : 'S_n) \sum_(b : {ffun 'I_n -> bool}) cut s b i.
Proof.
rewrite [RHS](reindex_inj (@mulgI _ (rotp j))) /=; apply: eq_bigr => s _.
pose f (b : {ffun 'I_n -> bool}) : {ffun 'I_n -> bool} := [ffun k => b (k + j)].
have fi : injective f.
  by move=> b b' /ffunP e; apply/ffunP => k; have := e (k - j); rewrite !ffunE subrK.
by rewrite [RHS](reindex_inj fi) /=; apply: eq_bigr => b _; rewrite cut_rot.
Qed.
Theorem cuts_once : (2 * n)%:R != 0 :> R -> (\sum_(s : 'S_n) \sum_(b : {ffun 'I_n -> bool}) cut s b ord_max) / 2%:R = tot cuts true.
Proof.
rewrite natrM mulf_eq0 negb_or => /andP[t0 n0].
have := orders_total cuts_rot cuts_rev.
have -> : \sum_(s : 'S_n) \sum_(b : {ffun 'I_n -> bool}) cuts s b = n%:R * \sum_(s : 'S_n) \sum_(b : {ffun 'I_n -> bool}) cut s b ord_max.
  rewrite /cuts; under eq_bigr do rewrite exchange_big /=.
  rewrite exchange_big /= (eq_bigr (fun=> \sum_(s : 'S_n) \sum_(b : {ffun 'I_n -> bool}) cut s b ord_max)).
    by rewrite sumr_const card_ord mulr_natl.
  by move=> i _; rewrite -[i](subrK ord_max) addrC cut_any.
rewrite mulnC natrM -mulrA => /(mulfI n0) ->; by rewrite mulrAC divff // mul1r.
Qed.
End Sym.
