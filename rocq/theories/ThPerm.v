(** Ryser's and Glynn's formulas for the permanent, and the Gray-code enumeration of subsets. *)
From mathcomp Require Import all_ssreflect all_fingroup all_algebra zify.
From Verif Require Import Prelude SpecHaf ThGray.
Set Implicit Arguments.
Unset Strict Implicit.
Unset Printing Implicit Defensive.
Import GRing.Theory.
Local Open Scope ring_scope.

Section Perm.
Variable R : comRingType.
Variable n : nat.
Variable M : nat -> nat -> R.

Lemma toggle_sum (r : 'I_n) (g : {set 'I_n} -> R) :
  (forall S : {set 'I_n}, r \notin S -> g (r |: S) = - g S) -> \sum_(S : {set 'I_n}) g S = 0.
Proof.
move=> h; rewrite (bigID (fun S : {set 'I_n} => r \in S)) /=.
rewrite (reindex_onto (fun S : {set 'I_n} => r |: S) (fun S => S :\ r)) /=; last by move=> S rS; rewrite setD1K.
rewrite (eq_bigl (fun S : {set 'I_n} => r \notin S)); last first.
  by move=> S; rewrite setU11 /=; apply/eqP/idP => [<-|rS]; rewrite ?setD11 // setU1K.
by rewrite -big_split big1 //= => S rS; rewrite h // addNr.
Qed.

Lemma injN_missed (f : {ffun 'I_n -> 'I_n}) : ~~ injectiveb f -> exists r, forall i, f i != r.
Proof.
move=> nf; case: (boolP [exists r, [forall i, f i != r]]) => [/existsP[r /forallP h]|]; first by exists r.
rewrite negb_exists => /forallP h; case/negP: nf.
have sur r : exists i, f i = r.
  by have := h r; rewrite negb_forall => /existsP[j]; rewrite negbK => /eqP<-; exists j.
have sub : {subset enum 'I_n <= codom f} by move=> r _; have [i <-] := sur r; apply: codom_f.
apply: (leq_size_uniq (enum_uniq 'I_n) sub).
by rewrite size_codom -cardE.
Qed.

Lemma sum_inj_perm (W : ('I_n -> 'I_n) -> R) : (forall f g : 'I_n -> 'I_n, f =1 g -> W f = W g) ->
  \sum_(f : {ffun 'I_n -> 'I_n} | injectiveb f) W f = \sum_(s : 'S_n) W s.
Proof.
move=> eW; rewrite (reindex (fun s : 'S_n => pval s)) /=; last first.
  have s0 : 'S_n := 1%g; exists (insubd s0) => [s _|f fi]; first by apply: val_inj; rewrite val_insubd (valP s).
  by rewrite val_insubd ifT.
by apply: eq_big => [s|s _]; [rewrite (valP s)|apply: eW => i; rewrite pvalE].
Qed.

Lemma perm_spec_tr : \sum_(s : 'S_n) \prod_(i < n) M (s i) i = perm_spec n M.
Proof.
rewrite /perm_spec (reindex_inj invg_inj) /=; apply: eq_bigr => s _.
by rewrite (reindex_inj (@perm_inj _ s)) /=; apply: eq_bigr => i _; rewrite permK.
Qed.

Theorem ryser_formula :
  \sum_(S : {set 'I_n}) (-1) ^+ #|S| * \prod_(i < n) (\sum_(r in S) M r i) = (-1) ^+ n * perm_spec n M.
Proof.
transitivity (\sum_(f : {ffun 'I_n -> 'I_n}) (\prod_(i < n) M (f i) i) * \sum_(S : {set 'I_n}) (if [forall i, f i \in S] then (-1) ^+ #|S| else 0)).
  rewrite (eq_bigr (fun S : {set 'I_n} => \sum_(f : {ffun 'I_n -> 'I_n}) (\prod_(i < n) M (f i) i) * (if [forall i, f i \in S] then (-1) ^+ #|S| else 0))).
    by rewrite exchange_big /=; apply: eq_bigr => f _; rewrite mulr_sumr.
  move=> S _; rewrite bigA_distr_big /= mulr_sumr big_mkcond /=; apply: eq_bigr => f _.
  have -> : (f \in ffun_on (mem S)) = [forall i, f i \in S] by apply/ffun_onP/forallP.
  by case: ifP; rewrite ?mulr0 // mulrC.
rewrite (bigID (fun f : {ffun 'I_n -> 'I_n} => injectiveb f)) /= [X in _ + X]big1 ?addr0; last first.
  move=> f /injN_missed[r hr]; rewrite (toggle_sum (r := r)) ?mulr0 // => S rS.
  have -> : [forall i, f i \in r |: S] = [forall i, f i \in S].
    by apply: eq_forallb => i; rewrite in_setU1 (negPf (hr i)).
  by case: ifP => _; rewrite ?oppr0 // cardsU1 rS exprS mulN1r.
rewrite -perm_spec_tr mulr_sumr -(sum_inj_perm (W := fun f => (-1) ^+ n * \prod_(i < n) M (f i) i)); last first.
  by move=> f g e; congr (_ * _); apply: eq_bigr => i _; rewrite e.
apply: eq_bigr => f /injectiveP fi; rewrite mulrC; congr (_ * _).
rewrite (bigD1 setT) //= big1 ?addr0 => [|S ST]; first by rewrite ifT ?cardsT ?card_ord //; apply/forallP => i; rewrite inE.
rewrite ifF //; apply/negP => /forallP h; case/negP: ST; apply/eqP/setP => j; rewrite inE.
have [g _ fg] := injF_bij fi; by rewrite -(fg j) h.
Qed.

Theorem glynn_formula :
  \sum_(S : {set 'I_n}) (-1) ^+ #|S| * \prod_(i < n) (\sum_(r < n) (-1) ^+ (r \in S) * M r i) = 2%:R ^+ n * perm_spec n M.
Proof.
transitivity (\sum_(f : {ffun 'I_n -> 'I_n}) (\prod_(i < n) M (f i) i) *
    \sum_(S : {set 'I_n}) (-1) ^+ #|S| * \prod_(i < n) (-1) ^+ (f i \in S)).
  rewrite (eq_bigr (fun S : {set 'I_n} => \sum_(f : {ffun 'I_n -> 'I_n}) (\prod_(i < n) M (f i) i) *
     ((-1) ^+ #|S| * \prod_(i < n) (-1) ^+ (f i \in S)))).
    by rewrite exchange_big /=; apply: eq_bigr => f _; rewrite mulr_sumr.
  move=> S _; rewrite bigA_distr_bigA /= mulr_sumr /=; apply: eq_bigr => f _.
  by rewrite big_split /=; rring.
rewrite (bigID (fun f : {ffun 'I_n -> 'I_n} => injectiveb f)) /= [X in _ + X]big1 ?addr0; last first.
  move=> f /injN_missed[r hr]; rewrite (toggle_sum (r := r)) ?mulr0 // => S rS.
  rewrite cardsU1 rS exprS mulN1r mulNr; congr (- (_ * _)).
  by apply: eq_bigr => i _; rewrite in_setU1 (negPf (hr i)).
rewrite -perm_spec_tr mulr_sumr -(sum_inj_perm (W := fun f => 2%:R ^+ n * \prod_(i < n) M (f i) i)); last first.
  by move=> f g e; congr (_ * _); apply: eq_bigr => i _; rewrite e.
apply: eq_bigr => f /injectiveP fi; rewrite mulrC; congr (_ * _).
rewrite (eq_bigr (fun _ => 1)) => [|S _].
  by rewrite sumr_const -cardsT -powersetT card_powerset cardsT card_ord natrX.
rewrite -(@reindex_inj _ _ _ _ f xpredT (fun r => (-1) ^+ (r \in S)) fi) /=.
rewrite (bigID (fun r => r \in S)) /= [X in _ * (_ * X)]big1 => [|r /negPf->]; last by rewrite expr0.
rewrite (eq_bigr (fun=> -1)) => [|r ->]; last by rewrite expr1.
by rewrite mulr1 prodr_const -exprMn mulrNN mulr1 expr1n.
Qed.
End Perm.

Section Gray.
Variables (R : comRingType) (n : nat).
Definition gset k : {set 'I_n} := [set r : 'I_n | bit (gray k) r].

Lemma gset_inj : injective (fun k : 'I_(2 ^ n) => gset k).
Proof.
move=> a b e; apply: val_inj => /=; apply: (@gray_inj n) => // i hi.
by have /setP/(_ (Ordinal hi)) := e; rewrite !inE.
Qed.
Lemma gset_bij : bijective (fun k : 'I_(2 ^ n) => gset k).
Proof.
apply: inj_card_bij gset_inj _.
by rewrite -[X in (X <= _)%N]cardsT -powersetT card_powerset cardsT !card_ord.
Qed.
Lemma gray_sum (h : {set 'I_n} -> R) : \sum_(k < 2 ^ n) h (gset k) = \sum_S h S.
Proof. by rewrite [RHS](reindex (fun k : 'I_(2 ^ n) => gset k)) //; apply: onW_bij gset_bij. Qed.
Lemma gset_sign k : (k < 2 ^ n)%N -> (-1) ^+ #|gset k| = (-1) ^+ k :> R.
Proof.
move=> kn; rewrite -signr_odd -[RHS]signr_odd; congr (_ ^+ nat_of_bool _).
rewrite -(gray_parity kn) -sum1_card big_mkcond /=; congr odd; apply: eq_bigr => i _.
by rewrite inE; case: (bit _ _).
Qed.
End Gray.

(** Glynn's formula in the form used by the code: the last row keeps its sign *)
Lemma glynn_half (R : comRingType) n (M : nat -> nat -> R) :
  (\sum_(S : {set 'I_n.+1} | ord_max \notin S) (-1) ^+ #|S| * \prod_(i < n.+1) (\sum_(r < n.+1) (-1) ^+ (r \in S) * M r i)) *+ 2
  = 2%:R ^+ n.+1 * perm_spec n.+1 M.
Proof.
rewrite -glynn_formula [RHS](bigID (fun S : {set 'I_n.+1} => ord_max \notin S)) /= mulr2n; congr (_ + _).
rewrite (reindex_onto (fun S : {set 'I_n.+1} => ~: S) (fun S => ~: S)) /=; last by move=> S _; rewrite setCK.
apply: eq_big => [S|S _]; first by rewrite setCK eqxx andbT inE negbK.
have h i : \sum_(r < n.+1) (-1) ^+ (r \in ~: S) * M r i = - (\sum_(r < n.+1) (-1) ^+ (r \in S) * M r i).
  by rewrite -sumrN; apply: eq_bigr => r _; rewrite in_setC; case: (r \in S); rewrite /= ?expr0 ?expr1; rring.
rewrite (eq_bigr (fun i : 'I_n.+1 => - (\sum_(r < n.+1) (-1) ^+ (r \in S) * M r i))) => [|i _]; last exact: h.
rewrite prodrN card_ord mulrA -exprD cardsCs setCK.
congr (_ * _); rewrite card_ord -signr_odd -[RHS]signr_odd; congr (_ ^+ nat_of_bool _).
have := max_card (mem S); rewrite card_ord => hS; rewrite oddD oddB //; by case: (odd _); case: (odd #|S|).
Qed.
