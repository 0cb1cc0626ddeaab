(** C31: the recursive and the direct torontonian equal the sum over subsets. *)
From mathcomp Require Import all_ssreflect all_algebra zify fingroup perm.
From Verif Require Import Prelude PyBase ArrLoop MPowerHaf MHafnian MSymplectic SpecTor MTor PropTor PropKernels MPermanent PropPerm2.
Set Implicit Arguments.
Unset Strict Implicit.
Unset Printing Implicit Defensive.
Import Order.Theory GRing.Theory Num.Theory.
Local Open Scope ring_scope.

(** ** Sums over subsets as sums over masks *)
Fixpoint masks (d : nat) : seq (seq bool) :=
  if d is d'.+1 then [seq false :: m | m <- masks d'] ++ [seq true :: m | m <- masks d'] else [:: [::]].
Lemma mem_masks d m : (m \in masks d) = (size m == d).
Proof.
elim: d m => [|d IH] [|b m] //=; rewrite mem_cat.
  by apply/negbTE/negP => /orP[] /mapP[].
apply/orP/eqP => [[]/mapP[m' hm' [_ ->]]|[e]]; try by move: hm'; rewrite IH => /eqP ->.
have hm : m \in masks d by rewrite IH e.
by case: b; [right|left]; apply: map_f.
Qed.
Lemma masks_uniq d : uniq (masks d).
Proof.
elim: d => [|d IH] //=; rewrite cat_uniq !map_inj_uniq ?IH //=; try by move=> a b [].
by rewrite andbT; apply/hasPn => m /mapP[m' _ ->]; apply/negP => /mapP[].
Qed.
Definition set_mask n (Z : {set 'I_n}) : seq bool := [seq i \in Z | i <- enum 'I_n].
Lemma set_mask_inj n : injective (@set_mask n).
Proof.
move=> A B e; apply/setP => i.
have := congr1 (fun s => nth false s i) e; rewrite /set_mask /=.
have hi : (i < size (enum 'I_n))%N by rewrite size_enum_ord.
by rewrite !(nth_map i false _ hi) nth_ord_enum.
Qed.
Lemma set_modes_mask n (Z : {set 'I_n}) : set_modes Z = mask (set_mask Z) (iota 0 n).
Proof.
rewrite /set_modes /set_mask -[iota 0 n]val_enum_ord -map_mask -filter_mask; congr map.
by rewrite enumT.
Qed.
Lemma size_set_mask n (Z : {set 'I_n}) : size (set_mask Z) = n. Proof. by rewrite size_map size_enum_ord. Qed.
Lemma size_set_modes n (Z : {set 'I_n}) : size (set_modes Z) = #|Z|. Proof. by rewrite size_map cardE. Qed.
Lemma count_set_mask n (Z : {set 'I_n}) : count id (set_mask Z) = #|Z|.
Proof. by rewrite -size_set_modes set_modes_mask size_mask // size_set_mask size_iota. Qed.
Lemma sum_masks (R : zmodType) n (F : nat -> seq nat -> R) :
  \sum_(Z : {set 'I_n}) F #|Z| (set_modes Z) = \sum_(m <- masks n) F (count id m) (mask m (iota 0 n)).
Proof.
transitivity (\sum_(m <- [seq set_mask Z | Z <- enum {set 'I_n}]) F (count id m) (mask m (iota 0 n))).
  by rewrite big_map big_enum; apply: eq_bigr => Z _; rewrite count_set_mask set_modes_mask.
apply: perm_big; apply: uniq_perm; rewrite ?masks_uniq ?(map_inj_uniq (@set_mask_inj n)) ?enum_uniq // => m.
rewrite mem_masks; apply/mapP/eqP => [[Z _ ->]|sm]; first by rewrite size_set_mask.
exists [set i : 'I_n | nth false m i]; first by rewrite mem_enum.
apply: (@eq_from_nth _ false); rewrite ?size_set_mask // sm => i hi.
by rewrite (nth_map (Ordinal hi)) ?size_enum_ord // inE nth_enum_ord.
Qed.

(** ** The recursion over subsets *)
Section Rec.
Variable R : comRingType.
Variables (n : nat) (h : seq nat -> R).
(** the value of the recursive function on the kept modes P ++ [s, n), r modes removed so far *)
Fixpoint Trec (fuel : nat) (P : seq nat) (s r : nat) : R :=
  if fuel is fuel'.+1 then
    \sum_(i <- pyrange s n) ((-1) ^+ r.+1 * h (P ++ iota s (i - s) ++ pyrange i.+1 n) + Trec fuel' (P ++ iota s (i - s)) i.+1 r.+1)
  else 0.
Lemma TrecS f P s r : Trec f.+1 P s r =
    \sum_(i <- pyrange s n) ((-1) ^+ r.+1 * h (P ++ iota s (i - s) ++ pyrange i.+1 n) + Trec f (P ++ iota s (i - s)) i.+1 r.+1).
Proof. by []. Qed.
Lemma Trec_fuel f1 f2 P s r : (n - s < f1)%N -> (n - s < f2)%N -> Trec f1 P s r = Trec f2 P s r.
Proof.
elim: f1 f2 P s r => [|f1 IH] [|f2] P s r //= h1 h2; rewrite big_seq [RHS]big_seq; apply: eq_bigr => i.
rewrite mem_pyrange => /andP[si iN]; congr (_ + _); apply: IH; lia.
Qed.
Definition V P s r := (-1) ^+ r * h (P ++ pyrange s n) + Trec n.+1 P s r.
Lemma V_step P s r : (s < n)%N -> V P s r = V P s.+1 r.+1 + V (rcons P s) s.+1 r.
Proof.
move=> sn; rewrite /V.
have e1 : Trec n.+1 P s r = (-1) ^+ r.+1 * h (P ++ pyrange s.+1 n) + Trec n.+1 P s.+1 r.+1 + Trec n.+1 (rcons P s) s.+1 r.
  rewrite TrecS {1}/pyrange.
  have -> : (n - s)%N = (n - s.+1).+1 by lia.
  rewrite -/(s :: iota s.+1 (n - s.+1)) big_cons subnn; congr (_ + _); last first.
    rewrite TrecS /pyrange big_seq [RHS]big_seq; apply: eq_bigr => i; rewrite mem_iota => /andP[i1 i2].
    have -> : iota s (i - s) = s :: iota s.+1 (i - s.+1).
      have -> : (i - s)%N = (i - s.+1).+1 by lia.
      by [].
    by rewrite -cats1 -!catA.
  by congr (_ + _); rewrite cats0; apply: Trec_fuel; lia.
have -> : P ++ pyrange s n = rcons P s ++ pyrange s.+1 n.
  by rewrite /pyrange cat_rcons; have -> : (n - s)%N = (n - s.+1).+1 by [lia].
by rewrite e1 addrC -!addrA; congr (_ + (_ + _)); rewrite addrC.
Qed.
Lemma V_masks d P s r : (n - s = d)%N -> (s <= n)%N ->
  V P s r = \sum_(m <- masks d) (-1) ^+ (r + d - count id m) * h (P ++ mask m (pyrange s n)).
Proof.
elim: d P s r => [|d IH] P s r hd sn.
  rewrite big_seq1 /= addn0 subn0 /V /pyrange hd cats0 /= /pyrange hd big_nil addr0 //.
rewrite V_step; last by lia.
rewrite !IH; try lia.
rewrite [masks _]/= big_cat /= !big_map; congr (_ + _).
  rewrite big_seq [RHS]big_seq; apply: eq_bigr => m _; rewrite /pyrange; have -> : (n - s)%N = (n - s.+1).+1 by lia.
  by rewrite /= add0n addSnnS.
rewrite big_seq [RHS]big_seq; apply: eq_bigr => m; rewrite mem_masks => /eqP sm.
rewrite /pyrange; have -> : (n - s)%N = (n - s.+1).+1 by lia.
by rewrite /= cat_rcons add1n addnS subSS.
Qed.
Theorem Trec_subsets : h (iota 0 n) + Trec n.+1 [::] 0 0 = \sum_(Z : {set 'I_n}) (-1) ^+ (n - #|Z|) * h (set_modes Z).
Proof.
rewrite (sum_masks n (fun c l => (-1) ^+ (n - c) * h l)).
have := @V_masks n [::] 0%N 0%N (subn0 n) isT; rewrite /V expr0 mul1r /= /pyrange subn0 => ->.
by apply: eq_bigr => m _; rewrite add0n.
Qed.
End Rec.

(** ** Determinants and quadratic forms do not depend on the order of the rows *)
Section Perm.
Variable C : numClosedFieldType.
Notation mat := (nat -> nat -> C).
Notation vec := (nat -> C).
Lemma submxE (M : mat) r : submx M r = mxof (size r) (size r) (ix M r).
Proof. by []. Qed.
Lemma perm_nth n (r r' : seq nat) : size r = n -> size r' = n -> perm_eq r r' -> exists p : {perm 'I_n}, forall i : 'I_n, nth 0%N r i = nth 0%N r' (p i).
Proof.
move=> s1 s2 p; have e2 : size r' == n by rewrite s2.
have /tuple_permP[q e] : perm_eq r (Tuple e2) by [].
exists q => i; rewrite e (nth_map i) ?size_tuple // (tnth_nth 0%N) /=; congr (nth _ _ (val (q _))).
by rewrite -[X in nth i X i]/(val (ord_tuple n)) nth_ord_enum.
Qed.
Lemma ix_perm (M : mat) n (r r' : seq nat) (p : {perm 'I_n}) : (forall i : 'I_n, nth 0%N r i = nth 0%N r' (p i)) ->
  mxof n n (ix M r) = perm_mx p *m mxof n n (ix M r') *m perm_mx p^-1.
Proof. by move=> e; rewrite -row_permE -col_permE; apply/matrixP => i j; rewrite !mxE /ix !e. Qed.
Lemma perm_mxK n (p : {perm 'I_n}) : perm_mx p^-1 *m perm_mx p = 1%:M :> 'M[C]_n.
Proof. by rewrite -perm_mxM mulVg perm_mx1. Qed.
Lemma perm_mxKV n (p : {perm 'I_n}) : perm_mx p *m perm_mx p^-1 = 1%:M :> 'M[C]_n.
Proof. by rewrite -perm_mxM mulgV perm_mx1. Qed.
Theorem det_ix_perm (M : mat) n (r r' : seq nat) : size r = n -> size r' = n -> perm_eq r r' -> \det (mxof n n (ix M r)) = \det (mxof n n (ix M r')).
Proof.
move=> s1 s2 p; have [q e] := perm_nth s1 s2 p.
by rewrite (ix_perm M e) !det_mulmx mulrC mulrA -det_mulmx perm_mxK det1 mul1r.
Qed.
(** gamma^T M^-1 gamma^* on a list of rows *)
Definition quad (M : mat) (g : vec) n (r : seq nat) : C :=
  ((\col_(i < n) g (nth 0%N r i))^T *m invmx (mxof n n (ix M r)) *m (\col_(i < n) (g (nth 0%N r i))^*)) 0 0.
Theorem quad_perm (M : mat) (g : vec) n (r r' : seq nat) : size r = n -> size r' = n -> perm_eq r r' ->
  mxof n n (ix M r') \in unitmx -> quad M g n r = quad M g n r'.
Proof.
move=> s1 s2 p u; have [q e] := perm_nth s1 s2 p; rewrite /quad.
have cE (f : C -> C) : \col_(i < n) f (g (nth 0%N r i)) = perm_mx q *m \col_(i < n) f (g (nth 0%N r' i)).
  by rewrite -row_permE; apply/matrixP => i j; rewrite !mxE e.
rewrite (cE id) (cE conjC) (ix_perm M e).
have iE : invmx (perm_mx q *m mxof n n (ix M r') *m perm_mx q^-1) = perm_mx q *m invmx (mxof n n (ix M r')) *m perm_mx q^-1.
  have u' : perm_mx q *m mxof n n (ix M r') *m perm_mx q^-1 \in unitmx by rewrite !unitmx_mul u !unitmx_perm.
  apply: (can_inj (mulKmx u')); rewrite mulmxV // !mulmxA -[_ *m perm_mx q^-1 *m perm_mx q]mulmxA perm_mxK mulmx1.
  by rewrite -[perm_mx q *m _ *m _]mulmxA mulmxV // mulmx1 perm_mxKV.
rewrite iE trmx_mul tr_perm_mx !mulmxA -[_ *m perm_mx q^-1 *m perm_mx q]mulmxA perm_mxK mulmx1.
by rewrite -[_ *m perm_mx q^-1 *m perm_mx q]mulmxA perm_mxK mulmx1.
Qed.
End Perm.
