(** C31, C32: the recursive torontonian and loop torontonian equal the sums over subsets of modes. *)
From mathcomp Require Import all_ssreflect all_algebra zify fingroup perm.
From Verif Require Import Prelude PyBase ArrLoop MPowerHaf MHafnian MSymplectic SpecTor MTor PropTor PropTor2 PropTor3 PropMeans4.
Set Implicit Arguments.
Unset Strict Implicit.
Unset Printing Implicit Defensive.
Import Order.Theory GRing.Theory Num.Theory.
Local Open Scope ring_scope.

Section Unfold.
Variable C : numClosedFieldType.
Lemma recursiveTorS fuel (L : nat -> nat -> C) modes m A n : recursiveTor fuel.+1 L modes m A n =
    foldM (fun tot i =>
      let idx := ((i - size modes) * 2)%N in let Z := iota 0 idx ++ pyrange (idx + 2) (m %/ 2 * 2) in
      let Ls := quad_cholesky L Z idx (fun a b => eye C a b - ix A Z a b) in
      bind (recursiveTor fuel Ls (rcons modes i) (size Z) (ix A Z) n) (fun r =>
      Ok (tot + ((-1) ^+ size (rcons modes i) / sqrtC (diag_det (size Z) Ls) + r)))) 0
      (pyrange (if size modes == 0%N then 0%N else (last 0%N modes).+1) n).
Proof. by []. Qed.
Lemma recursiveLTorS exp fuel (L : nat -> nat -> C) modes m A n g : recursiveLTor exp fuel.+1 L modes m A n g =
    foldM (fun tot i =>
      let idx := ((i - size modes) * 2)%N in let Z := iota 0 idx ++ pyrange (idx + 2) (m %/ 2 * 2) in
      let Ls := quad_cholesky L Z idx (fun a b => eye C a b - ix A Z a b) in
      let gX := fun i => g (nth 0%N Z i) in
      bind (recursiveLTor exp fuel Ls (rcons modes i) (size Z) (ix A Z) n gX) (fun r =>
      Ok (tot + ((-1) ^+ size (rcons modes i) * exp (2%:R^-1 * norm2 (size Z) (solve_triangular (size Z) Ls (fun i => (gX i)^*)))
         / sqrtC (diag_det (size Z) Ls) + r)))) 0
      (pyrange (if size modes == 0%N then 0%N else (last 0%N modes).+1) n).
Proof. by []. Qed.
End Unfold.
Lemma Z_inter n l1 x l2 : let idx := (2 * size l1)%N in
  [seq nth 0%N (inter n (l1 ++ x :: l2)) z | z <- iota 0 idx ++ pyrange (idx + 2) (2 * size (l1 ++ x :: l2))] = inter n (l1 ++ l2).
Proof.
move=> idx; have si : size (inter n l1) = idx by rewrite size_inter.
rewrite map_cat !inter_cat inter_cons; congr (_ ++ _).
  rewrite map_nth_iota0; last by rewrite size_cat si leq_addr.
  by rewrite take_size_cat.
rewrite /pyrange map_nth_iota.
  rewrite drop_cat si; have -> : (idx + 2 < idx)%N = false by lia.
  have -> : (idx + 2 - idx)%N = 2%N by lia.
  have -> : drop 2 [:: x, (n + x)%N & inter n l2] = inter n l2 by rewrite /= drop0.
  by rewrite take_oversize // size_inter size_cat /= /idx; lia.
by rewrite !size_cat /= si size_inter; lia.
Qed.

Section Rec.
Variable C : numClosedFieldType.
Notation mat := (nat -> nat -> C).
Notation vec := (nat -> C).
Variables (n : nat) (A0 : mat) (g0 : vec).
Let M0 := one_minus A0.
Hypothesis hM : hermitian (2 * n) M0.
Hypothesis pM : posdef (2 * n) M0.

Definition good (l : seq nat) := uniq l /\ all (fun i => i < n)%N l.
Definition State (l : seq nat) (m : nat) (A L : mat) := [/\ good l, m = (2 * size l)%N,
  forall a b, (a < m)%N -> (b < m)%N -> A a b = ix A0 (inter n l) a b &
  is_cholesky m (fun a b => eye C a b - A a b) L].
Lemma oneE l (A : mat) m : good l -> m = (2 * size l)%N -> (forall a b, (a < m)%N -> (b < m)%N -> A a b = ix A0 (inter n l) a b) ->
  forall a b, (a < m)%N -> (b < m)%N -> ix M0 (inter n l) a b = eye C a b - A a b.
Proof.
move=> [u al] em e a b ha hb; rewrite /ix /M0 /one_minus e // /eye; congr (_%:R - _); congr (nat_of_bool _).
by rewrite nth_uniq ?size_inter -?em // inter_uniq.
Qed.
Lemma herm_l l : good l -> hermitian (2 * size l) (ix M0 (inter n l)).
Proof. by move=> [u al]; rewrite -(size_inter n); apply: hermitian_ix hM _; exact: inter_all. Qed.
Lemma pos_l l : good l -> posdef (2 * size l) (ix M0 (inter n l)).
Proof. by move=> [u al]; rewrite -(size_inter n); apply: posdef_ix pM _ _; [exact: inter_uniq|exact: inter_all]. Qed.

Lemma State_step l1 x l2 m A L : State (l1 ++ x :: l2) m A L ->
  let idx := (2 * size l1)%N in let Z := iota 0 idx ++ pyrange (idx + 2) m in
  State (l1 ++ l2) (size Z) (ix A Z) (quad_cholesky L Z idx (fun a b => eye C a b - ix A Z a b)).
Proof.
move=> [gl em eA ch] idx Z.
have sm : m = (idx + 2 + 2 * size l2)%N by rewrite em size_cat /= /idx; lia.
have sZ : size Z = (idx + 2 * size l2)%N by rewrite /Z size_cat size_iota /pyrange size_iota; lia.
have Zlt a : (a < idx)%N -> nth 0%N Z a = a by move=> h; rewrite /Z nth_cat size_iota h nth_iota.
have Zge a : (idx <= a)%N -> (a < size Z)%N -> nth 0%N Z a = (a + 2)%N.
  by move=> h1 h2; rewrite /Z nth_cat size_iota ltnNge h1 /= /pyrange nth_iota; lia.
have ZE a : (a < size Z)%N -> nth 0%N Z a = if (a < idx)%N then a else (a + 2)%N.
  by move=> ha; case: ltnP => h; [exact: Zlt|exact: Zge].
have Zm a : (a < size Z)%N -> (nth 0%N Z a < m)%N by move=> ha; rewrite ZE //; case: ifP; lia.
have gl' : good (l1 ++ l2).
  case: gl => u al; split; last by move: al; rewrite !all_cat /= => /and3P[-> _ ->].
  by move: u; rewrite !cat_uniq /= => /and3P[-> /norP[_ ->] /andP[_ ->]].
have eZ := @Z_inter n l1 x l2; rewrite /= -em -/idx -/Z in eZ.
have eA' a b : (a < size Z)%N -> (b < size Z)%N -> ix A Z a b = ix A0 (inter n (l1 ++ l2)) a b.
  by move=> ha hb; rewrite /ix -eZ !(nth_map 0%N) // eA ?Zm.
have sl : size Z = (2 * size (l1 ++ l2))%N by rewrite sZ size_cat /idx; lia.
split=> //; have e1 := oneE gl' sl eA'.
apply: quad_cholesky_correct.
- by rewrite sZ leq_addr.
- by apply: hermitian_eq e1 _; rewrite sl; exact: herm_l.
- by apply: posdef_eq e1 _; rewrite sl; exact: pos_l.
- move=> i j hi ji jx; have hj : (j < size Z)%N by lia.
  have := (proj1 ch) (nth 0%N Z i) (nth 0%N Z j) (Zm i hi); rewrite (Zlt j) // => e.
  have {}e : eye C (nth 0%N Z i) j - A (nth 0%N Z i) j = \sum_(k < j.+1) L (nth 0%N Z i) k * (L j k)^*.
    by apply: e; rewrite ZE //; case: ifP; lia.
  have -> : eye C i j = eye C (nth 0%N Z i) j by rewrite /eye; congr (nat_of_bool _)%:R; rewrite ZE //; case: ifP => //; lia.
  rewrite [ix A Z i j]/ix (Zlt j jx) e; apply: eq_bigr => k _.
  have kx : (k < idx)%N by have := ltn_ord k; lia.
  by rewrite /ix (Zlt j) // (Zlt k).
- move=> i hi; rewrite /ix Zlt //; apply: (proj2 ch); lia.
Qed.

Definition hdet (l : seq nat) : C := \det (mxof (2 * size l) (2 * size l) (ix M0 (inter n l))).
Lemma State_det l m A L : State l m A L -> diag_det m L = hdet l.
Proof.
move=> [gl em eA ch]; have e1 := oneE gl em eA; rewrite (@diag_detE _ m (ix M0 (inter n l))) ?/hdet -?em //.
  by rewrite em; exact: herm_l.
by apply: cholesky_eq ch => i j hi hj; rewrite e1.
Qed.
Lemma State_quad l m A L (g : vec) : State l m A L -> (forall a, (a < m)%N -> g a = g0 (nth 0%N (inter n l) a)) ->
  norm2 m (solve_triangular m L (fun i => (g i)^*)) = quad M0 g0 (2 * size l) (inter n l).
Proof.
move=> [gl em eA ch] eg; have e1 := oneE gl em eA; rewrite (@norm2_solve _ m (ix M0 (inter n l))).
- rewrite /quad -em; congr ((_^T *m _ *m _) 0 0); by apply/matrixP => i j; rewrite !mxE eg.
- by rewrite em; exact: herm_l.
- by apply: cholesky_eq ch => i j hi hj; rewrite e1.
Qed.

Lemma pyrange_split s i k : (s <= i < k)%N -> pyrange s k = iota s (i - s) ++ i :: pyrange i.+1 k.
Proof.
move=> /andP[si ik]; rewrite /pyrange.
have -> : (k - s)%N = ((i - s) + (k - i.+1).+1)%N by lia.
by rewrite iotaD; have -> : (s + (i - s))%N = i by lia.
Qed.

Lemma recursiveTor_correct fuel L modes m A P s r : (n - s < fuel)%N -> (s <= n)%N -> size modes = r ->
  (if size modes == 0%N then 0%N else (last 0%N modes).+1) = s -> size P = (s - r)%N -> (r <= s)%N ->
  State (P ++ pyrange s n) m A L ->
  recursiveTor fuel L modes m A n = Ok (Trec n (fun l => 1 / sqrtC (hdet l)) fuel P s r).
Proof.
elim: fuel L modes m A P s r => // fuel IH L modes m A P s r hf sn sr ls sP rs st.
rewrite recursiveTorS ls TrecS -[X in Ok X]add0r.
apply: foldM_sum => t i; rewrite mem_pyrange => si; have /andP[s_i i_n] := si.
cbv beta zeta.
have mE : m = (2 * (size P + (n - s)))%N by case: st => _ -> _ _; rewrite size_cat /pyrange size_iota.
have -> : (m %/ 2 * 2)%N = m by rewrite mE; lia.
have -> : ((i - size modes) * 2)%N = (2 * size (P ++ iota s (i - s)))%N by rewrite sr size_cat size_iota sP; lia.
move: st; rewrite (pyrange_split si) catA => /State_step; cbv zeta; rewrite -catA.
set Z := iota 0 _ ++ _; set Ls := quad_cholesky _ _ _ _; set Az := ix A Z => st.
rewrite (IH _ _ _ _ (P ++ iota s (i - s)) i.+1 r.+1); last by rewrite -catA.
- by rewrite /= (State_det st) size_rcons sr -[1 / _]/(1 / _) mul1r.
- by lia.
- by [].
- by rewrite size_rcons sr.
- by rewrite size_rcons /= last_rcons.
- by rewrite size_cat size_iota sP; lia.
- by lia.
Qed.
Lemma recursiveLTor_correct (exp : C -> C) fuel L modes m A g P s r : (n - s < fuel)%N -> (s <= n)%N -> size modes = r ->
  (if size modes == 0%N then 0%N else (last 0%N modes).+1) = s -> size P = (s - r)%N -> (r <= s)%N ->
  State (P ++ pyrange s n) m A L -> (forall a, (a < m)%N -> g a = g0 (nth 0%N (inter n (P ++ pyrange s n)) a)) ->
  recursiveLTor exp fuel L modes m A n g =
  Ok (Trec n (fun l => exp (2%:R^-1 * quad M0 g0 (2 * size l) (inter n l)) / sqrtC (hdet l)) fuel P s r).
Proof.
elim: fuel L modes m A g P s r => // fuel IH L modes m A g P s r hf sn sr ls sP rs st eg.
rewrite recursiveLTorS ls TrecS -[X in Ok X]add0r.
apply: foldM_sum => t i; rewrite mem_pyrange => si; have /andP[s_i i_n] := si.
cbv beta zeta.
have mE : m = (2 * (size P + (n - s)))%N by case: st => _ -> _ _; rewrite size_cat /pyrange size_iota.
have -> : (m %/ 2 * 2)%N = m by rewrite mE; lia.
have -> : ((i - size modes) * 2)%N = (2 * size (P ++ iota s (i - s)))%N by rewrite sr size_cat size_iota sP; lia.
have eZ := @Z_inter n (P ++ iota s (i - s)) i (pyrange i.+1 n).
have mE' : m = (2 * size ((P ++ iota s (i - s)) ++ i :: pyrange i.+1 n))%N.
  by case: st => _ -> _ _; rewrite (pyrange_split si) catA.
cbv zeta in eZ; rewrite -mE' in eZ.
move: st eg; rewrite (pyrange_split si) catA => /State_step; cbv zeta; rewrite -catA => st eg.
set Z := iota 0 _ ++ _ in st eZ *; set Ls := quad_cholesky _ _ _ _ in st *; set Az := ix A Z in st *.
have eg' a : (a < size Z)%N -> g (nth 0%N Z a) = g0 (nth 0%N (inter n (P ++ iota s (i - s) ++ pyrange i.+1 n)) a).
  move=> ha; rewrite eg; last first.
    have : nth 0%N Z a \in Z by exact: mem_nth.
    rewrite mem_cat mem_iota mem_pyrange mE' !size_cat /= !size_iota; clear; lia.
  by rewrite catA -eZ (nth_map 0%N).
rewrite (IH _ _ _ _ _ (P ++ iota s (i - s)) i.+1 r.+1).
- by rewrite /= (State_det st) (State_quad st eg') size_rcons sr mulrA.
- by lia.
- by [].
- by rewrite size_rcons sr.
- by rewrite size_rcons /= last_rcons.
- by rewrite size_cat size_iota sP; lia.
- by lia.
- by rewrite -catA.
- by move=> a ha; rewrite eg' // catA.
Qed.
End Rec.
