(** C53: threshold_detection_prob is the inclusion-exclusion probability of the click pattern. *)
From mathcomp Require Import all_ssreflect all_algebra zify fingroup perm.
From Verif Require Import Prelude PyBase ArrLoop SpecHaf MPowerHaf MHafnian PropHafnian MSymplectic PropChannels MPermanent PropPerm2 SpecTor SpecThr MTor PropTor PropTor2 PropTor3 PropTor4 PropTor5 PropThr PropThr2 PropThr3.
Set Implicit Arguments.
Unset Strict Implicit.
Unset Printing Implicit Defensive.
Import Order.Theory GRing.Theory Num.Theory.
Local Open Scope ring_scope.

Lemma rep_pattern n (D : {set 'I_n}) : rep_index (pattern D) = set_modes D.
Proof.
rewrite /rep_index /set_modes size_map size_enum_ord -[iota 0 n]val_enum_ord -map_comp.
have -> : enum D = [seq i <- enum 'I_n | i \in D] by rewrite enumT.
rewrite -(eq_map (f1 := fun i : 'I_n => nseq (i \in D) (val i))).
  by elim: (enum 'I_n) => //= i l IH; case: (i \in D); rewrite /= IH.
by move=> i /=; rewrite (nth_map i) ?size_enum_ord // nth_ord_enum.
Qed.
Lemma size_pattern n (D : {set 'I_n}) : size (pattern D) = n. Proof. by rewrite size_map size_enum_ord. Qed.
Lemma clicked_pattern n (D : {set 'I_n}) : [seq i <- iota 0 (size (pattern D)) | nth 0%N (pattern D) i == 1%N] = set_modes D.
Proof.
rewrite size_pattern /set_modes -[iota 0 n]val_enum_ord filter_map; congr map.
rewrite -[RHS]/(filter _ _) -enumT; apply: eq_filter => i /=.
by rewrite /pattern (nth_map i) ?size_enum_ord // nth_ord_enum; case: (i \in D).
Qed.

Section Top.
Variable C : numClosedFieldType.
Variable sched : nat -> seq nat.
Hypothesis sched_ok : forall n, perm_eq (sched n) (iota 0 n).
Notation mat := (nat -> nat -> C).
Notation vec := (nat -> C).
Variable cholesky : nat -> mat -> res mat.
Variable exp : C -> C.
Hypothesis ch_ok : chol_ok cholesky.

(** the properties of the exponential function that are used *)
Definition exp_ok := [/\ exp 0 = 1, forall a b, exp (a + b) = exp a * exp b & forall a, a \is Num.real -> exp a \is Num.real].
Hypothesis e_ok : exp_ok.

Lemma rep_pattern2 n (D : {set 'I_n}) : rep_index (pattern D ++ pattern D) = set_rows D.
Proof. by rewrite (rep_index_cat C) rep_pattern size_pattern. Qed.
Lemma herm_conj n (Q : mat) : hermitian n Q -> hermitian n (fun i j => (Q i j)^*).
Proof. by move=> h i j hi hj; rewrite h. Qed.
Lemma pos_conj n (Q : mat) : hermitian n Q -> posdef n Q -> posdef n (fun i j => (Q i j)^*).
Proof.
move=> hQ p v [i hi vi]; have nz : exists2 i, (i < n)%N & (v i)^* != 0 by exists i => //; rewrite fmorph_eq0.
have := p (fun i => (v i)^*) nz; congr (0 < _).
by rewrite exchange_big; apply: eq_bigr => a _; apply: eq_bigr => b _; rewrite (hQ a b) ?ltn_ord // conjCK -mulrA mulrC mulrAC mulrC mulrA.
Qed.

Section Key.
Variables (n : nat) (S : mat) (alpha : vec) (D : {set 'I_n}).
Hypothesis hS : hermitian (2 * n) S.
Hypothesis pS : posdef (2 * n) S.
Let W := ofmx (invmx (mxof (2 * n) (2 * n) S)).
Let O : mat := fun i j => eye C i j - W i j.
Let g : vec := gam n S alpha.
Lemma red_ltor : exists gO, reduced_gaussian n g O (set_modes D) = Ok gO /\
  numba_ltor sched exp (size (set_modes D)) gO.2 gO.1 =
  Ok (\sum_(Z : {set 'I_n} | Z \subset D) (-1) ^+ (#|D| - #|Z|) * exp (2%:R^-1 * quad1m O g Z) / sqrtC (det1m O Z)).
Proof.
rewrite /reduced_gaussian; have ml : all (fun m => m < n)%N (set_modes D) by apply/allP => m /mapP[i _ ->]; exact: ltn_ord.
have -> : has (fun m => (n < m)%N) (set_modes D) = false by apply/hasP => -[m /(allP ml)]; lia.
rewrite size_set_modes; case: eqP => [e|_].
  exists (g, O); split=> //; rewrite e (numba_ltor_correct sched_ok _ _ (hO hS pS) (pO hS pS)) /ltor_spec; congr Ok.
  have -> : D = setT by apply/eqP; rewrite eqEcard subsetT cardsT card_ord e leqnn.
  by apply: eq_big => Z; rewrite ?subsetT.
rewrite /take_modes set_rowsE set_rows_lt; eexists; split; first by reflexivity.
by rewrite /= -ltor_sub (numba_ltor_correct sched_ok _ _ (herm_sub (hO hS pS)) (pos_sub (pO hS pS))).
Qed.
Let ca : vec := fun i => (alpha i)^*.
Let q := form W ca alpha (iota 0 (2 * n)) (iota 0 (2 * n)).
Lemma vac_probE : numba_vac_prob exp (2 * n) alpha S = Ok (exp (- 2%:R^-1 * q) / sqrtC (\det (mxof (2 * n) (2 * n) S))).
Proof.
have [e0 eD er] := e_ok; rewrite /numba_vac_prob /np_inv (uQ hS pS) /=; congr Ok.
have -> : \sum_(j < 2 * n) (\sum_(i < 2 * n) (alpha i)^* * ofmx (invmx (mxof (2 * n) (2 * n) S)) i j) * alpha j = q.
  by rewrite /q /form exchange_big sum_iota /=; apply: eq_bigr => j _; rewrite sum_iota mulr_suml.
have qr : q \is Num.real := form_real hS pS alpha.
have r1 : exp (- 2%:R^-1 * q) \is Num.real by apply: er; rewrite realM // realN realV realn.
rewrite (Creal_ReP _ r1); apply/Creal_ReP; rewrite realM // realV gtr0_real // sqrtC_gt0; exact: detQ_all.
Qed.
Let cq (Z : {set 'I_n}) := ((subcol ca (set_rows (~: Z)))^T *m invmx (submx S (set_rows (~: Z))) *m subcol alpha (set_rows (~: Z))) 0 0.
Lemma cq_real (Z : {set 'I_n}) : cq Z \is Num.real.
Proof.
rewrite /cq; move: (set_rows (~: Z)) (hermitian_ix hS (set_rows_lt (~: Z))) (posdef_ix pS (set_rows_uniq (~: Z)) (set_rows_lt (~: Z))) => r hr pr.
have e : submx S r = mxof (size r) (size r) (ix S r) by apply/matrixP => i j; rewrite !mxE.
apply/CrealP; rewrite e; set M := invmx _; set v := subcol alpha r.
have -> : (subcol ca r)^T = ct v by apply/matrixP => i j; rewrite !mxE.
have hM : ct M = M by have := mxof_herm (herm_inv hr pr); rewrite mxof_ofmx.
have : ct (ct v *m M *m v) = ct v *m M *m v by rewrite !ctM ctK hM mulmxA.
by move=> /matrixP/(_ 0 0); rewrite !mxE.
Qed.
Lemma term (Z : {set 'I_n}) : exp (- 2%:R^-1 * q) / sqrtC (\det (mxof (2 * n) (2 * n) S)) * (exp (2%:R^-1 * quad1m O g Z) / sqrtC (det1m O Z)) =
  exp (- 2%:R^-1 * cq Z) / sqrtC (\det (submx S (set_rows (~: Z)))).
Proof.
have [e0 eD er] := e_ok.
rewrite mulrACA -eD -invfM mulrC [sqrtC _ * _]mulrC (sqrt_split hS pS) mulrC; congr (exp _ / _).
by rewrite /q (quadO hS pS alpha Z) mulrDr addrAC -mulrDl addNr mul0r add0r.
Qed.
Lemma quad_real (Z : {set 'I_n}) : quad1m O g Z \is Num.real.
Proof.
have -> : quad1m O g Z = q - cq Z by rewrite /q (quadO hS pS alpha Z) addrK.
by rewrite realB ?cq_real ?(form_real hS pS).
Qed.
Lemma prodE : (exp (- 2%:R^-1 * q) / sqrtC (\det (mxof (2 * n) (2 * n) S))) *
  'Re (\sum_(Z : {set 'I_n} | Z \subset D) (-1) ^+ (#|D| - #|Z|) * exp (2%:R^-1 * quad1m O g Z) / sqrtC (det1m O Z)) =
  exactly (vacuum_overlap exp alpha S) D.
Proof.
have [e0 eD er] := e_ok.
rewrite (Creal_ReP _ _); last first.
  rewrite rpred_sum // => Z _; rewrite !realM ?realV ?realX ?realN ?real1 ?er //.
    by rewrite realM ?quad_real // realV realn.
  by rewrite gtr0_real // sqrtC_gt0 (det1m_gt0 (hO hS pS) (pO hS pS)).
rewrite mulr_sumr /exactly; apply: eq_bigr => Z _.
rewrite -[X in _ * X = _]mulrA [LHS]mulrCA; congr (_ * _); exact: term.
Qed.
End Key.

Section State.
Variables (n : nat) (mu : vec) (cov : mat) (hbar atol rtol : C).
Let Q := Qmat n cov hbar.
Hypothesis hQ : hermitian (2 * n) Q.
Hypothesis pQ : posdef (2 * n) Q.
(** the complex displacement *)
Definition alpha_of : vec := fun i =>
  (if (i < n)%N then mu i + 'i * mu (n + i)%N else mu (i - n)%N - 'i * mu i) / sqrtC (2%:R * hbar).
Definition no_click_prob (T : {set 'I_n}) : C := vacuum_overlap exp alpha_of (fun i j => (Q i j)^*) T.
(** the displacement is zero, or large enough to be recognised as nonzero *)
Hypothesis small : all (fun i => close rtol atol (mu i) 0) (iota 0 (2 * n)) -> forall i, (i < 2 * n)%N -> mu i = 0.

Theorem threshold_prob_correct (D : {set 'I_n}) :
  threshold_detection_prob sched cholesky exp n mu cov (pattern D) hbar atol rtol = Ok (exactly no_click_prob D).
Proof.
have [e0 eD er] := e_ok.
rewrite /threshold_detection_prob; case: ifP => hz.
  rewrite /np_inv (uQ hQ pQ) [bind (Ok _) _]/=.
  set O : mat := fun i j => _.
  have -> : reduction (arr_of (2 * n) (2 * n) O) (pattern D ++ pattern D) = arr_of (2 * #|D|) (2 * #|D|) (ix O (set_rows D)).
    by rewrite /reduction red_rowsE rep_pattern2 size_set_rows.
  rewrite (tor_correct sched_ok ch_ok) /=; last 2 first.
  - exact: herm_sub (hO hQ pQ).
  - exact: pos_sub (pO hQ pQ).
  rewrite tor_sub /exactly mulr_suml; congr Ok; apply: eq_bigr => Z _.
  rewrite -!mulrA -invfM (sqrt_split hQ pQ Z); congr (_ * _).
  rewrite /no_click_prob /vacuum_overlap.
  have a0 i : (i < 2 * n)%N -> alpha_of i = 0.
    move=> hi; rewrite /alpha_of; case: ltnP => h; rewrite !(small hz) ?mulr0 ?addr0 ?subr0 ?mul0r //; lia.
  rewrite (_ : subcol alpha_of (set_rows (~: Z)) = 0) ?mulmx0 ?mxE ?mulr0 ?e0 ?mul1r; last first.
    by apply/matrixP => i j; rewrite !mxE a0 //; apply: (allP (set_rows_lt _)); exact: mem_nth.
  have -> : submx (fun i j => (Q i j)^*) (set_rows (~: Z)) = map_mx conjC (submx Q (set_rows (~: Z))) by apply/matrixP => i j; rewrite !mxE.
  by rewrite det_map_mx (CrealP (gtr0_real (detQ_gt0 hQ pQ _))).
have hS := herm_conj hQ; have pS := pos_conj hQ pQ.
set sigma : mat := fun i j => (Q i j)^* in hS pS *.
rewrite /= {1}/np_inv (uQ hS pS) [bind (Ok _) _]/=.
have [gO [e1 e2]] := red_ltor alpha_of D hS pS.
rewrite clicked_pattern -/(gam n sigma alpha_of) e1 [bind (Ok _) _]/=.
case: gO e1 e2 => gr Or e1 /= e2.
by rewrite vac_probE //= e2 /= prodE.
Qed.
End State.
End Top.
