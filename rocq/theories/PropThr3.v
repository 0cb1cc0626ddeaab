(** C53: threshold_detection_prob is the inclusion-exclusion probability of the click pattern. *)
From mathcomp Require Import all_ssreflect all_algebra zify fingroup perm.
From Verif Require Import Prelude PyBase ArrLoop SpecHaf MPowerHaf MHafnian PropHafnian MSymplectic PropChannels ThPerm SpecTor SpecThr MTor PropTor PropTor2 PropTor3 PropTor4 PropTor5 PropThr PropThr2.
Set Implicit Arguments.
Unset Strict Implicit.
Unset Printing Implicit Defensive.
Import Order.Theory GRing.Theory Num.Theory.
Local Open Scope ring_scope.

Section Moebius.
Variable C : numClosedFieldType.
Theorem exactly_total n (v : {set 'I_n} -> C) : \sum_(D : {set 'I_n}) exactly v D = v set0.
Proof.
rewrite /exactly (exchange_big_dep xpredT) //= (bigD1 setT) //= [X in _ + X]big1 ?addr0 => [|Z ZT].
  by rewrite (big_pred1 setT) ?subnn ?mul1r ?setCT // => D; rewrite subTset.
have [x xZ] : exists x, x \notin Z.
  apply/existsP; rewrite -negb_forall; apply: contraNN ZT => /forallP h; apply/eqP/setP => x; by rewrite inE h.
rewrite big_mkcond /= (toggle_sum (r := x)) // => D xD.
have -> : (Z \subset x |: D) = (Z \subset D).
  apply/subsetP/subsetP => h y yZ; have := h y yZ; rewrite in_setU1; last by move=> ->; rewrite orbT.
  by case: eqP => // e; rewrite -e yZ in xZ.
case: ifP => [/subset_leq_card ZD|_]; last by rewrite oppr0.
by rewrite cardsU1 xD /= subSn // exprS !mulN1r mulNr.
Qed.
End Moebius.

Section Inv.
Variable C : numClosedFieldType.
Notation mat := (nat -> nat -> C).
Notation vec := (nat -> C).
Lemma mxof_herm n (M : mat) : hermitian n M -> ct (mxof n n M) = mxof n n M.
Proof. by move=> h; apply/matrixP => i j; rewrite !mxE -h. Qed.
Lemma herm_mx n (M : mat) : ct (mxof n n M) = mxof n n M -> hermitian n M.
Proof. by move=> h i j hi hj; have /matrixP/(_ (Ordinal hj) (Ordinal hi)) := h; rewrite !mxE /= => <-. Qed.
Lemma mx_posdef n (M : mat) : (forall v : 'cV[C]_n, v != 0 -> 0 < (ct v *m mxof n n M *m v) 0 0) -> posdef n M.
Proof.
move=> h v [i hi vi]; have nz : (\col_(i < n) v i) != 0 :> 'cV[C]_n.
  by apply/eqP => /matrixP/(_ (Ordinal hi) 0); rewrite !mxE /= => e; rewrite e eqxx in vi.
have := h _ nz; congr (0 < _); rewrite mxE exchange_big; apply: eq_bigr => j _; rewrite mxE mulr_suml; apply: eq_bigr => k _.
by rewrite !mxE.
Qed.
Section Fix.
Variables (n : nat) (Q : mat).
Hypothesis hQ : hermitian n Q.
Hypothesis pQ : posdef n Q.
Let W := ofmx (invmx (mxof n n Q)).
Lemma uQ : mxof n n Q \in unitmx. Proof. by case: (posdef_det hQ pQ). Qed.
Lemma QW : mxof n n Q *m mxof n n W = 1%:M.
Proof. by rewrite mxof_ofmx mulmxV // uQ. Qed.
Lemma herm_inv : hermitian n W.
Proof.
apply: herm_mx; rewrite mxof_ofmx; apply: (can_inj (mulKmx uQ)); rewrite mulmxV ?uQ // -{1}(mxof_herm hQ) -ctM mulVmx ?uQ //.
by rewrite /ct trmx1 map_mx1.
Qed.
Lemma pos_inv : posdef n W.
Proof.
apply: mx_posdef => v nz; rewrite mxof_ofmx; pose w := invmx (mxof n n Q) *m v.
have vE : v = mxof n n Q *m w by rewrite /w mulKVmx // uQ.
have wn : w != 0 by apply: contra_neq nz => e; rewrite vE e mulmx0.
have := posdef_mx pQ wn; congr (0 < _); rewrite vE ctM (mxof_herm hQ) -!mulmxA mulKmx ?uQ //.
Qed.
End Fix.
End Inv.

Section Main.
Variable C : numClosedFieldType.
Notation mat := (nat -> nat -> C).
Notation vec := (nat -> C).
Variables (n : nat) (Q : mat).
Hypothesis hQ : hermitian (2 * n) Q.
Hypothesis pQ : posdef (2 * n) Q.
Let W := ofmx (invmx (mxof (2 * n) (2 * n) Q)).
Let O : mat := fun i j => eye C i j - W i j.
Lemma hW : hermitian (2 * n) W. Proof. exact: herm_inv hQ pQ. Qed.
Lemma omE i j : one_minus O i j = W i j. Proof. by rewrite /one_minus /O /eye subKr. Qed.
Lemma submx_om r : submx (one_minus O) r = bl W r r.
Proof. by apply/matrixP => i j; rewrite !mxE omE. Qed.
Lemma hO : hermitian (2 * n) (one_minus O).
Proof. by apply: hermitian_eq (herm_inv hQ pQ) => i j _ _; rewrite omE. Qed.
Lemma pO : posdef (2 * n) (one_minus O).
Proof. by apply: posdef_eq (pos_inv hQ pQ) => i j _ _; rewrite omE. Qed.
Lemma detO (Z : {set 'I_n}) : det1m O Z * \det (mxof (2 * n) (2 * n) Q) = \det (submx Q (set_rows (~: Z))).
Proof. by rewrite /det1m submx_om (jacobi (set_rows_perm Z) (QW hQ pQ)). Qed.
Lemma unitW (Z : {set 'I_n}) : bl W (set_rows Z) (set_rows Z) \in unitmx.
Proof. by rewrite -submx_om submxE size_set_rows; exact: (unit_inter hO pO Z). Qed.

Section Disp.
Variable alpha : vec.
Let ca : vec := fun i => (alpha i)^*.
Definition gam : vec := fun i => (\sum_(j < 2 * n) W i j * alpha j)^*.
Lemma split_rows (Z : {set 'I_n}) (f : nat -> C) : \sum_(j < 2 * n) f j =
  \sum_(k < size (set_rows Z)) f (nth 0%N (set_rows Z) k) + \sum_(k < size (set_rows (~: Z))) f (nth 0%N (set_rows (~: Z)) k).
Proof.
rewrite -sum_iota -(perm_big _ (set_rows_perm Z)) big_cat /=.
by congr (_ + _); rewrite (big_nth 0%N) big_mkord.
Qed.
Lemma gamC i : (gam i)^* = \sum_(j < 2 * n) W i j * alpha j. Proof. by rewrite conjCK. Qed.
Lemma gamE i : (i < 2 * n)%N -> gam i = \sum_(j < 2 * n) ca j * W j i.
Proof.
by move=> hi; rewrite /gam rmorph_sum; apply: eq_bigr => j _; rewrite rmorphM /= mulrC (hW hi (ltn_ord j)).
Qed.
Lemma quadO (Z : {set 'I_n}) : form W ca alpha (iota 0 (2 * n)) (iota 0 (2 * n)) =
  quad1m O gam Z + ((subcol ca (set_rows (~: Z)))^T *m invmx (submx Q (set_rows (~: Z))) *m subcol alpha (set_rows (~: Z))) 0 0.
Proof.
rewrite (schur_quad (set_rows_perm Z) (QW hQ pQ) alpha ca (unitW Z)) /quad1m submx_om; congr (_ + _); last first.
  by congr ((_ *m _ *m _) 0 0); apply/matrixP => i j; rewrite !mxE.
congr ((_ *m _ *m _) 0 0); apply/matrixP => i j0; rewrite !mxE.
  rewrite gamE; last by apply: (allP (set_rows_lt Z)); exact: mem_nth.
  rewrite (split_rows Z (fun j => ca j * W j (nth 0%N (set_rows Z) j0))); congr (_ + _); apply: eq_bigr => k _; by rewrite !mxE.
by rewrite gamC (split_rows Z (fun j => W (nth 0%N (set_rows Z) i) j * alpha j)); congr (_ + _); apply: eq_bigr => k _; rewrite !mxE.
Qed.
Lemma form_real : form W ca alpha (iota 0 (2 * n)) (iota 0 (2 * n)) \is Num.real.
Proof.
apply/CrealP; rewrite /form rmorph_sum /= exchange_big /= !big_seq; apply: eq_bigr => i; rewrite mem_iota => /andP[_ hi].
rewrite rmorph_sum /= !big_seq; apply: eq_bigr => j; rewrite mem_iota => /andP[_ hj].
by rewrite !rmorphM /= conjCK (hW hj hi) conjCK mulrC mulrA mulrAC.
Qed.
End Disp.

Lemma detQ_gt0 (T : {set 'I_n}) : 0 < \det (submx Q (set_rows T)).
Proof.
by have [_] := posdef_det (hermitian_ix hQ (set_rows_lt T)) (posdef_ix pQ (set_rows_uniq T) (set_rows_lt T)).
Qed.
Lemma detQ_all : 0 < \det (mxof (2 * n) (2 * n) Q).
Proof. by case: (posdef_det hQ pQ). Qed.
Lemma sqrt_split (Z : {set 'I_n}) : sqrtC (det1m O Z) * sqrtC (\det (mxof (2 * n) (2 * n) Q)) = sqrtC (\det (submx Q (set_rows (~: Z)))).
Proof. by rewrite -detO sqrtCM // nnegrE ltW ?detQ_all ?(det1m_gt0 hO pO). Qed.
End Main.
