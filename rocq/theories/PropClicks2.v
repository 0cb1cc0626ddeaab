(** C60: the mean and the variance of the number of clicks. *)
From mathcomp Require Import all_ssreflect all_algebra zify fingroup perm.
From Verif Require Import Prelude PyBase ArrLoop SpecHaf MPowerHaf MHafnian PropHafnian SpecSymp MSymplectic PropSymplectic PropSymp2 PropGates PropChannels PropConversions MPermanent PropPerm2 SpecTor SpecThr MTor PropTor PropTor2 PropTor3 PropTor4 PropTor5 PropThr PropThr2 PropThr3 PropThr4 PropThr5 MPartition MClicks PropClicks PropMeans4.
Set Implicit Arguments.
Unset Strict Implicit.
Unset Printing Implicit Defensive.
Import Order.TTheory GRing.Theory Num.Theory.
Local Open Scope ring_scope.

Section Pairs.
Variable C : numClosedFieldType.
Lemma sum_pairs n (f : 'I_n -> 'I_n -> C) : (forall i j, f i j = f j i) ->
  \sum_(i < n) \sum_(j < n | j != i) f i j = 2%:R * \sum_(i < n) \sum_(j < n | (j < i)%N) f i j.
Proof.
move=> sf; rewrite mulr_natl mulr2n; transitivity (\sum_(i < n) (\sum_(j < n | (j < i)%N) f i j + \sum_(j < n | (i < j)%N) f i j)).
  apply: eq_bigr => i _; rewrite (bigID (fun j : 'I_n => (j < i)%N)) /=; congr (_ + _); apply: eq_bigl => j.
    by rewrite andb_idl // => h; apply/eqP => e; rewrite e ltnn in h.
  by rewrite -leqNgt ltn_neqAle eq_sym.
rewrite big_split /=; congr (_ + _); rewrite (exchange_big_dep xpredT) //=; apply: eq_bigr => i _; apply: eq_bigr => j _; exact: sf.
Qed.
(** the variance of the number of clicks in terms of the probabilities [a i] and [b i j] that detectors are silent *)
Lemma var_alg n (a : 'I_n -> C) (b : 'I_n -> 'I_n -> C) :
  \sum_(i < n) (1 - a i) + \sum_(i < n) \sum_(j < n | j != i) (1 - a i - a j + b i j) - (\sum_(i < n) (1 - a i)) ^+ 2 =
  \sum_(i < n) a i * (1 - a i) + \sum_(i < n) \sum_(j < n | j != i) (b i j - a i * a j).
Proof.
rewrite expr2 mulr_suml -!big_split /= -sumrB; apply: eq_bigr => i _.
rewrite mulr_sumr [X in _ - X](bigD1 i) //= opprD addrA [_ - _ * _]addrAC -addrA -sumrB; congr (_ + _); first by rring.
by apply: eq_bigr => j _; rring.
Qed.
End Pairs.

Section Top.
Variable C : numClosedFieldType.
Notation mat := (nat -> nat -> C).
Notation vec := (nat -> C).
Variable sched : nat -> seq nat.
Hypothesis sched_ok : forall n, perm_eq (sched n) (iota 0 n).
Variable cholesky : nat -> mat -> res mat.
Variable exp : C -> C.
Hypothesis ch_ok : chol_ok cholesky.
Hypothesis e_ok : exp_ok exp.

Section State.
Variables (n : nat) (cov : mat) (hbar : C).
Hypothesis rs : real_sym (2 * n) cov.
Hypothesis ps : possemi (2 * n) cov.
Hypothesis h0 : 0 < hbar.
Let Q := Qmat n cov hbar.
Let z : vec := fun _ => 0.
Let v := @vacuum_overlap C exp n (alpha_of n z hbar) (fun i j => (Q i j)^*).
Lemma vE (T : {set 'I_n}) : v T = 1 / sqrtC (\det (submx Q (set_rows T))).
Proof.
have [e0 _ _] := e_ok; rewrite /v /vacuum_overlap.
have -> : subcol (alpha_of n z hbar) (set_rows T) = 0.
  by apply/matrixP => i j; rewrite !mxE /alpha_of /z; case: ifP => _; rewrite ?mulr0 ?subr0 ?addr0 mul0r.
rewrite mulmx0 mxE mulr0 e0; congr (_ / sqrtC _).
have -> : submx (fun i j => (Q i j)^*) (set_rows T) = map_mx conjC (submx Q (set_rows T)) by apply/matrixP => i j; rewrite !mxE.
by rewrite det_map_mx; apply/CrealP/gtr0_real; exact: (detQ_gt0 (Qmat_hermitian rs h0) (Qmat_posdef rs h0 ps)).
Qed.
Lemma det_rows (T : {set 'I_n}) r m : size r = m -> perm_eq r (set_rows T) -> 'Re (\det (mxof m m (ix Q r))) = \det (submx Q (set_rows T)).
Proof.
move=> sr p; have s2 : size (set_rows T) = m by rewrite -(perm_size p).
rewrite (det_ix_perm Q sr s2 p) -s2 -submxE; apply/Creal_ReP/gtr0_real; exact: (detQ_gt0 (Qmat_hermitian rs h0) (Qmat_posdef rs h0 ps)).
Qed.
Lemma v1 (i : 'I_n) : v [set i] = 1 / sqrtC (det_val n Q i).
Proof.
rewrite vE; congr (_ / sqrtC _); have sr : set_rows [set i] = [:: val i; (val i + n)%N] by rewrite /set_rows /set_modes enum_set1 /= addnC.
rewrite -(@det_rows [set i] [:: val i; (val i + n)%N] 2) ?sr //; congr ('Re _).
rewrite (expand_det_row _ ord0) !big_ord_recl big_ord0 addr0 /cofactor !det_mx11 !mxE /= expr0 expr1 mul1r mulN1r mulrN /ix /=.
by congr (_ - _); exact: mulrC.
Qed.
Lemma v2 (i j : 'I_n) : (j < i)%N -> bind (reduced_gaussian n z Q [:: val i; val j]) (fun mc => Ok (1 / sqrtC ('Re (\det (mxof 4 4 mc.2))))) = Ok (v [set i; j]).
Proof.
move=> ji; rewrite vE; have hi := ltn_ord i; have hj := ltn_ord j.
have ps2 : perm_eq [:: val i; val j] (set_modes [set i; j]).
  apply: uniq_perm; rewrite /= ?inE ?andbT.
  - by apply/eqP; lia.
  - by rewrite /set_modes map_inj_uniq ?enum_uniq //; exact: val_inj.
  move=> x; apply/idP/mapP => [|[y]]; rewrite ?mem_enum !inE.
    by move=> /orP[]/eqP ->; [exists i|exists j]; rewrite ?mem_enum ?inE ?eqxx ?orbT.
  by move=> /orP[]/eqP -> ->; rewrite eqxx ?orbT.
have pr : perm_eq (rowsl n [:: val i; val j]) (set_rows [set i; j]) by rewrite /rowsl /set_rows perm_cat // perm_map.
have hh : has (fun m => n < m)%N [:: val i; val j] = false by rewrite /=; apply/negbTE; rewrite orbF negb_or -!leqNgt (ltnW hi) (ltnW hj).
rewrite /reduced_gaussian hh.
case: (size _ =P n) => [/= e|ne] /=.
  congr (Ok (1 / sqrtC _)); rewrite -(@det_rows [set i; j] (iota 0 4) 4) //.
    by congr ('Re (\det _)); apply/matrixP => a b; rewrite !mxE /ix !nth_iota.
  apply: perm_trans pr; have -> : val i = 1%N by rewrite /=; lia.
  have -> : val j = 0%N by rewrite /=; lia.
  by rewrite -[in rowsl _ _]e.
rewrite /take_modes (_ : all _ _ = true) /=; last by apply/and5P; split=> //; lia.
congr (Ok (1 / sqrtC _)); rewrite -(@det_rows [set i; j] (rowsl n [:: val i; val j]) 4) //.
by congr ('Re (\det _)); apply/matrixP => a b; rewrite !mxE /ix /rowsl /= ![(n + _)%N]addnC.
Qed.

(** C60: mean_clicks and variance_clicks are the mean and the variance of the number of clicks under the pattern
    probabilities returned by threshold_detection_prob for the state with zero mean *)
Theorem click_moments_correct (atol rtol : C) : exists p : {set 'I_n} -> C,
  [/\ forall D, threshold_detection_prob sched cholesky exp n (fun _ => 0) cov (pattern D) hbar atol rtol = Ok (p D),
      mean_clicks n cov hbar = \sum_(D : {set 'I_n}) #|D|%:R * p D &
      variance_clicks n cov hbar = Ok (\sum_(D : {set 'I_n}) #|D|%:R ^+ 2 * p D - (\sum_(D : {set 'I_n}) #|D|%:R * p D) ^+ 2)].
Proof.
have none : v set0 = 1 by exact: overlap_none.
exists (exactly v); split.
- by move=> D; rewrite threshold_detection_prob_correct.
- rewrite exactly_mean none /mean_clicks -/Q (for_sum _ _ (fun i => - (1 / sqrtC (det_val n Q i)))) sum_iota big_split /= sumr_const card_ord; congr (_ + _).
  by apply: eq_bigr => i _; rewrite v1.
rewrite /variance_clicks -/Q exactly_square exactly_mean none (var_alg (fun i => v [set i]) (fun i j => v [set i; j])) sum_pairs; last by move=> i j; rewrite setUC mulrC.
pose vp i := 1 / sqrtC (det_val n Q i).
pose w i j : C := if insub i is Some i' then if insub j is Some j' then v [set i'; j'] else 0 else 0 : C.
rewrite (@foldM_sum _ _ _ _ _ (fun i => \sum_(j <- iota 0 i) (w i j - vp i * vp j))); last first.
  move=> x i; rewrite mem_iota /= => hi; apply: (@foldM_sum _ _ _ _ _ (fun j => w i j - vp i * vp j)) => y j; rewrite mem_iota /= => hj.
  have hj' : (j < n)%N by lia.
  have := @v2 (Ordinal hi) (Ordinal hj') hj; rewrite /w (insubT (fun i => i < n)%N hi) (insubT (fun i => i < n)%N hj') /= -/z.
  by case: (reduced_gaussian _ _ _ _) => //= a [->].
rewrite /= add0r; congr (Ok (_ + _ * _)); first by apply: eq_bigr => i _; rewrite v1.
rewrite sum_iota; apply: eq_bigr => i _; rewrite sum_iota.
rewrite (big_ord_widen n (fun j => w i j - vp i * vp j)) 1?ltnW //; apply: eq_bigr => j ji.
by rewrite /w !valK /= !v1.
Qed.
End State.
End Top.
