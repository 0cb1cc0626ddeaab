(** generate_hafnian_sample may return a mode with [cutoff] photons, although such patterns are meant to be rejected: the code
    only tests the last mode. *)
From mathcomp Require Import all_ssreflect all_algebra zify.
From Verif Require Import Prelude PyBase PyRand ArrLoop MHafnian MCharpoly MBatch MSymplectic MMeans MSamples PropRand SpecHaf SpecSample SpecSymp ThHaf PropPowerHaf PropHermite PropBatch PropSymplectic PropConversions PropSamples PropSamples2.
Set Implicit Arguments.
Unset Strict Implicit.
Unset Printing Implicit Defensive.
Import Order.TTheory GRing.Theory Num.Theory.
Local Open Scope ring_scope.

Section Refute.
Variable C : numClosedFieldType.
Variable sched : nat -> seq nat.
Hypothesis sched_ok : forall s, perm_eq (sched s) (iota 0 s).
Notation mat := (nat -> nat -> C).
Notation vec := (nat -> C).

Lemma Qmat_ext N (T T' : mat) h : eqm (2 * N) T T' -> eqm (2 * N) (Qmat N T h) (Qmat N T' h).
Proof.
move=> e i j hi hj; rewrite /Qmat /madd /npblock /mshift !add0n.
by case: (ltnP i N) => iN; case: (ltnP j N) => jN; rewrite !e //; lia.
Qed.

Lemma lhq_zero (T : eqType) (A : T -> T -> C) (mu : T -> C) s : {in s &, forall x y, A x y = 0} -> lhq A mu s = \prod_(x <- s) mu x.
Proof.
move=> h; elim: s h => [|x s IH] h; first by rewrite lhq_nil big_nil.
rewrite lhq_cons big_cons IH => [|y z hy hz]; last by apply: h; rewrite inE ?hy ?hz orbT.
by rewrite [X in _ + X]big1_seq ?addr0 // => z /andP[_ hz]; rewrite h ?mul0r ?mem_head // inE hz orbT.
Qed.

(** two modes in the coherent state of means (1, 1), hbar = 2: Williamson gives D = S = 1 and Cholesky sqrt(2) *)
Let cov : mat := eye C.
Let mu : vec := fun i => if (i < 2)%N then 1 else 0.
Let will : nat -> mat -> res (mat * mat) := fun _ _ => Ok (eye C, eye C).
Let chol : nat -> mat -> res mat := fun _ _ => Ok (mscale (sqrtC 2%:R) (eye C)).

(** the decompositions are right *)
Lemma coherent_decomposition : eqm 4 (mmul 4 (mmul 4 (eye C) (eye C)) (trn (eye C))) cov /\
  eqm 4 (mmul 4 (mscale (sqrtC 2%:R) (eye C)) (trn (mscale (sqrtC 2%:R) (eye C)))) (madd cov (eye C)).
Proof.
have mE (a b : C) i j : (i < 4)%N -> mmul 4 (mscale a (eye C)) (trn (mscale b (eye C))) i j = a * b * (i == j)%:R.
  move=> hi; rewrite /mmul /mscale /trn /eye sum_iota (bigD1 (Ordinal hi)) //= eqxx mulr1 mulrA (eq_sym j) big1 ?addr0 // => t nt.
  by rewrite (_ : (i == t :> nat) = false) ?mulr0 ?mul0r //; apply: contraNF nt => /eqP e; apply/eqP/val_inj.
have eE i j : (i < 4)%N -> mmul 4 (eye C) (trn (eye C)) i j = (i == j)%:R.
  by move=> hi; have := mE 1 1 i j hi; rewrite !mul1r => <-; apply: eq_bigr => t _; rewrite /mscale /trn !mul1r.
split=> i j hi hj.
  rewrite -[RHS]/((i == j)%:R) -eE // /mmul; apply: eq_bigr => t _; congr (_ * _).
  by rewrite -[LHS]/(mmul 4 (eye C) (eye C) i t) -[RHS]/((i == t)%:R) -(eE i t hi); apply: eq_bigr => u _; rewrite /trn /eye (eq_sym t).
by rewrite mE // -expr2 sqrtCK /madd /cov /eye mulr_natl mulr2n.
Qed.


Lemma wf_generate (williamson : nat -> mat -> res (mat * mat)) cholesky (eps : C) M cov' mean hbar cutoff max z1 z2 :
  wf (generate_hafnian_sample sched williamson cholesky eps M cov' mean hbar cutoff max z1 z2).
Proof.
rewrite /generate_hafnian_sample; apply: wf_bind => [|order]; first exact: wf_of_res.
apply: wf_bind => [|[T W]]; first exact: wf_of_res.
apply: wf_bind => [|ch]; first exact: wf_of_res.
apply: wf_bind => [|B]; first exact: wf_of_res.
apply: wf_bind => // ; apply: wf_pfold => -[g d] m; apply: wf_bind => [|l]; first exact: wf_of_res.
by apply: wf_bind => // ; exact: wf_choice.
Qed.

Lemma photon_prob_neq0 (B : mat) (gamma : vec) cutoff n ns k : (forall i j, (i < n)%N -> (j < n)%N -> B i j = 0) ->
  (forall i, (i < n)%N -> gamma i != 0) -> (size ns < n)%N -> (k <= cutoff)%N -> photon_prob cutoff B gamma ns k != 0.
Proof.
move=> B0 g0 sn hk.
have w0 k' : 0 < photon_weight B gamma ns k'.
  rewrite /photon_weight divr_gt0 ?ltr0n ?fact_gt0 // exprn_gt0 // normr_gt0.
  have lt x : x \in rep_index (rcons ns k') -> (x < n)%N by move/rep_index_lt; rewrite size_rcons => h; apply: leq_trans h sn.
  rewrite lhaf_rep_spec_lhq_any lhq_zero => [|x y /lt hx /lt hy]; last exact: B0.
  by rewrite prodf_seq_neq0; apply/allP => x /lt hx; rewrite g0.
have s0 : 0 < \sum_(k' < cutoff.+1) photon_weight B gamma ns k'.
  by rewrite big_ord_recl ltr_paddr // sumr_ge0 // => i _; apply: ltW.
by rewrite /photon_prob mulf_neq0 ?invr_eq0 ?gt_eqF.
Qed.

Theorem generate_hafnian_sample_cutoff_refuted (eps : C) (z2 : vec) :
  outcome (generate_hafnian_sample sched will chol eps 2 cov (Some mu) 2%:R 5 30 (fun=> 0) z2) (Ok (Some [:: 5; 0]%N)).
Proof.
apply: (proj2 (outcome_law _ (wf_generate _ _ _ _ _ _ _ _ _ _ _))).
have [order orderE] : exists order, photon_means_order 2 mu cov = Ok order.
  rewrite /photon_means_order /photon_number_mean_vector /= /photon_number_mean /=; by eexists.
have [_ po] := photon_means_order_perm orderE.
have so : size order = 2%N by rewrite (perm_size po).
have ord_lt k : (k < 2)%N -> (nth 0%N order k < 2)%N.
  by move=> hk; have := mem_nth 0%N (_ : k < size order)%N; rewrite so => /(_ hk); rewrite (perm_mem po) mem_iota.
pose T := mscale (2%:R / 2%:R : C) (mmul (2 * 2) (eye C) (trn (eye C))).
have two0 : 2%:R != 0 :> C by rewrite pnatr_eq0.
have TE : eqm (2 * 2) T (vacuum_state (2%:R : C)).2.
  move=> i j hi hj; rewrite /T /mscale divff // mul1r /vacuum_state /= mulfK // /mmul /trn sum_iota (bigD1 (Ordinal hi)) //=.
  rewrite /eye eqxx mul1r big1 ?addr0 1?eq_sym // => t nt; rewrite (_ : (i == t :> nat) = false) ?mul0r //.
  by apply: contraNF nt => /eqP e; apply/eqP/val_inj.
have [B BE B0] : exists2 B, Amat 2 T 2%:R false = Ok B & eqm (2 * 2) B (fun _ _ => 0).
  have [A hA A0] := @Amat_vacuum C 2 2%:R (realn _ 2) two0.
  exists A => //; rewrite -hA /Amat /np_inv.
  have -> : mxof (2 * 2) (2 * 2) (Qmat 2 T 2%:R) = mxof (2 * 2) (2 * 2) (Qmat 2 (vacuum_state (2%:R : C)).2 2%:R) by apply/matrixP => i j; rewrite !mxE; apply: (Qmat_ext _ TE); exact: ltn_ord.
  by [].
have Sreal i j : eye C i j \is Num.real by rewrite /eye realn.
rewrite (generate_hafnian_sample_law (mean := Some mu) (hbar := 2%:R) (williamson := will) (cholesky := chol) sched_ok eps 5 30 (fun=> 0) z2 orderE (erefl : will _ _ = Ok (eye C, eye C)) Sreal (realn _ 2) (erefl : chol _ _ = Ok (mscale (sqrtC 2%:R) (eye C))) BE).
set b := [&& _, _, _ & _]; have -> : b = true by [].
apply/prodf_neq0 => j _; apply: (@photon_prob_neq0 _ _ _ 2).
- by move=> i k hi hk; apply: B0; lia.
- move=> i hi; rewrite /het_gamma.
  rewrite [X in _ - X]big1 ?subr0 => [|l _]; last by rewrite B0 ?mul0r //; have := ltn_ord l; lia.
  rewrite [X in _ + X]big1 ?addr0 => [|l _]; last by rewrite B0 ?mul0r //; have := ltn_ord l; lia.
  rewrite conjC_eq0 /mu_to_alpha /mvmul !big1 ?addr0 ?hi => [|t _|t _]; rewrite ?mulr0 //.
  have b1 : (2 + i < 2)%N = false by lia.
  have b2 : (nth 0 order (2 + i - 2) + 2 < 2)%N = false by lia.
  rewrite /mu ord_lt // b1 b2 mulr0 addr0 mul1r invr_eq0 sqrtC_eq0.
  by rewrite mulf_neq0.
- by rewrite size_mkseq.
by have := ord_lt _ (ltn_ord j); case: (nth 0%N order j) => [|[|]].
Qed.
End Refute.
