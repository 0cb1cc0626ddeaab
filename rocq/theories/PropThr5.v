(** C53: the hypotheses of the threshold-detection theorem follow from properties of the covariance matrix. *)
From mathcomp Require Import all_ssreflect all_algebra zify fingroup perm.
From Verif Require Import Prelude PyBase ArrLoop SpecHaf MPowerHaf MHafnian PropHafnian SpecSymp MSymplectic PropSymplectic PropSymp2 PropGates PropChannels PropConversions MPermanent PropPerm2 SpecTor SpecThr MTor PropTor PropTor2 PropTor3 PropTor4 PropTor5 PropThr PropThr2 PropThr3 PropThr4.
Set Implicit Arguments.
Unset Strict Implicit.
Unset Printing Implicit Defensive.
Import Order.Theory GRing.Theory Num.Theory.
Local Open Scope ring_scope.

Section Q.
Variable C : numClosedFieldType.
Notation mat := (nat -> nat -> C).
Notation vec := (nat -> C).
Lemma sum_halves N (f : nat -> C) : \sum_(i < 2 * N) f i = \sum_(i < N) (f i + f (N + i)%N).
Proof. by rewrite -sum_iota mul2n -addnn iotaD big_cat /= add0n big_split /= sum_iota -[N in iota N _]addn0 iotaDl big_map sum_iota. Qed.
Lemma sum_halves2 N (f : nat -> nat -> C) : \sum_(i < 2 * N) \sum_(j < 2 * N) f i j =
  \sum_(i < N) \sum_(j < N) (f i j + f i (N + j)%N + f (N + i)%N j + f (N + i)%N (N + j)%N).
Proof.
rewrite (sum_halves N (fun i => \sum_(j < 2 * N) f i j)); apply: eq_bigr => i _; rewrite !(sum_halves N) -big_split /=; apply: eq_bigr => j _; rring.
Qed.
(** positive semidefinite *)
Definition possemi n (M : mat) : Prop := forall v : vec, 0 <= \sum_(i < n) \sum_(j < n) (v i)^* * M i j * v j.

Section Cov.
Variables (N : nat) (cov : mat) (hbar : C).
Hypothesis rs : real_sym (2 * N) cov.
Hypothesis h0 : 0 < hbar.
Let rh : hbar \is Num.real. Proof. exact: gtr0_real. Qed.
Theorem Qmat_hermitian : hermitian (2 * N) (Qmat N cov hbar).
Proof.
move=> i j hi hj; have hf := Qmat_husimi rs rh.
case: (ltnP i N) => li; case: (ltnP j N) => lj.
- by have [-> _ _ _] := hf _ _ lj li.
- have e : j = (N + (j - N))%N by lia. have lj' : (j - N < N)%N by lia.
  by rewrite e; have [_ _ -> _] := hf _ _ li lj'; have [_ -> _ _] := hf _ _ li lj'; rewrite conjCK.
- have e : i = (N + (i - N))%N by lia. have li' : (i - N < N)%N by lia.
  by rewrite e; have [_ _ -> _] := hf _ _ lj li'; have [_ -> _ _] := hf _ _ lj li'.
- have e : i = (N + (i - N))%N by lia. have li' : (i - N < N)%N by lia.
  have e' : j = (N + (j - N))%N by lia. have lj' : (j - N < N)%N by lia.
  rewrite e e'; have [_ _ _ ->] := hf _ _ lj' li'; have [_ _ _ ->] := hf _ _ li' lj'.
  by rewrite conjCK; have [-> _ _ _] := hf _ _ lj' li'; rewrite conjCK.
Qed.
Lemma scal (I a b a' b' A B cxx cpp cxp cpx d : C) : I * I = -1 ->
  a' * ((cxx + cpp - 2%:R * d) / 4%:R + I * ((cxp - cpx) / 4%:R) + d) * A + a' * ((cxx - cpp) / 4%:R - I * ((cxp + cpx) / 4%:R)) * B
  + b' * ((cxx - cpp) / 4%:R + I * ((cxp + cpx) / 4%:R)) * A + b' * ((cxx + cpp - 2%:R * d) / 4%:R - I * ((cxp - cpx) / 4%:R) + d) * B
  = ((a' + b') * cxx * (A + B) + (a' + b') * cxp * (I * (A - B)) + (- I * (a' - b')) * cpx * (A + B) + (- I * (a' - b')) * cpp * (I * (A - B))) / 4%:R
   + d * (a' * A + b' * B) / 2%:R.
Proof.
move=> e; have -> : (- I * (a' - b')) * cpp * (I * (A - B)) = - (I * I) * ((a' - b') * cpp * (A - B)) by rring.
have t0 : 1 + 1 != 0 :> C := two0 C.
by rewrite e opprK mul1r; ffield; rewrite ?mulf_neq0 ?t0.
Qed.
Theorem Qmat_posdef : possemi (2 * N) cov -> posdef (2 * N) (Qmat N cov hbar).
Proof.
move=> ps v [k hk vk].
pose w : vec := fun i => if (i < N)%N then v i + v (N + i)%N else 'i * (v (i - N)%N - v i).
have wl i : (i < N)%N -> w i = v i + v (N + i)%N by rewrite /w => ->.
have wr i : w (N + i)%N = 'i * (v i - v (N + i)%N) by rewrite /w ltnNge leq_addr /= addKn.
suff -> : \sum_(i < 2 * N) \sum_(j < 2 * N) (v i)^* * Qmat N cov hbar i j * v j =
  (\sum_(i < 2 * N) \sum_(j < 2 * N) (w i)^* * cov i j * w j) / (2%:R * hbar) + (\sum_(i < 2 * N) (v i)^* * v i) / 2%:R.
  apply: ltr_paddl; first by rewrite divr_ge0 ?ps // mulr_ge0 ?ler0n // ltW.
  rewrite divr_gt0 ?ltr0n // (bigD1 (Ordinal hk)) //= ltr_paddr ?sumr_ge0 //.
    by move=> i _; rewrite mulrC mul_conjC_ge0.
  by rewrite mulrC mul_conjC_gt0.
rewrite (sum_halves2 N (fun i j => (v i)^* * Qmat N cov hbar i j * v j)) (sum_halves2 N (fun i j => (w i)^* * cov i j * w j)) (sum_halves N (fun i => (v i)^* * v i)) !mulr_suml -big_split /=; apply: eq_bigr => i _.
have -> : ((v i)^* * v i + (v (N + i)%N)^* * v (N + i)%N) / 2%:R = \sum_(j < N) (nat_of_ord i == j)%:R * ((v i)^* * v j + (v (N + i)%N)^* * v (N + j)%N) / 2%:R.
  rewrite (bigD1 i) //= eqxx mul1r big1 ?addr0 // => j ji.
  by rewrite [(_ == _)%N](_ : _ = false) ?mul0r //; apply/negbTE; rewrite eq_sym.
rewrite mulr_suml -big_split /=; apply: eq_bigr => j _.
have hi := ltn_ord i; have hj := ltn_ord j.
have [_ -> -> -> ->] := Qmat_parts rs rh hi hj.
rewrite scal -?expr2 ?sqrCi // !wr !wl // !rmorphM !rmorphB rmorphD /= conjCi.
have s1 : cov j (N + i)%N = cov (N + i)%N j by apply: (proj2 (rs _ _)); lia.
rewrite s1; have hn : hbar != 0 by rewrite gt_eqF.
have t0 : 1 + 1 != 0 :> C := two0 C.
congr (_ + _); ffield; rewrite ?mulf_neq0 ?t0 ?hn //.
Qed.
End Cov.
End Q.

Section Top.
Variable C : numClosedFieldType.
Notation mat := (nat -> nat -> C).
Notation vec := (nat -> C).
Variable sched : nat -> seq nat.
Hypothesis sched_ok : forall n, perm_eq (sched n) (iota 0 n).
Variable cholesky : nat -> mat -> res mat.
Variable exp : C -> C.
Hypothesis ch_ok : chol_ok cholesky.
Hypothesis e_ok : exp_ok exp.

Lemma overlap_none n (alpha : vec) (Q : mat) : vacuum_overlap exp alpha Q (set0 : {set 'I_n}) = 1.
Proof.
have [e0 _ _] := e_ok; rewrite /vacuum_overlap; have -> : set_rows (set0 : {set 'I_n}) = [::] by rewrite /set_rows /set_modes enum_set0.
by rewrite det_mx00 sqrtC1 divr1 mxE big_ord0 mulr0.
Qed.

Section State.
Variables (n : nat) (mu : vec) (cov : mat) (hbar atol rtol : C).
Hypothesis rs : real_sym (2 * n) cov.
Hypothesis ps : possemi (2 * n) cov.
Hypothesis h0 : 0 < hbar.
Hypothesis small : all (fun i => close rtol atol (mu i) 0) (iota 0 (2 * n)) -> forall i, (i < 2 * n)%N -> mu i = 0.

(** the returned number is the inclusion-exclusion sum of the vacuum overlaps of the reduced states *)
Theorem threshold_detection_prob_correct (D : {set 'I_n}) :
  threshold_detection_prob sched cholesky exp n mu cov (pattern D) hbar atol rtol =
  Ok (exactly (vacuum_overlap exp (alpha_of n mu hbar) (fun i j => (Qmat n cov hbar i j)^*)) D).
Proof. exact (threshold_prob_correct sched_ok ch_ok e_ok (Qmat_hermitian rs h0) (Qmat_posdef rs h0 ps) small D). Qed.

(** the probabilities of the 2^n patterns add up to 1 *)
Theorem threshold_detection_prob_total : exists2 p : {set 'I_n} -> C,
  (forall D, threshold_detection_prob sched cholesky exp n mu cov (pattern D) hbar atol rtol = Ok (p D)) &
  \sum_(D : {set 'I_n}) p D = 1.
Proof.
exists (exactly (vacuum_overlap exp (alpha_of n mu hbar) (fun i j => (Qmat n cov hbar i j)^*))).
  exact: threshold_detection_prob_correct.
by rewrite exactly_total overlap_none.
Qed.
(** with no clicks it is the vacuum overlap of the whole state *)
Theorem threshold_detection_prob_vacuum :
  threshold_detection_prob sched cholesky exp n mu cov (nseq n 0%N) hbar atol rtol =
  Ok (vacuum_overlap exp (alpha_of n mu hbar) (fun i j => (Qmat n cov hbar i j)^*) (setT : {set 'I_n})).
Proof.
have <- : pattern (set0 : {set 'I_n}) = nseq n 0%N.
  apply: (@eq_from_nth _ 0%N); rewrite ?size_pattern ?size_nseq // => i hi.
  by rewrite nth_nseq hi /pattern (nth_map (Ordinal hi)) ?size_enum_ord // inE.
rewrite threshold_detection_prob_correct /exactly (big_pred1 set0) => [|Z]; last by rewrite subset0.
by rewrite subnn mul1r setC0.
Qed.
End State.

(** the hypotheses hold for the covariance matrix of the vacuum, displaced or not *)
Lemma vacuum_cov_ok n (hbar : C) : 0 < hbar ->
  real_sym (2 * n) (fun i j => (i == j)%:R * (hbar / 2%:R)) /\ possemi (2 * n) (fun i j => (i == j)%:R * (hbar / 2%:R)).
Proof.
move=> h0; split=> [i j _ _|v].
  by rewrite [(j == i)%N]eq_sym; split=> //; rewrite realM ?realn // gtr0_real // divr_gt0 ?ltr0n.
apply: sumr_ge0 => i _; rewrite (bigD1 i) //= big1 ?addr0 => [|j ji].
  rewrite eqxx mul1r mulrAC mulr_ge0 //; first by rewrite mulrC mul_conjC_ge0.
  by rewrite divr_ge0 ?ler0n ?ltW.
by rewrite [(_ == _)%N](_ : _ = false) ?mul0r ?mulr0 ?mul0r //; apply/negbTE; rewrite eq_sym.
Qed.
Lemma large_mean_ok n (mu : vec) (atol rtol : C) : 0 <= rtol -> (exists2 i, (i < 2 * n)%N & atol < `|mu i|) ->
  all (fun i => close rtol atol (mu i) 0) (iota 0 (2 * n)) -> forall i, (i < 2 * n)%N -> mu i = 0.
Proof.
move=> r0 [i hi li] /allP/(_ i); rewrite mem_iota hi /= => /(_ isT); rewrite /close subr0 normr0 mulr0 addr0 => le.
by have := lt_le_trans li le; rewrite ltxx.
Qed.
End Top.
