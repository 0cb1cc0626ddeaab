(** C63: photon-number means and covariances of distinguishable squeezers. *)
From mathcomp Require Import all_ssreflect all_algebra zify.
From Verif Require Import Prelude PyBase ArrLoop SpecHaf MSymplectic PropSymplectic SpecGauss MMeans PropMeans PropMeans2 PropChannels SpecDist MDist.
Set Implicit Arguments.
Unset Strict Implicit.
Unset Printing Implicit Defensive.
Import Order.TTheory GRing.Theory Num.Theory.
Local Open Scope ring_scope.

Section Dist.
Variable C : numClosedFieldType.
Notation mat := (nat -> nat -> C).
Notation vec := (nat -> C).
Variables (exp sinh : C -> C).
Variables (n : nat) (hbar : C) (T : mat) (rs : vec).
Hypothesis hb0 : hbar != 0.
Hypothesis shP : forall k, (k < n)%N -> sinh_at exp sinh (rs k).
Let two0 : 2%:R != 0 :> C. Proof. by rewrite pnatr_eq0. Qed.

Let P := interferometer n n T.
Let A k := exp (- (2%:R * rs k)) - 1.
Let B k := exp (2%:R * rs k) - 1.
Lemma outE k a b : (k < n)%N -> (a < 2 * n)%N -> (b < 2 * n)%N -> output_state exp n hbar T rs k a b =
  hbar / 2%:R * ((a == b)%:R + A k * P a k * P b k + B k * P a (n + k)%N * P b (n + k)%N).
Proof.
move=> hk ha hb; rewrite /output_state /= /madd /mscale /msub /mmul -/P /trn.
have E c t : (t < 2 * n)%N -> \sum_(s <- iota 0 (2 * n)) P c s * squeezed_mode exp n hbar k (rs k) s t =
   hbar / 2%:R * (P c t + (t == k)%:R * A k * P c k + (t == n + k)%N%:R * B k * P c (n + k)%N).
  move=> ht; rewrite sum_iota (bigD1 (Ordinal ht)) //= big1 ?addr0 => [|s /eqP ns]; last first.
    rewrite /squeezed_mode; case: eqP => [e|_]; last by rewrite !mul0r mulr0.
    by case: ns; exact: val_inj.
  rewrite /squeezed_mode eqxx; case: (eqVneq t k) => [->|nt].
    have -> : (k == n + k)%N = false by lia.
    by rewrite /A /=; rring.
  by case: (eqVneq t (n + k)%N) => [->|_]; rewrite /B /=; rring.
rewrite [X in X + _](_ : _ = hbar / 2%:R * (\sum_(t <- iota 0 (2 * n)) P a t * P b t + A k * P a k * P b k + B k * P a (n + k)%N * P b (n + k)%N)).
  by rewrite /eye; rring.
rewrite !sum_iota (eq_bigr (fun t : 'I_(2 * n) => hbar / 2%:R * (P a t * P b t) + ((t == k :> nat)%:R * (hbar / 2%:R * (A k * P a k * P b t)) + (t == n + k :> nat)%N%:R * (hbar / 2%:R * (B k * P a (n + k)%N * P b t))))) => [|t _]; last first.
  by rewrite E ?ltn_ord //; rring.
have D s (F : nat -> C) : (s < 2 * n)%N -> \sum_(t < 2 * n) (t == s :> nat)%:R * F t = F s.
  move=> hs; rewrite (bigD1 (Ordinal hs)) //= eqxx mul1r big1 ?addr0 // => t nt.
  by rewrite -val_eqE /= in nt; rewrite (negPf nt) mul0r.
rewrite !big_split /= -mulr_sumr (D k (fun t => hbar / 2%:R * (A k * P a k * P b t))); last by lia.
rewrite (D (n + k)%N (fun t => hbar / 2%:R * (B k * P a (n + k)%N * P b t))); last by lia.
by rring.
Qed.
Lemma PE i k : (i < n)%N -> (k < n)%N -> [/\ P i k = 'Re (T i k), P i (n + k)%N = - 'Im (T i k), P (n + i)%N k = 'Im (T i k) & P (n + i)%N (n + k)%N = 'Re (T i k)].
Proof.
move=> hi hk; rewrite /P /interferometer /npblock hi hk; have -> : (n + i < n)%N = false by lia. have -> : (n + k < n)%N = false by lia.
by rewrite !addKn.
Qed.
Lemma nrm i k : `|T i k| ^+ 2 = 'Re (T i k) ^+ 2 + 'Im (T i k) ^+ 2.
Proof. by rewrite normC2_Re_Im. Qed.
Let four0 : 4%:R != 0 :> C. Proof. by rewrite pnatr_eq0. Qed.
Ltac ff := ffield; rewrite ?mulf_neq0 ?expf_neq0 //.
Lemma sinh2 k : (k < n)%N -> sinh (rs k) ^+ 2 = (A k + B k) / 4%:R.
Proof.
move=> hk; have [h e2 e2' sE _] := shP hk; rewrite sE /A /B e2 e2'.
have -> : exp (- rs k) ^+ 2 - 1 + (exp (rs k) ^+ 2 - 1) = (exp (rs k) - exp (- rs k)) ^+ 2 by rewrite -[1]h; rring.
by ff.
Qed.
Lemma sinh22 k : (k < n)%N -> (2%:R^-1 * sinh (2%:R * rs k)) ^+ 2 = ((B k - A k) / 4%:R) ^+ 2.
Proof. by move=> hk; have [_ _ _ _ sE] := shP hk; rewrite sE /A /B; ff. Qed.
(** C63: the mean photon numbers *)
Theorem number_means_correct i : (i < n)%N ->
  number_means sinh n T rs i = \sum_(k < n) E_n n (fun _ => 0) (output_state exp n hbar T rs k) hbar i.
Proof.
move=> hi; rewrite /number_means sum_iota; apply: eq_bigr => k _; have hk := ltn_ord k.
have [e1 e2 e3 e4] := PE hi hk.
rewrite exprMn sinh2 // nrm /E_n /E_abs2 !qm2 !outE //; try lia.
rewrite !eqxx e1 e2 e3 e4 /= ?mulr1n; by ff.
Qed.
(** the covariances *)
Theorem number_cov_correct i j : (i < n)%N -> (j < n)%N ->
  number_cov sinh n T rs i j = \sum_(k < n) (E_nn n (fun _ => 0) (output_state exp n hbar T rs k) hbar i j
     - E_n n (fun _ => 0) (output_state exp n hbar T rs k) hbar i * E_n n (fun _ => 0) (output_state exp n hbar T rs k) hbar j).
Proof.
move=> hi hj; rewrite /number_cov /number_means /mmul /trn !sum_iota mulr_sumr -!big_split /=; apply: eq_bigr => k _; have hk := ltn_ord k.
have [e1 e2 e3 e4] := PE hi hk; have [f1 f2 f3 f4] := PE hj hk.
have -> : sinh (rs k) ^+ 4 = (sinh (rs k) ^+ 2) ^+ 2 by rewrite -exprM.
rewrite sinh22 // [(_ * `|_|) ^+ 2]exprMn sinh2 // !nrm.
rewrite /E_nn; case: (eqVneq i j) => [e|nij].
  subst j; rewrite /E_n /E_abs2_abs2 /E_abs2 !qm2 !qm4 !outE //; try lia.
  have -> : (i == n + i)%N = false by lia.
  have -> : (n + i == i)%N = false by lia.
  rewrite !eqxx e1 e2 e3 e4 /= ?mulr1n ?mulr0n; by ff.
rewrite /E_n /E_abs2_abs2 /E_abs2 !qm2 !qm4 !outE //; try lia.
have w1 : (i == n + j)%N = false by lia.
have w2 : (n + i == j)%N = false by lia.
have w3 : (n + i == n + j)%N = false by lia.
rewrite ?w1 ?w2 ?w3 ?(negPf nij) ?eqxx e1 e2 e3 e4 f1 f2 f3 f4 /= ?mulr1n ?mulr0n; by ff.
Qed.
(** both in terms of the library's own mean and covariance functions *)
Corollary number_means_library i : (i < n)%N ->
  exists2 l : nat -> seq C, forall k, (k < n)%N -> photon_number_mean_vector n (fun _ => 0) (output_state exp n hbar T rs k) hbar = Ok (l k) &
   number_means sinh n T rs i = \sum_(k < n) nth 0 (l k) i.
Proof.
move=> hi; exists (fun k => mkseq (E_n n (fun _ => 0) (output_state exp n hbar T rs k) hbar) n) => [k hk|].
  exact: photon_number_mean_vector_correct.
by rewrite number_means_correct //; apply: eq_bigr => k _; rewrite nth_mkseq.
Qed.
End Dist.

(** a concrete case: two squeezed modes with e^r = 2 *)
Section Case.
Variable C : numClosedFieldType.
Let ex (x : C) : C := if x == 1 then 2%:R else if x == -1 then 2%:R^-1 else if x == 2%:R then 4%:R else 4%:R^-1.
Let sh (x : C) : C := (ex x - ex (- x)) / 2%:R.
Example sinh_case : sinh_at ex sh 1.
Proof.
have n1 : (-1 == 1 :> C) = false by rewrite -subr_eq0 -opprD oppr_eq0 -(natrD _ 1 1) pnatr_eq0.
have n2 : (2%:R == 1 :> C) = false by rewrite -[1]/(1%:R) eqr_nat.
have n3 : (2%:R == -1 :> C) = false by rewrite -subr_eq0 opprK -(natrD _ 2 1) pnatr_eq0.
have n4 : (- 2%:R == 1 :> C) = false by rewrite -subr_eq0 -opprD oppr_eq0 -(natrD _ 2 1) pnatr_eq0.
have n5 : (- 2%:R == -1 :> C) = false by rewrite eqr_opp n2.
have n6 : (- 2%:R == 2%:R :> C) = false by rewrite -subr_eq0 -opprD oppr_eq0 -(natrD _ 2 2) pnatr_eq0.
split; rewrite /sh /ex ?mulr1 ?eqxx ?n1 ?n2 ?n3 ?n4 ?n5 ?n6 ?eqxx //.
- by rewrite mulfV ?pnatr_eq0.
- by rewrite -natrX.
by rewrite exprVn -natrX.
Qed.
Example number_means_case : number_means sh 1 (fun _ _ => 1) (fun _ => 1) 0%N = 9%:R / 16%:R.
Proof.
have n1 : (-1 == 1 :> C) = false by rewrite -subr_eq0 -opprD oppr_eq0 -(natrD _ 1 1) pnatr_eq0.
rewrite /number_means big_seq1 normr1 mulr1 /sh /ex eqxx n1 eqxx.
have t : 1 + 1 != 0 :> C by rewrite -(natrD _ 1 1) pnatr_eq0.
by ffield; rewrite ?mulf_neq0.
Qed.
End Case.
