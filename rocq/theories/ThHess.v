(** Determinants of upper Hessenberg matrices (theory used for La Budde's algorithm). *)
From mathcomp Require Import all_ssreflect all_fingroup all_algebra zify.
From Verif Require Import Prelude.
Set Implicit Arguments.
Unset Strict Implicit.
Unset Printing Implicit Defensive.
Import GRing.Theory.
Local Open Scope ring_scope.

(** The leading [n x n] block of a function of two indices. *)
Definition mx_of (K : Type) (n : nat) (A : nat -> nat -> K) : 'M[K]_n := \matrix_(i < n, j < n) A i j.

Section Hess.
Variables (R : comRingType) (M : nat -> nat -> R).

Definition Gmx i (w : nat -> R) : 'M[R]_i := \matrix_(a < i, b < i) (if b.+1 == i then w a else M a b).
Definition Gd i w : R := \det (Gmx i w).
Definition Hd i : R := \det (mx_of i M).

Variable N : nat.
Hypothesis hess : forall i j, (i < N)%N -> (j.+1 < i)%N -> M i j = 0.

Lemma Gd_Hd i : Gd i.+1 (M^~ i) = Hd i.+1.
Proof.
congr (\det _); apply/matrixP => a b; rewrite !mxE; case: eqP => // -[e]; congr M; lia.
Qed.

Lemma Gd1 w : Gd 1 w = w 0%N.
Proof. by rewrite /Gd det_mx11 mxE. Qed.

Lemma Gd_rec i w : (i.+1 < N)%N -> Gd i.+2 w = w i.+1 * Hd i.+1 - M i.+1 i * Gd i.+1 w.
Proof.
move=> iN; rewrite /Gd (expand_det_row _ ord_max) (bigD1 ord_max) //=.
have i2 : (i < i.+2)%N by lia.
rewrite (bigD1 (Ordinal i2)) /=; last by rewrite -val_eqE /=; lia.
rewrite big1 ?addr0; last first.
  move=> j; rewrite -!val_eqE /= => /andP[j1 j2]; rewrite !mxE /=.
  have jl := ltn_ord j; case: eqP => [|_]; first by lia.
  by rewrite hess ?mul0r //; lia.
congr (_ + _).
  rewrite !mxE eqxx /cofactor /=; congr (_ * _).
  rewrite -signr_odd addnn odd_double expr0 mul1r.
  congr (\det _); apply/matrixP => a b; rewrite !mxE !lift_max.
  by have := ltn_ord b; case: eqP => [e|//]; lia.
rewrite !mxE /= /cofactor /=; case: eqP => [|_]; first by lia.
have -> : (-1) ^+ (i.+1 + i) = -1 :> R by rewrite -signr_odd addSn addnn /= odd_double.
rewrite mulN1r mulrN; congr (- (_ * \det _)).
apply/matrixP => a b; rewrite !mxE !lift_max /= /bump.
have bl := ltn_ord b; case: (leqP i b) => ib /=.
  have -> : (b : nat) = i by lia. by rewrite add1n eqxx eqxx.
by rewrite add0n; case: eqP => [|_]; [lia|case: eqP => [|//]; lia].
Qed.

Lemma Gd_sum i w : (i < N)%N -> Gd i.+1 w =
  \sum_(m < i.+1) w (i - m)%N * (\prod_(l < m) - M (i - l)%N (i - l - 1)%N) * Hd (i - m).
Proof.
elim: i w => [|i IH] w iN.
  by rewrite Gd1 big_ord1 big_ord0 mulr1 /Hd det_mx00 mulr1.
rewrite Gd_rec // IH ?(ltnW iN) // [RHS]big_ord_recl subn0 big_ord0 mulr1; congr (_ + _).
rewrite -mulNr mulr_sumr; apply: eq_bigr => m _; rewrite /= /bump /= add1n subSS big_ord_recl /=.
rewrite [X in _ = _ * (_ * X) * _](eq_bigr (fun l : 'I_m => - M (i - l)%N (i - l - 1)%N)) => [|l _].
  by rewrite subn0 subSS subn0 !mulrA; congr (_ * _ * _); rewrite mulrC.
by rewrite /bump /= !subSS.
Qed.
End Hess.

(** Characteristic polynomials of leading blocks of a Hessenberg matrix. *)
Section Char.
Variables (K : comRingType) (H : nat -> nat -> K).
Variable N : nat.
Hypothesis hess : forall i j, (i < N)%N -> (j.+1 < i)%N -> H i j = 0.

Definition cpn n : {poly K} := char_poly (mx_of n H).

Lemma cpn_rec n : (n < N)%N -> cpn n.+1 = ('X - (H n n)%:P) * cpn n
  - \sum_(1 <= m < n.+1) (H (n - m)%N n * \prod_(l < m) H (n - l)%N (n - l - 1)%N)%:P * cpn (n - m).
Proof.
move=> nN; pose M i j : {poly K} := 'X *+ (i == j) - (H i j)%:P.
have ME i : cpn i = Hd M i.
  rewrite /cpn /char_poly /Hd; congr (\det _); apply/matrixP => a b; rewrite !mxE /M.
  by rewrite -val_eqE; case: eqP => /= _; rewrite ?mulr1n ?mulr0n.
have hM i j : (i < N)%N -> (j.+1 < i)%N -> M i j = 0.
  by move=> h1 h; rewrite /M hess // subr0; case: eqP => [e|//]; lia.
rewrite ME -Gd_Hd (Gd_sum hM) // -(big_mkord xpredT (fun m => M (n - m)%N n *
   (\prod_(l < m) - M (n - l)%N (n - l - 1)%N) * Hd M (n - m))) big_nat_recl // subn0 big_ord0 mulr1 -ME.
congr (_ + _); first by rewrite /M eqxx mulr1n.
rewrite big_add1 -sumrN [LHS]big_nat_cond [RHS]big_nat_cond; apply: eq_bigr => m /andP[hm _].
rewrite -ME -mulNr; congr (_ * _); rewrite polyCM -mulNr rmorph_prod; congr (_ * _).
  by rewrite /M; case: eqP => [e|_]; [lia|rewrite mulr0n sub0r].
apply: eq_bigr => l _; rewrite /M; case: eqP => [e|_]; last by rewrite mulr0n sub0r opprK.
by have := ltn_ord l; lia.
Qed.

(** coefficient [a i j] of [x^(i-j)] *)
Definition lbc i j : K := (cpn i)`_(i - j).

Lemma size_cpn i : size (cpn i) = i.+1. Proof. exact: size_char_poly. Qed.
Lemma lbc0 i : lbc i 0 = 1.
Proof. by rewrite /lbc subn0; have := char_poly_monic (mx_of i H); rewrite monicE /lead_coef size_cpn /= => /eqP. Qed.

Lemma lbc_rec i j : (i < N)%N -> (1 <= j <= i.+1)%N ->
  lbc i.+1 j = (if (j <= i)%N then lbc i j else 0) - H i i * lbc i (j - 1)
   - \sum_(1 <= m < j) H (i - m)%N i * (\prod_(l < m) H (i - l)%N (i - l - 1)%N) * lbc (i - m) (j - m - 1).
Proof.
move=> iN hj; rewrite /lbc cpn_rec // coefB mulrBl coefB coefXM coefCM.
have -> : (i.+1 - j == 0)%N = (i < j)%N by lia.
have -> : (i - (j - 1) = i.+1 - j)%N by lia.
congr (_ - _ - _).
  by case: ltnP => // h; congr (_ `_ _); lia.
rewrite coef_sum (@big_cat_nat _ _ _ j) /=; [|lia|lia].
rewrite [X in _ + X]big1_seq ?addr0; last first.
  move=> m /andP[_]; rewrite mem_index_iota => hm; rewrite coefCM.
  by rewrite [X in _ * X]nth_default ?mulr0 // size_cpn; lia.
rewrite [LHS]big_nat_cond [RHS]big_nat_cond; apply: eq_bigr => m /andP[hm _].
rewrite coefCM; congr (_ * _ `_ _); lia.
Qed.
End Char.
