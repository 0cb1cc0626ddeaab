(** C64: recurrences for total photon numbers. *)
From mathcomp Require Import all_ssreflect all_algebra zify.
From Verif Require Import Prelude PyBase SpecHaf SpecFock.
Set Implicit Arguments.
Unset Strict Implicit.
Unset Printing Implicit Defensive.
Import Order.TTheory GRing.Theory Num.Theory.
Local Open Scope ring_scope.

Section Newton.
Variable C : numClosedFieldType.
(** n a_n = sum_l t_l a_{n - 2 l} *)
Definition newton (t a : nat -> C) : Prop := a 0%N = 1 /\
  forall n, n%:R * a n = \sum_(l < n | (2 * l.+1 <= n)%N) t l.+1 * a (n - 2 * l.+1)%N.
Lemma newton_uniq t a b : newton t a -> newton t b -> forall n, a n = b n.
Proof.
move=> [a0 aS] [b0 bS]; elim/ltn_ind=> -[|n] IH; first by rewrite a0 b0.
have n0 : n.+1%:R != 0 :> C by rewrite pnatr_eq0.
apply: (mulfI n0); rewrite aS bS; apply: eq_bigr => l h; rewrite IH //; lia.
Qed.
Lemma newton_ext t t' a : (forall l, t l.+1 = t' l.+1) -> newton t a -> newton t' a.
Proof. by move=> e [a0 aS]; split=> // n; rewrite aS; apply: eq_bigr => l _; rewrite e. Qed.
Definition conv (a b : nat -> C) (n : nat) : C := \sum_(j < n.+1) a j * b (n - j)%N.
Lemma convC a b n : conv a b n = conv b a n.
Proof.
rewrite /conv (reindex_inj rev_ord_inj) /=; apply: eq_bigr => j _; rewrite mulrC.
have hj := ltn_ord j; by congr (b _ * a _); lia.
Qed.
Lemma shift_sum (F : nat -> C) d n : (d <= n)%N -> \sum_(j < n.+1 | (d <= j)%N) F j = \sum_(i < (n - d).+1) F (i + d)%N.
Proof.
move=> h; rewrite -(big_mkord (fun j => (d <= j)%N) F) (big_cat_nat _ (n := d)) //=; last by lia.
rewrite big_nat_cond big_pred0 ?add0r => [|j]; last by lia.
rewrite -{1}[d]add0n big_addn -subSn // big_mkord; apply: eq_bigl => i; lia.
Qed.
Lemma half_conv t a b n : newton t a ->
  \sum_(j < n.+1) (j%:R * a j) * b (n - j)%N = \sum_(l < n | (2 * l.+1 <= n)%N) t l.+1 * conv a b (n - 2 * l.+1)%N.
Proof.
move=> [_ aS].
rewrite (eq_bigr (fun j : 'I_n.+1 => \sum_(l < n | (2 * l.+1 <= j)%N) t l.+1 * (a (j - 2 * l.+1)%N * b (n - j)%N))); last first.
  move=> j _; rewrite aS mulr_suml; have hj := ltn_ord j.
  rewrite (big_ord_widen_cond n (fun l => (2 * l.+1 <= j)%N) (fun l => t l.+1 * a (j - 2 * l.+1)%N * b (n - j)%N)) //.
  by apply: eq_big => [l|l _]; [lia|rewrite mulrA].
rewrite (exchange_big_dep xpredT) //= [RHS]big_mkcond; apply: eq_bigr => l _.
case: ifP => [h|/negbT h].
  rewrite -mulr_sumr; congr (_ * _).
  rewrite (shift_sum (fun j => a (j - 2 * l.+1)%N * b (n - j)%N)) // /conv; apply: eq_bigr => i _.
  have hi := ltn_ord i; congr (a _ * b _); lia.
by apply: big1 => j hj; have := ltn_ord j; lia.
Qed.
Lemma newton_conv t t' a b : newton t a -> newton t' b -> newton (fun l => t l + t' l) (conv a b).
Proof.
move=> na nb; have [a0 _] := na; have [b0 _] := nb; split; first by rewrite /conv big_ord1 a0 b0 mulr1.
move=> n; under [RHS]eq_bigr do rewrite mulrDl; rewrite big_split /= -(half_conv b n na).
have -> : \sum_(l < n | (2 * l.+1 <= n)%N) t' l.+1 * conv a b (n - 2 * l.+1)%N = \sum_(j < n.+1) (j%:R * b j) * a (n - j)%N.
  by rewrite (half_conv a n nb); apply: eq_bigr => l _; rewrite convC.
rewrite [X in _ + X](reindex_inj rev_ord_inj) /= -big_split /= /conv mulr_sumr; apply: eq_bigr => j _.
have hj := ltn_ord j; have -> : (n.+1 - j.+1 = n - j)%N by lia.
have -> : (n - (n - j) = j)%N by lia.
have {1}-> : n = (j + (n - j))%N by lia.
by rewrite natrD; rring.
Qed.
Definition delta (n : nat) : C := (n == 0%N)%:R.
Lemma newton_delta : newton (fun _ => 0) delta.
Proof. by split=> // -[|n]; rewrite ?mul0r big1 ?mulr0 // => l _; rewrite mul0r. Qed.

(** N identical squeezed modes, up to normalisation *)
Definition nbc (N : nat) (x : C) (n : nat) : C := if odd n then 0 else (\prod_(i < n./2) (N%:R / 2%:R + i%:R)) / (n./2`!)%:R * x ^+ n./2.
Lemma newton_nbc N x : newton (fun l => N%:R * x ^+ l) (nbc N x).
Proof.
have two0 : 2%:R != 0 :> C by rewrite pnatr_eq0.
split; first by rewrite /nbc /= big_ord0 fact0 divr1 mulr1.
have step n : n.+2%:R * nbc N x n.+2 = (N + n)%:R * x * nbc N x n.
  rewrite /nbc /= negbK; case: ifP => [|ev]; first by rewrite !mulr0.
  have e : n.+2%:R = 2%:R * n./2.+1%:R :> C by rewrite -natrM; congr _%:R; lia.
  have e2 : (N + n)%:R = 2%:R * (N%:R / 2%:R + n./2%:R) :> C by rewrite mulrDr mulrC mulrVK ?unitfE // -natrM -natrD; congr _%:R; lia.
  rewrite big_ord_recr /= factS natrM exprS e e2.
  have f0 : (n./2`!)%:R != 0 :> C by rewrite pnatr_eq0 -lt0n fact_gt0.
  have k0 : n./2.+1%:R != 0 :> C by rewrite pnatr_eq0.
  by ffield; rewrite ?mulf_neq0.
elim/ltn_ind=> -[|[|n]] IH; first by rewrite mul0r big_ord0.
  by rewrite [nbc _ _ 1]/nbc /= mulr0 big_pred0 // => l; lia.
rewrite step natrD mulrDl mulrDl -[n%:R * x * _]mulrA [n%:R * _]mulrCA IH // .
rewrite [RHS]big_mkcond [RHS]big_ord_recl /= expr1 subn2 /=; congr (_ + _).
rewrite mulr_sumr -[RHS]big_mkcond /=.
rewrite [RHS](_ : _ = \sum_(i < n.+1 | (2 * i.+1 <= n)%N) N%:R * x ^+ i.+2 * nbc N x (n - 2 * i.+1)%N).
  rewrite (big_ord_widen_cond n.+1 (fun l => (2 * l.+1 <= n)%N) (fun l => x * (N%:R * x ^+ l.+1 * nbc N x (n - 2 * l.+1)%N))) //.
  apply: eq_big => [l|l _]; first by lia.
  by rewrite [in RHS]exprS; rring.
apply: eq_big => [i|i _]; first by rewrite /fintype.bump /=; lia.
by rewrite /fintype.bump /= add1n; congr (_ * nbc N x _); lia.
Qed.
End Newton.
