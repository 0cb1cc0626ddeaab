(** First-order variation of loop hafnians (used for the gradients of the Fock tensors of gates), and the recurrence of
    loop hafnians with repetitions at an arbitrary pivot. *)
From mathcomp Require Import all_ssreflect all_algebra zify.
From Verif Require Import Prelude PyBase ArrLoop SpecHaf ThHaf MHermite PropPowerHaf PropHermite.
Set Implicit Arguments.
Unset Strict Implicit.
Unset Printing Implicit Defensive.
Import Order.Theory GRing.Theory Num.Theory.
Local Open Scope ring_scope.

Lemma coef0_mul (R : comRingType) (p q : {poly R}) : (p * q)`_0 = p`_0 * q`_0.
Proof. by rewrite coefM big_ord_recl big_ord0 addr0. Qed.
Lemma coef1_mul (R : comRingType) (p q : {poly R}) : (p * q)`_1 = p`_0 * q`_1 + p`_1 * q`_0.
Proof. by rewrite coefM !big_ord_recl big_ord0 addr0. Qed.

Section Deriv.
Variables (R : comRingType) (T : eqType) (A f d : T -> T -> R) (mu m1 : T -> R).
Hypothesis symA : forall x y, A x y = A y x.
Hypothesis hd : forall x y, d x y = f x y + f y x.
Let L := lhq A mu.
Definition Dg (s : seq T) : R := \sum_(z <- s) \sum_(w <- rem z s) f z w * L (rem w (rem z s)).
Definition Mg (s : seq T) : R := \sum_(z <- s) m1 z * L (rem z s).
Let LP s1 s2 : perm_eq s1 s2 -> L s1 = L s2. Proof. by apply: lhq_perm. Qed.

Lemma Mg_cons x s : Mg (x :: s) = m1 x * L s + mu x * Mg s + \sum_(z <- s) A x z * Mg (rem z s).
Proof.
rewrite /Mg big_cons [rem x (x :: s)]/= eqxx -addrA; congr (_ + _).
have -> : \sum_(z <- s) m1 z * L (rem z (x :: s)) = \sum_(z <- s) (mu x * (m1 z * L (rem z s)) + \sum_(w <- rem z s) m1 z * (A x w * L (rem w (rem z s)))).
  apply: eq_big_seq => z zs; rewrite (LP (perm_rem_cons x zs)) /L lhq_cons mulrDr mulr_sumr; congr (_ + _); by rring.
rewrite big_split /= mulr_sumr; congr (_ + _); rewrite sum_rem_swap; apply: eq_big_seq => z zs.
rewrite mulr_sumr; apply: eq_bigr => w _; rewrite (LP (rem_rem_perm z w s)); by rring.
Qed.

Lemma Dg_cons x s : Dg (x :: s) = \sum_(z <- s) d x z * L (rem z s) + mu x * Dg s + \sum_(z <- s) A x z * Dg (rem z s).
Proof.
rewrite /Dg big_cons [rem x (x :: s)]/= eqxx.
have -> : \sum_(z <- s) \sum_(w <- rem z (x :: s)) f z w * L (rem w (rem z (x :: s)))
  = \sum_(z <- s) (f z x * L (rem z s) + mu x * (\sum_(w <- rem z s) f z w * L (rem w (rem z s))) +
       \sum_(w <- rem z s) f z w * \sum_(y <- rem w (rem z s)) A x y * L (rem y (rem w (rem z s)))).
  apply: eq_big_seq => z zs; rewrite (perm_big _ (perm_rem_cons x zs)) big_cons -addrA; congr (_ + _).
    by rewrite (LP (perm_rem x (perm_rem_cons x zs))) /= eqxx.
  rewrite mulr_sumr -big_split; apply: eq_big_seq => w ws /=.
  rewrite (LP (perm_trans (perm_rem w (perm_rem_cons x zs)) (perm_rem_cons x ws))).
  by rewrite /L lhq_cons; rring.
rewrite !big_split /= !addrA -big_split /= -mulr_sumr; congr (_ + _ + _).
  by apply: eq_bigr => z _; rewrite hd mulrDl.
symmetry.
rewrite (eq_bigr (fun z => \sum_(z' <- rem z s) A x z * \sum_(w <- rem z' (rem z s)) f z' w * L (rem w (rem z' (rem z s))))); last first.
  by move=> z _; rewrite mulr_sumr.
rewrite sum_rem_swap; apply: eq_big_seq => z zs; set v := rem z s.
rewrite (eq_bigr (fun z' => \sum_(w <- rem z' v) A x z' * (f z w * L (rem w (rem z' v))))); last first.
  move=> z' _; rewrite mulr_sumr (perm_big _ (rem_rem_perm z z' s)) /=.
  by apply: eq_bigr => w _; rewrite (LP (perm_rem w (rem_rem_perm z z' s))).
rewrite sum_rem_swap; apply: eq_bigr => w _; rewrite mulr_sumr; apply: eq_bigr => y _.
by rewrite (LP (rem_rem_perm w y v)); rring.
Qed.

(** along any curve (P, M) through (A, mu) with velocity (d, m1) *)
Variables (P : T -> T -> {poly R}) (M : T -> {poly R}).
Hypothesis P0 : forall x y, (P x y)`_0 = A x y.
Hypothesis P1 : forall x y, (P x y)`_1 = d x y.
Hypothesis M0 : forall x, (M x)`_0 = mu x.
Hypothesis M1 : forall x, (M x)`_1 = m1 x.
Lemma lhq_curve s : (lhq P M s)`_0 = L s /\ (lhq P M s)`_1 = Mg s + Dg s.
Proof.
move: {2}(size s) (leqnn (size s)) => n; elim: n s => [|n IH] [|x s] // sz.
- by rewrite /L !lhq_nil !coefC /Dg /Mg !big_nil addr0.
- by rewrite /L !lhq_nil !coefC /Dg /Mg !big_nil addr0.
have [h0 h1] := IH s sz.
have h z (zs : z \in s) : (size (rem z s) <= n)%N by rewrite size_rem //; move: sz => /=; lia.
rewrite lhq_cons !coefD !coef_sum coef0_mul coef1_mul M0 M1 h0 h1; split.
  rewrite /L lhq_cons; congr (_ + _); apply: eq_big_seq => z zs; have [e0 e1] := IH _ (h z zs); by rewrite coef0_mul P0 e0.
rewrite Mg_cons Dg_cons.
have -> : \sum_(z <- s) (P x z * lhq P M (rem z s))`_1 = \sum_(z <- s) A x z * Mg (rem z s) + \sum_(z <- s) A x z * Dg (rem z s) + \sum_(z <- s) d x z * L (rem z s).
  rewrite -!big_split; apply: eq_big_seq => z zs; have [e0 e1] := IH _ (h z zs); by rewrite coef1_mul P0 P1 e0 e1 /= mulrDr.
by rring.
Qed.
End Deriv.

Section Rep.
Variable (T : comRingType) (A : nat -> nat -> T) (mu : nat -> T).
Hypothesis symA : forall x y, A x y = A y x.
Local Notation H k := (lhaf_rep_spec k A mu).
Lemma sum_rep_dec (k : seq nat) (F : nat -> seq nat -> T) :
  \sum_(z <- rep_index k) F z (rem z (rep_index k)) = \sum_(l < size k) (nth 0%N k l)%:R * F l (rep_index (dec k l)).
Proof.
transitivity (\sum_(z <- rep_index k) F z (rep_index (dec k z))).
  by apply: eq_big_seq => z; rewrite mem_rep_index => h; rewrite rep_index_rem.
exact: (sum_rep_index k (fun z => F z (rep_index (dec k z)))).
Qed.
(** recurrence at any pivot i with a positive count *)
Lemma H_pivot (k : seq nat) i : (0 < nth 0 k i)%N ->
  H k = mu i * H (dec k i) + \sum_(l < size k) (nth 0%N (dec k i) l)%:R * (A i l * H (dec (dec k i) l)).
Proof.
move=> hk; rewrite !lhaf_rep_spec_lhq_any.
have ik : i \in rep_index k by rewrite mem_rep_index.
have il : (i < size k)%N by case: (ltnP i (size k)) hk => // h; rewrite nth_default.
rewrite (lhq_expand mu symA ik) rep_index_rem //; congr (_ + _).
rewrite (sum_rep_dec (dec k i) (fun z r => A i z * lhq A mu r)) size_dec //; apply: eq_bigr => l _.
by rewrite lhaf_rep_spec_lhq_any.
Qed.
(** first-order variation *)
Variables (f d : nat -> nat -> T) (m1 : nat -> T) (P : nat -> nat -> {poly T}) (M : nat -> {poly T}).
Hypothesis hd : forall x y, d x y = f x y + f y x.
Hypothesis P0 : forall x y, (P x y)`_0 = A x y.
Hypothesis P1 : forall x y, (P x y)`_1 = d x y.
Hypothesis M0 : forall x, (M x)`_0 = mu x.
Hypothesis M1 : forall x, (M x)`_1 = m1 x.
Lemma H_curve (k : seq nat) : (lhaf_rep_spec k P M)`_0 = H k /\
  (lhaf_rep_spec k P M)`_1 = \sum_(l < size k) (nth 0%N k l)%:R * (m1 l * H (dec k l)) +
    \sum_(l < size k) (nth 0%N k l)%:R * \sum_(j < size k) (nth 0%N (dec k l) j)%:R * (f l j * H (dec (dec k l) j)).
Proof.
rewrite lhaf_rep_spec_lhq_any; have [-> ->] := lhq_curve symA hd P0 P1 M0 M1 (rep_index k).
rewrite lhaf_rep_spec_lhq_any; split=> //; congr (_ + _).
  rewrite /Mg (sum_rep_dec k (fun z r => m1 z * lhq A mu r)); apply: eq_bigr => l _; by rewrite lhaf_rep_spec_lhq_any.
rewrite /Dg (sum_rep_dec k (fun z r => \sum_(w <- r) f z w * lhq A mu (rem w r))); apply: eq_bigr => l _; congr (_ * _).
rewrite (sum_rep_dec (dec k l) (fun w r => f l w * lhq A mu r)) size_dec //; apply: eq_bigr => j _.
by rewrite lhaf_rep_spec_lhq_any.
Qed.
End Rep.

(** normalised entries c H(k) / sqrt(prod k!) *)
Section Norm.
Variable C : numClosedFieldType.
Variables (A : nat -> nat -> C) (mu : nat -> C) (c : C).
Hypothesis symA : forall x y, A x y = A y x.
Definition entry (k : seq nat) : C := c * lhaf_rep_spec k A mu / snorm C k.
Lemma snorm_dec0 (k : seq nat) i (h : seq nat -> C) : (i < size k)%N ->
  (nth 0%N k i)%:R * h (dec k i) / snorm C k = sqrtC (nth 0%N k i)%:R * (h (dec k i) / snorm C (dec k i)).
Proof.
move=> hi; case: (posnP (nth 0%N k i)) => [->|h0]; first by rewrite sqrtC0 !mul0r.
rewrite (snorm_dec C h0) invfM -{1}(sqrtCK (nth 0%N k i)%:R) expr2.
by rewrite -!mulrA; congr (_ * _); rewrite [X in X = _]mulrCA; congr (_ * _); rewrite mulrCA divff ?mulr1 // sqrtC_nat_neq0.
Qed.
Lemma entry_pivot (k : seq nat) i : (0 < nth 0 k i)%N ->
  sqrtC (nth 0%N k i)%:R * entry k = mu i * entry (dec k i) +
    \sum_(l < size k) sqrtC (nth 0%N (dec k i) l)%:R * (A i l * entry (dec (dec k i) l)).
Proof.
move=> hk; have il : (i < size k)%N by case: (ltnP i (size k)) hk => // h; rewrite nth_default.
rewrite /entry (snorm_dec C hk) (H_pivot mu symA hk) invfM.
have s0 := sqrtC_nat_neq0 C hk.
set S := \sum_(l < _) _ * (_ * lhaf_rep_spec _ _ _).
have -> : sqrtC (nth 0%N k i)%:R * (c * (mu i * lhaf_rep_spec (dec k i) A mu + S) * ((snorm C (dec k i))^-1 / sqrtC (nth 0%N k i)%:R))
  = c * (mu i * lhaf_rep_spec (dec k i) A mu + S) / snorm C (dec k i).
  by rewrite mulrC -!mulrA mulVf // mulr1.
rewrite mulrDr mulrDl; congr (_ + _); first by rring.
rewrite /S mulr_sumr mulr_suml; apply: eq_bigr => l _.
have := @snorm_dec0 (dec k i) l (fun r => c * (A i l * lhaf_rep_spec r A mu)); rewrite size_dec // => /(_ (ltn_ord l)) e.
transitivity (sqrtC (nth 0%N (dec k i) l)%:R * (c * (A i l * lhaf_rep_spec (dec (dec k i) l) A mu) / snorm C (dec (dec k i) l))).
  by rewrite -e; rring.
by rring.
Qed.
(** the first-order coefficient of the normalised entry along a curve *)
Variables (f d : nat -> nat -> C) (m1 : nat -> C) (P : nat -> nat -> {poly C}) (M : nat -> {poly C}) (cp : {poly C}).
Hypothesis hd : forall x y, d x y = f x y + f y x.
Hypothesis P0 : forall x y, (P x y)`_0 = A x y.
Hypothesis P1 : forall x y, (P x y)`_1 = d x y.
Hypothesis M0 : forall x, (M x)`_0 = mu x.
Hypothesis M1 : forall x, (M x)`_1 = m1 x.
Hypothesis c0 : cp`_0 = c.
Lemma entry_curve (k : seq nat) : (cp * lhaf_rep_spec k P M)`_1 / snorm C k =
  cp`_1 * (lhaf_rep_spec k A mu / snorm C k) +
  \sum_(l < size k) sqrtC (nth 0%N k l)%:R * (m1 l * entry (dec k l)) +
  \sum_(l < size k) sqrtC (nth 0%N k l)%:R * \sum_(j < size k) sqrtC (nth 0%N (dec k l) j)%:R * (f l j * entry (dec (dec k l) j)).
Proof.
have [e0 e1] := H_curve symA hd P0 P1 M0 M1 k.
rewrite coef1_mul e0 e1 c0.
set S1 := \sum_(l < _) _; set S2 := \sum_(l < _) _.
have h1 : c * S1 / snorm C k = \sum_(l < size k) sqrtC (nth 0%N k l)%:R * (m1 l * entry (dec k l)).
  rewrite /S1 mulr_sumr mulr_suml; apply: eq_bigr => l _.
  have e := @snorm_dec0 k l (fun r => c * (m1 l * lhaf_rep_spec r A mu)) (ltn_ord l).
  transitivity (sqrtC (nth 0%N k l)%:R * (c * (m1 l * lhaf_rep_spec (dec k l) A mu) / snorm C (dec k l))).
    by rewrite -e; rring.
  by rewrite /entry; rring.
have h2 : c * S2 / snorm C k = \sum_(l < size k) sqrtC (nth 0%N k l)%:R * \sum_(j < size k) sqrtC (nth 0%N (dec k l) j)%:R * (f l j * entry (dec (dec k l) j)).
  rewrite /S2 mulr_sumr mulr_suml; apply: eq_bigr => l _.
  have e := @snorm_dec0 k l (fun r => c * (\sum_(j < size k) (nth 0%N r j)%:R * (f l j * lhaf_rep_spec (dec r j) A mu))) (ltn_ord l).
  transitivity (sqrtC (nth 0%N k l)%:R * (c * (\sum_(j < size k) (nth 0%N (dec k l) j)%:R * (f l j * lhaf_rep_spec (dec (dec k l) j) A mu)) / snorm C (dec k l))).
    by rewrite -e; rring.
  congr (_ * _); rewrite mulr_sumr mulr_suml; apply: eq_bigr => j _.
  have := @snorm_dec0 (dec k l) j (fun r => c * (f l j * lhaf_rep_spec r A mu)); rewrite size_dec // => /(_ (ltn_ord j)) e'.
  transitivity (sqrtC (nth 0%N (dec k l) j)%:R * (c * (f l j * lhaf_rep_spec (dec (dec k l) j) A mu) / snorm C (dec (dec k l) j))).
    by rewrite -e'; rring.
  by rewrite /entry; rring.
by rewrite -h1 -h2; rring.
Qed.
End Norm.

(** Grading: if every pair with a non-zero coupling has total weight 0, then a hafnian whose indices have non-zero total weight is 0 *)
Section Grading.
Variables (R : comRingType) (W : zmodType) (w : nat -> W) (A : nat -> nat -> R).
Hypothesis hA : forall x y, w x + w y != 0 -> A x y = 0.
Lemma lhq_graded s : \sum_(x <- s) w x != 0 -> lhq A (fun=> 0) s = 0.
Proof.
move: {2}(size s) (leqnn (size s)) => n; elim: n s => [|n IH] [|x s] // sz.
- by rewrite big_nil eqxx.
- by rewrite big_nil eqxx.
rewrite big_cons => h; rewrite lhq_cons mul0r add0r big_seq big1 // => z zs.
case: (eqVneq (w x + w z) 0) => [e|/hA->]; last by rewrite mul0r.
rewrite (IH (rem z s)) ?mulr0 ?size_rem //; first by move: sz => /=; lia.
by apply: contraNneq h => h; rewrite (big_rem z zs) /= addrA e h addr0.
Qed.
Lemma H_graded (k : seq nat) : \sum_(i < size k) w i *+ nth 0%N k i != 0 -> lhaf_rep_spec k A (fun=> 0) = 0.
Proof.
move=> h; rewrite lhaf_rep_spec_lhq_any; apply: lhq_graded; apply: contraNneq h => e; apply/eqP; rewrite -[RHS]e {e}.
rewrite /rep_index big_flatten /= big_map.
have -> : \sum_(j <- iota 0 (size k)) \sum_(i <- nseq (nth 0%N k j) j) w i = \sum_(j <- iota 0 (size k)) w j *+ nth 0%N k j.
  by apply: eq_bigr => j _; rewrite big_nseq -Monoid.iteropE; elim: (nth _ _ _) => // m IH; rewrite mulrS -IH.
by rewrite -(big_mkord xpredT (fun j => w j *+ nth 0%N k j)) /index_iota subn0.
Qed.
End Grading.
