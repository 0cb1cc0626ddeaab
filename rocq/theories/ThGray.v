(** Gray codes on natural numbers (bit operations of Coq's Nat). *)
From Coq Require Import PeanoNat.
From mathcomp Require Import all_ssreflect zify.
Set Implicit Arguments.
Unset Strict Implicit.
Unset Printing Implicit Defensive.

Definition bit (k i : nat) : bool := Nat.testbit k i.
Definition gray (k : nat) : nat := Nat.lxor k (k %/ 2).

Lemma div2E k : k %/ 2 = Nat.div2 k.
Proof.
rewrite divn2; elim/ltn_ind: k => -[|[|k]] // IH.
by rewrite -[k.+2./2]/(k./2.+1) IH.
Qed.
Lemma bitS k i : bit k i.+1 = bit (k %/ 2) i. Proof. by rewrite div2E. Qed.
Lemma bit0k k : bit k 0 = odd k.
Proof.
rewrite /bit /=; elim/ltn_ind: k => -[|[|k]] // IH.
by rewrite -[Nat.odd k.+2]/(Nat.odd k) IH //= negbK.
Qed.
Lemma bit_xor a b i : bit (Nat.lxor a b) i = bit a i (+) bit b i.
Proof. by rewrite /bit Nat.lxor_spec; case: (Nat.testbit a i); case: (Nat.testbit b i). Qed.
Lemma bit_gray k i : bit (gray k) i = bit k i (+) bit k i.+1.
Proof. by rewrite bit_xor bitS. Qed.
Lemma bit0n i : bit 0 i = false. Proof. exact: Nat.bits_0. Qed.
Lemma bit_inj a b : (forall i, bit a i = bit b i) -> a = b.
Proof. by move=> h; apply: Nat.bits_inj => i; apply: h. Qed.
Lemma pow2E t : Nat.pow 2 t = 2 ^ t.
Proof. by elim: t => // t IH; rewrite expnS -IH /=; lia. Qed.
Lemma bit_pow2 t i : bit (2 ^ t) i = (i == t).
Proof. by rewrite -pow2E /bit Nat.pow2_bits_eqb; apply/idP/idP; [move/Nat.eqb_eq->|move/eqP->; apply/Nat.eqb_eq]. Qed.
Lemma bit_small n k i : k < 2 ^ n -> n <= i -> bit k i = false.
Proof.
elim: n k i => [|n IH] k i; first by rewrite ltnS leqn0 => /eqP-> _; rewrite bit0n.
case: i => // i kn ni; rewrite bitS; apply: IH => //.
by rewrite expnS in kn; lia.
Qed.
Lemma bit_inj_small n a b : a < 2 ^ n -> b < 2 ^ n -> (forall i, i < n -> bit a i = bit b i) -> a = b.
Proof.
by move=> an bn h; apply: bit_inj => i; case: (ltnP i n) => [/h//|hi]; rewrite !(@bit_small n).
Qed.

(** successive integers differ in their low bits 0..t *)
Lemma succ_bits k : exists t, forall i, bit k i (+) bit k.+1 i = (i <= t).
Proof.
elim/ltn_ind: k => k IH; case: (boolP (odd k)) => ok.
  have kd : k %/ 2 < k by rewrite ltn_Pdiv //; case: (k) ok.
  have [t ht] := IH _ kd; exists t.+1 => -[|i]; first by rewrite !bit0k /= ok.
  rewrite !bitS ltnS -ht; congr (_ (+) bit _ i).
  by have := odd_double_half k; rewrite ok -divn2; lia.
exists 0 => -[|i]; first by rewrite !bit0k /= (negPf ok).
rewrite !bitS (_ : k.+1 %/ 2 = k %/ 2) ?addbb //.
by have := odd_double_half k; rewrite (negPf ok) -divn2; lia.
Qed.

Lemma gray_succ n k : k.+1 < 2 ^ n ->
  exists2 t, t < n & Nat.lxor (gray k) (gray k.+1) = 2 ^ t.
Proof.
move=> kn; have [t ht] := succ_bits k.
exists t.
  rewrite ltnNge; apply/negP => nt.
  have := ht t; rewrite leqnn !(@bit_small n) //; lia.
apply: bit_inj => i; rewrite bit_xor !bit_gray bit_pow2.
have := ht i; have := ht i.+1.
case: (bit k i); case: (bit k i.+1); case: (bit k.+1 i); case: (bit k.+1 i.+1) => /= h1 h2; lia.
Qed.
Lemma gray0 : gray 0 = 0. Proof. by []. Qed.
Lemma gray_last n : 0 < n -> Nat.lxor (gray (2 ^ n - 1)) (gray 0) = 2 ^ n.-1.
Proof.
move=> n0; apply: bit_inj => i; rewrite bit_xor bit_gray gray0 bit0n addbF bit_pow2.
have h m j : bit (2 ^ m - 1) j = (j < m).
  elim: m j => [|m IH] [|j]; rewrite ?bit0n // ?bit0k ?bitS.
    by rewrite expnS; have := expn_gt0 2 m; lia.
  rewrite (_ : (2 ^ m.+1 - 1) %/ 2 = 2 ^ m - 1) ?IH // expnS; have := expn_gt0 2 m; lia.
by rewrite !h; lia.
Qed.
(** at the boundary 2^n the code changes in bit n *)
Lemma gray_pow n : Nat.lxor (gray (2 ^ n - 1)) (gray (2 ^ n)) = 2 ^ n.
Proof.
have h : (2 ^ n - 1).+1 = 2 ^ n by have := expn_gt0 2 n; lia.
have hb m j : bit (2 ^ m - 1) j = (j < m).
  elim: m j => [|m IH] [|j]; rewrite ?bit0n // ?bit0k ?bitS.
    by rewrite expnS; have := expn_gt0 2 m; lia.
  rewrite (_ : (2 ^ m.+1 - 1) %/ 2 = 2 ^ m - 1) ?IH // expnS; have := expn_gt0 2 m; lia.
apply: bit_inj => i; rewrite bit_xor !bit_gray !bit_pow2 !hb; lia.
Qed.

Lemma gray_lt n k : k < 2 ^ n -> forall i, n <= i -> bit (gray k) i = false.
Proof. by move=> kn i ni; rewrite bit_gray !(@bit_small n) //; lia. Qed.

Lemma gray_inj n a b : a < 2 ^ n -> b < 2 ^ n -> (forall i, i < n -> bit (gray a) i = bit (gray b) i) -> a = b.
Proof.
move=> an bn h; apply: (@bit_inj_small n) => // i ni.
have: forall j, j <= n -> bit a (n - j) = bit b (n - j).
  elim=> [|j IH] hj; first by rewrite subn0 !(@bit_small n).
  have := h (n - j.+1); rewrite !bit_gray (_ : (n - j.+1).+1 = n - j) ?IH //; [|lia|lia].
  move=> /(_ _) h'; have {}h' := h' ltac:(lia).
  by move: h'; case: (bit a (n - j.+1)); case: (bit b (n - j.+1)); case: (bit b (n - j)).
by move/(_ (n - i)); rewrite subKn; [apply; lia | lia].
Qed.

(** parity of the number of ones *)
Lemma gray_parity n k : k < 2 ^ n -> odd (\sum_(i < n) bit (gray k) i) = odd k.
Proof.
move=> kn; have: forall m, odd (\sum_(i < m) bit (gray k) i) = bit k 0 (+) bit k m.
  elim=> [|m IH]; first by rewrite big_ord0 addbb.
  rewrite big_ord_recr oddD IH bit_gray oddb; case: (bit k 0); case: (bit k m); by case: (bit k m.+1).
by move/(_ n) => ->; rewrite bit0k (@bit_small n) ?addbF.
Qed.

(** comparison of numbers that differ in one bit *)
Lemma xor_pow2_lt a b t : Nat.lxor a b = 2 ^ t -> bit a t -> b < a.
Proof.
move=> e at_.
have bt i : bit a i (+) bit b i = (i == t) by rewrite -bit_xor e bit_pow2.
have nc : Nat.land b (Nat.pow 2 t) = 0.
  apply: bit_inj => i; rewrite bit0n /bit Nat.land_spec -/(bit b i) -/(bit _ i) pow2E bit_pow2.
  by case: eqP => [->|_]; [have := bt t; rewrite at_ eqxx; case: (bit b t) | case: (bit b i)].
have ea : a = b + 2 ^ t.
  rewrite -pow2E -[LHS]/a; have -> : b + Nat.pow 2 t = Nat.lxor b (Nat.pow 2 t) by exact: Nat.add_nocarry_lxor.
  apply: bit_inj => i; rewrite bit_xor pow2E bit_pow2 -bt; by case: (bit a i); case: (bit b i).
by rewrite ea -{1}[b]addn0 ltn_add2l expn_gt0.
Qed.
Lemma xor_pow2_cmp a b t : Nat.lxor a b = 2 ^ t -> (b < a) = bit a t.
Proof.
move=> e; case: (boolP (bit a t)) => at_; first by rewrite (xor_pow2_lt e).
have e' : Nat.lxor b a = 2 ^ t by rewrite Nat.lxor_comm.
have bt : bit b t by have := bit_xor a b t; rewrite e bit_pow2 eqxx (negPf at_).
by have := xor_pow2_lt e' bt; lia.
Qed.
Lemma xor_pow2_bits a b t i : Nat.lxor a b = 2 ^ t -> bit b i = if i == t then ~~ bit a t else bit a i.
Proof.
move=> e; have := bit_xor a b i; rewrite e bit_pow2; case: eqP => [->|_]; first by case: (bit a t); case: (bit b t).
by case: (bit a i); case: (bit b i).
Qed.

Lemma index_pow2 n t : t < n -> index (2 ^ t) [seq 2 ^ i | i <- iota 0 n] = t.
Proof.
move=> tn; rewrite (index_map (f := expn 2)); last by move=> a b /eqP; rewrite eqn_exp2l // => /eqP.
have e : nth 0 (iota 0 n) t = t by rewrite nth_iota.
by rewrite -{1}e index_uniq ?iota_uniq // size_iota.
Qed.
Lemma bit_top n k : 2 ^ n <= k < 2 ^ n.+1 -> bit k n.
Proof.
elim: n k => [|n IH] k; first by case: k => [|[|k]].
rewrite !expnS => h; rewrite bitS; apply: IH; rewrite expnS; lia.
Qed.
