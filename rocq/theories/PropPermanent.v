(** C24, C25: the permanent. *)
From Coq Require Import PeanoNat.
From mathcomp Require Import all_ssreflect all_fingroup all_algebra all_field zify.
From Verif Require Import Prelude PyBase ArrLoop SpecHaf ThHaf ThGray ThPerm ThRec MPowerHaf MHafnian MPermanent PropRecursive PropHafnian.
Set Implicit Arguments.
Unset Strict Implicit.
Unset Printing Implicit Defensive.
Import Order.Theory GRing.Theory Num.Theory.
Local Open Scope ring_scope.

Lemma foldM_inv S m n (s : S) (body : S -> nat -> res S) (Q : nat -> S -> Prop) :
  Q m s -> (forall i t, (m <= i < m + n)%N -> Q i t -> exists2 t', body t i = Ok t' & Q i.+1 t') ->
  exists2 s', foldM body s (iota m n) = Ok s' & Q (m + n)%N s'.
Proof.
elim: n m s => [|n IH] m s q0 qs; first by exists s; rewrite ?addn0.
have [|t' e q1] := qs m s _ q0; first by lia.
rewrite /= e /= addnS -addSn; apply: IH => // i t hi; apply: qs; lia.
Qed.

Section Ring.
Variable R : comRingType.
Notation mat := (nat -> nat -> R).

Lemma add_rowE n rc nv (d : R) i : (i < n)%N -> add_row n rc nv d i = rc i + nv i * d.
Proof.
move=> hi; rewrite /add_row (@for_acc1 _ _ _ _ (fun x a => if a == x then nv x * d else 0)).
  rewrite (bigD1_seq i) ?iota_uniq ?mem_iota //= eqxx big1 ?addr0 // => j /negPf.
  by rewrite eq_sym => ->.
by move=> x c a; rewrite /upd1; case: eqP => [->|]; rewrite ?addr0.
Qed.
Lemma np_prodE n (v : nat -> R) : np_prod n v = \prod_(i < n) v i.
Proof. by rewrite /np_prod for_prod mul1r prod_iota. Qed.

(** flipping bit t *)
Lemma sum_flip n (c : bool -> R) (f : nat -> R) a b t : (t < n)%N -> Nat.lxor a b = (2 ^ t)%N ->
  \sum_(r < n) c (bit b r) * f r = \sum_(r < n) c (bit a r) * f r + (c (~~ bit a t) - c (bit a t)) * f t.
Proof.
move=> tn e; rewrite (bigD1 (Ordinal tn)) //= [X in _ = X + _](bigD1 (Ordinal tn)) //=.
rewrite (xor_pow2_bits t e) eqxx (eq_bigr (fun r : 'I_n => c (bit a r) * f r)); last first.
  move=> r rt; rewrite (xor_pow2_bits r e) ifN //.
by rring.
Qed.
Lemma pycmp_bit a b t : Nat.lxor a b = (2 ^ t)%N -> pycmp R a b = (-1) ^+ (~~ bit a t).
Proof.
move=> e; rewrite /pycmp (xor_pow2_cmp e).
have e' : Nat.lxor b a = (2 ^ t)%N by rewrite Nat.lxor_comm.
rewrite (xor_pow2_cmp e') (xor_pow2_bits t e) eqxx.
by case: (bit a t); rewrite /= ?subr0 ?sub0r.
Qed.

Lemma in_powers n t : (t < n)%N -> (2 ^ t)%N \in [seq (2 ^ i)%N | i <- iota 0 n].
Proof. by move=> tn; apply: map_f; rewrite mem_iota. Qed.

(** C24: over every commutative ring *)
Theorem perm_ryser_correct n (M : mat) : perm_ryser n M = Ok (perm_spec n M).
Proof.
rewrite /perm_ryser; case: eqP => [->|n0].
  by congr Ok; rewrite /perm_spec (eq_bigr (fun=> 1)) => [|s _]; rewrite ?big_ord0 // sumr_const card_Sn fact0.
set body := (fun st k => _); set s0 := (_, _, _, _).
pose T k := \sum_(j < k) (-1) ^+ j * \prod_(i < n) (- \sum_(r < n) (bit (gray j) r)%:R * M r i).
pose Q k (st : gstate R) := let: (rc, total, old, sign) := st in
  total = T k /\ ((k < 2 ^ n)%N -> [/\ old = gray k, sign = (-1) ^+ k &
     forall i, (i < n)%N -> rc i = - \sum_(r < n) (bit (gray k) r)%:R * M r i]).
have [|k st hk qk|[[[rc total] old] sign] -> [tot _]] := @foldM_inv _ 0%N (2 ^ n)%N s0 body Q.
- split; first by rewrite /T big_ord0.
  by split=> // i _; rewrite gray0 big1 ?oppr0 // => r _; rewrite bit0n mul0r.
- case: st qk => [[[rc total] old] sign] [tot h].
  have [//|oldE signE rcE] := h.
  have totE : total + sign * np_prod n rc = T k.+1.
    rewrite /T big_ord_recr /= -/(T k) tot signE np_prodE; congr (_ + _ * _).
    by apply: eq_bigr => i _; rewrite rcE.
  case: (ltnP k.+1 (2 ^ n)) => k1.
    have [t tn e] := gray_succ k1.
    rewrite /body modn_small // -/(gray k.+1) oldE e in_powers //= index_pow2 //.
    eexists; first by []; split=> // _; split=> //; first by rewrite signE exprS mulN1r.
    move=> i hi; rewrite add_rowE // rcE // (sum_flip (fun b : bool => b%:R) (fun r => M r i) tn e) (pycmp_bit e).
    by case: (bit (gray k) t); rewrite /= ?expr0 ?expr1; rring.
  have k2 : k = (2 ^ n - 1)%N by lia.
  have n1 : (0 < n)%N by lia.
  rewrite /body (_ : k.+1 = 2 ^ n)%N ?modnn; last by lia.
  rewrite -/(gray 0) oldE k2 gray_last // in_powers ?prednK //=.
  eexists; first by []; split; last by rewrite ltnn.
  by rewrite totE; congr T; lia.
rewrite add0n in tot; rewrite /= tot; congr Ok.
have := ryser_formula n M => /(congr1 (fun x => (-1) ^+ n * x)); rewrite mulrA -expr2 sqrr_sign mul1r => <-.
rewrite -gray_sum mulr_sumr /T; apply: eq_bigr => k _; rewrite gset_sign //.
rewrite mulrCA; congr (_ * _); rewrite prodrN card_ord; congr (_ * _).
apply: eq_bigr => i _; rewrite [RHS]big_mkcond /=; apply: eq_bigr => r _.
by rewrite inE; case: (bit _ _); rewrite ?mul1r ?mul0r.
Qed.
End Ring.

(** C25 *)
Theorem perm_bbfg_correct (K : fieldType) n (M : nat -> nat -> K) : 2%:R != 0 :> K ->
  perm_bbfg n M = Ok (perm_spec n M).
Proof.
move=> two; rewrite /perm_bbfg; case: n => [|n].
  by congr Ok; rewrite /perm_spec (eq_bigr (fun=> 1)) => [|s _]; rewrite ?big_ord0 // sumr_const card_Sn fact0.
rewrite [_ == _]/= subn1 [n.+1.-1]/=.
set body := (fun st k => _); set s0 := (_, _, _, _).
pose T k := \sum_(j < k) (-1) ^+ j * \prod_(i < n.+1) (\sum_(r < n.+1) (-1) ^+ (bit (gray j) r) * M r i).
pose Q k (st : gstate K) := let: (rc, total, old, sign) := st in
  [/\ total = T k.-1, old = gray k.-1, sign = (-1) ^+ k.-1 &
     forall i, (i < n.+1)%N -> rc i = \sum_(r < n.+1) (-1) ^+ (bit (gray k.-1) r) * M r i].
have [|k st hk qk|[[[rc total] old] sign] -> [tot _ _ _]] := @foldM_inv _ 1%N (2 ^ n)%N s0 body Q.
- split=> //; first by rewrite /T big_ord0.
  by move=> i _; rewrite for_sum add0r sum_iota; apply: eq_bigr => r _; rewrite gray0 bit0n mul1r.
- case: st qk => [[[rc total] old] sign] [tot oldE signE rcE].
  case: k hk tot oldE signE rcE => [|k] hk tot oldE signE rcE; first by lia.
  rewrite [k.+1.-1]/= in tot oldE signE rcE.
  have totE : total + sign * np_prod n.+1 rc = T k.+1.
    rewrite /T big_ord_recr /= -/(T k) tot signE np_prodE; congr (_ + _ * _).
    by apply: eq_bigr => i _; rewrite rcE.
  have k1 : (k.+1 < 2 ^ n.+1)%N by have := expn_gt0 2 n; rewrite expnS; lia.
  have [t tn e] := gray_succ k1.
  rewrite /body -/(gray k.+1) oldE e in_powers // index_pow2 //.
  eexists; first by []; split=> //; first by rewrite signE exprS mulN1r.
  move=> i hi; rewrite add_rowE // rcE // (sum_flip (fun b : bool => (-1) ^+ b) (fun r => M r i) tn e) (pycmp_bit K e).
  by case: (bit (gray k) t); rewrite /= ?expr0 ?expr1; rring.
rewrite add1n /= in tot; rewrite /= tot; congr Ok.
have h := glynn_half n M.
have -> : T (2 ^ n)%N = \sum_(S : {set 'I_n.+1} | ord_max \notin S) (-1) ^+ #|S| * \prod_(i < n.+1) (\sum_(r < n.+1) (-1) ^+ (r \in S) * M r i).
  rewrite big_mkcond /= -gray_sum /T.
  rewrite (big_ord_widen_cond (2 ^ n.+1) xpredT (fun j => (-1) ^+ j * \prod_(i < n.+1) (\sum_(r < n.+1) (-1) ^+ bit (gray j) r * M r i))); last by rewrite leq_exp2l.
  rewrite big_mkcond /=; apply: eq_bigr => k _; rewrite gset_sign // inE /=.
  have -> : bit (gray k) n = ~~ (k < 2 ^ n)%N.
    case: ltnP => kn; first by rewrite (@gray_lt n).
    by rewrite bit_gray [bit k n.+1](@bit_small n.+1) // addbF bit_top // kn /=.
  rewrite negbK; case: ifP => // _; congr (_ * _); apply: eq_bigr => i _; apply: eq_bigr => r _; by rewrite inE.
apply: (mulIf (_ : (2 ^ n)%:R != 0)); first by rewrite natrX expf_neq0.
rewrite divfK ?natrX ?expf_neq0 //; apply: (mulfI two).
by rewrite [perm_spec _ _ * _]mulrC [RHS]mulrA -exprS -h mulr_natl.
Qed.
