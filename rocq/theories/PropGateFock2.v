(** The Fock tensors of the gates of thewalrus/fock_gradients.py are the normalised Taylor coefficients of their generating functions. *)
From mathcomp Require Import all_ssreflect all_algebra zify.
From Verif Require Import Prelude PyBase ArrLoop SpecHaf ThHaf MHermite PropPowerHaf PropHermite SpecGateFock MGateFock ThGrad PropGateFock.
Set Implicit Arguments.
Unset Strict Implicit.
Unset Printing Implicit Defensive.
Import Order.Theory GRing.Theory Num.Theory.
Local Open Scope ring_scope.

Section Passive.
Variable C : numClosedFieldType.
Variables (U00 U01 U10 U11 : C).
Local Notation E k := (passive_gate U00 U01 U10 U11 k / snorm C k).
Let A := symm (fun i j => match i, j with
     | 0%N, 2%N => U00 | 0%N, 3%N => U01 | 1%N, 2%N => U10 | 1%N, 3%N => U11 | _, _ => 0 end).
Lemma passive_rec2 m n p q : (0 < p)%N ->
  sqt C p * E [:: m; n; p; q] = sqt C m * (U00 * E [:: m - 1; n; p - 1; q]%N) + sqt C n * (U10 * E [:: m; n - 1; p - 1; q]%N).
Proof.
move=> h; have := @entry_pivot C A (fun=> 0) 1 (@symmC C _) [:: m; n; p; q]%N 2 h.
rewrite /entry !big_ord_recl big_ord0 /A /symm /= !mul0r !mulr0 !addr0 add0r /dec /= !mul1r; exact.
Qed.
Lemma passive_rec3 m n p q : (0 < q)%N ->
  sqt C q * E [:: m; n; p; q] = sqt C m * (U01 * E [:: m - 1; n; p; q - 1]%N) + sqt C n * (U11 * E [:: m; n - 1; p; q - 1]%N).
Proof.
move=> h; have := @entry_pivot C A (fun=> 0) 1 (@symmC C _) [:: m; n; p; q]%N 3 h.
rewrite /entry !big_ord_recl big_ord0 /A /symm /= !mul0r !mulr0 !addr0 add0r /dec /= !mul1r; exact.
Qed.
(** the number of photons is conserved *)
Lemma passive_conserve m n p q : (m + n != p + q)%N -> passive_gate U00 U01 U10 U11 [:: m; n; p; q] = 0.
Proof.
move=> h; apply: (@H_graded C [zmodType of int] (fun i => match i with 0%N | 1%N => 1 | 2%N | 3%N => -1 | _ => 0 end)).
  by move=> [|[|[|[|x]]]] [|[|[|[|y]]]].
by rewrite !big_ord_recl big_ord0 /=; apply: contraNneq h => h; lia.
Qed.

Theorem passive_fill_correct (cutoff m n p q : nat) : (m < cutoff)%N -> (n < cutoff)%N -> (p < cutoff)%N -> (q < cutoff)%N ->
  passive_fill U00 U01 U10 U11 cutoff [:: m; n; p; q] = passive_gate U00 U01 U10 U11 [:: m; n; p; q] / snorm C [:: m; n; p; q].
Proof.
move=> hm hn hp hq; rewrite /passive_fill.
pose E k := E k.
have E0 a b c d : (a + b != c + d)%N -> E [:: a; b; c; d] = 0 by move=> h; rewrite /E passive_conserve ?mul0r.
set Z0 := updG _ _ 1.
pose Q3 m0 n0 (Z : seq nat -> C) := forall a b c d, (a < cutoff)%N -> (b < cutoff)%N -> (c < cutoff)%N -> (d < cutoff)%N ->
  (a + b != c + d)%N \/ (d = 0%N /\ ((a < m0)%N \/ (a = m0 /\ (b < n0)%N))) -> Z [:: a; b; c; d] = E [:: a; b; c; d].
match goal with |- for_ _ (for_ _ _ ?b) _ _ = _ => set o3 := b end.
have h3 : Q3 cutoff 0%N (for_ (pyrange 0 cutoff) Z0 o3) /\ for_ (pyrange 0 cutoff) Z0 o3 [:: 0; 0; 0; 0]%N = E [:: 0; 0; 0; 0]%N.
  pose Q' i j (Z : seq nat -> C) := (forall a b c d, (a < cutoff)%N -> (b < cutoff)%N -> (c < cutoff)%N -> (d < cutoff)%N ->
    (a + b != c + d)%N \/ (a + b = 0)%N \/ (d = 0%N /\ ((a < i)%N \/ (a = i /\ (b < j)%N))) -> Z [:: a; b; c; d] = E [:: a; b; c; d]).
  suff h : Q' cutoff 0%N (for_ (pyrange 0 cutoff) Z0 o3).
    by split=> [a b c d ha hb hc hd hh|]; apply: h; lia.
  apply: (for_range (Q := fun i D => Q' i 0%N D)) => //.
    move=> a b c d ha hb hc hd hh; rewrite /Z0 /updG; case: eqP => [[-> -> -> ->]|ne].
      by rewrite /E /passive_gate H_nil4 snorm_nil4 divr1.
    rewrite E0 //; case: hh => //; have : ~ (a = 0 /\ b = 0 /\ c = 0 /\ d = 0)%N by [case=> ? [? [? ?]]; subst]; lia.
  move=> i Z hi IH; rewrite /o3; match goal with |- Q' _ _ (for_ _ _ ?b) => set i3 := b end.
  suff : Q' i (cutoff - i)%N (for_ (pyrange 0 (cutoff - i)) Z i3) by move=> h a b c d ha hb hc hd hh; apply: h => //; lia.
  apply: for_range; first by lia.
    by move=> a b c d ha hb hc hd hh; apply: IH => //; lia.
  move=> j Z' hj IH' a b c d ha hb hc hd hh; rewrite /i3 /=; case: ifP => pp; last first.
    by apply: IH' => //; lia.
  rewrite /updG; case: eqP => [[-> -> -> ->]|ne]; last first.
    by apply: IH' => //; have : ~ (a = i /\ b = j /\ c = i + j /\ d = 0)%N by [case=> ? [? [? ?]]; subst]; lia.
  have p0 : (0 < i + j)%N by lia.
  apply: (mulfI (sqt_neq0 C p0)); rewrite passive_rec2 // -/(E _) -/(E _) mulrDr !cancel1 ?sqt_neq0 //.
  rewrite -!mulrA !(mulrCA _ (sqt C _)) (@sqt_wrap C cutoff i (fun x => U00 * Z' [:: x; j; i + j - 1; 0]%N)).
  rewrite (@sqt_wrap C cutoff j (fun x => U10 * Z' [:: i; x; i + j - 1; 0]%N)).
  congr (_ + _); first by case: (posnP i) => [->|i0]; rewrite ?sqt0 ?mul0r // IH' //; lia.
  by case: (posnP j) => [->|i0]; rewrite ?sqt0 ?mul0r // IH' //; lia.
case: h3 => h3 h00.
set Z3 := for_ (pyrange 0 cutoff) Z0 o3 in h3 h00 *.
match goal with |- for_ _ Z3 ?b _ = _ => set o4 := b end.
pose Q i j k (Z : seq nat -> C) := (forall a b c d, (a < cutoff)%N -> (b < cutoff)%N -> (c < cutoff)%N -> (d < cutoff)%N ->
    (a + b != c + d)%N \/ d = 0%N \/ (a < i)%N \/ (a = i /\ ((b < j)%N \/ (b = j /\ (c < k)%N))) -> Z [:: a; b; c; d] = E [:: a; b; c; d]).
suff : Q cutoff 0%N 0%N (for_ (pyrange 0 cutoff) Z3 o4) by apply=> //; lia.
apply: (for_range (Q := fun i D => Q i 0%N 0%N D)) => //.
  move=> a b c d ha hb hc hd hh; apply: h3 => //; lia.
move=> i Z hi IH; rewrite /o4; match goal with |- Q _ _ _ (for_ _ _ ?b) => set i4 := b end.
suff : Q i cutoff 0%N (for_ (pyrange 0 cutoff) Z i4) by move=> h a b c d ha hb hc hd hh; apply: h => //; lia.
apply: (for_range (Q := fun j D => Q i j 0%N D)) => //.
move=> j Z' hj IH'; rewrite /i4; match goal with |- Q _ _ _ (for_ _ _ ?b) => set j4 := b end.
suff : Q i j cutoff (for_ (pyrange 0 cutoff) Z' j4) by move=> h a b c d ha hb hc hd hh; apply: h => //; lia.
apply: for_range => //.
move=> k Z'' hk IH'' a b c d ha hb hc hd hh; rewrite /j4 /=; case: ifP => pp; last first.
  by apply: IH'' => //; lia.
rewrite /updG; case: eqP => [[-> -> -> ->]|ne]; last first.
  apply: IH'' => //; have : ~ (a = i /\ b = j /\ c = k /\ d = i + j - k)%N by [case=> ? [? [? ?]]; subst]; lia.
have p0 : (0 < i + j - k)%N by lia.
apply: (mulfI (sqt_neq0 C p0)); rewrite passive_rec3 // -/(E _) -/(E _) mulrDr !cancel1 ?sqt_neq0 //.
rewrite -!mulrA !(mulrCA _ (sqt C _)) (@sqt_wrap C cutoff i (fun x => U01 * Z'' [:: x; j; k; i + j - k - 1]%N)).
rewrite (@sqt_wrap C cutoff j (fun x => U11 * Z'' [:: i; x; k; i + j - k - 1]%N)).
congr (_ + _); first by case: (posnP i) => [->|i0]; rewrite ?sqt0 ?mul0r // IH'' //; lia.
by case: (posnP j) => [->|i0]; rewrite ?sqt0 ?mul0r // IH'' //; lia.
Qed.
End Passive.

Section GateV.
Variable C : numClosedFieldType.
Variables (exp cosh tanh cos sin : C -> C).
Theorem beamsplitter_correct (theta phi : C) (cutoff m n p q : nat) :
  (sin theta * exp ('i * phi))^* = sin theta * exp (- 'i * phi) ->
  (m < cutoff)%N -> (n < cutoff)%N -> (p < cutoff)%N -> (q < cutoff)%N ->
  beamsplitter exp cos sin theta phi cutoff [:: m; n; p; q]
  = bs_gate (cos theta) (sin theta) (exp ('i * phi)) (exp (- 'i * phi)) [:: m; n; p; q] / snorm C [:: m; n; p; q].
Proof. by move=> hc hm hn hp hq; rewrite /beamsplitter hc passive_fill_correct. Qed.
Theorem mzgate_correct (theta phi : C) (cutoff m n p q : nat) :
  (m < cutoff)%N -> (n < cutoff)%N -> (p < cutoff)%N -> (q < cutoff)%N ->
  mzgate exp theta phi cutoff [:: m; n; p; q]
  = mz_gate 2%:R^-1 'i (exp ('i * phi)) (exp ('i * theta)) [:: m; n; p; q] / snorm C [:: m; n; p; q].
Proof. by move=> hm hn hp hq; rewrite /mzgate passive_fill_correct. Qed.
End GateV.

Section TMS.
Variable C : numClosedFieldType.
Variables (ei eic th sc : C).
Local Notation E k := (tms_gate ei eic th sc k / snorm C k).
Let A := symm (fun i j => match i, j with
     | 0%N, 1%N => ei * th | 0%N, 2%N => sc | 1%N, 3%N => sc | 2%N, 3%N => - (eic * th) | _, _ => 0 end).
Lemma tms_rec0 m n p q : (0 < m)%N ->
  sqt C m * E [:: m; n; p; q] = sqt C n * (ei * th * E [:: m - 1; n - 1; p; q]%N) + sqt C p * (sc * E [:: m - 1; n; p - 1; q]%N).
Proof.
move=> h; have := @entry_pivot C A (fun=> 0) sc (@symmC C _) [:: m; n; p; q]%N 0 h.
rewrite /entry !big_ord_recl big_ord0 /A /symm /= !mul0r !mulr0 !addr0 !add0r /dec /=; exact.
Qed.
Lemma tms_rec2 m n p q : (0 < p)%N ->
  sqt C p * E [:: m; n; p; q] = sqt C m * (sc * E [:: m - 1; n; p - 1; q]%N) + sqt C q * (- (eic * th) * E [:: m; n; p - 1; q - 1]%N).
Proof.
move=> h; have := @entry_pivot C A (fun=> 0) sc (@symmC C _) [:: m; n; p; q]%N 2 h.
rewrite /entry !big_ord_recl big_ord0 /A /symm /= !mul0r !mulr0 !addr0 !add0r /dec /=; exact.
Qed.
Lemma tms_rec3 m n p q : (0 < q)%N ->
  sqt C q * E [:: m; n; p; q] = sqt C n * (sc * E [:: m; n - 1; p; q - 1]%N) + sqt C p * (- (eic * th) * E [:: m; n; p - 1; q - 1]%N).
Proof.
move=> h; have := @entry_pivot C A (fun=> 0) sc (@symmC C _) [:: m; n; p; q]%N 3 h.
rewrite /entry !big_ord_recl big_ord0 /A /symm /= !mul0r !mulr0 !addr0 !add0r /dec /=; exact.
Qed.
(** the difference of the photon numbers is conserved *)
Lemma tms_conserve m n p q : (m + q != n + p)%N -> tms_gate ei eic th sc [:: m; n; p; q] = 0.
Proof.
move=> h; suff H0 : lhaf_rep_spec [:: m; n; p; q] A (fun=> 0) = 0 by rewrite /tms_gate H0 mulr0.
apply: (@H_graded C [zmodType of int] (fun i => match i with 0%N | 3%N => 1 | 1%N | 2%N => -1 | _ => 0 end)).
  by move=> [|[|[|[|x]]]] [|[|[|[|y]]]].
by rewrite !big_ord_recl big_ord0 /=; apply: contraNneq h => h; lia.
Qed.
End TMS.

Section TMSV.
Variable C : numClosedFieldType.
Variables (exp cosh tanh cos sin : C -> C).
Theorem two_mode_squeezing_correct (r theta : C) (cutoff m n p q : nat) :
  (exp (- 'i * theta) * tanh r)^* = exp ('i * theta) * tanh r ->
  (m < cutoff)%N -> (n < cutoff)%N -> (p < cutoff)%N -> (q < cutoff)%N ->
  two_mode_squeezing exp cosh tanh r theta cutoff [:: m; n; p; q]
  = tms_gate (exp ('i * theta)) (exp (- 'i * theta)) (tanh r) (1 / cosh r) [:: m; n; p; q] / snorm C [:: m; n; p; q].
Proof.
move=> hc hm hn hp hq; rewrite /two_mode_squeezing hc !opprK.
set sc := 1 / cosh r; set ei := exp ('i * theta); set eic := exp _; set th := tanh r.
pose E k := tms_gate ei eic th sc k / snorm C k.
have E0 a b c d : (a + d != b + c)%N -> E [:: a; b; c; d] = 0 by move=> h; rewrite /E tms_conserve ?mul0r.
set Z0 := updG _ _ sc.
have bd : (1 <= cutoff)%N by lia.
pose P (Z : seq nat -> C) (W : nat -> nat -> nat -> nat -> Prop) := forall a b c d, (a < cutoff)%N -> (b < cutoff)%N -> (c < cutoff)%N -> (d < cutoff)%N ->
  (a + d != b + c)%N \/ W a b c d -> Z [:: a; b; c; d] = E [:: a; b; c; d].
pose W2 (i a b c d : nat) := (a < i)%N /\ c = 0%N /\ d = 0%N.
match goal with |- for_ _ (for_ _ (for_ _ Z0 ?b) _) _ _ = _ => set o2 := b end.
set Z2 := for_ (pyrange 1 cutoff) Z0 o2.
have h2 : P Z2 (W2 cutoff).
  apply: (for_range (Q := fun i Z => P Z (W2 i))) => //.
    move=> a b c d ha hb hc' hd hh; rewrite /Z0 /updG; case: eqP => [[-> -> -> ->]|ne].
      by rewrite /E /tms_gate H_nil4 snorm_nil4 mulr1 divr1.
    rewrite E0 //; case: hh => //; rewrite /W2; have : ~ (a = 0 /\ b = 0 /\ c = 0 /\ d = 0)%N by [case=> ? [? [? ?]]; subst]; lia.
  move=> i Z hi IH a b c d ha hb hc' hd hh; rewrite /o2 /updG; case: eqP => [[-> -> -> ->]|ne]; last first.
    apply: IH => //; move: hh; rewrite /W2; have : ~ (a = i /\ b = i /\ c = 0 /\ d = 0)%N by [case=> ? [? [? ?]]; subst]; lia.
  have i0 : (0 < i)%N by lia.
  apply: (mulfI (sqt_neq0 C i0)); rewrite tms_rec0 // sqt0 mul0r addr0 -/(E _) IH; [by []|rewrite /W2; lia..].
match goal with |- for_ _ (for_ _ Z2 ?b) _ _ = _ => set o3 := b end.
set Z3 := for_ (pyrange 0 cutoff) Z2 o3.
pose W3 (i j a b c d : nat) := d = 0%N /\ (c = 0%N \/ (a < i)%N \/ (a = i /\ (b < j)%N)).
have h3 : P Z3 (W3 cutoff 0%N).
  apply: (for_range (Q := fun i Z => P Z (W3 i 0%N))) => //.
    by move=> a b c d ha hb hc' hd hh; apply: h2 => //; move: hh; rewrite /W2 /W3; lia.
  move=> i Z hi IH; rewrite /o3; match goal with |- P (for_ _ _ ?b) _ => set i3 := b end.
  suff : P (for_ (pyrange 0 i) Z i3) (W3 i i).
    move=> h a b c d ha hb hc' hd hh; apply: h => //; move: hh; rewrite /W3; lia.
  apply: (for_range (Q := fun j Z => P Z (W3 i j))) => //.
  move=> j Z' hj IH' a b c d ha hb hc' hd hh; rewrite /i3 /=; case: ifP => pp; last first.
    by apply: IH' => //; move: hh; rewrite /W3; lia.
  rewrite /updG; case: eqP => [[-> -> -> ->]|ne]; last first.
    by apply: IH' => //; move: hh; rewrite /W3; have : ~ (a = i /\ b = j /\ c = i - j /\ d = 0)%N by [case=> ? [? [? ?]]; subst]; lia.
  have p0 : (0 < i - j)%N by lia.
  apply: (mulfI (sqt_neq0 C p0)); rewrite tms_rec2 // sqt0 mul0r addr0 cancel1 ?sqt_neq0 // -/(E _) IH'; [|rewrite /W3; lia..].
  by rewrite -(mulrA sc) mulrCA.
match goal with |- for_ _ Z3 ?b _ = _ => set o4 := b end.
pose W4 (i j k a b c d : nat) := d = 0%N \/ (a < i)%N \/ (a = i /\ ((b < j)%N \/ (b = j /\ (c < k)%N))).
suff : P (for_ (pyrange 0 cutoff) Z3 o4) (W4 cutoff 0%N 0%N) by apply=> //; rewrite /W4; lia.
apply: (for_range (Q := fun i Z => P Z (W4 i 0%N 0%N))) => //.
  by move=> a b c d ha hb hc' hd hh; apply: h3 => //; move: hh; rewrite /W3 /W4; lia.
move=> i Z hi IH; rewrite /o4; match goal with |- P (for_ _ _ ?b) _ => set i4 := b end.
suff : P (for_ (pyrange 0 cutoff) Z i4) (W4 i cutoff 0%N) by move=> h a b c d ha hb hc' hd hh; apply: h => //; move: hh; rewrite /W4; lia.
apply: (for_range (Q := fun j Z => P Z (W4 i j 0%N))) => //.
move=> j Z' hj IH'; rewrite /i4; match goal with |- P (for_ _ _ ?b) _ => set j4 := b end.
suff : P (for_ (pyrange 0 cutoff) Z' j4) (W4 i j cutoff) by move=> h a b c d ha hb hc' hd hh; apply: h => //; move: hh; rewrite /W4; lia.
apply: (for_range (Q := fun k Z => P Z (W4 i j k))) => //.
move=> k Z'' hk IH'' a b c d ha hb hc' hd hh; rewrite /j4 /=; case: ifP => pp; last first.
  by apply: IH'' => //; move: hh; rewrite /W4; lia.
rewrite /updG; case: eqP => [[-> -> -> ->]|ne]; last first.
  apply: IH'' => //; move: hh; rewrite /W4; have : ~ (a = i /\ b = j /\ c = k /\ d = k + j - i)%N by [case=> ? [? [? ?]]; subst]; lia.
have p0 : (0 < k + j - i)%N by lia.
apply: (mulfI (sqt_neq0 C p0)); rewrite tms_rec3 // -/(E _) -/(E _) mulrDr !cancel1 ?sqt_neq0 //.
rewrite -!(mulrA _ (sqt C _)) !(mulrCA _ (sqt C _)) (@sqt_wrap C cutoff j (fun x => sc * Z'' [:: i; x; k; k + j - i - 1]%N)).
rewrite (@sqt_wrap C cutoff k (fun x => - (eic * th) * Z'' [:: i; j; x; k + j - i - 1]%N)).
congr (_ + _); first by case: (posnP j) => [->|i0]; rewrite ?sqt0 ?mul0r // IH'' //; rewrite /W4; lia.
by case: (posnP k) => [->|i0]; rewrite ?sqt0 ?mul0r // IH'' //; rewrite /W4; lia.
Qed.
End TMSV.
