(** The Fock tensors of the gates of thewalrus/fock_gradients.py are the normalised Taylor coefficients of their generating functions. *)
From mathcomp Require Import all_ssreflect all_algebra zify.
From Verif Require Import Prelude PyBase ArrLoop SpecHaf ThHaf MHermite PropPowerHaf PropHermite SpecGateFock MGateFock ThGrad.
Set Implicit Arguments.
Unset Strict Implicit.
Unset Printing Implicit Defensive.
Import Order.Theory GRing.Theory Num.Theory.
Local Open Scope ring_scope.

Lemma for_range S a b (s : S) (body : S -> nat -> S) (Q : nat -> S -> Prop) : (a <= b)%N -> Q a s ->
  (forall i t, (a <= i < b)%N -> Q i t -> Q i.+1 (body t i)) -> Q b (for_ (pyrange a b) s body).
Proof.
move=> ab h0 hS; rewrite /pyrange; have e : (a + (b - a))%N = b by lia.
by rewrite -[X in Q X _]e; apply: for_inv => // i t hi; apply: hS; lia.
Qed.
Lemma for_filter X S (p : pred X) l (s : S) (body : S -> X -> S) :
  for_ (filter p l) s body = for_ l s (fun s x => if p x then body s x else s).
Proof. by elim: l s => //= x l IH s; rewrite [RHS]for_cons; case: (p x); rewrite ?for_cons IH. Qed.

Section Common.
Variable C : numClosedFieldType.
Lemma sqt0 : sqt C 0 = 0. Proof. exact: sqrtC0. Qed.
Lemma sqt_neq0 n : (0 < n)%N -> sqt C n != 0. Proof. by move=> h; rewrite /sqt sqrtC_eq0 pnatr_eq0 -lt0n. Qed.
Lemma wrap_pos c m : (0 < m)%N -> wrap c m 1 = (m - 1)%N. Proof. by rewrite /wrap => ->. Qed.
(** reads at wrapped positions have coefficient 0 *)
Lemma sqt_wrap c m (f : nat -> C) : sqt C m * f (wrap c m 1) = sqt C m * f (m - 1)%N.
Proof. by case: (posnP m) => [->|h]; rewrite ?sqt0 ?mul0r ?wrap_pos. Qed.
Lemma sqt_wrap2 c m (f : nat -> C) : sqt C m * (sqt C (wrap c m 1) * f (wrap c m 2)) = sqt C m * (sqt C (m - 1) * f (m - 2)%N).
Proof.
case: m => [|[|m]]; first by rewrite sqt0 !mul0r.
  by rewrite /wrap /= subnn sqt0 !mul0r.
by rewrite /wrap /=.
Qed.
Lemma cancel1 (s a b : C) : s != 0 -> s * (a / s * b) = a * b.
Proof. by move=> h; rewrite mulrA [s * _]mulrC divfK. Qed.
Lemma cancel2 (s a b : C) : s != 0 -> s * (a * (s^-1 * b)) = a * b.
Proof. by move=> h; rewrite mulrCA mulVKf. Qed.
Lemma cancel3 (s a b z : C) : s != 0 -> s * (a / s * b * z) = a * (b * z).
Proof. by move=> h; rewrite -!mulrA cancel2. Qed.
Lemma updG_ok (Z E : seq nat -> C) (W W' : seq nat -> Prop) k0 v : (forall k, W k -> Z k = E k) -> v = E k0 ->
  (forall k, W' k -> k != k0 -> W k) -> forall k, W' k -> updG Z k0 v k = E k.
Proof. by move=> h e hW k hk; rewrite /updG; case: eqP => [->//|/eqP ne]; apply: h; apply: hW. Qed.
Lemma symmC (R : comRingType) (E : nat -> nat -> R) x y : symm E x y = symm E y x.
Proof. by rewrite /symm; case: ltngtP => // ->. Qed.
Lemma snorm_nil2 : snorm C [:: 0; 0]%N = 1. Proof. by rewrite /snorm !big_cons big_nil fact0 sqrtC1 !mulr1. Qed.
Lemma snorm_nil4 : snorm C [:: 0; 0; 0; 0]%N = 1. Proof. by rewrite /snorm !big_cons big_nil fact0 sqrtC1 !mulr1. Qed.
End Common.
Lemma H_nil2 (R : comRingType) (A : nat -> nat -> R) mu : lhaf_rep_spec [:: 0; 0]%N A mu = 1.
Proof. by rewrite lhaf_rep_spec_lhq_any lhq_nil. Qed.
Lemma H_nil4 (R : comRingType) (A : nat -> nat -> R) mu : lhaf_rep_spec [:: 0; 0; 0; 0]%N A mu = 1.
Proof. by rewrite lhaf_rep_spec_lhq_any lhq_nil. Qed.

Section Disp.
Variable C : numClosedFieldType.
Variables (c al alc : C).
Local Notation E k := (disp_gate c al alc k / snorm C k).
Let Asym : forall x y : nat, (x != y)%:R = (y != x)%:R :> C. Proof. by move=> x y; rewrite eq_sym. Qed.
Lemma disp_rec0 m : (0 < m)%N -> sqt C m * E [:: m; 0]%N = al * E [:: m - 1; 0]%N.
Proof.
move=> h; have := @entry_pivot C _ (fun i => if i == 0%N then al else - alc) c Asym [:: m; 0]%N 0 h.
rewrite /entry !big_ord_recl big_ord0 /= !mul0r !addr0 sqrtC0 !mul0r mulr0 !addr0; exact.
Qed.
Lemma disp_rec m n : (0 < n)%N -> sqt C n * E [:: m; n] = - alc * E [:: m; n - 1]%N + sqt C m * E [:: m - 1; n - 1]%N.
Proof.
move=> h; have := @entry_pivot C _ (fun i => if i == 0%N then al else - alc) c Asym [:: m; n] 1 h.
rewrite /entry !big_ord_recl big_ord0 /= mul0r mulr0 !addr0 mul1r; exact.
Qed.
End Disp.

Section DispV.
Variable C : numClosedFieldType.
Variable exp : C -> C.
Theorem displacement_correct (r phi : C) (cutoff m n : nat) : (m < cutoff)%N -> (n < cutoff)%N ->
  displacement exp r phi cutoff [:: m; n]
  = disp_gate (exp (- 2%:R^-1 * r ^+ 2)) (r * exp ('i * phi)) (r * exp (- 'i * phi)) [:: m; n] / snorm C [:: m; n].
Proof.
move=> hm hn; rewrite /displacement.
set c := exp (_ * r ^+ 2); set al := r * exp ('i * phi); set alc := r * exp (- 'i * phi).
pose E k := disp_gate c al alc k / snorm C k.
have -> : - r * exp (- 'i * phi) = - alc by rewrite /alc mulNr.
set D0 := updG _ _ c; set D1 := for_ (pyrange 1 cutoff) D0 _.
have h1 : forall a, (a < cutoff)%N -> D1 [:: a; 0]%N = E [:: a; 0]%N.
  have c1 : (1 <= cutoff)%N by lia.
  apply: (for_range (Q := fun i (D : seq nat -> C) => forall a, (a < i)%N -> D [:: a; 0]%N = E [:: a; 0]%N)) => //.
    by move=> [|a] // _; rewrite /D0 /updG eqxx /E /disp_gate H_nil2 snorm_nil2 mulr1 divr1.
  move=> i D hi IH a ha; rewrite /updG; case: eqP => [[->]|ne]; last by apply: IH; have : a <> i by [move=> ?; subst]; lia.
  have i0 : (0 < i)%N by lia.
  by apply: (mulfI (sqt_neq0 C i0)); rewrite disp_rec0 // cancel1 ?sqt_neq0 // IH //; lia.
pose Q m0 n0 (D : seq nat -> C) := forall a b, (a < cutoff)%N -> (b < cutoff)%N ->
  b = 0%N \/ (a < m0)%N \/ (a = m0 /\ (b < n0)%N) -> D [:: a; b] = E [:: a; b].
suff : Q cutoff 0%N (for_ (pyrange 0 cutoff) D1 (fun D m => for_ (pyrange 1 cutoff) D (fun D n =>
    updG D [:: m; n] (- alc / sqt C n * D [:: m; n - 1]%N + sqt C m / sqt C n * D [:: wrap cutoff m 1; n - 1]%N)))).
  by apply=> //; lia.
apply: (for_range (Q := fun i D => Q i 0%N D)) => //; first by move=> a b ha hb [->|h]; [apply: h1|lia].
move=> i D hi IH.
suff : Q i cutoff (for_ (pyrange 1 cutoff) D (fun D n =>
    updG D [:: i; n] (- alc / sqt C n * D [:: i; n - 1]%N + sqt C i / sqt C n * D [:: wrap cutoff i 1; n - 1]%N))).
  by move=> h a b ha hb hh; apply: h => //; lia.
apply: for_range; first by lia.
  by move=> a b ha hb hh; apply: IH => //; lia.
move=> j D' hj IH' a b ha hb hh; rewrite /updG; case: eqP => [[-> ->]|ne]; last first.
  apply: IH' => //; have : ~ (a = i /\ b = j) by [case=> *; subst]; lia.
have j0 : (0 < j)%N by lia.
rewrite (IH' i (j - 1)%N); [|lia..].
apply: (mulfI (sqt_neq0 C j0)); rewrite disp_rec // -/(E _) -/(E _) mulrDr !cancel1 ?sqt_neq0 //; congr (_ + _).
rewrite (@sqt_wrap C cutoff i (fun x => D' [:: x; j - 1]%N)).
by case: (posnP i) => [->|i0]; rewrite ?sqt0 ?mul0r // IH' //; lia.
Qed.
End DispV.

Section Squeeze.
Variable C : numClosedFieldType.
Variables (c ei eic th sc : C).
Local Notation E k := (sq_gate c ei eic th sc k / snorm C k).
Let A := symm (fun i j => if j == 0%N then - (ei * th) else if i == 0%N then sc else eic * th).
Lemma sq_rec0 m : (0 < m)%N -> sqt C m * E [:: m; 0]%N = sqt C (m - 1) * (- (ei * th) * E [:: m - 2; 0]%N).
Proof.
move=> h; have := @entry_pivot C A (fun=> 0) c (@symmC C _) [:: m; 0]%N 0 h.
rewrite /entry !big_ord_recl big_ord0 /= !mul0r !addr0 sqrtC0 !mul0r add0r !addr0 /dec /= -subnDA; exact.
Qed.
Lemma sq_rec m n : (0 < n)%N ->
  sqt C n * E [:: m; n] = sqt C (n - 1) * (eic * th * E [:: m; n - 2]%N) + sqt C m * (sc * E [:: m - 1; n - 1]%N).
Proof.
move=> h; have := @entry_pivot C A (fun=> 0) c (@symmC C _) [:: m; n]%N 1 h.
rewrite /entry !big_ord_recl big_ord0 /= !mul0r !addr0 add0r [X in _ = X]addrC /dec /= -subnDA; exact.
Qed.
(** only states with the same parity are connected *)
Lemma sq_parity m n : odd (m + n) -> E [:: m; n] = 0.
Proof.
move=> h; suff H0 : lhaf_rep_spec [:: m; n] (symm (fun i j => if j == 0%N then - (ei * th) else if i == 0%N then sc else eic * th)) (fun=> 0) = 0.
  by rewrite /sq_gate H0 mulr0 mul0r.
apply: (@H_graded C _ (fun=> 1 : 'F_2)).
  by move=> x y; rewrite (_ : 1 + 1 = 0 :> 'F_2) ?eqxx //; apply/val_inj.
rewrite !big_ord_recl big_ord0 /= addr0 -mulrnDr.
have -> : (1 : 'F_2) *+ (m + n) = 1; last by [].
by rewrite -(odd_double_half (m + n)) h mulrnDr -muln2 mulnC mulrnA (_ : (1 : 'F_2) *+ 2 = 0) ?mul0rn ?addr0 //; apply/val_inj.
Qed.
End Squeeze.

Section SqueezeV.
Variable C : numClosedFieldType.
Variables (exp cosh tanh : C -> C).
Theorem squeezing_correct (r theta : C) (cutoff m n : nat) :
  (exp ('i * theta) * tanh r)^* = exp (- 'i * theta) * tanh r ->
  (m < cutoff)%N -> (n < cutoff)%N ->
  squeezing exp cosh tanh r theta cutoff [:: m; n]
  = sq_gate (sqrtC (1 / cosh r)) (exp ('i * theta)) (exp (- 'i * theta)) (tanh r) (1 / cosh r) [:: m; n] / snorm C [:: m; n].
Proof.
move=> hc hm hn; rewrite /squeezing hc for_filter.
set sc := 1 / cosh r; set ei := exp ('i * theta); set eic := exp _; set th := tanh r.
pose E k := sq_gate (sqrtC sc) ei eic th sc k / snorm C k.
have E0 a b : odd (a + b) -> E [:: a; b] = 0 by apply: sq_parity.
set D0 := updG _ _ (sqrtC sc); set D1 := for_ (pyrange 2 cutoff) D0 _.
have hD0 a b : (a + b != 0)%N -> D0 [:: a; b] = 0.
  by move=> h; rewrite /D0 /updG; case: eqP => // [[e1 e2]]; move: h; rewrite e1 e2.
have D00 : D0 [:: 0; 0]%N = E [:: 0; 0]%N by rewrite /D0 /updG eqxx /E /sq_gate H_nil2 snorm_nil2 mulr1 divr1.
have [h1 h2] : (forall a, (a < cutoff)%N -> D1 [:: a; 0]%N = E [:: a; 0]%N) /\ (forall a b, (b != 0)%N -> D1 [:: a; b] = 0).
  have h2 : forall a b, (b != 0)%N -> D1 [:: a; b] = 0.
    have [c2|c2] := ltnP cutoff 2.
      by rewrite /D1 /pyrange (_ : (cutoff - 2 = 0)%N); [move=> a b hb; apply: hD0; lia|lia].
    apply: (for_range (Q := fun i (D : seq nat -> C) => forall a b, (b != 0)%N -> D [:: a; b] = 0)) => //.
      by move=> a b hb; apply: hD0; lia.
    move=> i D hi IH a b hb; case: ifP => _; last exact: IH.
    by rewrite /updG; case: eqP => [[_ e]|_]; [rewrite e in hb|apply: IH].
  split=> //; have [c2|c2] := ltnP cutoff 2.
    by rewrite /D1 /pyrange (_ : (cutoff - 2 = 0)%N); [move=> a ha; have -> : a = 0%N by [lia]; exact: D00|lia].
  pose Q1 i (D : seq nat -> C) := forall a, (a < cutoff)%N -> (a < i)%N \/ odd a -> D [:: a; 0]%N = E [:: a; 0]%N.
  suff h : Q1 cutoff D1 by move=> a ha; apply: h => //; left.
  apply: for_range => //; last first.
  - move=> i D hi IH a ha hh; case: ifP => ev; last first.
      by apply: IH => //; case: (eqVneq a i) => [->|]; [right; move: ev; case: odd|lia].
    rewrite /updG; case: eqP => [[->]|ne]; last by apply: IH => //; have : a <> i by [move=> ?; subst]; lia.
    have i0 : (0 < i)%N by lia.
    by apply: (mulfI (sqt_neq0 C i0)); rewrite sq_rec0 // cancel3 ?sqt_neq0 // IH //; lia.
  - move=> [|[|a]] ha // hh.
      by rewrite hD0 // E0.
    by rewrite hD0 // E0 // addn0; case: hh.
pose Q m0 n0 (D : seq nat -> C) := forall a b, (a < cutoff)%N -> (b < cutoff)%N ->
  b = 0%N \/ odd (a + b) \/ (a < m0)%N \/ (a = m0 /\ (b < n0)%N) -> D [:: a; b] = E [:: a; b].
match goal with |- for_ _ _ ?b _ = _ => set outer := b end.
suff : Q cutoff 0%N (for_ (pyrange 0 cutoff) D1 outer) by apply=> //; lia.
apply: (for_range (Q := fun i D => Q i 0%N D)) => //.
  move=> a b ha hb hh; case: (eqVneq b 0%N) => [->|b0]; first exact: h1.
  by rewrite h2 // E0 //; lia.
move=> i D hi IH; rewrite /outer.
match goal with |- Q _ _ (for_ _ _ ?b) => set inner := b end.
suff : Q i cutoff (for_ (pyrange 1 cutoff) D inner) by move=> h a b ha hb hh; apply: h => //; lia.
apply: for_range; first by lia.
  by move=> a b ha hb hh; apply: IH => //; lia.
move=> j D' hj IH' a b ha hb hh; rewrite /inner; case: ifP => ev; last first.
  by apply: IH' => //; case: (eqVneq (a, b) (i, j)) => [[-> ->]|]; [move: ev; lia|rewrite xpair_eqE; lia].
rewrite /updG; case: eqP => [[-> ->]|ne]; last first.
  by apply: IH' => //; have : ~ (a = i /\ b = j) by [case=> *; subst]; lia.
have j0 : (0 < j)%N by lia.
apply: (mulfI (sqt_neq0 C j0)); rewrite sq_rec // -/(E _) -/(E _) mulrDr !cancel3 ?sqt_neq0 //; congr (_ + _).
  have [j1|j1] := ltnP j 2; first by rewrite (_ : j - 1 = 0)%N ?sqt0 ?mul0r //; lia.
  by rewrite /wrap j1 (IH' i (j - 2)%N) -?mulrA //; lia.
rewrite (@sqt_wrap C cutoff i (fun x => sc * D' [:: x; j - 1]%N)).
by case: (posnP i) => [->|i0]; rewrite ?sqt0 ?mul0r // IH' //; lia.
Qed.
End SqueezeV.
