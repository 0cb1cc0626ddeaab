(** The gradient functions of thewalrus/fock_gradients.py return the first-order variation of the Fock tensors of the gates. *)
From mathcomp Require Import all_ssreflect all_algebra zify.
From Verif Require Import Prelude PyBase ArrLoop SpecHaf ThHaf MHermite PropPowerHaf PropHermite SpecGateFock MGateFock ThGrad PropGateFock PropGateFock2.
Set Implicit Arguments.
Unset Strict Implicit.
Unset Printing Implicit Defensive.
Import Order.Theory GRing.Theory Num.Theory.
Local Open Scope ring_scope.

Lemma for_pres X S (l : seq X) (s : S) (body : S -> X -> S) (R : S -> Prop) :
  R s -> (forall i t, R t -> R (body t i)) -> R (for_ l s body).
Proof. by move=> h0 hS; elim: l s h0 => [|x l IH] s h0 //; rewrite for_cons; apply: IH; apply: hS. Qed.
Lemma for_at S a b j (s : S) (body : S -> nat -> S) (R : S -> Prop) : (a <= j < b)%N ->
  (forall t, R (body t j)) -> (forall i t, i <> j -> R t -> R (body t i)) -> R (for_ (pyrange a b) s body).
Proof.
move=> hj h0 hS; have e : pyrange a b = pyrange a j ++ j :: pyrange j.+1 b.
  rewrite /pyrange -[j :: _]/(iota j (b - j.+1).+1) (_ : (b - a) = (j - a) + (b - j.+1).+1)%N; last lia.
  rewrite iotaD; congr (_ ++ iota _ _); lia.
rewrite e for_cat for_cons; apply: for_pres => // i t h.
by case: (eqVneq i j) => [->|/eqP ne]; [apply: h0|apply: hS].
Qed.

(** p is a curve through x with velocity dx, to first order *)
Definition curve (R : comRingType) (p : {poly R}) (x dx : R) : Prop := p`_0 = x /\ p`_1 = dx.

Section Half.
Variable C : numClosedFieldType.
Definition halfd (d : nat -> nat -> C) (x y : nat) : C := if (x < y)%N then d x y else if x == y then d x y / 2%:R else 0.
Lemma halfdE d : (forall x y, d x y = d y x) -> forall x y, d x y = halfd d x y + halfd d y x.
Proof.
move=> h x y; rewrite /halfd; case: (ltngtP x y) => [xy|xy|->]; rewrite ?addr0 ?add0r //.
by rewrite -mulrDl -mulr2n -mulr_natr mulfK // pnatr_eq0.
Qed.
Lemma symm_coef (Q : nat -> nat -> {poly C}) i : forall x y, (symm Q x y)`_i = symm (fun x y => (Q x y)`_i) x y.
Proof. by move=> x y; rewrite /symm; case: ifP. Qed.
End Half.

Section Disp.
Variable C : numClosedFieldType.
Lemma disp_curve (cp ap bp : {poly C}) (c x al da alc db : C) m n :
  curve cp c (x * c) -> curve ap al da -> curve bp alc db ->
  (disp_gate cp ap bp [:: m; n])`_1 / snorm C [:: m; n] =
  x * (disp_gate c al alc [:: m; n] / snorm C [:: m; n]) + sqt C m * (da * (disp_gate c al alc [:: m - 1; n]%N / snorm C [:: m - 1; n]%N))
  - sqt C n * (db * (disp_gate c al alc [:: m; n - 1]%N / snorm C [:: m; n - 1]%N)).
Proof.
move=> [c0 c1] [a0 a1] [b0 b1].
rewrite /disp_gate (@entry_curve C (fun i j => (i != j)%:R) (fun i => if i == 0%N then al else - alc) c _ (fun _ _ => 0) (fun _ _ => 0)
  (fun i => if i == 0%N then da else - db)) //.
- rewrite c1 !big_ord_recl !big_ord0 /= /entry /dec /= /sqt; by rring.
- by move=> x' y'; rewrite eq_sym.
- by move=> *; rewrite addr0.
- by move=> x' y'; rewrite coefMn coefC /= -mulr_natl mulr1.
- by move=> x' y'; rewrite coefMn coefC /= mul0rn.
- by move=> x'; case: ifP; rewrite ?coefN ?a0 ?b0.
- by move=> x'; case: ifP; rewrite ?coefN ?a1 ?b1.
Qed.

Variable exp : C -> C.
Variables (r phi : C) (cutoff : nat) (T : seq nat -> C).
Local Notation c := (exp (- 2%:R^-1 * r ^+ 2)).
Local Notation ei := (exp ('i * phi)).
Local Notation eic := (exp (- 'i * phi)).
Hypothesis hT : forall m n, (m < cutoff)%N -> (n < cutoff)%N -> T [:: m; n] = disp_gate c (r * ei) (r * eic) [:: m; n] / snorm C [:: m; n].

Lemma grad_disp_at m n : (m < cutoff)%N -> (n < cutoff)%N ->
  (grad_displacement exp cutoff T r phi).1 [:: m; n]
    = - r * T [:: m; n] + sqt C m * ei * T [:: wrap cutoff m 1; n]%N - sqt C n * eic * T [:: m; wrap cutoff n 1]%N /\
  (grad_displacement exp cutoff T r phi).2 [:: m; n]
    = sqt C m * 'i * (r * ei) * T [:: wrap cutoff m 1; n]%N + sqt C n * 'i * (r * eic) * T [:: m; wrap cutoff n 1]%N.
Proof.
move=> hm hn; rewrite /grad_displacement.
match goal with |- _ = ?x /\ _ = ?y => pose R (g : (seq nat -> C) * (seq nat -> C)) := g.1 [:: m; n] = x /\ g.2 [:: m; n] = y end.
apply: (@for_at _ 0 cutoff m _ _ R) => // [t|i t ne ht].
  apply: (@for_at _ 0 cutoff n _ _ R) => // [t'|i t' ne ht']; rewrite /R /updG /=; first by rewrite eqxx.
  by rewrite (_ : [:: m; n] == [:: m; i] = false) //; apply/eqP => [[/esym]].
apply: (@for_pres _ _ _ _ _ R) => // j t' ht'; rewrite /R /updG /= (_ : [:: m; n] == [:: i; j] = false) //.
by apply/eqP => [[/esym]].
Qed.
Theorem grad_displacement_r (cp ap bp : {poly C}) m n :
  curve cp c (- r * c) -> curve ap (r * ei) ei -> curve bp (r * eic) eic -> (m < cutoff)%N -> (n < cutoff)%N ->
  (grad_displacement exp cutoff T r phi).1 [:: m; n] = (disp_gate cp ap bp [:: m; n])`_1 / snorm C [:: m; n].
Proof.
move=> hc ha hb hm hn; have [-> _] := grad_disp_at hm hn.
rewrite (disp_curve m n hc ha hb) (hT hm hn) -!(mulrA (sqt C _)).
rewrite (@sqt_wrap C cutoff m (fun x => ei * T [:: x; n])) (@sqt_wrap C cutoff n (fun x => eic * T [:: m; x])).
congr (_ + _ - _).
  by case: (posnP m) => [->|h]; rewrite ?sqt0 ?mul0r // hT //; lia.
by case: (posnP n) => [->|h]; rewrite ?sqt0 ?mul0r // hT //; lia.
Qed.
Theorem grad_displacement_phi (cp ap bp : {poly C}) m n :
  curve cp c 0 -> curve ap (r * ei) ('i * (r * ei)) -> curve bp (r * eic) (- 'i * (r * eic)) -> (m < cutoff)%N -> (n < cutoff)%N ->
  (grad_displacement exp cutoff T r phi).2 [:: m; n] = (disp_gate cp ap bp [:: m; n])`_1 / snorm C [:: m; n].
Proof.
move=> hc ha hb hm hn; have [_ ->] := grad_disp_at hm hn.
have hc' : curve cp c (0 * c) by rewrite mul0r.
rewrite (disp_curve m n hc' ha hb) mul0r add0r -!(mulrA (sqt C _)).
rewrite (@sqt_wrap C cutoff m (fun x => 'i * (r * ei) * T [:: x; n])) (@sqt_wrap C cutoff n (fun x => 'i * (r * eic) * T [:: m; x])).
have nI (a b : C) : - 'i * a * b = - ('i * a * b) by rewrite !mulNr.
rewrite nI mulrN opprK.
congr (_ + _).
  by case: (posnP m) => [->|h]; rewrite ?sqt0 ?mul0r // hT //; lia.
by case: (posnP n) => [->|h]; rewrite ?sqt0 ?mul0r // hT //; lia.
Qed.
End Disp.

Section Sq.
Variable C : numClosedFieldType.
Lemma coefNM (p q : {poly C}) i : (- (p * q))`_i = - (p * q)`_i. Proof. by rewrite coefN. Qed.
Lemma sq_curve (cp eip eicp thp scp : {poly C}) (c x ei dei eic deic th dth sc dsc : C) m n :
  curve cp c (x * c) -> curve eip ei dei -> curve eicp eic deic -> curve thp th dth -> curve scp sc dsc ->
  let E k := sq_gate c ei eic th sc k / snorm C k in
  (sq_gate cp eip eicp thp scp [:: m; n])`_1 / snorm C [:: m; n] =
  x * E [:: m; n] + sqt C m * (sqt C (m - 1) * (- (ei * dth + dei * th) / 2%:R * E [:: m - 2; n]%N) + sqt C n * (dsc * E [:: m - 1; n - 1]%N))
  + sqt C n * (sqt C (n - 1) * ((eic * dth + deic * th) / 2%:R * E [:: m; n - 2]%N)).
Proof.
move=> [c0 c1] [ei0 ei1] [eic0 eic1] [th0 th1] [sc0 sc1] E.
pose dA := symm (fun i j : nat => if j == 0%N then - (ei * dth + dei * th) else if i == 0%N then dsc else eic * dth + deic * th).
rewrite /sq_gate (@entry_curve C (symm (fun i j => if j == 0%N then - (ei * th) else if i == 0%N then sc else eic * th)) (fun=> 0) c _
   (halfd dA) dA (fun=> 0)) //.
- by rewrite c1 !big_ord_recl !big_ord0 /entry /= /halfd /= /dA /symm /= /dec /= -!subnDA /E /sq_gate /sqt /symm; rring.
- exact: symmC.
- exact: halfdE (@symmC C _).
- move=> x' y'; rewrite symm_coef /symm; case: ifP => _; case: ifP => _; rewrite ?coefNM ?coef0_mul ?ei0 ?th0 ?eic0 //; case: ifP => _; by rewrite ?coef0_mul ?sc0 ?eic0 ?th0.
- move=> x' y'; rewrite symm_coef /dA /symm; case: ifP => _; case: ifP => _; rewrite ?coefNM ?coef1_mul ?ei0 ?th0 ?ei1 ?th1 ?eic0 ?eic1 //; case: ifP => _; by rewrite ?coef1_mul ?sc1 ?eic0 ?th0 ?eic1 ?th1.
- by move=> x'; rewrite coefC.
- by move=> x'; rewrite coefC.
Qed.

Variables (exp cosh tanh : C -> C) (r phi : C) (cutoff : nat) (T : seq nat -> C).
Local Notation ei := (exp ('i * phi)).
Local Notation eic := (exp (- 'i * phi)).
Local Notation sc := (1 / cosh r).
Local Notation th := (tanh r).
Local Notation c := (sqrtC sc).
Local Notation h := (2%:R^-1 : C).
Hypothesis hT : forall m n, (m < cutoff)%N -> (n < cutoff)%N -> T [:: m; n] = sq_gate c ei eic th sc [:: m; n] / snorm C [:: m; n].

Lemma grad_sq_at m n : (m < cutoff)%N -> (n < cutoff)%N ->
  (grad_squeezing exp cosh tanh cutoff T r phi).1 [:: m; n]
    = - h * th * T [:: m; n] - sc * th * sqt C m * sqt C n * T [:: wrap cutoff m 1; wrap cutoff n 1]%N
      - h * ei * sc ^+ 2 * sqt C m * sqt C (wrap cutoff m 1%N) * T [:: wrap cutoff m 2; n]%N
      + h * eic * sc ^+ 2 * sqt C n * sqt C (wrap cutoff n 1%N) * T [:: m; wrap cutoff n 2]%N /\
  (grad_squeezing exp cosh tanh cutoff T r phi).2 [:: m; n]
    = - (h * 'i) * ei * th * sqt C m * sqt C (wrap cutoff m 1%N) * T [:: wrap cutoff m 2; n]%N
      - (h * 'i) * eic * th * sqt C n * sqt C (wrap cutoff n 1%N) * T [:: m; wrap cutoff n 2]%N.
Proof.
move=> hm hn; rewrite /grad_squeezing.
match goal with |- _ = ?x /\ _ = ?y => pose R (g : (seq nat -> C) * (seq nat -> C)) := g.1 [:: m; n] = x /\ g.2 [:: m; n] = y end.
apply: (@for_at _ 0 cutoff m _ _ R) => // [t|i t ne ht].
  apply: (@for_at _ 0 cutoff n _ _ R) => // [t'|i t' ne ht']; rewrite /R /updG /=; first by rewrite eqxx.
  by rewrite (_ : [:: m; n] == [:: m; i] = false) //; apply/eqP => [[/esym]].
apply: (@for_pres _ _ _ _ _ R) => // j t' ht'; rewrite /R /updG /= (_ : [:: m; n] == [:: i; j] = false) //.
by apply/eqP => [[/esym]].
Qed.
(** T read at the wrapped positions, with its coefficient, is the entry at the lowered positions *)
Let E k := sq_gate c ei eic th sc k / snorm C k.
Let r11 m n : (m < cutoff)%N -> (n < cutoff)%N ->
  sqt C m * (sqt C n * T [:: wrap cutoff m 1; wrap cutoff n 1]%N) = sqt C m * (sqt C n * E [:: m - 1; n - 1]%N).
Proof.
move=> hm hn; case: (posnP m) => [->|m0]; first by rewrite sqt0 !mul0r.
case: (posnP n) => [->|n0]; first by rewrite sqt0 !mul0r.
by rewrite !wrap_pos // hT //; lia.
Qed.
Let r20 m n : (m < cutoff)%N -> (n < cutoff)%N ->
  sqt C m * (sqt C (wrap cutoff m 1%N) * T [:: wrap cutoff m 2; n]%N) = sqt C m * (sqt C (m - 1) * E [:: m - 2; n]%N).
Proof.
move=> hm hn; rewrite (@sqt_wrap2 C cutoff m (fun x => T [:: x; n])).
by rewrite hT //; lia.
Qed.
Let r02 m n : (m < cutoff)%N -> (n < cutoff)%N ->
  sqt C n * (sqt C (wrap cutoff n 1%N) * T [:: m; wrap cutoff n 2]%N) = sqt C n * (sqt C (n - 1) * E [:: m; n - 2]%N).
Proof.
move=> hm hn; rewrite (@sqt_wrap2 C cutoff n (fun x => T [:: m; x])).
by rewrite hT //; lia.
Qed.
Theorem grad_squeezing_r (cp eip eicp thp scp : {poly C}) m n :
  curve cp c (- (h * th) * c) -> curve eip ei 0 -> curve eicp eic 0 -> curve thp th (sc ^+ 2) -> curve scp sc (- (sc * th)) ->
  (m < cutoff)%N -> (n < cutoff)%N ->
  (grad_squeezing exp cosh tanh cutoff T r phi).1 [:: m; n] = (sq_gate cp eip eicp thp scp [:: m; n])`_1 / snorm C [:: m; n].
Proof.
move=> hc he hec ht hs hm hn; have [-> _] := grad_sq_at hm hn.
rewrite (sq_curve m n hc he hec ht hs) /= (hT hm hn) -/(E _) -/(E _) -/(E _) -/(E _).
transitivity (- (h * th) * E [:: m; n] - sc * th * (sqt C m * (sqt C n * E [:: m - 1; n - 1]%N))
  - h * ei * sc ^+ 2 * (sqt C m * (sqt C (m - 1) * E [:: m - 2; n]%N)) + h * eic * sc ^+ 2 * (sqt C n * (sqt C (n - 1) * E [:: m; n - 2]%N))); last by rring.
by rewrite -(r11 hm hn) -(r20 hm hn) -(r02 hm hn); rring.
Qed.
Theorem grad_squeezing_phi (cp eip eicp thp scp : {poly C}) m n :
  curve cp c 0 -> curve eip ei ('i * ei) -> curve eicp eic (- 'i * eic) -> curve thp th 0 -> curve scp sc 0 ->
  (m < cutoff)%N -> (n < cutoff)%N ->
  (grad_squeezing exp cosh tanh cutoff T r phi).2 [:: m; n] = (sq_gate cp eip eicp thp scp [:: m; n])`_1 / snorm C [:: m; n].
Proof.
move=> hc he hec ht hs hm hn; have [_ ->] := grad_sq_at hm hn.
have hc' : curve cp c (0 * c) by rewrite mul0r.
rewrite (sq_curve m n hc' he hec ht hs) /= -/(E _) -/(E _) -/(E _) -/(E _).
transitivity (- (h * 'i) * ei * th * (sqt C m * (sqt C (m - 1) * E [:: m - 2; n]%N)) - (h * 'i) * eic * th * (sqt C n * (sqt C (n - 1) * E [:: m; n - 2]%N))); last by rring.
by rewrite -(r20 hm hn) -(r02 hm hn); rring.
Qed.
End Sq.
