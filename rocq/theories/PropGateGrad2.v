From mathcomp Require Import all_ssreflect all_algebra zify.
From Verif Require Import Prelude PyBase ArrLoop SpecHaf ThHaf MHermite PropPowerHaf PropHermite SpecGateFock MGateFock ThGrad PropGateFock PropGateFock2 PropGateGrad.
Set Implicit Arguments.
Unset Strict Implicit.
Unset Printing Implicit Defensive.
Import Order.Theory GRing.Theory Num.Theory.
Local Open Scope ring_scope.

(** reads of a four-index array at lowered positions, multiplied by the corresponding square roots *)
Section Reads.
Variable C : numClosedFieldType.
Variables (cutoff : nat) (T E : seq nat -> C).
Hypothesis hT : forall m n p q, (m < cutoff)%N -> (n < cutoff)%N -> (p < cutoff)%N -> (q < cutoff)%N -> T [:: m; n; p; q] = E [:: m; n; p; q].
Lemma read2 x y (f : nat -> nat -> seq nat) : (x < cutoff)%N -> (y < cutoff)%N ->
  (forall u v, (u < cutoff)%N -> (v < cutoff)%N -> T (f u v) = E (f u v)) ->
  sqt C x * (sqt C y * T (f (wrap cutoff x 1) (wrap cutoff y 1))) = sqt C x * (sqt C y * E (f (x - 1)%N (y - 1)%N)).
Proof.
move=> hx hy hf; case: (posnP x) => [->|x0]; first by rewrite sqt0 !mul0r.
case: (posnP y) => [->|y0]; first by rewrite sqt0 !mul0r.
by rewrite !wrap_pos // hf //; lia.
Qed.
End Reads.

Section TMS.
Variable C : numClosedFieldType.
Lemma tms_curve (eip eicp thp scp : {poly C}) (ei dei eic deic th dth sc x : C) m n p q :
  curve eip ei dei -> curve eicp eic deic -> curve thp th dth -> curve scp sc (x * sc) ->
  let E k := tms_gate ei eic th sc k / snorm C k in
  (tms_gate eip eicp thp scp [:: m; n; p; q])`_1 / snorm C [:: m; n; p; q] =
  x * E [:: m; n; p; q] + (ei * dth + dei * th) * (sqt C m * (sqt C n * E [:: m - 1; n - 1; p; q]%N))
  + x * sc * (sqt C m * (sqt C p * E [:: m - 1; n; p - 1; q]%N)) + x * sc * (sqt C n * (sqt C q * E [:: m; n - 1; p; q - 1]%N))
  - (eic * dth + deic * th) * (sqt C p * (sqt C q * E [:: m; n; p - 1; q - 1]%N)).
Proof.
move=> [ei0 ei1] [eic0 eic1] [th0 th1] [sc0 sc1] E.
pose dA := symm (fun i j : nat => match i, j with
     | 0%N, 1%N => ei * dth + dei * th | 0%N, 2%N => x * sc | 1%N, 3%N => x * sc | 2%N, 3%N => - (eic * dth + deic * th) | _, _ => 0 end).
rewrite /tms_gate (@entry_curve C (symm (fun i j => match i, j with
     | 0%N, 1%N => ei * th | 0%N, 2%N => sc | 1%N, 3%N => sc | 2%N, 3%N => - (eic * th) | _, _ => 0 end)) (fun=> 0) sc _
   (halfd dA) dA (fun=> 0)) //.
- by rewrite sc1 !big_ord_recl !big_ord0 /entry /= /halfd /= /dA /symm /= /dec /= /E /tms_gate /sqt /symm; rring.
- exact: symmC.
- exact: halfdE (@symmC C _).
- move=> x' y'; rewrite symm_coef /symm; case: ifP => _.
    by case: x' => [|[|[|x']]]; case: y' => [|[|[|[|y']]]]; rewrite ?coefNM ?coef0_mul ?ei0 ?th0 ?eic0 ?sc0 ?coefC.
  by case: x' => [|[|[|[|x']]]]; case: y' => [|[|[|y']]]; rewrite ?coefNM ?coef0_mul ?ei0 ?th0 ?eic0 ?sc0 ?coefC.
- move=> x' y'; rewrite symm_coef /dA /symm; case: ifP => _.
    by case: x' => [|[|[|x']]]; case: y' => [|[|[|[|y']]]]; rewrite ?coefNM ?coef1_mul ?ei0 ?th0 ?eic0 ?sc0 ?ei1 ?th1 ?eic1 ?sc1 ?coefC.
  by case: x' => [|[|[|[|x']]]]; case: y' => [|[|[|y']]]; rewrite ?coefNM ?coef1_mul ?ei0 ?th0 ?eic0 ?sc0 ?ei1 ?th1 ?eic1 ?sc1 ?coefC.
- by move=> x'; rewrite coefC.
- by move=> x'; rewrite coefC.
Qed.

Variables (exp cosh tanh : C -> C) (r theta : C) (cutoff : nat) (T : seq nat -> C).
Local Notation ei := (exp ('i * theta)).
Local Notation eic := (exp (- 'i * theta)).
Local Notation sc := (1 / cosh r).
Local Notation th := (tanh r).
Local Notation w x := (wrap cutoff x 1%N).
Hypothesis hT : forall m n p q, (m < cutoff)%N -> (n < cutoff)%N -> (p < cutoff)%N -> (q < cutoff)%N ->
  T [:: m; n; p; q] = tms_gate ei eic th sc [:: m; n; p; q] / snorm C [:: m; n; p; q].

Lemma grad_tms_at m n p q : (m < cutoff)%N -> (n < cutoff)%N -> (p < cutoff)%N -> (q < cutoff)%N ->
  (grad_two_mode_squeezing exp cosh tanh cutoff T r theta).1 [:: m; n; p; q]
    = - th * T [:: m; n; p; q] + sqt C m * sqt C n * ei * sc ^+ 2 * T [:: w m; w n; p; q] - th * sc * sqt C m * sqt C p * T [:: w m; n; w p; q]
      - th * sc * sqt C n * sqt C q * T [:: m; w n; p; w q] - sqt C p * sqt C q * eic * sc ^+ 2 * T [:: m; n; w p; w q] /\
  (grad_two_mode_squeezing exp cosh tanh cutoff T r theta).2 [:: m; n; p; q]
    = 'i * ei * th * sqt C m * sqt C n * T [:: w m; w n; p; q] + 'i * eic * th * sqt C p * sqt C q * T [:: m; n; w p; w q].
Proof.
move=> hm hn hp hq; rewrite /grad_two_mode_squeezing.
match goal with |- _ = ?x /\ _ = ?y => pose R (g : (seq nat -> C) * (seq nat -> C)) := g.1 [:: m; n; p; q] = x /\ g.2 [:: m; n; p; q] = y end.
apply: (@for_at _ 0 cutoff m _ _ R) => // [t|i t ne ht].
  apply: (@for_at _ 0 cutoff n _ _ R) => // [t1|i1 t1 ne1 ht1].
    apply: (@for_at _ 0 cutoff p _ _ R) => // [t2|i2 t2 ne2 ht2].
      apply: (@for_at _ 0 cutoff q _ _ R) => // [t3|i3 t3 ne3 ht3]; rewrite /R /updG /=; first by rewrite eqxx.
      by rewrite (_ : [:: m; n; p; q] == [:: m; n; p; i3] = false) //; apply/eqP => [[/esym]].
    apply: (@for_pres _ _ _ _ _ R) => // j3 t3 ht3; rewrite /R /updG /= (_ : [:: m; n; p; q] == [:: m; n; i2; j3] = false) //.
    by apply/eqP => [[/esym]].
  apply: (@for_pres _ _ _ _ _ R) => // j2 t2 ht2; apply: (@for_pres _ _ _ _ _ R) => // j3 t3 ht3.
  rewrite /R /updG /= (_ : [:: m; n; p; q] == [:: m; i1; j2; j3] = false) //.
  by apply/eqP => [[/esym]].
apply: (@for_pres _ _ _ _ _ R) => // j1 t1 ht1; apply: (@for_pres _ _ _ _ _ R) => // j2 t2 ht2; apply: (@for_pres _ _ _ _ _ R) => // j3 t3 ht3.
rewrite /R /updG /= (_ : [:: m; n; p; q] == [:: i; j1; j2; j3] = false) //.
by apply/eqP => [[/esym]].
Qed.
Let E k := tms_gate ei eic th sc k / snorm C k.
Section At.
Variables (m n p q : nat).
Hypotheses (hm : (m < cutoff)%N) (hn : (n < cutoff)%N) (hp : (p < cutoff)%N) (hq : (q < cutoff)%N).
Let r01 : sqt C m * (sqt C n * T [:: w m; w n; p; q]) = sqt C m * (sqt C n * E [:: m - 1; n - 1; p; q]%N).
Proof. by apply: (@read2 C cutoff T E m n (fun u v => [:: u; v; p; q])) => // u v hu hv; apply: hT. Qed.
Let r02 : sqt C m * (sqt C p * T [:: w m; n; w p; q]) = sqt C m * (sqt C p * E [:: m - 1; n; p - 1; q]%N).
Proof. by apply: (@read2 C cutoff T E m p (fun u v => [:: u; n; v; q])) => // u v hu hv; apply: hT. Qed.
Let r13 : sqt C n * (sqt C q * T [:: m; w n; p; w q]) = sqt C n * (sqt C q * E [:: m; n - 1; p; q - 1]%N).
Proof. by apply: (@read2 C cutoff T E n q (fun u v => [:: m; u; p; v])) => // u v hu hv; apply: hT. Qed.
Let r23 : sqt C p * (sqt C q * T [:: m; n; w p; w q]) = sqt C p * (sqt C q * E [:: m; n; p - 1; q - 1]%N).
Proof. by apply: (@read2 C cutoff T E p q (fun u v => [:: m; n; u; v])) => // u v hu hv; apply: hT. Qed.
Theorem grad_two_mode_squeezing_r (eip eicp thp scp : {poly C}) :
  curve eip ei 0 -> curve eicp eic 0 -> curve thp th (sc ^+ 2) -> curve scp sc (- th * sc) ->
  (grad_two_mode_squeezing exp cosh tanh cutoff T r theta).1 [:: m; n; p; q]
    = (tms_gate eip eicp thp scp [:: m; n; p; q])`_1 / snorm C [:: m; n; p; q].
Proof.
move=> he hec ht hs; have [-> _] := grad_tms_at hm hn hp hq.
rewrite (tms_curve m n p q he hec ht hs) /= (hT hm hn hp hq) -/(E _) -/(E _) -/(E _) -/(E _) -/(E _).
by rewrite -r01 -r02 -r13 -r23; rring.
Qed.
Theorem grad_two_mode_squeezing_theta (eip eicp thp scp : {poly C}) :
  curve eip ei ('i * ei) -> curve eicp eic (- 'i * eic) -> curve thp th 0 -> curve scp sc 0 ->
  (grad_two_mode_squeezing exp cosh tanh cutoff T r theta).2 [:: m; n; p; q]
    = (tms_gate eip eicp thp scp [:: m; n; p; q])`_1 / snorm C [:: m; n; p; q].
Proof.
move=> he hec ht hs; have [_ ->] := grad_tms_at hm hn hp hq.
have hs' : curve scp sc (0 * sc) by rewrite mul0r.
rewrite (tms_curve m n p q he hec ht hs') /= -/(E _) -/(E _) -/(E _) -/(E _) -/(E _).
by rewrite -r01 -r23; rring.
Qed.
End At.
End TMS.

Section Passive.
Variable C : numClosedFieldType.
Lemma passive_curve (p00 p01 p10 p11 : {poly C}) (U00 U01 U10 U11 d00 d01 d10 d11 : C) m n p q :
  curve p00 U00 d00 -> curve p01 U01 d01 -> curve p10 U10 d10 -> curve p11 U11 d11 ->
  let E k := passive_gate U00 U01 U10 U11 k / snorm C k in
  (passive_gate p00 p01 p10 p11 [:: m; n; p; q])`_1 / snorm C [:: m; n; p; q] =
  d00 * (sqt C m * (sqt C p * E [:: m - 1; n; p - 1; q]%N)) + d01 * (sqt C m * (sqt C q * E [:: m - 1; n; p; q - 1]%N))
  + d10 * (sqt C n * (sqt C p * E [:: m; n - 1; p - 1; q]%N)) + d11 * (sqt C n * (sqt C q * E [:: m; n - 1; p; q - 1]%N)).
Proof.
move=> [a0 a1] [b0 b1] [c0 c1] [e0 e1] E.
pose dA := symm (fun i j : nat => match i, j with
     | 0%N, 2%N => d00 | 0%N, 3%N => d01 | 1%N, 2%N => d10 | 1%N, 3%N => d11 | _, _ => 0 end).
have -> : (passive_gate p00 p01 p10 p11 [:: m; n; p; q])`_1 = (1 * passive_gate p00 p01 p10 p11 [:: m; n; p; q])`_1 by rewrite mul1r.
rewrite /passive_gate (@entry_curve C (symm (fun i j => match i, j with
     | 0%N, 2%N => U00 | 0%N, 3%N => U01 | 1%N, 2%N => U10 | 1%N, 3%N => U11 | _, _ => 0 end)) (fun=> 0) 1 _
   (halfd dA) dA (fun=> 0)) //.
- by rewrite !coefC !big_ord_recl !big_ord0 /entry /= /halfd /= /dA /symm /= /dec /= /E /passive_gate /sqt /symm; rring.
- exact: symmC.
- exact: halfdE (@symmC C _).
- move=> x' y'; rewrite symm_coef /symm; case: ifP => _.
    by case: x' => [|[|[|x']]]; case: y' => [|[|[|[|y']]]]; rewrite ?a0 ?b0 ?c0 ?e0 ?coefC.
  by case: x' => [|[|[|[|x']]]]; case: y' => [|[|[|y']]]; rewrite ?a0 ?b0 ?c0 ?e0 ?coefC.
- move=> x' y'; rewrite symm_coef /dA /symm; case: ifP => _.
    by case: x' => [|[|[|x']]]; case: y' => [|[|[|[|y']]]]; rewrite ?a1 ?b1 ?c1 ?e1 ?coefC.
  by case: x' => [|[|[|[|x']]]]; case: y' => [|[|[|y']]]; rewrite ?a1 ?b1 ?c1 ?e1 ?coefC.
- by move=> x'; rewrite coefC.
- by move=> x'; rewrite coefC.
- by rewrite coefC.
Qed.

(** the entries written by the gradient loops *)
Lemma passive_grad_fill_at cutoff g3 g4 m n p q : (m < cutoff)%N -> (n < cutoff)%N -> (p < cutoff)%N -> (q < cutoff)%N ->
  let g := @passive_grad_fill C cutoff g3 g4 in let k := [:: m; n; p; q] in
  (g.1 k, g.2 k) = if (m + n != p + q)%N || (m + n == 0)%N then (0, 0) else if q == 0%N then g3 m n p else g4 m n p q.
Proof.
move=> hm hn hp hq g k.
match goal with |- _ = ?x => pose R (g : (seq nat -> C) * (seq nat -> C)) := (g.1 k, g.2 k) = x end.
have keep (t : (seq nat -> C) * (seq nat -> C)) k' a b : k' <> k -> R t -> R (updG t.1 k' a, updG t.2 k' b).
  by move=> ne; rewrite /R /updG /= (_ : (k == k') = false) //; apply/eqP => /esym.
have put (t : (seq nat -> C) * (seq nat -> C)) (v : C * C) : R (updG t.1 k v.1, updG t.2 k v.2) <-> v = if (m + n != p + q)%N || (m + n == 0)%N then (0, 0) else if q == 0%N then g3 m n p else g4 m n p q.
  by rewrite /R /updG /= eqxx -surjective_pairing.
rewrite -/(R g) /g /passive_grad_fill {g}.
case nc : ((m + n != p + q)%N || (m + n == 0)%N).
  apply: for_pres; last first.
    move=> i t ht; apply: for_pres => // j t1 ht1; apply: for_pres => // l t2 ht2.
    by case: ifP => // hh; apply: keep => // [[? ? ? ?]]; subst; move: nc hh; lia.
  apply: for_pres; first by rewrite /R nc.
  move=> i t ht; apply: for_pres => // j t1 ht1 /=.
  by case: ifP => // hh; apply: keep => // [[? ? ? ?]]; subst; move: nc hh; lia.
case q0 : (q == 0)%N.
  apply: for_pres; last first.
    move=> i t ht; apply: for_pres => // j t1 ht1; apply: for_pres => // l t2 ht2.
    by case: ifP => // hh; apply: keep => // [[? ? ? ?]]; subst; move: nc hh q0; lia.
  apply: (@for_at _ 0 cutoff m _ _ R) => // [t|i t ne ht]; last first.
    by apply: for_pres => // j t1 ht1 /=; case: ifP => // hh; apply: keep => // [[? ? ? ?]].
  apply: (@for_at _ 0 (cutoff - m) n _ _ R) => // [|t1|j t1 ne ht1]; first by move: nc q0; lia.
    have -> : (0 < m + n < cutoff)%N by move: nc q0; lia.
    have e : (m + n = p)%N by move: nc q0; lia.
    by rewrite e (_ : [:: m; n; p; 0%N] = k) ?put ?nc ?q0 // /k (eqP q0).
  by case: ifP => // hh; apply: keep => // [[? ? ?]].
apply: (@for_at _ 0 cutoff m _ _ R) => // [t|i t ne ht]; last first.
  by apply: for_pres => // j t1 ht1 /=; apply: for_pres => // l t2 ht2; case: ifP => // hh; apply: keep => // [[? ? ? ?]].
apply: (@for_at _ 0 cutoff n _ _ R) => // [t1|j t1 ne ht1]; last first.
  by apply: for_pres => // l t2 ht2; case: ifP => // hh; apply: keep => // [[? ? ?]].
apply: (@for_at _ 0 cutoff p _ _ R) => // [t2|l t2 ne ht2]; last first.
  by case: ifP => // hh; apply: keep => // [[? ?]].
have e : (m + n - p = q)%N by move: nc; lia.
by rewrite e hq (_ : (p < m + n)%N) /= ?put ?nc ?q0 //; move: nc q0; lia.
Qed.
Lemma passive_zero_curve (p00 p01 p10 p11 : {poly C}) m n p q : (m + n != p + q)%N || (m + n == 0)%N ->
  (passive_gate p00 p01 p10 p11 [:: m; n; p; q])`_1 = 0.
Proof.
case/boolP: (m + n == p + q)%N => [e|ne] h.
  have [-> [-> [-> ->]]] : (m = 0 /\ n = 0 /\ p = 0 /\ q = 0)%N by lia.
  by rewrite /passive_gate H_nil4 coefC.
rewrite /passive_gate (@H_graded _ [zmodType of int] (fun i => match i with 0%N | 1%N => 1 | 2%N | 3%N => -1 | _ => 0 end)) ?coefC //.
  by move=> [|[|[|[|x]]]] [|[|[|[|y]]]].
by rewrite !big_ord_recl big_ord0 /=; apply: contraNneq ne => h'; lia.
Qed.
End Passive.

Section Reads4.
Variable C : numClosedFieldType.
Variables (cutoff : nat) (T E : seq nat -> C).
Hypothesis hT : forall m n p q, (m < cutoff)%N -> (n < cutoff)%N -> (p < cutoff)%N -> (q < cutoff)%N -> T [:: m; n; p; q] = E [:: m; n; p; q].
Local Notation w x := (wrap cutoff x 1%N).
Variables (m n p q : nat).
Hypotheses (hm : (m < cutoff)%N) (hn : (n < cutoff)%N) (hp : (p < cutoff)%N) (hq : (q < cutoff)%N).
Lemma rd_mp : sqt C m * (sqt C p * T [:: w m; n; w p; q]) = sqt C m * (sqt C p * E [:: m - 1; n; p - 1; q]%N).
Proof. by apply: (@read2 C cutoff T E m p (fun u v => [:: u; n; v; q])) => // u v hu hv; apply: hT. Qed.
Lemma rd_mq : sqt C m * (sqt C q * T [:: w m; n; p; w q]) = sqt C m * (sqt C q * E [:: m - 1; n; p; q - 1]%N).
Proof. by apply: (@read2 C cutoff T E m q (fun u v => [:: u; n; p; v])) => // u v hu hv; apply: hT. Qed.
Lemma rd_np : sqt C n * (sqt C p * T [:: m; w n; w p; q]) = sqt C n * (sqt C p * E [:: m; n - 1; p - 1; q]%N).
Proof. by apply: (@read2 C cutoff T E n p (fun u v => [:: m; u; v; q])) => // u v hu hv; apply: hT. Qed.
Lemma rd_nq : sqt C n * (sqt C q * T [:: m; w n; p; w q]) = sqt C n * (sqt C q * E [:: m; n - 1; p; q - 1]%N).
Proof. by apply: (@read2 C cutoff T E n q (fun u v => [:: m; u; p; v])) => // u v hu hv; apply: hT. Qed.
End Reads4.

Section BS.
Variable C : numClosedFieldType.
Variables (exp cos sin : C -> C) (theta phi : C) (cutoff : nat) (T : seq nat -> C).
Local Notation ei := (exp ('i * phi)).
Local Notation eic := (exp (- 'i * phi)).
Local Notation ct := (cos theta).
Local Notation st := (sin theta).
Hypothesis hT : forall m n p q, (m < cutoff)%N -> (n < cutoff)%N -> (p < cutoff)%N -> (q < cutoff)%N ->
  T [:: m; n; p; q] = bs_gate ct st ei eic [:: m; n; p; q] / snorm C [:: m; n; p; q].
Let E k := bs_gate ct st ei eic k / snorm C k.
Variables (ctp stp eip eicp : {poly C}) (m n p q : nat).
Hypotheses (hm : (m < cutoff)%N) (hn : (n < cutoff)%N) (hp : (p < cutoff)%N) (hq : (q < cutoff)%N).
Lemma bs_curve dct dst dei deic : curve ctp ct dct -> curve stp st dst -> curve eip ei dei -> curve eicp eic deic ->
  (bs_gate ctp stp eip eicp [:: m; n; p; q])`_1 / snorm C [:: m; n; p; q] =
  dct * (sqt C m * (sqt C p * E [:: m - 1; n; p - 1; q]%N)) - (st * deic + dst * eic) * (sqt C m * (sqt C q * E [:: m - 1; n; p; q - 1]%N))
  + (st * dei + dst * ei) * (sqt C n * (sqt C p * E [:: m; n - 1; p - 1; q]%N)) + dct * (sqt C n * (sqt C q * E [:: m; n - 1; p; q - 1]%N)).
Proof.
move=> [a0 a1] [b0 b1] [c0 c1] [e0 e1]; rewrite /bs_gate (@passive_curve C _ _ _ _ ct (- (st * eic)) (st * ei) ct dct (- (st * deic + dst * eic)) (st * dei + dst * ei) dct) //.
- by rewrite /= -/(bs_gate ct st ei eic) /E; rring.
- by split; rewrite coefN ?coef0_mul ?coef1_mul ?b0 ?b1 ?e0 ?e1.
- by split; rewrite ?coef0_mul ?coef1_mul ?b0 ?b1 ?c0 ?c1.
Qed.
Theorem grad_beamsplitter_theta :
  curve ctp ct (- st) -> curve stp st ct -> curve eip ei 0 -> curve eicp eic 0 ->
  (grad_beamsplitter exp cos sin cutoff T theta phi).1 [:: m; n; p; q]
    = (bs_gate ctp stp eip eicp [:: m; n; p; q])`_1 / snorm C [:: m; n; p; q].
Proof.
move=> h1 h2 h3 h4; rewrite /grad_beamsplitter.
match goal with |- (passive_grad_fill _ ?a ?b).1 _ = _ => have := passive_grad_fill_at a b hm hn hp hq; set G := passive_grad_fill _ _ _ end.
case: ifP => nz; first by move=> /= [-> _]; rewrite /bs_gate passive_zero_curve // mul0r.
rewrite (bs_curve h1 h2 h3 h4) -(rd_mp hT hm hn hp hq) -(rd_mq hT hm hn hp hq) -(rd_np hT hm hn hp hq) -(rd_nq hT hm hn hp hq).
case: (posnP q) => [q0|q0].
  have p0 : (0 < p)%N by move: nz; lia.
  by move=> /= [-> _]; rewrite q0 sqt0 (wrap_pos _ p0); rring.
by move=> /= [-> _]; rewrite (wrap_pos _ q0); rring.
Qed.
Theorem grad_beamsplitter_phi :
  curve ctp ct 0 -> curve stp st 0 -> curve eip ei ('i * ei) -> curve eicp eic (- 'i * eic) ->
  (grad_beamsplitter exp cos sin cutoff T theta phi).2 [:: m; n; p; q]
    = (bs_gate ctp stp eip eicp [:: m; n; p; q])`_1 / snorm C [:: m; n; p; q].
Proof.
move=> h1 h2 h3 h4; rewrite /grad_beamsplitter.
match goal with |- (passive_grad_fill _ ?a ?b).2 _ = _ => have := passive_grad_fill_at a b hm hn hp hq; set G := passive_grad_fill _ _ _ end.
case: ifP => nz; first by move=> /= [_ ->]; rewrite /bs_gate passive_zero_curve // mul0r.
rewrite (bs_curve h1 h2 h3 h4) -(rd_mp hT hm hn hp hq) -(rd_mq hT hm hn hp hq) -(rd_np hT hm hn hp hq) -(rd_nq hT hm hn hp hq).
case: (posnP q) => [q0|q0].
  have p0 : (0 < p)%N by move: nz; lia.
  by move=> /= [_ ->]; rewrite q0 sqt0 (wrap_pos _ p0); rring.
by move=> /= [_ ->]; rewrite (wrap_pos _ q0); rring.
Qed.
End BS.

Section MZ.
Variable C : numClosedFieldType.
Variables (exp : C -> C) (theta phi : C) (cutoff : nat) (T : seq nat -> C).
Local Notation u := (exp ('i * phi)).
Local Notation v := (exp ('i * theta)).
Local Notation h := (2%:R^-1 : C).
Hypothesis hT : forall m n p q, (m < cutoff)%N -> (n < cutoff)%N -> (p < cutoff)%N -> (q < cutoff)%N ->
  T [:: m; n; p; q] = mz_gate h 'i u v [:: m; n; p; q] / snorm C [:: m; n; p; q].
Let E k := mz_gate h 'i u v k / snorm C k.
Variables (up vp : {poly C}) (m n p q : nat).
Hypotheses (hm : (m < cutoff)%N) (hn : (n < cutoff)%N) (hp : (p < cutoff)%N) (hq : (q < cutoff)%N).
Lemma mz_curve du dv : curve up u du -> curve vp v dv ->
  (mz_gate h%:P ('i)%:P up vp [:: m; n; p; q])`_1 / snorm C [:: m; n; p; q] =
  h * (u * dv + du * (v - 1)) * (sqt C m * (sqt C p * E [:: m - 1; n; p - 1; q]%N)) + h * ('i * dv) * (sqt C m * (sqt C q * E [:: m - 1; n; p; q - 1]%N))
  + h * ('i * u * dv + 'i * du * (1 + v)) * (sqt C n * (sqt C p * E [:: m; n - 1; p - 1; q]%N)) - h * dv * (sqt C n * (sqt C q * E [:: m; n - 1; p; q - 1]%N)).
Proof.
move=> [a0 a1] [b0 b1].
have k0 : (1 : {poly C})`_0 = 1 by rewrite coefC.
have k1 : (1 : {poly C})`_1 = 0 by rewrite coefC.
rewrite /mz_gate (@passive_curve C _ _ _ _ (h * (u * (v - 1))) (h * ('i * (1 + v))) (h * ('i * u * (1 + v))) (h * (1 - v))
   (h * (u * dv + du * (v - 1))) (h * ('i * dv)) (h * ('i * u * dv + 'i * du * (1 + v))) (- (h * dv))) //.
- by rewrite /= -/(mz_gate h 'i u v) /E; rring.
- by split; rewrite ?coef0_mul ?coef1_mul ?coefD ?coefN ?coefC /= ?coef0_mul ?coef1_mul ?coefD ?coefN ?a0 ?a1 ?b0 ?b1 ?coefC /=; rring.
- by split; rewrite ?coef0_mul ?coef1_mul ?coefD ?coefN ?coefC /= ?coef0_mul ?coef1_mul ?coefD ?coefN ?a0 ?a1 ?b0 ?b1 ?k0 ?k1 ?coefC /=; rring.
- by split; rewrite !(coef0_mul, coef1_mul, coefD, coefN, a0, a1, b0, b1, k0, k1, coefC) /=; rring.
- by split; rewrite !(coef0_mul, coef1_mul, coefD, coefN, a0, a1, b0, b1, k0, k1, coefC) /=; rring.
Qed.
Theorem grad_mzgate_theta : curve up u 0 -> curve vp v ('i * v) ->
  (grad_mzgate exp cutoff T theta phi).1 [:: m; n; p; q] = (mz_gate h%:P ('i)%:P up vp [:: m; n; p; q])`_1 / snorm C [:: m; n; p; q].
Proof.
move=> h1 h2; rewrite /grad_mzgate; have ii : 'i * 'i = -1 :> C by rewrite -expr2 sqrCi.
match goal with |- (passive_grad_fill _ ?a ?b).1 _ = _ => have := passive_grad_fill_at a b hm hn hp hq; set G := passive_grad_fill _ _ _ end.
case: ifP => nz; first by move=> /= [-> _]; rewrite /mz_gate passive_zero_curve // mul0r.
rewrite (mz_curve h1 h2) -(rd_mp hT hm hn hp hq) -(rd_mq hT hm hn hp hq) -(rd_np hT hm hn hp hq) -(rd_nq hT hm hn hp hq).
have -> : h * ('i * ('i * v)) = - (h * v) by rewrite (mulrA 'i) ii; rring.
have -> : h * ('i * u * ('i * v) + 'i * 0 * (1 + v)) = - (h * u * v) by rewrite mulr0 mul0r addr0 mulrACA ii; rring.
case: (posnP q) => [q0|q0].
  have p0 : (0 < p)%N by move: nz; lia.
  by move=> /= [-> _]; rewrite q0 sqt0 (wrap_pos _ p0); rring.
by move=> /= [-> _]; rewrite (wrap_pos _ q0); rring.
Qed.
Theorem grad_mzgate_phi : curve up u ('i * u) -> curve vp v 0 ->
  (grad_mzgate exp cutoff T theta phi).2 [:: m; n; p; q] = (mz_gate h%:P ('i)%:P up vp [:: m; n; p; q])`_1 / snorm C [:: m; n; p; q].
Proof.
move=> h1 h2; rewrite /grad_mzgate; have ii : 'i * 'i = -1 :> C by rewrite -expr2 sqrCi.
match goal with |- (passive_grad_fill _ ?a ?b).2 _ = _ => have := passive_grad_fill_at a b hm hn hp hq; set G := passive_grad_fill _ _ _ end.
case: ifP => nz; first by move=> /= [_ ->]; rewrite /mz_gate passive_zero_curve // mul0r.
rewrite (mz_curve h1 h2) -(rd_mp hT hm hn hp hq) -(rd_mq hT hm hn hp hq) -(rd_np hT hm hn hp hq) -(rd_nq hT hm hn hp hq).
have -> : h * ('i * u * 0 + 'i * ('i * u) * (1 + v)) = - (h * u + h * u * v) by rewrite mulr0 add0r (mulrA 'i) ii; rring.
case: (posnP q) => [q0|q0].
  have p0 : (0 < p)%N by move: nz; lia.
  by move=> /= [_ ->]; rewrite q0 sqt0 (wrap_pos _ p0); rring.
by move=> /= [_ ->]; rewrite (wrap_pos _ q0); rring.
Qed.
End MZ.
