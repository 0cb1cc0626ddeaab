(** The coefficient loop of [f], [f_loop], [f_loop_odd] computes the coefficients of exp(sum_i w_i z^i). *)
From mathcomp Require Import all_ssreflect all_algebra zify.
From Verif Require Import Prelude PyBase ArrLoop ThTrace ThMpoly MPowerHaf.
Set Implicit Arguments.
Unset Strict Implicit.
Unset Printing Implicit Defensive.
Import GRing.Theory.
Local Open Scope ring_scope.

Lemma eq_if T (b1 b2 : bool) (x y : T) : b1 = b2 -> (if b1 then x else y) = if b2 then x else y.
Proof. by move=> ->. Qed.

Section Comb.
Variable K : fieldType.
Hypothesis char0 : [char K] =i pred0.
Notation mat := (nat -> nat -> K).

Lemma charn0 k : (k.+1)%:R != 0 :> K. Proof. by move/charf0P: char0 => ->. Qed.

(** contents of the new row after one pass *)
Lemma comb_passE M i factor count (comb : mat) : (count <= 1)%N -> (0 < i)%N ->
  let st := comb_pass M (M %/ i) i factor (count, comb) in
  st.1 = (1 - count)%N /\
  forall b, (b <= M)%N -> st.2 st.1 b =
    \sum_(j < M.+1) (if (i * j <= b)%N then comb count (b - i * j)%N * (factor ^+ j / (j`!)%:R) else 0).
Proof.
move=> c1 i0; rewrite /comb_pass /=.
set cnt := (1 - count)%N; set cb := (fun a b => if a == cnt then _ else _).
have cn : (1 - cnt = count)%N by rewrite /cnt; lia.
have nc : (count == cnt) = false by rewrite /cnt; lia.
set body := (fun st j => _).
have inner0 (c : mat) j pw t : (forall b, c count b = comb count b) ->
  forall a b, for_ (iota (i * j).+1 t) c (fun comb k =>
        upd2 comb cnt (k - 1) (comb cnt (k - 1)%N + comb (1 - cnt)%N (k - i * j - 1)%N * pw)) a b
   = c a b + (if (a == cnt) && (i * j <= b)%N && (b < i * j + t)%N then comb count (b - i * j)%N * pw else 0).
  move=> hc; rewrite cn; elim: t => [|t IH] a b.
    by rewrite (_ : _ && (b < _)%N = false) ?addr0 //; lia.
  rewrite for_iotaS /upd2 !IH nc /= addr0 hc subn1 /= eqxx /=.
  case: (a =P cnt) => [->|na] /=; last by rewrite addr0.
  case: (b =P (i * j + t)%N) => [eb|nb].
    rewrite ltnn andbF addr0 eb (_ : (i * j <= i * j + t)%N && (i * j + t < i * j + t.+1)%N = true); last by lia.
    by congr (_ + comb _ _ * _); lia.
  by congr (_ + _); apply: eq_if; lia.
have inner (c : mat) j pw : (forall b, c count b = comb count b) ->
  forall a b, (b <= M)%N -> for_ (pyrange (i * j).+1 M.+2) c (fun comb k =>
        upd2 comb cnt (k - 1) (comb cnt (k - 1)%N + comb (1 - cnt)%N (k - i * j - 1)%N * pw)) a b
   = c a b + (if (a == cnt) && (i * j <= b)%N then comb count (b - i * j)%N * pw else 0).
  by move=> hc a b bM; rewrite /pyrange inner0 //; congr (_ + _); apply: eq_if; lia.
have innerc (c : mat) j pw : (forall b, c count b = comb count b) ->
  forall b, for_ (pyrange (i * j).+1 M.+2) c (fun comb k =>
        upd2 comb cnt (k - 1) (comb cnt (k - 1)%N + comb (1 - cnt)%N (k - i * j - 1)%N * pw)) count b
   = comb count b.
  by move=> hc b; rewrite /pyrange inner0 // nc /= addr0.
have loop t : let st := for_ (pyrange 1 t.+1) (cb, 1) body in
  [/\ st.2 = factor ^+ t / (t`!)%:R, forall b, st.1 count b = comb count b &
      forall b, (b <= M)%N -> st.1 cnt b = \sum_(j < t.+1) (if (i * j <= b)%N then comb count (b - i * j)%N * (factor ^+ j / (j`!)%:R) else 0)].
  elim: t => [|t IH].
    split=> /= [|b|b bM]; first by rewrite expr0 divr1.
      by rewrite /cb nc.
    by rewrite big_ord1 muln0 leq0n subn0 expr0 divr1 mulr1 /cb eqxx cn.
  rewrite /pyrange !subSS !subn0 for_iotaS add1n; move: IH; rewrite /pyrange !subSS !subn0.
  set st := for_ _ _ _; case: st => cm pw /= [-> h1 h2].
  have pwE : factor ^+ t / (t`!)%:R * (factor / t.+1%:R) = factor ^+ t.+1 / (t.+1`!)%:R.
    rewrite factS natrM exprSr invfM -!mulrA; congr (_ * _).
    by rewrite mulrCA [_^-1 * _ in RHS]mulrC mulrA mulrC.
  split=> [|b|b bM]; first exact: pwE.
    by rewrite innerc.
  rewrite inner // eqxx /= [in RHS]big_ord_recr /= h2 // pwE.
  by congr (_ + _); apply: eq_if; lia.
have := loop (M %/ i)%N; set st := for_ _ _ _; case: st => cm pw /= [_ _ h]; split=> // b bM.
rewrite h // (big_ord_widen M.+1 (fun j => if (i * j <= b)%N then comb count (b - i * j)%N * (factor ^+ j / (j`!)%:R) else 0)); last first.
  by rewrite ltnS leq_div.
rewrite big_mkcond; apply: eq_bigr => j _; case: ltnP => // hj.
rewrite (_ : (i * j <= b)%N = false) //; apply/negbTE; rewrite -ltnNge.
apply: leq_ltn_trans bM _; apply: leq_trans (ltn_ceil M i0) _.
by rewrite mulnC leq_mul2l hj orbT.
Qed.

(** abstract row: the same recursion on functions *)
Definition crow (M i : nat) (fct : K) (g : nat -> K) (b : nat) : K :=
  \sum_(j < M.+1) (if (i * j <= b)%N then g (b - i * j)%N * (fct ^+ j / (j`!)%:R) else 0).

Lemma eq_crow M i fct g g' b : (forall b, (b <= M)%N -> g b = g' b) -> (b <= M)%N -> crow M i fct g b = crow M i fct g' b.
Proof. by move=> h bM; apply: eq_bigr => j _; case: ifP => // _; rewrite h //; lia. Qed.

(** the passes 1 .. n applied to the unit row *)
Fixpoint crows (M : nat) (w : nat -> K) (n : nat) : nat -> K :=
  if n is n'.+1 then crow M n (w n) (crows M w n') else fun b => (b == 0%N)%:R.

(** exp series as a polynomial *)
Definition xp M i fct : {poly K} := \sum_(j < M.+1) (fct ^+ j / (j`!)%:R) *: 'X^(i * j).
Definition rowp M (g : nat -> K) : {poly K} := \poly_(b < M.+1) g b.

Lemma crow_poly M i fct (G : {poly K}) g : eqm M G (rowp M g) -> eqm M (G * xp M i fct) (rowp M (crow M i fct g)).
Proof.
move=> hG b bM; rewrite coef_poly ltnS bM /xp mulr_sumr coef_sum; apply: eq_bigr => j _.
rewrite -scalerAr coefZ coefMXn ltnNge; case: leqP => //= hj; last by rewrite mulr0.
by rewrite hG; [rewrite coef_poly ltnS mulrC; case: leqP => //; lia|lia].
Qed.

Lemma xp_deriv M i fct : (0 < i)%N -> 
  forall k, (k < M)%N -> ((xp M i fct)^`())`_k = (((fct *+ i) *: 'X^(i.-1)) * xp M i fct)`_k.
Proof.
move=> i0 k kM; rewrite /xp (raddf_sum (deriv_additive K)) mulr_sumr !coef_sum [in LHS]big_ord_recl /= muln0 expr0 derivZ derivC scaler0 coef0 add0r.
rewrite [in RHS]big_ord_recr /= -scalerAl -scalerAr -exprD !coefZ coefXn [X in _ + _ * (_ * X)](_ : _ = 0) ?mulr0 ?addr0; last first.
  by rewrite (_ : (k == _) = false) //; nia.
apply: eq_bigr => j _; rewrite /bump /= add1n derivZ derivXn -scalerAl -scalerAr -exprD !coefZ coefMn !coefXn.
have -> : ((i * j.+1).-1 = i.-1 + i * j)%N by rewrite mulnS; lia.
case: eqP => _; rewrite ?mulr0 ?mul0rn ?mulr0 //= !mulr1 mulrnAr mulr1.
rewrite mulnC mulrnA mulrnAl; congr (_ *+ _).
rewrite factS natrM exprS -mulr_natr !invfM -!mulrA; congr (_ * (_ * _)).
by rewrite mulrCA mulVf ?charn0 // mulr1.
Qed.

Definition Sp (w : nat -> K) n : {poly K} := \sum_(i < n) (w i.+1 *+ i.+1) *: 'X^i.

Lemma crows_poly M w n : exists2 G : {poly K}, eqm M G (rowp M (crows M w n)) &
  G`_0 = 1 /\ forall k, (k < M)%N -> (G^`())`_k = (Sp w n * G)`_k.
Proof.
elim: n => [|n [G hG [G0 hS]]].
  exists 1; first by move=> b bM; rewrite coef_poly ltnS bM coef1.
  by split=> [|k kM]; rewrite ?coef1 // /Sp big_ord0 mul0r derivC.
exists (G * xp M n.+1 (w n.+1)); first exact: crow_poly.
split=> [|k kM].
  rewrite coefM big_ord1 subn0 G0 mul1r /xp coef_sum big_ord_recl muln0 expr0 coefZ coef1 /= mulr1 expr0 divr1.
  by rewrite big1 ?addr0 // => j _; rewrite coefZ coefXn /bump /= mulr0.
have eqmM' (p q r : {poly K}) : (forall k, (k < M)%N -> p`_k = q`_k) -> (p * r)`_k = (q * r)`_k.
  by move=> h; rewrite !coefM; apply: eq_bigr => i _; rewrite h //; have := ltn_ord i; lia.
rewrite derivM coefD (eqmM' _ _ _ hS) [G * _]mulrC (eqmM' _ _ _ (xp_deriv _ (ltn0Sn n))) -coefD.
have -> : Sp w n.+1 = Sp w n + (w n.+1 *+ n.+1) *: 'X^n by rewrite /Sp big_ord_recr.
by rewrite mulrDl -!mulrA [G * _]mulrC.
Qed.

(** the coefficients computed by all the passes *)
Lemma crowsE M w k : (k <= M)%N -> crows M w M k = es (fun n => n%:R^-1) w k.
Proof.
have [G hG [G0 hS]] := crows_poly M w M.
have gE b : (b <= M)%N -> G`_b = crows M w M b by move=> bM; rewrite hG // coef_poly ltnS bM.
apply: es_uniq => [n||{}k kM].
- by rewrite /= -[_ *+ _]mulr_natr mulVf ?charn0.
- by rewrite -gE // G0.
- rewrite -gE // -coef_deriv hS // coefM.
  rewrite (_ : \sum_(i < k.+1) _ = \sum_(i < k.+1) (Sp w M)`_i * G`_(k - i)) //.
  apply: eq_bigr => i _; have ik := ltn_ord i; rewrite gE; last by lia.
  rewrite -mulrnAl; congr (_ * _); rewrite /Sp coef_sum.
  have iM : (i < M)%N by lia.
  rewrite (bigD1 (Ordinal iM)) //= coefZ coefXn eqxx mulr1 big1 ?addr0 // => j ji.
  by rewrite coefZ coefXn (_ : (i == j :> nat) = false) ?mulr0 //; apply/negbTE; rewrite eq_sym.
Qed.
End Comb.
