(** The algebraic identity behind Bjorklund's recursive algorithm. *)
From mathcomp Require Import all_ssreflect all_fingroup all_algebra zify.
From Verif Require Import Prelude SpecHaf ThHaf.
Set Implicit Arguments.
Unset Strict Implicit.
Unset Printing Implicit Defensive.
Import GRing.Theory.
Local Open Scope ring_scope.

Section Deriv.
Variables (R : comRingType) (T : eqType) (A f d : T -> T -> R).
Hypothesis symA : forall x y, A x y = A y x.
Hypothesis hd : forall x y, d x y = f x y + f y x.
Let L := lhq A (fun=> 0).
Definition Dq (s : seq T) : R := \sum_(z <- s) \sum_(w <- rem z s) f z w * L (rem w (rem z s)).

Lemma Dq_cons x s : Dq (x :: s) = \sum_(z <- s) d x z * L (rem z s) + \sum_(z <- s) A x z * Dq (rem z s).
Proof.
have LP s1 s2 : perm_eq s1 s2 -> L s1 = L s2 by apply: lhq_perm.
rewrite /Dq big_cons [rem x (x :: s)]/= eqxx.
have -> : \sum_(z <- s) \sum_(w <- rem z (x :: s)) f z w * L (rem w (rem z (x :: s)))
  = \sum_(z <- s) (f z x * L (rem z s) + \sum_(w <- rem z s) f z w * \sum_(y <- rem w (rem z s)) A x y * L (rem y (rem w (rem z s)))).
  apply: eq_big_seq => z zs; rewrite (perm_big _ (perm_rem_cons x zs)) big_cons; congr (_ + _).
    by rewrite (LP _ _ (perm_rem x (perm_rem_cons x zs))) /= eqxx.
  apply: eq_big_seq => w ws; congr (_ * _).
  rewrite (LP _ _ (perm_trans (perm_rem w (perm_rem_cons x zs)) (perm_rem_cons x ws))).
  by rewrite /L lhq_cons mul0r add0r.
rewrite big_split /= addrA -big_split /=; congr (_ + _).
  by apply: eq_bigr => z _; rewrite hd mulrDl.
symmetry.
rewrite (eq_bigr (fun z => \sum_(z' <- rem z s) A x z * \sum_(w <- rem z' (rem z s)) f z' w * L (rem w (rem z' (rem z s))))); last first.
  by move=> z _; rewrite mulr_sumr.
rewrite sum_rem_swap; apply: eq_big_seq => z zs; set v := rem z s.
rewrite (eq_bigr (fun z' => \sum_(w <- rem z' v) A x z' * (f z w * L (rem w (rem z' v))))); last first.
  move=> z' _; rewrite mulr_sumr (perm_big _ (rem_rem_perm z z' s)) /=.
  by apply: eq_bigr => w _; rewrite (LP _ _ (perm_rem w (rem_rem_perm z z' s))).
rewrite sum_rem_swap; apply: eq_bigr => w _; rewrite mulr_sumr; apply: eq_bigr => y _.
by rewrite (LP _ _ (rem_rem_perm w y v)); rring.
Qed.

Definition Apert (x y : T) : {poly R} := (A x y)%:P + 'X * (d x y)%:P.
Lemma lhq_pert s : (lhq Apert (fun=> 0) s)`_0 = L s /\ (lhq Apert (fun=> 0) s)`_1 = Dq s.
Proof.
move: {2}(size s) (leqnn (size s)) => n; elim: n s => [|n IH] [|x s] // sz.
- by rewrite /L !lhq_nil !coefC /Dq big_nil.
- by rewrite /L !lhq_nil !coefC /Dq big_nil.
rewrite Dq_cons /L !lhq_cons !mul0r !add0r !coef_sum -big_split /=.
have h z (zs : z \in s) : (size (rem z s) <= n)%N by rewrite size_rem //; move: sz => /=; lia.
split; apply: eq_big_seq => z zs; have [h0 h1] := IH _ (h z zs); rewrite /Apert.
  by rewrite mulrDl coefD -mulrA coefXM addr0 coefCM h0.
by rewrite mulrDl coefD -mulrA coefXM /= !coefCM h0 h1 addrC.
Qed.
End Deriv.

(** ** The recursion *)
Section Rec.
Variable P : comRingType.
Variable t : P.
Definition rdrop (b : nat -> nat -> P) : nat -> nat -> P := fun j k => b j.+2 k.+2.
Definition rpert (b : nat -> nat -> P) : nat -> nat -> P :=
  fun j k => b j.+2 0%N * b k.+2 1%N + b k.+2 0%N * b j.+2 1%N.
Fixpoint Tp (p : nat) (b : nat -> nat -> P) : P :=
  if p is p'.+1 then
    (1 + t * b 1%N 0%N) * Tp p' (fun j k => rdrop b j k + t * rpert b j k) - Tp p' (rdrop b)
  else 1.
Lemma eq_Tp p b b' : (forall j k, (k < j)%N -> b j k = b' j k) -> Tp p b = Tp p b'.
Proof.
elim: p b b' => [|p IH] b b' h //=; rewrite h // (IH (rdrop b) (rdrop b')); last by move=> j k kj; rewrite /rdrop h.
congr (_ * _ - _); apply: IH => j k kj; rewrite /rdrop /rpert.
by rewrite !h.
Qed.
End Rec.

Lemma Tp_hom (P Q : comRingType) (phi : {rmorphism P -> Q}) t p b :
  phi (Tp t p b) = Tp (phi t) p (fun j k => phi (b j k)).
Proof.
elim: p b => [|p IH] b /=; first exact: rmorph1.
rewrite rmorphB rmorphM rmorphD rmorphM rmorph1 !IH; congr (_ * _ - _); apply: eq_Tp => j k _.
by rewrite /rdrop /rpert rmorphD rmorphM rmorphD !rmorphM.
Qed.

(** symmetric extension of the entries below the diagonal *)
Definition rsym (R : comRingType) (b : nat -> nat -> R) (i j : nat) : R := if (i < j)%N then b j i else b i j.
Definition rhaf (R : comRingType) p (b : nat -> nat -> R) : R := lhq (rsym b) (fun=> 0) (iota 0 p.*2).

Lemma rsym_sym R b i j : @rsym R b i j = rsym b j i.
Proof. by rewrite /rsym; case: (ltngtP i j) => // ->. Qed.

Lemma rem_map_inj (T U : eqType) (g : T -> U) z s : injective g -> rem (g z) (map g s) = map g (rem z s).
Proof. by move=> ig; elim: s => //= x s IH; rewrite inj_eq //; case: eqP => //= _; rewrite IH. Qed.

Lemma rhafS (R : comRingType) p (b : nat -> nat -> R) :
  rhaf p.+1 b = b 1%N 0%N * rhaf p (rdrop b)
   + Dq (rsym (rdrop b)) (fun x y => rsym b 0 x.+2 * rsym b 1 y.+2) (iota 0 p.*2).
Proof.
have ig : injective (fun x => x.+2) by move=> x y [].
have mapL s : lhq (rsym b) (fun=> 0) [seq x.+2 | x <- s] = lhq (rsym (rdrop b)) (fun=> 0) s.
  by rewrite lhq_map //; exact: rsym_sym.
have e : iota 0 p.+1.*2 = [:: 0, 1 & [seq x.+2 | x <- iota 0 p.*2]]%N.
  by rewrite doubleS /= -[2%N]addn0 -/(iotaDl 2 0) (iotaDl 2 0); congr [:: _, _ & _]; apply: eq_map => x.
rewrite /rhaf e lhq_cons2 ?mul0r ?add0r; last exact: rsym_sym.
rewrite [X in _ + X + _]big1 ?addr0; last by move=> z _; rewrite !mul0r addr0 mul0r.
rewrite mapL; congr (_ * _ + _).
rewrite /Dq big_map; apply: eq_bigr => z _; rewrite rem_map_inj // big_map; apply: eq_bigr => w _.
by rewrite rem_map_inj // mapL.
Qed.

Lemma coef_horner_X (R : comRingType) (U : {poly {poly R}}) :
  U.['X]`_0 = U`_0`_0 /\ U.['X]`_1 = U`_0`_1 + U`_1`_0.
Proof.
have h : (size U <= (size U).+2)%N by lia.
rewrite (horner_coef_wide _ h) !coef_sum; split.
  rewrite big_ord_recl /= expr0 mulr1 big1 ?addr0 // => i _; rewrite coefMXn //.
rewrite !big_ord_recl /= expr0 mulr1 big1 ?addr0 => [|i _]; last by rewrite coefMXn.
by rewrite coefMXn.
Qed.

Lemma Tp_haf p : forall (R : comRingType) (b : nat -> nat -> R),
  exists U : {poly R}, Tp 'X p (fun j k => (b j k)%:P) = 'X^p * U /\ U`_0 = rhaf p b.
Proof.
elim: p => [|p IH] R b; first by exists 1; rewrite mul1r coefC /rhaf.
pose c := rdrop b; pose d := rpert b.
have [U [hU U0]] := IH [comRingType of {poly R}] (fun j k => (c j k)%:P + 'X * (d j k)%:P).
have [U00 U01] : U`_0`_0 = rhaf p c /\ U`_0`_1 = Dq (rsym c) (fun x y => rsym b 0 x.+2 * rsym b 1 y.+2) (iota 0 p.*2).
  rewrite U0 /rhaf -[lhq _ _ _](eq_lhq (A := Apert (rsym c)
     (fun x y => rsym b 0 x.+2 * rsym b 1 y.+2 + rsym b 0 y.+2 * rsym b 1 x.+2)) (mu := fun=> 0)) //.
    by apply: lhq_pert => //; exact: rsym_sym.
  move=> x y _ _; rewrite /Apert /rsym /c /d /rdrop /rpert /=.
  by case: ifP => // _; congr (_ + _ * _%:P); rewrite addrC.
pose V := U.['X]; pose W : {poly R} := map_poly (horner_eval 0) U.
have hV : Tp 'X p (fun j k => (c j k)%:P + 'X * (d j k)%:P) = 'X^p * V.
  have := congr1 (horner_eval_rmorphism 'X) hU; rewrite Tp_hom rmorphM rmorphX /= /horner_eval !hornerX => <-.
  by apply: eq_Tp => j k _; rewrite hornerC.
have hW : Tp 'X p (fun j k => (c j k)%:P) = 'X^p * W.
  have := congr1 (map_poly_rmorphism (horner_eval_rmorphism (0 : R))) hU; rewrite Tp_hom rmorphM rmorphX /= map_polyX => <-.
  apply: eq_Tp => j k _; rewrite map_polyC /= /horner_eval.
  by rewrite hornerD hornerC hornerM hornerX mul0r addr0.
have [V0 V1] := coef_horner_X U.
have Wi i : W`_i = U`_i`_0 by rewrite coef_map /= /horner_eval horner_coef0.
have /factor_theorem[Z hZ] : root (V - W) 0.
  by rewrite /root horner_coef0 coefB V0 Wi subrr.
rewrite subr0 mulrC in hZ.
have Z0 : Z`_0 = U`_0`_1.
  have := congr1 (fun q : {poly R} => q`_1) hZ; rewrite coefXM /= => <-.
  by rewrite coefB V1 Wi addrK.
exists ((b 1 0)%N%:P * V + Z); split; last first.
  by rewrite coefD coefCM V0 U00 Z0 U01 rhafS.
rewrite [LHS]/= (_ : Tp 'X p (rdrop _) = 'X^p * W); last by rewrite -hW.
have -> : Tp 'X p (fun j k => rdrop (fun j k => (b j k)%:P) j k + 'X * rpert (fun j k => (b j k)%:P) j k) = 'X^p * V.
  by rewrite -hV; apply: eq_Tp => j k _; rewrite /rpert /d /rpert polyCD !polyCM.
rewrite exprS.
have -> : V = W + 'X * Z by rewrite -hZ addrC subrK.
rring.
Qed.
