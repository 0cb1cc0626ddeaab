(** random_interferometer: unitary, and equivariant under left multiplication by unitaries (the reason why it is Haar distributed). *)
From mathcomp Require Import all_ssreflect all_algebra zify.
From Verif Require Import Prelude PyBase ArrLoop MHafnian MHermite MSymplectic MDecomp MRandom SpecSymp SpecTor SpecDecomp SpecRandom PropTor PropChannels PropDecomp PropDecomp6.
Set Implicit Arguments.
Unset Strict Implicit.
Unset Printing Implicit Defensive.
Import Order.TTheory GRing.Theory Num.Theory.
Local Open Scope ring_scope.

Section Mx.
Variables (C : numClosedFieldType) (n : nat).
Implicit Types R Q : 'M[C]_n.
Definition upper R := forall i j : 'I_n, (j < i)%N -> R i j = 0.
Lemma upper_diag R : upper R -> R \in unitmx -> forall i, R i i != 0.
Proof.
move=> u; rewrite unitmxE unitfE -det_tr det_trig; last by apply/is_trig_mxP => i j ij; rewrite mxE u.
by move=> p i; apply: contraNneq p => e; rewrite (bigD1 i) //= mxE e mul0r.
Qed.
Lemma upper_gram_unique R1 R2 : upper R1 -> upper R2 -> (forall i, 0 < R1 i i) -> (forall i, 0 < R2 i i) ->
  ct R1 *m R1 = ct R2 *m R2 -> R1 = R2.
Proof.
move=> u1 u2 p1 p2 e; apply/matrixP.
suff h m (i : 'I_n) : (i < m)%N -> forall j, R1 i j = R2 i j by move=> i j; exact: (h i.+1 i).
elim: m i => [//|m IH] i; rewrite ltnS leq_eqVlt => /orP[/eqP im|]; last exact: IH.
have s R : upper R -> forall j, (ct R *m R) i j = (R i i)^* * R i j + \sum_(k < n | (k < m)%N) (R k i)^* * R k j.
  move=> u j; rewrite mxE (bigID (fun k : 'I_n => (k < m)%N)) /= addrC; congr (_ + _).
    rewrite (bigD1 i) /=; last by rewrite im ltnn.
    rewrite big1 ?addr0 ?mxE // => k /andP[km ki]; rewrite !mxE u ?conjC0 ?mul0r //.
    by rewrite ltn_neqAle eq_sym [val k == val i]val_eqE ki im leqNgt.
  by apply: eq_bigr => k _; rewrite !mxE.
have eqn j : (R1 i i)^* * R1 i j = (R2 i i)^* * R2 i j.
  move/matrixP/(_ i j): e; rewrite !s // => /eqP; rewrite (eq_bigr (fun k => (R2 k i)^* * R2 k j)) => [|k km].
    by move=> /eqP/addIr.
  by rewrite !IH.
have re R : 0 < R i i -> (R i i)^* = R i i by move=> p; apply/CrealP/gtr0_real.
have ei : R1 i i = R2 i i.
  have := eqn i; rewrite !re // -!expr2 => /eqP; rewrite -subr_eq0 subr_sqr mulf_eq0 subr_eq0 => /orP[/eqP //|].
  by rewrite gt_eqF // addr_gt0.
by move=> j; have := eqn j; rewrite ei => /mulfI; apply; rewrite conjC_eq0 gt_eqF.
Qed.
Definition unit_mx Q := ct Q *m Q = 1%:M.
Lemma unit_mxM Q Q' : unit_mx Q -> unit_mx Q' -> unit_mx (Q *m Q').
Proof. by rewrite /unit_mx ctM => a b; rewrite -mulmxA [_ *m (Q *m _)]mulmxA a mul1mx. Qed.
Lemma qr_unique Q1 Q2 R1 R2 : unit_mx Q1 -> unit_mx Q2 -> upper R1 -> upper R2 -> (forall i, 0 < R1 i i) -> (forall i, 0 < R2 i i) ->
  R1 \in unitmx -> Q1 *m R1 = Q2 *m R2 -> Q1 = Q2.
Proof.
move=> q1 q2 u1 u2 p1 p2 un e.
have g Q R : unit_mx Q -> ct R *m R = ct (Q *m R) *m (Q *m R).
  by move=> q; rewrite ctM -mulmxA [_ *m (Q *m R)]mulmxA q mul1mx.
have eR : R1 = R2 by apply: upper_gram_unique => //; rewrite (g Q1 R1 q1) (g Q2 R2 q2) e.
by apply: (can_inj (mulmxK un)); rewrite e eR.
Qed.
(** the normalised factors of a QR decomposition *)
Definition phase (R : 'M[C]_n) : 'rV[C]_n := \row_i (R i i / `|R i i|).
Lemma phase_ok Q R : unit_mx Q -> upper R -> Q *m R \in unitmx ->
  [/\ unit_mx (Q *m diag_mx (phase R)), upper (ct (diag_mx (phase R)) *m R), forall i, 0 < (ct (diag_mx (phase R)) *m R) i i &
      Q *m diag_mx (phase R) *m (ct (diag_mx (phase R)) *m R) = Q *m R].
Proof.
move=> q u; rewrite unitmx_mul => /andP[_ uR]; have nz := upper_diag u uR.
have cE : ct (diag_mx (phase R)) = diag_mx (\row_i (phase R 0 i)^*).
  by rewrite /ct; apply/matrixP => i j; rewrite !mxE eq_sym; case: eqP => [->|_]; rewrite ?mulr1n ?mulr0n ?conjC0.
have mE i j : (ct (diag_mx (phase R)) *m R) i j = (phase R 0 i)^* * R i j by rewrite cE mul_diag_mx !mxE.
have pp : unit_mx (diag_mx (phase R)).
  apply/matrixP => i j; rewrite cE mul_diag_mx !mxE; case: eqP => [->|_]; last by rewrite mulr0n mulr0.
  rewrite mulr1n mulrC -normCK normrM normfV normr_id mulfV ?expr1n //; by rewrite normr_eq0.
split; first exact: unit_mxM.
- by move=> i j ij; rewrite mE u ?mulr0.
- move=> i; rewrite mE mxE rmorphM fmorphV /= conj_normC mulrAC [_^* * _]mulrC -normCK expr2 mulfK ?normr_gt0 ?normr_eq0 //.
by rewrite -!mulmxA; congr (_ *m _); rewrite mulmxA (mulmx1C pp) mul1mx.
Qed.
End Mx.

Section Interf.
Variable C : numClosedFieldType.
Notation mat := (nat -> nat -> C).
Notation mxo n A := (mxof n n A).
Variable qr : nat -> mat -> mat * mat.
Hypothesis qro : qrc_ok qr.

Lemma nonsing_mx n (A : mat) : nonsing n A <-> mxo n A \in unitmx.
Proof.
split=> [[T /eqm_mx]|u]; first by rewrite mx_prod mx_idm => /mulmx1_unit[].
by exists (ofmx (invmx (mxo n A))); apply/eqm_mx; rewrite mx_prod mx_idm mxof_ofmx mulmxV.
Qed.
(** the matrix given to qr *)
Definition zmat (real : bool) (xy : mat * mat) : mat :=
  if real then xy.1 else fun i j => randnc xy.1 xy.2 i j / sqrtC 2%:R.
Definition zscale (real : bool) : C := if real then 1 else (sqrtC 2%:R)^-1.
Lemma zscale_gt0 real : 0 < zscale real.
Proof. by rewrite /zscale; case: real; rewrite ?ltr01 // invr_gt0 sqrtC_gt0 ltr0n. Qed.
Lemma zmatE n real xy : mxo n (zmat real xy) = zscale real *: mxo n (draw real xy).
Proof. by apply/matrixP => i j; rewrite !mxE /zmat /draw /zscale; case: real; rewrite ?mul1r // /randnc mulrC. Qed.
Lemma zmat_unit n real xy : nonsing n (draw real xy) -> mxo n (zmat real xy) \in unitmx.
Proof. by move/nonsing_mx => u; rewrite zmatE unitmxZ // unitfE gt_eqF // zscale_gt0. Qed.
Lemma ri_mx n real xy : mxo n (random_interferometer qr n real xy) = mxo n (qr n (zmat real xy)).1 *m diag_mx (phase (mxo n (qr n (zmat real xy)).2)).
Proof.
rewrite /random_interferometer -/(zmat real xy); case: (qr n _) => q r /=.
by apply/matrixP => i j; rewrite mul_mx_diag !mxE.
Qed.
Lemma ri_facts n real xy : nonsing n (draw real xy) ->
  let U := mxo n (random_interferometer qr n real xy) in
  exists R, [/\ unit_mx U, upper R, forall i, 0 < R i i & U *m R = mxo n (zmat real xy)].
Proof.
move=> ns; have := zmat_unit ns; rewrite ri_mx /=; have [q u e _] := qro n (zmat real xy).
set Q := mxo n (qr n (zmat real xy)).1; set R := mxo n (qr n (zmat real xy)).2.
have eM : mxo n (zmat real xy) = Q *m R by rewrite -mx_prod; exact/eqm_mx.
have uR : upper R by move=> i j ij; rewrite mxE u.
have uQ : unit_mx Q by exact/unitary_mx.
rewrite eM => un; have [a b c d] := phase_ok uQ uR un.
by exists (ct (diag_mx (phase R)) *m R).
Qed.

(** random_interferometer returns a unitary matrix, for every invertible draw *)
Theorem random_interferometer_unitary n real xy : nonsing n (draw real xy) -> unitary n (random_interferometer qr n real xy).
Proof. by move=> ns; have [R [h _ _ _]] := ri_facts ns; apply/unitary_mx. Qed.

(** with real=True a real matrix *)
Theorem random_interferometer_real n xy : nonsing n (draw true xy) -> real_draw xy -> orth n (random_interferometer qr n true xy).
Proof.
move=> ns rd.
have rU : realm n (random_interferometer qr n true xy).
  rewrite /random_interferometer /=; case e: (qr n xy.1) => [q r] i j hi hj.
  have rz : realm n xy.1 by move=> k l _ _; case: (rd k l).
  have [_ _ _ /(_ rz)] := qro n xy.1; rewrite e => -[rq rr].
  by rewrite realM ?rq // realM ?rr // realV normr_real.
split=> //; apply/eqm_mx; rewrite mx_prod mx_tr mx_idm -(rmx_ct ((rmx_real _ _).1 rU)).
by apply/unitary_mx; exact: random_interferometer_unitary.
Qed.

(** if a unitary W multiplies the draw from the left, it multiplies the returned matrix from the left: since the law of the draws is
    invariant under W, so is the law of the returned matrix (Haar measure) *)
Theorem random_interferometer_equivariant n real xy xy' (W : mat) : nonsing n (draw real xy) -> unitary n W ->
  eqm n (draw real xy') (mprod n W (draw real xy)) ->
  eqm n (random_interferometer qr n real xy') (mprod n W (random_interferometer qr n real xy)).
Proof.
move=> ns /unitary_mx uW /eqm_mx; rewrite mx_prod => e.
have uWx : mxo n W \in unitmx by case: (mulmx1_unit uW).
have ns' : nonsing n (draw real xy') by apply/nonsing_mx; rewrite e unitmx_mul uWx; exact/nonsing_mx.
have [R [a b c d]] := ri_facts ns; have [R' [a' b' c' d']] := ri_facts ns'.
apply/eqm_mx; rewrite mx_prod; apply: (@qr_unique _ _ _ _ R' R) => //.
- exact: unit_mxM.
- by have := zmat_unit ns'; rewrite -d' unitmx_mul => /andP[].
by rewrite d' -mulmxA d !zmatE e -scalemxAr.
Qed.

(** concrete draws that meet the hypotheses, of every size *)
Example random_interferometer_draw n : nonsing n (draw false (fun i j => (i == j)%:R : C, fun i j => (i == j)%:R : C)).
Proof.
exists (fun i j => (i == j)%:R / (1 + 'i)) => i j hi hj.
rewrite /mprod (bigD1 (Ordinal hi)) //= /draw eqxx mulr1 big1 => [|k /negPf ki]; last first.
  by rewrite -val_eqE /= eq_sym in ki; rewrite /= ki mulr0 add0r mul0r.
rewrite addr0 /idm; case: eqP => _; rewrite ?mul0r ?mulr0 // mulrC divfK //.
by apply/eqP => e; have := congr1 (fun x => 'Re x) e; rewrite -{1}['i]mulr1 Re_rect ?real1 // raddf0 => /eqP; rewrite oner_eq0.
Qed.
End Interf.
Print Assumptions random_interferometer_equivariant.
