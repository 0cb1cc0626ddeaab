(** The Bloch-Messiah decomposition. *)
From mathcomp Require Import all_ssreflect all_algebra zify.
From Verif Require Import Prelude PyBase ArrLoop MHafnian MHermite MSymplectic MDecomp SpecSymp SpecTor SpecDecomp PropTor PropTor5 PropThr3 PropSpectral PropChannels PropSymp2 PropDecomp PropDecomp2 PropDecomp3 PropDecomp4 PropDecomp6.
Set Implicit Arguments.
Unset Strict Implicit.
Unset Printing Implicit Defensive.
Import Order.TTheory GRing.Theory Num.Theory.
Local Open Scope ring_scope.

Section BM.
Variable C : numClosedFieldType.
Notation mat := (nat -> nat -> C).
Notation vec := (nat -> C).
Notation mxo n A := (mxof n n A).

Lemma rmx_split n (P Q P' Q' : 'M[C]_n) : rmx P -> rmx Q -> rmx P' -> rmx Q' ->
  P + 'i *: Q = P' + 'i *: Q' -> P = P' /\ Q = Q'.
Proof.
move=> p q p' q' /matrixP e; suff h i j : P i j = P' i j /\ Q i j = Q' i j by split; apply/matrixP => i j; case: (h i j).
have rr (M : 'M[C]_n) : rmx M -> M i j \is Num.real by move=> h; apply/CrealP; have /matrixP/(_ i j) := h; rewrite mxE.
move: p q p' q' => /rr p /rr q /rr p' /rr q'; have := e i j; rewrite !mxE => e'; split.
  by rewrite -(Re_rect p q) e' Re_rect.
by rewrite -(Im_rect p q) e' Im_rect.
Qed.

Section Mx.
Variables (N : nat) (S P V : 'M[C]_(N + N)).
Hypotheses (sS : symp S) (rP : rmx P) (pP : pos P) (SE : S = P *m V) (rV : rmx V) (oV : V^T *m V = 1%:M).
Let j := J C N.
Let oV' : V *m V^T = 1%:M := mulmx1C oV.
Lemma tP : P^T = P. Proof. by have [h _] := pP; rewrite -[RHS]h (rmx_ct rP). Qed.
Lemma PP : P *m P = S *m S^T.
Proof. by rewrite SE trmx_mul tP -!mulmxA [V *m _]mulmxA oV' mul1mx. Qed.
Lemma jj : j *m j^T = 1%:M. Proof. by rewrite /j Jt mulmxN JJ opprK. Qed.
Lemma jj' : j^T *m j = 1%:M. Proof. exact: mulmx1C jj. Qed.
Lemma symp_P_inv : j^T *m P *m j = invmx P.
Proof.
have uj : j \in unitmx by case: (mulmx1_unit jj).
apply: pos_sqrt_unique; [|exact: posV|].
  by have := pos_congr pP uj; rewrite (rmx_ct (Jreal C N)).
have sG : symp (P *m P) by rewrite PP; apply: sympM => //; exact: symp_tr.
have uP := pos_unit pP.
have uPP : P *m P \in unitmx by rewrite unitmx_mul uP.
have -> : invmx P *m invmx P = invmx (P *m P).
  by apply: (can_inj (mulmxK uPP)); rewrite mulVmx // -mulmxA [invmx P *m (P *m P)]mulmxA mulVmx // mul1mx mulVmx.
apply: (can_inj (mulmxK uPP)); rewrite mulVmx //.
rewrite -!mulmxA [j *m (j^T *m _)]mulmxA jj mul1mx.
have := sG; rewrite /symp trmx_mul tP -/j => e.
rewrite [P *m (P *m _)]mulmxA [P *m P *m (j *m _)]mulmxA e; exact: jj'.
Qed.
Lemma symp_P : symp P.
Proof.
have uP := pos_unit pP; rewrite /symp tP -/j.
by have := congr1 (fun M => j *m M *m P) symp_P_inv; rewrite !mulmxA jj mul1mx mulmxKV.
Qed.
Lemma symp_V : symp V.
Proof.
have uP := pos_unit pP; have -> : V = invmx P *m S by rewrite SE mulKmx.
by apply: sympM => //; apply: sympV; exact: symp_P.
Qed.

Let A := ulsubmx P.
Let B := ursubmx P.
Let D := drsubmx P.
Lemma PE : P = block_mx A B B^T D.
Proof. by rewrite -{1}[P]submxK; rewrite /B trmx_ursub tP. Qed.
Lemma PVE : invmx P = block_mx D (- B^T) (- B) A.
Proof.
rewrite -symp_P_inv {1}PE /j Jt mulNmx mulNmx /J !mulmx_block opp_block_mx.
by rewrite !mulNmx !mul0mx !mulmx0 !mul1mx !mulmxN !mulmx1 !addr0 !add0r ?mulNmx ?mul0mx ?mulmx0 ?oppr0 ?add0r ?addr0 ?opprK.
Qed.
Lemma partsR : [/\ rmx A, rmx B & rmx D].
Proof. by move: rP; rewrite {1}PE => /rmx_block[]. Qed.

Variables (W : 'M[C]_N) (r : 'rV[C]_N).
Let X := map_mx (fun x => 'Re x) W.
Let Y := map_mx (fun x => 'Im x) W.
Hypotheses (uW : ct W *m W = 1%:M) (r0 : forall i, 0 <= r 0 i).
Hypothesis ME : A - D + 'i *: (B + B^T) = W *m diag_mx r *m W^T.
Lemma WE : W = X + 'i *: Y.
Proof. by apply/matrixP => i k; rewrite !mxE -Crect. Qed.
Lemma rX : rmx X. Proof. by apply/matrixP => i k; rewrite !mxE; apply/CrealP; exact: Creal_Re. Qed.
Lemma rY : rmx Y. Proof. by apply/matrixP => i k; rewrite !mxE; apply/CrealP; exact: Creal_Im. Qed.
Lemma ii : 'i * 'i = -1 :> C. Proof. by rewrite -expr2 sqrCi. Qed.
Lemma prod_rect n1 n2 n3 (a b : 'M[C]_(n1, n2)) (c d : 'M[C]_(n2, n3)) :
  (a + 'i *: b) *m (c + 'i *: d) = (a *m c - b *m d) + 'i *: (a *m d + b *m c).
Proof.
rewrite mulmxDl !mulmxDr -!scalemxAl -!scalemxAr scalerA ii scaleN1r scalerDr addrA addrAC -!addrA; congr (_ + _).
by rewrite [in LHS]addrCA addrA.
Qed.
Lemma XYu : X^T *m X + Y^T *m Y = 1%:M /\ X^T *m Y = Y^T *m X.
Proof.
have cW : ct W = X^T + 'i *: (- Y^T).
  by rewrite /ct {1}WE; apply/matrixP => i k; rewrite !mxE rmorphD rmorphM conjCi !(conj_Creal (Creal_Re _)) (conj_Creal (Creal_Im _)) mulrN mulNr.
have := uW; rewrite cW {1}WE prod_rect => e.
have e1 : X^T *m X - - Y^T *m Y + 'i *: (X^T *m Y + - Y^T *m X) = 1%:M + 'i *: 0 by rewrite e scaler0 addr0.
have [] := rmx_split _ _ _ _ e1.
- by rewrite !mulNmx opprK; apply: rmxD; apply: rmxM; (apply: rmxT || idtac); (exact: rX || exact: rY).
- by rewrite !mulNmx; apply: rmxD; [|apply: rmxN]; apply: rmxM; (apply: rmxT || idtac); (exact: rX || exact: rY).
- exact: rmx1.
- exact: rmx0.
by rewrite !mulNmx opprK => -> /eqP; rewrite subr_eq0 => /eqP.
Qed.
Let O := block_mx X (- Y) Y X.
Lemma O_orth : O^T *m O = 1%:M.
Proof.
have [e1 e2] := XYu.
by rewrite /O tr_block_mx trN mulmx_block !mulmxN !mulNmx opprK e1 e2 ?addNr ?subrr [Y^T *m Y + _]addrC e1 ?addNr ?subrr -scalar_mx_block.
Qed.
Lemma O_symp : symp O.
Proof.
have [e1 e2] := XYu; apply/symp_blockP; split=> //; first by rewrite trN mulNmx mulmxN e2.
by rewrite mulmxN opprK.
Qed.
Lemma O_real : rmx O.
Proof. by apply/rmx_block; split; try exact: rmxN rY; (exact: rX || exact: rY). Qed.

Let L := diag_mx (2%:R^-1 *: r).
Lemma K_eq : 2%:R^-1 *: (P - invmx P) = O *m block_mx L 0 0 (- L) *m O^T.
Proof.
have R := diag_mx r; have [pa pb pd] := partsR.
have rR : rmx (diag_mx r).
  by apply/matrixP => i k; rewrite !mxE; case: eqP => _; rewrite ?mulr1n ?mulr0n ?rmorph0 //; apply/CrealP; exact: ger0_real.
have [m1 m2] : A - D = X *m diag_mx r *m X^T - Y *m diag_mx r *m Y^T /\ B + B^T = X *m diag_mx r *m Y^T + Y *m diag_mx r *m X^T.
  have e : W *m diag_mx r *m W^T = (X *m diag_mx r + 'i *: (Y *m diag_mx r)) *m (X^T + 'i *: Y^T).
    rewrite {1 2}WE mulmxDl -scalemxAl; congr (_ *m _); apply/matrixP => i k; by rewrite !mxE.
  move: ME; rewrite e prod_rect; apply: rmx_split.
  - by apply: rmxD => //; exact: rmxN.
  - by apply: rmxD => //; exact: rmxT.
  - by apply: rmxD; [|apply: rmxN]; apply: rmxM; (apply: rmxT || apply: rmxM => //); (exact: rX || exact: rY).
  - by apply: rmxD; apply: rmxM; (apply: rmxT || apply: rmxM => //); (exact: rX || exact: rY).
rewrite PVE {1}PE opp_block_mx add_block_mx !opprK m1 m2.
have -> : B^T + B = X *m diag_mx r *m Y^T + Y *m diag_mx r *m X^T by rewrite addrC m2.
have -> : D - A = Y *m diag_mx r *m Y^T - X *m diag_mx r *m X^T by rewrite -opprB m1 opprB.
have LE : L = 2%:R^-1 *: diag_mx r by apply/matrixP => i k; rewrite !mxE mulrnAr.
rewrite LE /O tr_block_mx trN !mulmx_block !mulmx0 !addr0 !add0r -!scalerN -!scalemxAr !mulmxN !mulNmx ?opprK.
rewrite -!scalemxAl scale_block_mx -!scalerN -?scalerDr.
by rewrite !mulNmx !opprK [Y *m _ *m X^T + _ in RHS]addrC.
Qed.

Lemma pos_scale n (a : C) (M : 'M[C]_n) : 0 < a -> pos M -> pos (a *: M).
Proof.
move=> a0 [h p]; split; first by rewrite ctZ h (conj_Creal (gtr0_real a0)).
by move=> v nz; rewrite -scalemxAr -scalemxAl mxE mulr_gt0 // p.
Qed.
Let H := 2%:R^-1 *: (P + invmx P).
Let K := 2%:R^-1 *: (P - invmx P).
Let s : 'rV[C]_N := \row_i sqrtC (1 + (2%:R^-1 * r 0 i) ^+ 2).
Let T := block_mx (diag_mx s) 0 0 (diag_mx s).
Lemma oneL i : 0 < 1 + (2%:R^-1 * r 0 i) ^+ 2.
Proof. by apply: ltr_paddr; rewrite ?ltr01 // exprn_ge0 // mulr_ge0 // invr_ge0 ler0n. Qed.
Lemma H_eq : H = O *m T *m O^T.
Proof.
have uP := pos_unit pP; have h2 : 0 < 2%:R^-1 :> C by rewrite invr_gt0 ltr0n.
have OO := O_orth; have OO' := mulmx1C OO.
have uO : O^T \in unitmx by case: (mulmx1_unit OO).
have pH : pos H by apply: pos_scale => //; apply: posD => //; exact: posV.
have pT : pos T.
  rewrite /T -diag_mx_row; apply: pos_diag => i; rewrite mxE.
  by case: splitP => k _; rewrite mxE sqrtC_gt0 oneL.
apply: pos_sqrt_unique => //.
  by have := pos_congr pT uO; rewrite rmx_ct ?trmxK //; apply: rmxT; exact: O_real.
have e1 : H *m H = 1%:M + K *m K.
  rewrite /H /K -!scalemxAl -!scalemxAr !scalerA !(mulmxDl, mulmxDr, mulNmx, mulmxN) mulmxV // mulVmx //.
  set a := 2%:R^-1 * 2%:R^-1; have aE : a * 4%:R = 1 by rewrite /a -invfM -natrM mulVf // pnatr_eq0.
  set x := P *m P; set y := invmx P *m invmx P; set o := 1%:M.
  rewrite -[X in _ = X + _](scale1r o) -aE -(scalerA a 4%:R o) -scalerDr.
  by congr (_ *: _); apply/matrixP => i k; rewrite !mxE; rring.
have e2 : T *m T = 1%:M + block_mx L 0 0 (- L) *m block_mx L 0 0 (- L).
  rewrite /T !mulmx_block !mulmx0 !mul0mx !addr0 !add0r mulNmx mulmxN opprK (scalar_mx_block N N) add_block_mx !addr0.
  suff -> : diag_mx s *m diag_mx s = 1%:M + L *m L by [].
  rewrite !mulmx_diag; apply/matrixP => i k; rewrite !mxE; case: eqP => _; rewrite ?mulr1n ?mulr0n ?addr0 //.
  by rewrite -expr2 sqrtCK expr2.
rewrite e1 /K K_eq -!mulmxA ![O^T *m (O *m _)]mulmxA OO !mul1mx [T *m (T *m _)]mulmxA e2.
by rewrite mulmxDl mul1mx mulmxDr OO' !mulmxA.
Qed.
Lemma bm_product : P = O *m (T + block_mx L 0 0 (- L)) *m O^T.
Proof.
rewrite mulmxDr mulmxDl -H_eq -K_eq -scalerDr addrACA subrr addr0 -mulr2n -scaler_nat scalerA mulVf ?scale1r //.
by rewrite pnatr_eq0.
Qed.
End Mx.

Variable eigh : nat -> mat -> vec * mat.
Variable svd : nat -> mat -> mat * vec * mat.
Variable sqrtm : nat -> mat -> mat.
Variable polar : nat -> mat -> mat * mat.
Variable argsort : nat -> vec -> seq nat.
Variables angle expi : C -> C.
Hypotheses (eighP : eigh_ok eigh) (svdP : svd_ok svd) (sqrtmP : sqrtm_ok sqrtm) (argsortP : argsort_ok argsort).
Hypotheses (polarP : polar_ok polar) (angleP : angle_ok angle expi).

(** C43: for every real symplectic S whose Takagi matrix does not hit the tolerances, blochmessiah(S) returns (O, D, Q) with O D Q = S,
    O and Q orthogonal and symplectic, and D = diag(d, 1/d) with d > 0. *)
Theorem blochmessiah_correct N (S : mat) : realm (2 * N) S -> symplectic N S -> bm_exact N S ->
  exists O D Q, [/\ blochmessiah eigh svd sqrtm polar argsort angle expi (2 * N) (2 * N) S = Ok (O, D, Q),
    eqm (2 * N) (mprod (2 * N) (mprod (2 * N) O D) Q) S,
    exists d : vec, (forall i, (i < N)%N -> 0 < d i) /\ eqm (2 * N) D (diag2 N d (fun i => (d i)^-1)),
    orth (2 * N) O /\ symplectic N O & orth (2 * N) Q /\ symplectic N Q].
Proof.
move=> rS sS be; rewrite /blochmessiah is_symplectic2_accepts //=; last first.
- by rewrite /atol0 exprn_ge0 // invr_ge0 ler0n.
- by rewrite /rtol0 exprn_ge0 // invr_ge0 ler0n.
move: rS be; rewrite /bm_exact half_double twoE => rS be.
have hS : symp (mxo (N + N) S) by apply/symplectic_mx.
have [|oV rP pP /eqm_mx SE] := polarP rS.
  exists (ofmx (invmx (mxo (N + N) S))); apply/eqm_mx; rewrite mx_prod mxof_ofmx mx_idm mulmxV //; exact: symp_unit.
case: (polar (N + N) S) oV rP pP SE => V P /= /orth_mx[rV oV] rP pP SE; rewrite mx_prod in SE.
have rP' := proj1 (rmx_real _ _) rP; have pP' := proj1 (pos_mx _ _) pP.
have PPf : eqm (N + N) (mprod (N + N) P P) (mprod (N + N) S (tr S)).
  by apply/eqm_mx; rewrite !mx_prod mx_tr (PP rP' pP' SE oV).
have [zE rE pE dE] := be P pP PPf.
pose M := bm_matrix N P; rewrite -/(bm_matrix N P) in zE rE pE dE.
have tPm := tP rP' pP'.
have sym i k : (i < N + N)%N -> (k < N + N)%N -> P i k = P k i.
  by move=> hi hk; move/matrixP: tPm => /(_ (Ordinal hk) (Ordinal hi)); rewrite !mxE.
have sM : symm N M.
  move=> i k hi hk; rewrite /tr /M /bm_matrix.
  rewrite (sym i k); [|lia|lia]; rewrite (sym (N + i)%N (N + k)%N); [|lia|lia].
  by rewrite [X in 'i * X]addrC.
have rt0 : 0 <= takagi_rtol C by rewrite exprn_ge0 // invr_ge0 ler0n.
have F0 : (false -> realm N M) by [].
have [r [W [tE [r0 /unitary_mx uW /eqm_mx MF] _]]] := takagi_correct eighP svdP sqrtmP argsortP angleP true rt0 sM F0 zE rE pE dE.
rewrite (_ : takagi _ _ _ _ _ _ _ _ _ _ _ _ = Ok (r, W)); last exact: tE.
cbv beta iota delta [bind]; set O := npblock _ _ _ _ _ _; set Q := mmul _ _ V; set D := np_diag _.
set p := mxo (N + N) P in rP' pP' tPm SE; set w := mxo N W in uW MF; pose rr := \row_(i < N) r i.
have r0' i : 0 <= rr 0 i by rewrite mxE r0.
have MF' : ulsubmx p - drsubmx p + 'i *: (ursubmx p + (ursubmx p)^T) = w *m diag_mx rr *m w^T.
  by move: MF; rewrite !mx_prod mx_tr mx_diag -/rr => <-; apply/matrixP => i k; rewrite !mxE.
have Oo := O_orth uW; have Os := O_symp uW; have Or := O_real w.
have OE : mxo (N + N) O = block_mx (map_mx (fun x => 'Re x) w) (- map_mx (fun x => 'Im x) w) (map_mx (fun x => 'Im x) w) (map_mx (fun x => 'Re x) w).
  by rewrite mx_block; congr block_mx; apply/matrixP => i k; rewrite !mxE.
rewrite -OE in Oo Os Or.
have BP := bm_product hS rP' pP' SE oV uW r0' MF'; rewrite -OE in BP.
have DE : mxo (N + N) D = block_mx (diag_mx (\row_i sqrtC (1 + (2^-1 * rr 0 i) ^+ 2))) 0 0 (diag_mx (\row_i sqrtC (1 + (2^-1 * rr 0 i) ^+ 2))) + block_mx (diag_mx (2^-1 *: rr)) 0 0 (- diag_mx (2^-1 *: rr)).
  rewrite mx_npdiag -diag_mx_row.
  have -> : - diag_mx (2^-1 *: rr) = diag_mx (- (2^-1 *: rr)) by apply/matrixP => i k; rewrite !mxE mulNrn.
  rewrite -diag_mx_row; have -> : forall a b : 'rV[C]_(N + N), diag_mx a + diag_mx b = diag_mx (a + b).
    by move=> a b; apply/matrixP => i k; rewrite !mxE mulrnDl.
  congr diag_mx; apply/rowP => i; rewrite !mxE; case: splitP => k ke; rewrite !mxE ke ?ltn_ord //.
  by rewrite addKn.
have QE : mxo (N + N) Q = (mxo (N + N) O)^T *m mxo (N + N) V by rewrite mxof_mmul mxof_trn.
exists O, D, Q; split=> //.
- apply/eqm_mx; rewrite !mx_prod QE SE [in RHS]BP DE !mulmxA //.
- exists (fun i => sqrtC (1 + (2^-1 * r i) ^+ 2) + 2^-1 * r i).
  have sp i : (i < N)%N -> 0 < sqrtC (1 + (2^-1 * r i) ^+ 2).
    by move=> hi; have := oneL r0' (Ordinal hi); rewrite mxE sqrtC_gt0.
  have dp i : (i < N)%N -> 0 < sqrtC (1 + (2^-1 * r i) ^+ 2) + 2^-1 * r i.
    by move=> hi; apply: ltr_paddr; [rewrite mulr_ge0 ?invr_ge0 ?ler0n // r0|exact: sp].
  split=> // i k hi hk; rewrite /D /np_diag /diag2 /diagm; case: (i =P k) => // _; case: ltnP => // hN.
  have hl : (i - N < N)%N by lia.
  apply: (mulfI (lt0r_neq0 (dp _ hl))); rewrite mulfV; last exact: lt0r_neq0 (dp _ hl).
  by rewrite mulrC -subr_sqr sqrtCK addrK.
- by split; [apply/orth_mx|apply/symplectic_mx].
split; [apply/orth_mx|apply/symplectic_mx]; rewrite QE.
  split; first by apply: rmxM => //; exact: rmxT.
  by rewrite trmx_mul trmxK -mulmxA [mxo _ O *m _]mulmxA (mulmx1C Oo) mul1mx.
apply: sympM; first exact: symp_tr.
exact: (symp_V hS rP' pP' SE oV).
Qed.
Theorem blochmessiah_rejects n m (S : mat) : is_symplectic2 (rtol0 C) (atol0 C) n m S = false ->
  blochmessiah eigh svd sqrtm polar argsort angle expi n m S = Err ValueError.
Proof. by move=> h; rewrite /blochmessiah h. Qed.
End BM.
