(** The diagonal case of takagi is wrong unless the diagonal is already sorted by descending modulus. *)
From mathcomp Require Import all_ssreflect all_algebra zify.
From Verif Require Import Prelude PyBase ArrLoop MHafnian MHermite MSymplectic MDecomp SpecSymp SpecTor SpecDecomp PropTor PropTor5 PropThr3 PropSpectral PropChannels PropSymp2 PropDecomp PropDecomp2 PropDecomp3 PropDecomp4 PropDecomp6 PropDecomp7.
Set Implicit Arguments.
Unset Strict Implicit.
Unset Printing Implicit Defensive.
Import Order.TTheory GRing.Theory Num.Theory.
Local Open Scope ring_scope.

Section Ref.
Variable C : numClosedFieldType.
Notation mat := (nat -> nat -> C).
Notation vec := (nat -> C).
Notation mxo n A := (mxof n n A).
Variable eigh : nat -> mat -> vec * mat.
Variable svd : nat -> mat -> mat * vec * mat.
Variable sqrtm : nat -> mat -> mat.
Variable polar : nat -> mat -> mat * mat.
Variable argsort : nat -> vec -> seq nat.
Variables angle expi : C -> C.
Hypotheses (argsortP : argsort_ok argsort) (polarP : polar_ok polar) (angleP : angle_ok angle expi).

Lemma tol_le1 : ric_tol C <= 1.
Proof. by rewrite /ric_tol ler_pdivr_mulr ?exprn_gt0 ?ltr0n // mul1r -natrX ler_nat; lia. Qed.
Lemma atol_lt1 : atol0 C < 1.
Proof. by rewrite /atol0 exprVn invf_lt1 ?exprn_gt0 ?ltr0n // -natrX ltr1n; lia. Qed.

Definition dg (a b : C) : mat := fun i j => if (i == 0%N) && (j == 0%N) then a else if (i == 1%N) && (j == 1%N) then b else 0.
Lemma phaseE z : z != 0 -> expi (- angle z) = z^* / `|z|.
Proof.
move=> z0; have zn : `|z| != 0 by rewrite normr_eq0.
have [z1 z2 z3 _] := angleP z.
apply: (@mulIf _ (expi (angle z))); first by rewrite -normr_eq0 z2 oner_eq0.
rewrite z3 mulrAC; apply/eqP; rewrite eq_sym -(inj_eq (mulIf zn)) mulfVK // mul1r.
by rewrite -(inj_eq (mulIf zn)) -mulrA [expi _ * _]mulrC -z1 mulrC -normCK expr2.
Qed.
Lemma Im_ic (c : C) : c \is Num.real -> 'Im ('i * c) = c.
Proof. by move=> rc; rewrite -[X in 'Im X]add0r Im_rect // rpred0. Qed.

Lemma takagi_unsorted rtol (A : mat) (a c : C) desc : 0 <= rtol -> 1 <= a -> a < c -> eqm 2 A (dg a ('i * c)) ->
  exists r U, [/\ takagi eigh svd sqrtm argsort angle expi rtol false 2 2 A desc = Ok (r, U) &
    takagi_fact 2 (dg ('i * c) a) r U].
Proof.
move=> rt0 a1 ac AE.
have a0 : 0 < a := lt_le_trans ltr01 a1.
have c1 : 1 <= c := le_trans a1 (ltW ac).
have c0 : 0 < c := lt_trans a0 ac.
have sA : symm 2 A by move=> [|[|i]] [|[|j]] // hi hj; rewrite /tr !AE.
rewrite /takagi eqxx; cbv beta iota delta [negb].
set B := symmetrise A; have sE : eqm 2 B (dg a ('i * c)) by move=> i j hi hj; rewrite /B (symmetriseE sA) // AE.
have in2 i : (i < 2)%N -> i \in iota 0 2 by rewrite mem_iota.
have -> : becomes_real 2 B = false.
  apply/negP => /allP/(_ 1%N (in2 1%N isT))/allP/(_ 1%N (in2 1%N isT)); rewrite sE // /dg /= Im_ic ?gtr0_real // (gtr0_norm c0) => h.
  by have := lt_le_trans h (le_trans tol_le1 c1); rewrite ltxx.
have -> : allclose (rtol0 C) (atol0 C) 2 2 B (fun _ _ => 0) = false.
  apply/negP => /allP/(_ 0%N (in2 0%N isT))/allP/(_ 0%N (in2 0%N isT)); rewrite sE // /dg /= /close subr0 normr0 mulr0 addr0 (gtr0_norm a0) => h.
  by have := le_lt_trans h (lt_le_trans atol_lt1 a1); rewrite ltxx.
have [p1 p2 pM] := @argmax_absP C 2 B isT; set p := argmax_abs 2 B in p1 p2 pM *.
have Bp : B p.1 p.2 = 'i * c.
  have := pM 1%N 1%N isT isT; rewrite !sE // /dg /= normrM normCi mul1r (gtr0_norm c0).
  case: (p) p1 p2 => [[|[|q1]] [|[|q2]]] //= _ _; rewrite ?normr0 ?(gtr0_norm a0) => h.
  - by have := lt_le_trans ac h; rewrite ltxx.
  - by have := lt_le_trans c0 h; rewrite ltxx.
  - by have := lt_le_trans c0 h; rewrite ltxx.
rewrite Bp; have zn : 'i * c != 0 by rewrite mulf_neq0 ?neq0Ci ?gt_eqF.
have wE : expi (- angle ('i * c)) = - 'i.
  rewrite phaseE // normrM normCi mul1r (gtr0_norm c0) rmorphM conjCi (conj_Creal (gtr0_real c0)) mulNr mulNr mulfK //.
  by rewrite gt_eqF.
rewrite wE.
have -> : becomes_real 2 (fun i j => - 'i * B i j) = false.
  apply/negP => /allP/(_ 0%N (in2 0%N isT))/allP/(_ 0%N (in2 0%N isT)); rewrite sE // /dg /= mulNr raddfN /= Im_ic ?gtr0_real // normrN (gtr0_norm a0) => h.
  by have := lt_le_trans h (le_trans tol_le1 a1); rewrite ltxx.
have -> : allclose rtol (atol0 C) 2 2 B (np_diag (fun i => B i i)).
  apply: allclose_ext => //; first by rewrite /atol0 exprn_ge0 // invr_ge0 ler0n.
  by move=> [|[|i]] [|[|j]] // hi hj; rewrite /np_diag ?sE.
have := takagi_diag_sorted argsortP angleP 2 B desc; set idx := argsort _ _; case: (takagi_diag _ _ _ _ _ _) => r U /= [F _].
exists r, U; split=> //; move: F; apply: fact_extA.
have rl i : (i < 2)%N -> `|B i i| \is Num.real by move=> _; exact: normr_real.
have [pe so] := argsortP rl; rewrite -/idx in pe so.
have [i0 i1] : nth 0%N idx 0 = 0%N /\ nth 0%N idx 1 = 1%N.
  have sz := perm_size pe; have l0 := @perm_iota_lt 2 idx 0 pe isT; have l1 := @perm_iota_lt 2 idx 1 pe isT.
  have ne : nth 0%N idx 0 != nth 0%N idx 1 by rewrite nth_uniq ?sz ?(perm_uniq pe) ?iota_uniq.
  have := so 0%N 1%N isT isT; case: (nth 0%N idx 0) (nth 0%N idx 1) l0 l1 ne => [|[|x]] [|[|y]] //= _ _ _.
  rewrite !sE // /dg /= normrM normCi mul1r (gtr0_norm c0) (gtr0_norm a0) => h.
  by have := lt_le_trans ac h; rewrite ltxx.
by move=> [|[|i]] [|[|j]] // _ _; rewrite /diagm /= ?i0 ?i1 ?sE.
Qed.

(** takagi(diag(1, 2i)) returns a factorisation of diag(2i, 1) instead of one of its argument. *)
Theorem takagi_diag_refuted : exists A : mat, symm 2 A /\ exists r U,
  takagi eigh svd sqrtm argsort angle expi (takagi_rtol C) false 2 2 A true = Ok (r, U) /\
  ~ eqm 2 A (mprod 2 (mprod 2 U (diagm r)) (tr U)).
Proof.
exists (dg 1 ('i * 2%:R)); split; first by move=> [|[|i]] [|[|j]].
have rt0 : 0 <= takagi_rtol C by rewrite exprn_ge0 // invr_ge0 ler0n.
have lt12 : 1 < 2%:R :> C by rewrite ltr1n.
have [r [U [tE [_ _ F]]]] := takagi_unsorted true rt0 (lexx _) lt12 (A := dg 1 ('i * 2%:R)) (fun _ _ _ _ => erefl).
exists r, U; split=> // h; have := h 0%N 0%N isT isT; rewrite -F // /dg /= => /(congr1 (fun x => 'Im x)).
by rewrite Im_ic ?realn // (Creal_ImP _ (rpred1 _)) => /eqP; rewrite eq_sym pnatr_eq0.
Qed.

(** the product O D O^T formed by blochmessiah from a Takagi factorisation of the matrix of P' is P' *)
Lemma bm_core N (P : mat) (r : vec) (W : mat) : symplectic N P -> realm (N + N) P -> posd (N + N) P ->
  takagi_fact N (bm_matrix N P) r W ->
  let O := npblock N N (fun i j => 'Re (W i j)) (fun i j => - 'Im (W i j)) (fun i j => 'Im (W i j)) (fun i j => 'Re (W i j)) in
  let D := np_diag (fun i => if (i < N)%N then sqrtC (1 + (2^-1 * r i) ^+ 2) + 2^-1 * r i
                             else sqrtC (1 + (2^-1 * r (i - N)%N) ^+ 2) - 2^-1 * r (i - N)%N) in
  mxo (N + N) O *m mxo (N + N) D *m (mxo (N + N) O)^T = mxo (N + N) P.
Proof.
move=> /symplectic_mx sP /rmx_real rP /pos_mx pP [r0 /unitary_mx uW /eqm_mx MF] O D.
set p := mxo (N + N) P in sP rP pP *; set w := mxo N W in uW MF; pose rr := \row_(i < N) r i.
have r0' i : 0 <= rr 0 i by rewrite mxE r0.
have MF' : ulsubmx p - drsubmx p + 'i *: (ursubmx p + (ursubmx p)^T) = w *m diag_mx rr *m w^T.
  by move: MF; rewrite !mx_prod mx_tr mx_diag -/rr => <-; apply/matrixP => i k; rewrite !mxE.
have OE : mxo (N + N) O = block_mx (map_mx (fun x => 'Re x) w) (- map_mx (fun x => 'Im x) w) (map_mx (fun x => 'Im x) w) (map_mx (fun x => 'Re x) w).
  by rewrite mx_block; congr block_mx; apply/matrixP => i k; rewrite !mxE.
have pE : p = p *m 1%:M by rewrite mulmx1.
have o1 : (1%:M : 'M[C]_(N + N))^T *m 1%:M = 1%:M by rewrite trmx1 mulmx1.
have BP := bm_product sP rP pP pE o1 uW r0' MF'; rewrite -OE in BP.
have DE : mxo (N + N) D = block_mx (diag_mx (\row_i sqrtC (1 + (2^-1 * rr 0 i) ^+ 2))) 0 0 (diag_mx (\row_i sqrtC (1 + (2^-1 * rr 0 i) ^+ 2))) + block_mx (diag_mx (2^-1 *: rr)) 0 0 (- diag_mx (2^-1 *: rr)).
  rewrite mx_npdiag -diag_mx_row.
  have -> : - diag_mx (2^-1 *: rr) = diag_mx (- (2^-1 *: rr)) by apply/matrixP => i k; rewrite !mxE mulNrn.
  rewrite -diag_mx_row; have -> : forall a b : 'rV[C]_(N + N), diag_mx a + diag_mx b = diag_mx (a + b).
    by move=> a b; apply/matrixP => i k; rewrite !mxE mulrnDl.
  congr diag_mx; apply/rowP => i; rewrite !mxE; case: splitP => k ke; rewrite !mxE ke ?ltn_ord //.
  by rewrite addKn.
by rewrite DE -BP.
Qed.

(** [[diag a, diag b], [diag b, diag c]] with a > 0, b real, a c - b^2 = 1 is real, symplectic and positive definite *)
Definition dblock N (a b c : vec) : mat := blocks N (diagm a) (diagm b) (diagm b) (diagm c).
Lemma dblock_ok N (a b c : vec) : (forall i, (i < N)%N -> [/\ 0 < a i, b i \is Num.real & a i * c i - b i ^+ 2 = 1]) ->
  [/\ symplectic N (dblock N a b c), realm (N + N) (dblock N a b c) & posd (N + N) (dblock N a b c)].
Proof.
move=> h.
have PE : mxo (N + N) (dblock N a b c) = block_mx (mxo N (diagm a)) (mxo N (diagm b)) (mxo N (diagm b)) (mxo N (diagm c)) by exact: mx_blocks.
rewrite !mx_diag in PE; set ar := \row_(i < N) a i in PE; set br := \row_(i < N) b i in PE; set cr := \row_(i < N) c i in PE.
have ca : diag_mx cr = diag_mx (\row_i ((a i)^-1 + (b i / a i) * b i)).
  congr diag_mx; apply/rowP => i; rewrite !mxE; have [a0 _ e] := h i (ltn_ord i).
  apply: (mulfI (lt0r_neq0 a0)); rewrite mulrDr mulfV ?lt0r_neq0 // mulrA mulrCA mulfV ?lt0r_neq0 // mulr1 -expr2 -e.
  by rewrite subrK.
have rd (x : vec) : (forall i, (i < N)%N -> x i \is Num.real) -> rmx (diag_mx (\row_(i < N) x i)).
  by move=> hx; apply/matrixP => i k; rewrite !mxE; case: eqP => _; rewrite ?mulr1n ?mulr0n ?rmorph0 //; apply/CrealP; exact: hx.
have rb : rmx (diag_mx br) by apply: rd => i hi; case: (h i hi).
split.
- apply/symplectic_mx; rewrite PE; apply/symp_blockP; rewrite !tr_diag_mx; split; [exact: diag_mxC|exact: diag_mxC|].
  rewrite !mulmx_diag; apply/matrixP => i k; rewrite !mxE; case: eqP => [->|_]; rewrite ?mulr1n ?mulr0n ?subr0 //.
  by have [_ _] := h k (ltn_ord k); rewrite expr2.
- apply/rmx_real; rewrite PE; apply/rmx_block; split=> //; first by apply: rd => i hi; case: (h i hi) => /gtr0_real.
  rewrite ca; apply: (rd (fun i => (a i)^-1 + b i / a i * b i)) => i hi; have [a0 rbi _] := h i hi.
  by apply: rpredD; [|apply: rpredM => //; apply: rpredM => //]; rewrite rpredV gtr0_real.
apply/pos_mx; rewrite PE.
pose R : 'M[C]_(N + N) := block_mx 1%:M (diag_mx (\row_(i < N) (b i / a i))) 0 1%:M.
pose Dg := row_mx ar (\row_(i < N) (a i)^-1).
have pD : pos (diag_mx Dg).
  apply: pos_diag => i; rewrite mxE; case: splitP => k _; rewrite mxE; have [a0 _ _] := h k (ltn_ord k) => //.
  by rewrite invr_gt0.
have rR : rmx R.
  apply/rmx_block; split; [exact: rmx1| |exact: rmx0|exact: rmx1]; apply: (rd (fun i => b i / a i)) => i hi; have [a0 rbi _] := h i hi.
  by apply: rpredM => //; rewrite rpredV gtr0_real.
have uR : R \in unitmx by rewrite unitmxE det_ublock !det1 mulr1 unitr1.
have := pos_congr pD uR; rewrite (rmx_ct rR) /R /Dg diag_mx_row tr_block_mx tr_diag_mx !trmx1 trmx0 !mulmx_block.
rewrite !mul1mx !mulmx1 !mul0mx !mulmx0 !addr0 !add0r !mulmx_diag ca.
have e1 : diag_mx (\row_j (ar 0 j * (\row_(i < N) (b i / a i)) 0 j)) = diag_mx br.
  congr diag_mx; apply/rowP => i; rewrite !mxE; have [a0 _ _] := h i (ltn_ord i).
  by rewrite mulrCA mulfV ?mulr1 // lt0r_neq0.
have e2 : diag_mx (\row_j ((\row_(i < N) (b i / a i)) 0 j * ar 0 j)) = diag_mx br.
  by rewrite -e1; congr diag_mx; apply/rowP => i; rewrite !mxE mulrC.
have e3 : diag_mx (\row_j ((\row_j0 ((\row_(i < N) (b i / a i)) 0 j0 * ar 0 j0)) 0 j * (\row_(i < N) (b i / a i)) 0 j))
  + diag_mx (\row_i (a i)^-1) = diag_mx (\row_i ((a i)^-1 + b i / a i * b i)).
  apply/matrixP => i k; rewrite !mxE -mulrnDl addrC; congr (_ *+ _); congr (_ + _); have [a0 _ _] := h i (ltn_ord i).
  by rewrite mulfVK ?lt0r_neq0 // mulrC.
by rewrite e1 e2 e3.
Qed.

(** blochmessiah is wrong on a two-mode symplectic matrix whose Takagi matrix is diag(3/2, 8i/3): the product of the factors
    is not the argument *)
Theorem blochmessiah_refuted : exists S : mat, [/\ realm 4 S, symplectic 2 S & exists O D Q,
  blochmessiah eigh svd sqrtm polar argsort angle expi 4 4 S = Ok (O, D, Q) /\
  ~ eqm 4 (mprod 4 (mprod 4 O D) Q) S].
Proof.
pose q (x y : C) : vec := fun i => if i == 0%N then x else y.
pose S := dblock 2 (q 2%:R (5%:R / 3%:R)) (q 0 (4%:R / 3%:R)) (q 2%:R^-1 (5%:R / 3%:R)).
pose S' := dblock 2 (q (5%:R / 3%:R) 2%:R) (q (4%:R / 3%:R) 0) (q (5%:R / 3%:R) 2%:R^-1).
have n2 : 2%:R != 0 :> C by rewrite pnatr_eq0.
have n3 : 3%:R != 0 :> C by rewrite pnatr_eq0.
have fr : 5%:R / 3%:R * (5%:R / 3%:R) - (4%:R / 3%:R) ^+ 2 = 1 :> C by ffield; rewrite ?mulf_neq0.
have g1 : 0 < 5%:R / 3%:R :> C by rewrite divr_gt0 ?ltr0n.
have r1 : 4%:R / 3%:R \is @Num.real C by rewrite ger0_real // divr_ge0 ?ler0n.
have [sS rS pS] : [/\ symplectic 2 S, realm (2 + 2) S & posd (2 + 2) S].
  apply: dblock_ok => -[|[|i]] // _; rewrite /q /=; split; rewrite ?ltr0n ?rpred0 //.
  by rewrite mulfV // expr2 mul0r subr0.
have [sS' rS' pS'] : [/\ symplectic 2 S', realm (2 + 2) S' & posd (2 + 2) S'].
  apply: dblock_ok => -[|[|i]] // _; rewrite /q /=; split; rewrite ?ltr0n ?rpred0 //.
  by rewrite mulfV // expr2 mul0r subr0.
exists S; split=> //; rewrite /blochmessiah (is_symplectic2_accepts (n := 2)) //=; last first.
- by rewrite /atol0 exprn_ge0 // invr_ge0 ler0n.
- by rewrite /rtol0 exprn_ge0 // invr_ge0 ler0n.
have hS : symp (mxo (2 + 2) S) by apply/symplectic_mx.
have [|oV rP pP /eqm_mx SE] := polarP rS.
  exists (ofmx (invmx (mxo (2 + 2) S))); apply/eqm_mx; rewrite mx_prod mxof_ofmx mx_idm mulmxV //; exact: symp_unit.
change 4%N with (2 + 2)%N.
case: (polar (2 + 2)%N S) oV rP pP SE => V P /= /orth_mx[rV oV] rP pP SE; rewrite mx_prod in SE.
have rP' := proj1 (rmx_real _ _) rP; have pP' := proj1 (pos_mx _ _) pP.
have pS2 := proj1 (pos_mx _ _) pS; have rS2 := proj1 (rmx_real _ _) rS.
have tS : (mxo (2 + 2) S)^T = mxo (2 + 2) S by case: pS2 => hh _; rewrite -[RHS]hh (rmx_ct rS2).
have PS : mxo (2 + 2) P = mxo (2 + 2) S.
  by apply: pos_sqrt_unique => //; rewrite (PP rP' pP' SE oV) tS.
have V1 : mxo (2 + 2) V = 1%:M.
  have uS := pos_unit pS2; move: SE; rewrite PS => e.
  by rewrite -[mxo _ V](mulKmx uS) -e mulVmx.
have PSf := proj2 (eqm_mx _ _ _) PS.
have half3 : 2%:R - 2%:R^-1 = 3%:R / 2%:R :> C by ffield; rewrite ?mulf_neq0.
have eight : 4%:R / 3%:R + 4%:R / 3%:R = 8%:R / 3%:R :> C by ffield; rewrite ?mulf_neq0.
have ME : eqm 2 (bm_matrix 2 P) (dg (3%:R / 2%:R) ('i * (8%:R / 3%:R))).
  move=> [|[|i]] [|[|j]] // _ _; rewrite /bm_matrix !PSf // /S /dblock /blocks /diagm /dg /q /=.
  - by rewrite addr0 mulr0 addr0 half3.
  - by rewrite subr0 addr0 mulr0 addr0.
  - by rewrite subr0 addr0 mulr0 addr0.
  - by rewrite subrr add0r eight.
have ME' : eqm 2 (dg ('i * (8%:R / 3%:R)) (3%:R / 2%:R)) (bm_matrix 2 S').
  move=> [|[|i]] [|[|j]] // _ _; rewrite /bm_matrix /S' /dblock /blocks /diagm /dg /q /=.
  - by rewrite subrr add0r eight.
  - by rewrite subr0 addr0 mulr0 addr0.
  - by rewrite subr0 addr0 mulr0 addr0.
  - by rewrite addr0 mulr0 addr0 half3.
have rt0 : 0 <= takagi_rtol C by rewrite exprn_ge0 // invr_ge0 ler0n.
have l1 : 1 <= 3%:R / 2%:R :> C by rewrite ler_pdivl_mulr ?ltr0n // mul1r ler_nat.
have l2 : 3%:R / 2%:R < 8%:R / 3%:R :> C.
  by rewrite ltr_pdivr_mulr ?ltr0n // mulrAC ltr_pdivl_mulr ?ltr0n // -!natrM ltr_nat.
have [r [W [tE F]]] := takagi_unsorted true rt0 l1 l2 ME.
have core := bm_core sS' rS' pS' (fact_extA ME' F).
rewrite (_ : takagi _ _ _ _ _ _ _ _ _ _ _ _ = Ok (r, W)); last exact: tE.
cbv beta iota delta [bind]; move: core => /=; set O := npblock _ _ _ _ _ _; set D := np_diag _ => core.
set Q := mmul _ _ V; exists O, D, Q; split=> // h.
have : mxo (2 + 2) S' = mxo (2 + 2) S.
  rewrite -core -((eqm_mx _ _ _).1 h) !mx_prod mxof_mmul V1 mulmx1 (mxof_trn _ _ O) //.
move=> /matrixP/(_ (Ordinal (isT : (0 < 4)%N)) (Ordinal (isT : (0 < 4)%N))); rewrite !mxE /S /S' /dblock /blocks /diagm /q /=.
move=> /(congr1 (fun x => x * 3%:R)); rewrite mulfVK // -natrM => /eqP; by rewrite eqr_nat.
Qed.
End Ref.
