(** The pre-Iwasawa and Iwasawa decompositions. *)
From mathcomp Require Import all_ssreflect all_algebra zify.
From Verif Require Import Prelude PyBase ArrLoop MHafnian MHermite MSymplectic MDecomp SpecSymp SpecTor SpecDecomp PropTor PropTor5 PropThr3 PropSpectral PropChannels PropSymp2 PropDecomp.
Set Implicit Arguments.
Unset Strict Implicit.
Unset Printing Implicit Defensive.
Import Order.TTheory GRing.Theory Num.Theory.
Local Open Scope ring_scope.

Section Iwa.
Variable C : numClosedFieldType.
Notation mat := (nat -> nat -> C).
Notation vec := (nat -> C).
Notation mxo n A := (mxof n n A).

Lemma pos_conj n (A : 'M[C]_n) : pos A -> pos (map_mx conjC A).
Proof.
move=> [h p]; split; first by rewrite -{2}h /ct map_trmx.
move=> v nz; have wn : map_mx conjC v != 0.
  by apply: contra_neq nz => e; apply/matrixP => i j; have /matrixP/(_ i j) := e; rewrite !mxE => /eqP; rewrite conjC_eq0 => /eqP.
have := p _ wn; rewrite -(conj_Creal (gtr0_real (p _ wn))) => q.
suff -> : (ct v *m map_mx conjC A *m v) 0 0 = ((ct (map_mx conjC v) *m A *m map_mx conjC v) 0 0)^* by [].
transitivity ((map_mx conjC (ct (map_mx conjC v) *m A *m map_mx conjC v)) 0 0); last by rewrite [LHS]mxE.
rewrite !map_mxM; congr ((_ *m _ *m _) 0 0); first by apply/matrixP => i j; rewrite !mxE conjCK.
by apply/matrixP => i j; rewrite !mxE conjCK.
Qed.
Lemma pos_sqrt_real n (P : 'M[C]_n) : pos P -> rmx (P *m P) -> rmx P.
Proof. by move=> pP r; apply: pos_sqrt_unique => //; [exact: pos_conj|rewrite -map_mxM r]. Qed.

Lemma trN m n (M : 'M[C]_(m, n)) : (- M)^T = - M^T. Proof. by apply/matrixP => i j; rewrite !mxE. Qed.

Section Pre.
Variables (N : nat) (A B D E A0 : 'M[C]_N).
Hypothesis hS : symp (block_mx A B D E).
Hypothesis rS : rmx (block_mx A B D E).
Let S := block_mx A B D E.
Let G := A *m A^T + B *m B^T.

Lemma tr_conds : [/\ A *m B^T = B *m A^T, D *m E^T = E *m D^T & A *m E^T - B *m D^T = 1%:M].
Proof. by move: (symp_tr hS); rewrite tr_block_mx => /symp_blockP; rewrite !trmxK. Qed.
Lemma cond4 : E *m A^T - D *m B^T = 1%:M.
Proof. by have [_ _ e] := tr_conds; rewrite -[1%:M](trmx1 C) -e linearB /= !trmx_mul !trmxK. Qed.
Lemma reals : [/\ rmx A, rmx B, rmx D & rmx E]. Proof. exact/rmx_block. Qed.

Lemma G_pos : pos G.
Proof.
have [rA rB _ _] := reals.
have hG : ct G = G by rewrite /G ctD !ctM (rmx_ct (rmxT rA)) (rmx_ct (rmxT rB)) (rmx_ct rA) (rmx_ct rB) !trmxK.
split=> // v nz.
have E2 (X : 'M[C]_N) : rmx X -> ct v *m (X *m X^T) *m v = ct (X^T *m v) *m (X^T *m v).
  by move=> rX; rewrite ctM (rmx_ct (rmxT rX)) trmxK !mulmxA.
rewrite /G mulmxDr mulmxDl mxE !E2 // lt0r.
have ge0 (w : 'cV[C]_N) : 0 <= (ct w *m w) 0 0 by rewrite ct_col_norm sumr_ge0 // => i _; rewrite exprn_ge0.
rewrite addr_ge0 ?ge0 // andbT paddr_eq0 ?ge0 //; apply: contra_neqN nz => /andP[e1 e2].
have z (w : 'cV[C]_N) : (ct w *m w) 0 0 == 0 -> w = 0.
  move=> e; apply/eqP; apply: contraLR e => wn; rewrite gt_eqF //.
  by have [_ p] := pos1 C N; have := p _ wn; rewrite mulmx1.
by rewrite -[v]mul1mx -cond4 mulmxBl -!mulmxA (z _ e1) (z _ e2) !mulmx0 subrr.
Qed.

Hypothesis pA0 : pos A0.
Hypothesis sA0 : A0 *m A0 = G.
Lemma G_real : rmx G.
Proof. by have [rA rB _ _] := reals; apply: rmxD; apply: rmxM => //; apply: rmxT. Qed.
Lemma rA0 : rmx A0. Proof. by apply: pos_sqrt_real => //; rewrite sA0; exact: G_real. Qed.
Lemma uA0 : A0 \in unitmx. Proof. exact: pos_unit. Qed.
Lemma tA0 : A0^T = A0. Proof. by have [h _] := pA0; rewrite -[RHS]h (rmx_ct rA0). Qed.
Let I0 := invmx A0.
Lemma tI0 : I0^T = I0. Proof. by rewrite /I0 trmx_inv tA0. Qed.
Let X := I0 *m A.
Let Y := I0 *m B.
Let C0 := (D *m A^T + E *m B^T) *m I0.
Let F := block_mx X Y (- Y) X.

Lemma XX : X *m X^T + Y *m Y^T = 1%:M.
Proof.
rewrite /X /Y !trmx_mul tI0 !mulmxA -mulmxDl -!(mulmxA I0) -mulmxDr -/G -sA0.
by rewrite mulmxA /I0 mulVmx ?uA0 // mul1mx mulmxV ?uA0.
Qed.
Lemma XY : X *m Y^T = Y *m X^T.
Proof.
have [e _ _] := tr_conds.
by rewrite /X /Y !trmx_mul tI0 !mulmxA -(mulmxA I0 A) e mulmxA.
Qed.
Lemma FF : F *m F^T = 1%:M.
Proof.
rewrite /F tr_block_mx mulmx_block !trN !mulmxN !mulNmx opprK XX XY !addNr.
by rewrite [_ + X *m _]addrC XX -scalar_mx_block.
Qed.
Lemma F_orth : F^T *m F = 1%:M. Proof. exact: mulmx1C FF. Qed.
Lemma F_symp : symp F.
Proof.
have e : J C N *m F = F *m J C N.
  by rewrite /J /F !mulmx_block !mul0mx !mulmx0 !mulNmx !mulmxN !mul1mx !mulmx1 !add0r !addr0 ?opprK.
by rewrite /symp -mulmxA e mulmxA F_orth mul1mx.
Qed.
Lemma bottom : row_mx D E *m F^T = row_mx C0 I0.
Proof.
rewrite /F tr_block_mx mul_row_block /X /Y !trN !trmx_mul tI0 !mulmxA; congr row_mx.
  by rewrite -mulmxDl.
by rewrite mulmxN addrC mulmxA -mulmxBl cond4 mul1mx.
Qed.
Lemma pre_product : block_mx 1%:M 0 (C0 *m I0) 1%:M *m block_mx A0 0 0 I0 *m F = S.
Proof.
rewrite mulmx_block !mul0mx !mulmx0 !mul1mx !addr0 !add0r -mulmxA /I0 mulVmx ?uA0 // mulmx1 -/I0.
have b : row_mx D E = row_mx C0 I0 *m F by rewrite -bottom -mulmxA F_orth mulmx1.
rewrite /F mulmx_block !mul0mx !addr0 /X /Y !mulmxA /I0 mulmxV ?uA0 // !mul1mx -/I0.
move: b; rewrite /F mul_row_block => /eq_row_mx[e1 e2].
by rewrite /S; congr block_mx; rewrite ?[RHS]e1 ?[RHS]e2 /X /Y !mulmxA ?mulmxN ?mulmxA.
Qed.
Lemma C0I0_sym : (C0 *m I0)^T = C0 *m I0.
Proof.
have sP : symp (block_mx A0 0 C0 I0).
  have -> : block_mx A0 0 C0 I0 = S *m F^T.
    rewrite -pre_product -mulmxA FF mulmx1 mulmx_block !mul0mx !mulmx0 !mul1mx !addr0 !add0r.
    by rewrite -mulmxA /I0 mulVmx ?uA0 // mulmx1.
  by apply: sympM => //; apply: symp_tr; exact: F_symp.
move: sP => /symp_blockP[e _ _]; rewrite tA0 in e.
have -> : C0 *m I0 = I0 *m (A0 *m C0) *m I0 by rewrite mulmxA /I0 mulVmx ?uA0 // mul1mx.
by rewrite (trmx_mul _ I0) (trmx_mul I0) (trmx_mul A0) tI0 tA0 -e !mulmxA.
Qed.
End Pre.

Lemma half_double N : (2 * N)./2 = N. Proof. by lia. Qed.
Lemma twoE N : (2 * N = N + N)%N. Proof. by lia. Qed.
Lemma orth_mx n (O : mat) : orth n O <-> rmx (mxo n O) /\ (mxo n O)^T *m mxo n O = 1%:M.
Proof. by rewrite /orth rmx_real eqm_mx mx_prod mx_tr mx_idm. Qed.
Lemma mx_zero n : mxo n (fun _ _ => 0) = 0 :> 'M[C]_n.
Proof. by apply/matrixP => i j; rewrite !mxE. Qed.
Lemma np_inv_ok n (A : mat) : mxo n A \in unitmx -> np_inv n A = Ok (ofmx (invmx (mxo n A))).
Proof. by rewrite /np_inv => ->. Qed.

Lemma mx_blocks N (A B D E : mat) : mxo (N + N) (blocks N A B D E) = block_mx (mxo N A) (mxo N B) (mxo N D) (mxo N E).
Proof. exact: mx_block. Qed.

Variable sqrtm : nat -> mat -> mat.
Hypothesis sqrtmP : sqrtm_ok sqrtm.

(** C43: for every real symplectic S, pre_iwasawa(S) returns (E, D, F) with E D F = S, E = [[1, 0], [X, 1]] with X symmetric,
    D = [[G, 0], [0, G^-1]] with G positive definite and F orthogonal; all three are symplectic. *)
Theorem pre_iwasawa_correct N (S : mat) : realm (2 * N) S -> symplectic N S ->
  exists E D F, [/\ pre_iwasawa sqrtm (2 * N) (2 * N) S = Ok (E, D, F),
    eqm (2 * N) (mprod (2 * N) (mprod (2 * N) E D) F) S,
    exists X, [/\ eqm (2 * N) E (blocks N (idm C) (fun _ _ => 0) X (idm C)), realm N X & symm N X],
    exists G H, [/\ eqm (2 * N) D (blocks N G (fun _ _ => 0) (fun _ _ => 0) H), realm N G, posd N G & eqm N (mprod N G H) (idm C)] &
    [/\ orth (2 * N) F, symplectic N E, symplectic N D & symplectic N F]].
Proof.
move=> rS sS; rewrite /pre_iwasawa is_symplectic2_accepts //=; last first.
- by rewrite /atol0 exprn_ge0 // invr_ge0 ler0n.
- by rewrite /rtol0 exprn_ge0 // invr_ge0 ler0n.
move: rS; rewrite half_double twoE => rS.
set A0 := sqrtm N _.
have hS : symp (mxo (N + N) S) by apply/symplectic_mx.
have r1 : rmx (mxo (N + N) S) by apply/rmx_real.
move: (hS) (r1); rewrite mx_split => sS' rS'.
have gE : mxo N (madd (mmul N S (trn S)) (mmul N (mshift 0 N S) (trn (mshift 0 N S)))) =
  mxo N S *m (mxo N S)^T + mxo N (mshift 0 N S) *m (mxo N (mshift 0 N S))^T by rewrite mxof_madd !mxof_mmul (mxof_trn N N S) (mxof_trn N N (mshift 0 N S)).
have pG := G_pos sS' rS'; rewrite -gE in pG.
have [/eqm_mx sq _ ps] := sqrtmP (or_introl _ (proj2 (pos_mx _ _) pG)).
have {ps} /pos_mx pA0 := ps (proj2 (pos_mx _ _) pG); rewrite -/A0 in pA0 sq.
move: sq; rewrite mx_prod gE => sq.
have u0 := uA0 pA0.
rewrite (np_inv_ok u0) /=.
set I0 := ofmx _; have I0E : mxo N I0 = invmx (mxo N A0) by rewrite /I0 mxof_ofmx.
set X0 := mmul N _ I0; set E := npblock _ _ _ _ _ _; set D := npblock _ _ _ _ _ _; set F := npblock _ _ _ _ _ _.
have X0E : mxo N X0 = (mxo N (mshift N 0 S) *m (mxo N S)^T + mxo N (mshift N N S) *m (mxo N (mshift 0 N S))^T) *m invmx (mxo N A0) *m invmx (mxo N A0).
  by rewrite /X0 !mxof_mmul mxof_madd !mxof_mmul (mxof_trn N N S) (mxof_trn N N (mshift 0 N S)) I0E.
have EE : mxo (N + N) E = block_mx 1%:M 0 (mxo N X0) 1%:M by rewrite /E mx_block mxof_eye mx_zero.
have DE : mxo (N + N) D = block_mx (mxo N A0) 0 0 (invmx (mxo N A0)) by rewrite /D mx_block mx_zero I0E.
have nE (Z : mat) : mxo N (fun i j => - Z i j) = - mxo N Z by apply/matrixP => i j; rewrite !mxE.
have FE : mxo (N + N) F = block_mx (invmx (mxo N A0) *m mxo N S) (invmx (mxo N A0) *m mxo N (mshift 0 N S))
   (- (invmx (mxo N A0) *m mxo N (mshift 0 N S))) (invmx (mxo N A0) *m mxo N S).
  by rewrite /F mx_block nE !mxof_mmul I0E.
have rA := rA0 rS' pA0 sq; have tA := tA0 rS' pA0 sq.
have [q1 q2 q3 q4] := reals rS'.
have symF : symp (mxo (N + N) F) by rewrite FE; exact: (F_symp sS' rS' pA0 sq).
have symD : symp (mxo (N + N) D).
  rewrite DE; apply/symp_blockP; rewrite !trmx0 !mul0mx !mulmx0 subr0; split=> //.
  by rewrite tA mulmxV.
have symX : (mxo N X0)^T = mxo N X0 by rewrite X0E; exact: (C0I0_sym sS' rS' pA0 sq).
have symE : symp (mxo (N + N) E).
  by rewrite EE; apply/symp_blockP; rewrite !trmx0 !trmx1 ?mul1mx ?mulmx1 ?mul0mx ?mulmx0 ?subr0 symX.
exists E, D, F; split=> //.
- by apply/eqm_mx; rewrite !mx_prod EE DE FE X0E mx_split; exact: (pre_product sS' rS' pA0 sq).
- exists X0; split; [|apply/rmx_real; rewrite X0E|by apply/eqm_mx; rewrite mx_tr symX].
    by apply/eqm_mx; rewrite [RHS]mx_blocks mx_idm mx_zero EE.
  by apply: rmxM (rmxV rA); apply: rmxM (rmxV rA); apply: rmxD; apply: rmxM => //; apply: rmxT.
- exists A0, I0; split; [|exact/rmx_real|exact/pos_mx|by apply/eqm_mx; rewrite mx_prod mx_idm I0E mulmxV].
  by apply/eqm_mx; rewrite [RHS]mx_blocks mx_zero I0E DE.
split; try exact/symplectic_mx.
apply/orth_mx; rewrite FE; split; last exact: (F_orth sS' rS' pA0 sq).
by apply/rmx_block; split; try apply: rmxN; apply: rmxM => //; apply: rmxV.
Qed.

Theorem pre_iwasawa_rejects n m (S : mat) : is_symplectic2 (rtol0 C) (atol0 C) n m S = false ->
  pre_iwasawa sqrtm n m S = Err ValueError.
Proof. by rewrite /pre_iwasawa => ->. Qed.
End Iwa.
