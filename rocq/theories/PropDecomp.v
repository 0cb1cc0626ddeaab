(** Matrix lemmas for the decompositions: bridges to mathcomp matrices, positive definite square roots, symplectic blocks. *)
From mathcomp Require Import all_ssreflect all_algebra zify.
From Verif Require Import Prelude PyBase ArrLoop MHafnian MHermite MSymplectic MDecomp SpecSymp SpecTor SpecDecomp PropTor PropTor5 PropThr3 PropSpectral PropChannels PropSymp2.
Set Implicit Arguments.
Unset Strict Implicit.
Unset Printing Implicit Defensive.
Import Order.TTheory GRing.Theory Num.Theory.
Local Open Scope ring_scope.

Section Mx.
Variable C : numClosedFieldType.
Notation mat := (nat -> nat -> C).
Notation vec := (nat -> C).
Notation mxo n A := (mxof n n A).

(** bridges *)
Lemma eqm_mx n (A B : mat) : eqm n A B <-> mxo n A = mxo n B.
Proof. by rewrite mxofP. Qed.
Lemma mx_prod n (A B : mat) : mxo n (mprod n A B) = mxo n A *m mxo n B.
Proof. by apply/matrixP => i j; rewrite !mxE; apply: eq_bigr => k _; rewrite !mxE. Qed.
Lemma mx_tr n (A : mat) : mxo n (tr A) = (mxo n A)^T.
Proof. by apply/matrixP => i j; rewrite !mxE. Qed.
Lemma mx_idm n : mxo n (idm C) = 1%:M.
Proof. by apply/matrixP => i j; rewrite !mxE. Qed.
Lemma mx_diag n (d : vec) : mxo n (diagm d) = diag_mx (\row_(i < n) d i).
Proof. by apply/matrixP => i j; rewrite !mxE /diagm -val_eqE /=; case: eqP => [->|]. Qed.
Lemma mx_npdiag n (d : vec) : mxo n (np_diag d) = diag_mx (\row_(i < n) d i).
Proof. by apply/matrixP => i j; rewrite !mxE /np_diag -val_eqE /=; case: eqP => [->|]. Qed.
Lemma mx_pow n (A : mat) k : mxo n (mpow n A k) = iter k (mulmx (mxo n A)) 1%:M.
Proof. by elim: k => [|k IH]; rewrite ?mx_idm // /mpow iterS mx_prod -/(mpow n A k) IH. Qed.
Lemma mx_block N (A B D E : mat) : mxo (N + N) (npblock N N A B D E) = block_mx (mxo N A) (mxo N B) (mxo N D) (mxo N E).
Proof.
apply/matrixP => i j; rewrite mxE /npblock; case: (split_ordP i) => i' ->; case: (split_ordP j) => j' -> /=;
  rewrite ?block_mxEul ?block_mxEur ?block_mxEdl ?block_mxEdr !mxE ?ltn_ord //.
- by rewrite addKn.
- by rewrite addKn.
by rewrite !addKn.
Qed.
Lemma blocksE N (A B D E : mat) : blocks N A B D E = npblock N N A B D E. Proof. by []. Qed.
Lemma mx_split N (S : mat) : mxo (N + N) S = block_mx (mxo N S) (mxo N (mshift 0 N S)) (mxo N (mshift N 0 S)) (mxo N (mshift N N S)).
Proof.
apply/matrixP => i j; rewrite mxE; case: (split_ordP i) => i' ->; case: (split_ordP j) => j' -> /=;
  rewrite ?block_mxEul ?block_mxEur ?block_mxEdl ?block_mxEdr !mxE ?ltn_ord //.
Qed.

(** real matrices *)
Definition rmx m n (A : 'M[C]_(m, n)) := map_mx conjC A = A.
Lemma rmx_real n (A : mat) : realm n A <-> rmx (mxo n A).
Proof.
split=> [h|h i j hi hj]; first by apply/matrixP => i j; rewrite !mxE; apply/CrealP/h.
by have /matrixP/(_ (Ordinal hi) (Ordinal hj)) := h; rewrite !mxE /= => /CrealP.
Qed.
Lemma rmx_ct m n (A : 'M[C]_(m, n)) : rmx A -> ct A = A^T.
Proof. by rewrite /ct => h; rewrite -{2}h map_trmx. Qed.
Lemma rmxM m n p (A : 'M[C]_(m, n)) (B : 'M[C]_(n, p)) : rmx A -> rmx B -> rmx (A *m B).
Proof. by move=> a b; rewrite /rmx map_mxM a b. Qed.
Lemma rmxD m n (A B : 'M[C]_(m, n)) : rmx A -> rmx B -> rmx (A + B).
Proof. by move=> a b; rewrite /rmx map_mxD a b. Qed.
Lemma rmxN m n (A : 'M[C]_(m, n)) : rmx A -> rmx (- A).
Proof. by move=> a; rewrite /rmx map_mxN a. Qed.
Lemma rmxT m n (A : 'M[C]_(m, n)) : rmx A -> rmx A^T.
Proof. by move=> a; rewrite /rmx -map_trmx a. Qed.
Lemma rmxV n (A : 'M[C]_n) : rmx A -> rmx (invmx A).
Proof. by move=> a; rewrite /rmx map_invmx a. Qed.
Lemma rmx1 n : rmx (1%:M : 'M[C]_n).
Proof. by rewrite /rmx map_mx1. Qed.
Lemma rmx0 m n : rmx (0 : 'M[C]_(m, n)).
Proof. by rewrite /rmx map_mx0. Qed.
Lemma rmx_block N (A B D E : 'M[C]_N) : rmx (block_mx A B D E) <-> [/\ rmx A, rmx B, rmx D & rmx E].
Proof.
rewrite /rmx map_block_mx; split=> [e|[-> -> -> ->]//].
by case: (eq_block_mx e).
Qed.

(** positive definite matrices *)
Definition pos n (A : 'M[C]_n) := ct A = A /\ forall v : 'cV[C]_n, v != 0 -> 0 < (ct v *m A *m v) 0 0.
Lemma pos_mx n (A : mat) : posd n A <-> pos (mxo n A).
Proof.
split=> [[h p]|[h p]]; last by split; [exact: herm_mx|exact: mx_posdef].
by split; [exact: mxof_herm|move=> v; exact: posdef_mx].
Qed.
Lemma pos_ge0 n (A : 'M[C]_n) (v : 'cV[C]_n) : pos A -> 0 <= (ct v *m A *m v) 0 0.
Proof. by case=> _ p; case: (v =P 0) => [->|/eqP/p/ltW //]; rewrite mulmx0 mxE. Qed.
Lemma pos_unit n (A : 'M[C]_n) : pos A -> A \in unitmx.
Proof.
move=> [h p]; rewrite -(mxof_ofmx A); apply: (proj1 (posdef_det (herm_mx _) (mx_posdef _))); rewrite mxof_ofmx //.
Qed.
Lemma posD n (A B : 'M[C]_n) : pos A -> pos B -> pos (A + B).
Proof.
move=> [hA pA] [hB pB]; split; first by rewrite ctD hA hB.
by move=> v nz; rewrite mulmxDr mulmxDl mxE addr_gt0 ?pA ?pB.
Qed.
Lemma posV n (A : 'M[C]_n) : pos A -> pos (invmx A).
Proof.
move=> pA; have uA := pos_unit pA; case: (pA) => h p.
have hV : ct (invmx A) = invmx A.
  by apply: (can_inj (mulKmx uA)); rewrite mulmxV // -{1}h -ctM mulVmx // ct1.
split=> // v nz; pose w := invmx A *m v; have vE : v = A *m w by rewrite /w mulKVmx.
have wn : w != 0 by apply: contra_neq nz => e; rewrite vE e mulmx0.
by have := p _ wn; rewrite vE ctM h -!mulmxA mulKmx.
Qed.
Lemma pos_congr n (A B : 'M[C]_n) : pos A -> B \in unitmx -> pos (ct B *m A *m B).
Proof.
move=> [h p] uB; split; first by rewrite !ctM ctK h mulmxA.
move=> v nz; have wn : B *m v != 0 by apply: contra_neq nz => e; rewrite -[v](mulKmx uB) e mulmx0.
by have := p _ wn; rewrite ctM -!mulmxA.
Qed.
Lemma pos1 n : pos (1%:M : 'M[C]_n).
Proof.
split=> [|v nz]; first exact: ct1.
rewrite mulmx1 mxE lt0r; rewrite sumr_ge0 => [|i _]; last by rewrite !mxE mulrC -normCK exprn_ge0.
rewrite andbT; apply: contra_neq nz => e; apply/matrixP => i j; rewrite ord1 mxE.
move/eqP: e; rewrite psumr_eq0 => [/allP h|k _]; last by rewrite !mxE mulrC -normCK exprn_ge0.
by have := h i (mem_index_enum _); rewrite /= !mxE mulrC -normCK sqrf_eq0 normr_eq0 => /eqP.
Qed.
Lemma pos_diag n (d : 'rV[C]_n) : (forall i, 0 < d 0 i) -> pos (diag_mx d).
Proof.
move=> h; split=> [|v nz].
  by apply/matrixP => i j; rewrite !mxE eq_sym; case: eqP => [->|]; rewrite ?mulr1n ?mulr0n ?rmorph0 //; apply/CrealP/gtr0_real.
rewrite diag_qform lt0r sumr_ge0 => [|i _]; last by rewrite mulr_ge0 ?exprn_ge0 // ltW.
rewrite andbT; apply: contra_neq nz => e; apply/matrixP => i j; rewrite ord1 mxE.
move/eqP: e; rewrite psumr_eq0 => [/allP hh|k _]; last by rewrite mulr_ge0 ?exprn_ge0 // ltW.
by have := hh i (mem_index_enum _); rewrite /= mulf_eq0 (gt_eqF (h i)) sqrf_eq0 normr_eq0 => /eqP.
Qed.

(** the trace of K^* A K is a sum of values of the quadratic form *)
Lemma trace_form n (A K : 'M[C]_n) : \tr (ct K *m A *m K) = \sum_i (ct (col i K) *m A *m col i K) 0 0.
Proof.
apply: eq_bigr => i _; rewrite !mxE; apply: eq_bigr => j _; rewrite !mxE; congr (_ * _).
by apply: eq_bigr => k _; rewrite !mxE.
Qed.
(** uniqueness of the positive definite square root *)
Lemma pos_sqrt_unique n (P R : 'M[C]_n) : pos P -> pos R -> P *m P = R *m R -> P = R.
Proof.
move=> pP pR e; apply/eqP; rewrite -subr_eq0; apply/eqP; set K := P - R.
have [hP _] := pP; have [hR _] := pR.
have hK : ct K = K by rewrite /K ctD ctN hP hR.
have eK : P *m K + K *m R = 0 by rewrite /K mulmxBr mulmxBl e addrC addrA subrK subrr.
have t0 : \tr (ct K *m (P + R) *m K) = 0.
  move: hK eK; move: K => L hL eL.
  rewrite hL mulmxDr mulmxDl mxtraceD [X in _ + X]mxtrace_mulC -mulmxA -mxtraceD -mulmxDr.
  by rewrite eL mulmx0 mxtrace0.
have pPR := posD pP pR; move/eqP: t0; rewrite trace_form psumr_eq0 => [/allP h|i _]; last exact: pos_ge0.
apply/matrixP => i j; have := h j (mem_index_enum _); rewrite /= => /eqP e0.
case: (col j K =P 0) => [/matrixP/(_ i 0)|/eqP nz]; first by rewrite !mxE.
by case: pPR => _ /(_ _ nz); rewrite e0 ltxx.
Qed.

(** the symplectic form *)
Definition J N : 'M[C]_(N + N) := block_mx 0 1%:M (- 1%:M) 0.
Definition symp N (S : 'M[C]_(N + N)) := S^T *m J N *m S = J N.
Lemma mx_Omega N : mxo (N + N) (Omega C N) = J N.
Proof.
apply/matrixP => i j; rewrite mxE /Omega; case: (split_ordP i) => i' ->; case: (split_ordP j) => j' -> /=;
  rewrite ?block_mxEul ?block_mxEur ?block_mxEdl ?block_mxEdr !mxE.
- by have [-> ->] : (j' == N + i' :> nat)%N = false /\ (i' == N + j' :> nat)%N = false; [have := ltn_ord j'; have := ltn_ord i'; lia|rewrite subrr].
- by have -> : (i' == N + (N + j') :> nat)%N = false; [have := ltn_ord i'; lia|rewrite eqn_add2l subr0 eq_sym].
- by have -> : (j' == N + (N + i') :> nat)%N = false; [have := ltn_ord j'; lia|rewrite eqn_add2l sub0r].
have -> : (N + j' == N + (N + i') :> nat)%N = false by have := ltn_ord j'; lia.
by have -> : (N + i' == N + (N + j') :> nat)%N = false; [have := ltn_ord i'; lia|rewrite subrr].
Qed.
Lemma symplectic_mx N (S : mat) : symplectic N S <-> symp (mxo (N + N) S).
Proof.
rewrite /symp -mx_Omega -mx_tr -!mx_prod -eqm_mx /eqm /symplectic mul2n -addnn.
have E i j : \sum_(k < N + N) \sum_(l < N + N) S k i * Omega C N k l * S l j
  = mprod (N + N) (mprod (N + N) (tr S) (Omega C N)) S i j.
  by rewrite exchange_big; apply: eq_bigr => l _; rewrite mulr_suml.
by split=> h i j hi hj; [rewrite -E h|rewrite E h].
Qed.
Lemma JJ N : J N *m J N = - 1%:M.
Proof.
rewrite /J mulmx_block !mul0mx !mulmx0 mulmxN mulNmx !mulmx1 !addr0 !add0r.
by rewrite (scalar_mx_block N N 1) opp_block_mx !oppr0.
Qed.
Lemma Jt N : (J N)^T = - J N.
Proof. by rewrite /J tr_block_mx opp_block_mx !trmx0 !oppr0 opprK linearN /= trmx1. Qed.
Lemma Jreal N : rmx (J N).
Proof. by apply/rmx_block; split; [exact: rmx0|exact: rmx1|apply: rmxN; exact: rmx1|exact: rmx0]. Qed.
Lemma symp_inv N (S : 'M[C]_(N + N)) : symp S -> S *m (- (J N *m S^T *m J N)) = 1%:M.
Proof.
move=> h; apply: mulmx1C.
by rewrite mulNmx -!mulmxA (mulmxA S^T) h JJ opprK.
Qed.
Lemma symp_unit N (S : 'M[C]_(N + N)) : symp S -> S \in unitmx.
Proof. by move=> /symp_inv/mulmx1_unit[]. Qed.
Lemma symp_tr N (S : 'M[C]_(N + N)) : symp S -> symp S^T.
Proof.
move=> /symp_inv; rewrite mulmxN !mulmxA => h; rewrite /symp trmxK; apply: oppr_inj.
by rewrite -[X in - X]mulmx1 -mulmxN -JJ mulmxA -[S *m J N *m S^T *m J N]opprK h mulNmx mul1mx.
Qed.
Lemma sympM N (S T : 'M[C]_(N + N)) : symp S -> symp T -> symp (S *m T).
Proof. by rewrite /symp => hS hT; rewrite trmx_mul -!mulmxA (mulmxA (J N)) (mulmxA S^T) (mulmxA S^T) hS mulmxA hT. Qed.
Lemma sympV N (S : 'M[C]_(N + N)) : symp S -> symp (invmx S).
Proof.
move=> h; have u := symp_unit h; rewrite /symp -{1}h trmx_inv !mulmxA mulVmx ?unitmx_tr // mul1mx -mulmxA mulmxV // mulmx1 //.
Qed.
Lemma symp_blockP N (A B D E : 'M[C]_N) : symp (block_mx A B D E) <->
  [/\ A^T *m D = D^T *m A, B^T *m E = E^T *m B & A^T *m E - D^T *m B = 1%:M].
Proof.
rewrite /symp /J tr_block_mx !mulmx_block !mulmx0 !mulmxN !mulmx1 !add0r !addr0 !mulNmx; split.
  move=> /eq_block_mx[e1 e2 _ e4]; split; last by rewrite addrC e2.
    by apply/eqP; rewrite -subr_eq0 addrC e1.
  by apply/eqP; rewrite -subr_eq0 addrC e4.
move=> [e1 e2 e3]; rewrite e1 e2 !addNr [X in block_mx _ X]addrC e3; congr block_mx.
by rewrite -[1%:M](trmx1 C) -e3 linearB /= !trmx_mul !trmxK opprB [in LHS]addrC.
Qed.
End Mx.
