(** random_symplectic and random_covariance. *)
From mathcomp Require Import all_ssreflect all_algebra zify.
From Verif Require Import Prelude PyBase ArrLoop MHafnian MHermite MSymplectic MDecomp MRandom MFock SpecSymp SpecTor SpecDecomp SpecRandom SpecFock PropTor PropConversions PropThr3 PropThr5 PropSpectral PropChecks PropPure PropChannels PropDecomp PropDecomp6 PropDecomp7 PropRandom.
Set Implicit Arguments.
Unset Strict Implicit.
Unset Printing Implicit Defensive.
Import Order.TTheory GRing.Theory Num.Theory.
Local Open Scope ring_scope.

Section Sym.
Variable C : numClosedFieldType.
Notation mat := (nat -> nat -> C).
Notation vec := (nat -> C).
Notation mxo n A := (mxof n n A).
Variable qr : nat -> mat -> mat * mat.
Variable exp : C -> C.
Hypothesis qro : qrc_ok qr.
Hypothesis expo : exp_real_ok exp.

Lemma expR x : x \is Num.real -> exp x \is Num.real. Proof. by move=> h; case: (expo h). Qed.
Lemma expV x : x \is Num.real -> exp (- x) * exp x = 1. Proof. by move=> h; case: (expo h). Qed.
Definition realform N (U : mat) : mat :=
  npblock N N (fun i j => 'Re (U i j)) (fun i j => - 'Im (U i j)) (fun i j => 'Im (U i j)) (fun i j => 'Re (U i j)).
Lemma realform_mx N (U : mat) : mxo (N + N) (realform N U) =
  block_mx (map_mx (fun x => 'Re x) (mxo N U)) (- map_mx (fun x => 'Im x) (mxo N U)) (map_mx (fun x => 'Im x) (mxo N U)) (map_mx (fun x => 'Re x) (mxo N U)).
Proof. by rewrite /realform mx_block; congr block_mx; apply/matrixP => i j; rewrite !mxE. Qed.
Lemma realform_ok N (U : mat) : unitary N U ->
  [/\ symp (mxo (N + N) (realform N U)), rmx (mxo (N + N) (realform N U)) & (mxo (N + N) (realform N U))^T *m mxo (N + N) (realform N U) = 1%:M].
Proof.
move/unitary_mx => u; rewrite realform_mx; split; first exact: O_symp.
- exact: O_real.
exact: O_orth.
Qed.
Definition sq_diag N (r : vec) : mat := np_diag (fun i => if (i < N)%N then exp (- r i) else exp (r (i - N)%N)).
Lemma sq_ok N (r : vec) : (forall i, (i < N)%N -> r i \is Num.real) -> symp (mxo (N + N) (sq_diag N r)) /\ rmx (mxo (N + N) (sq_diag N r)).
Proof.
move=> rr; split; last first.
  apply/rmx_real => i j hi hj; rewrite /sq_diag /np_diag; case: (i =P j) => _; last exact: real0.
  case: (ltnP i N) => iN.
    by rewrite expR // realN rr.
  by rewrite expR // rr //; lia.
have -> : mxo (N + N) (sq_diag N r) = block_mx (diag_mx (\row_(i < N) exp (- r i))) 0 0 (diag_mx (\row_(i < N) exp (r i))).
  apply/matrixP => i j; rewrite !mxE /sq_diag /np_diag; case: splitP => i' ei; rewrite !mxE; case: splitP => j' ej; rewrite !mxE ei ej -?val_eqE /=.
  - by case: eqP.
  - by case: eqP => // e; have := ltn_ord i'; rewrite e; lia.
  - by case: eqP => // e; have := ltn_ord j'; rewrite -e; lia.
  - by rewrite eqn_add2l addKn; case: eqP.
apply/symp_blockP; rewrite !trmx0 !tr_diag_mx !mul0mx !mulmx0; split=> //.
rewrite subr0; apply/matrixP => i j; rewrite mul_diag_mx !mxE; case: eqP => [->|_]; last by rewrite !mulr0n mulr0.
by rewrite !mulr1n expV // rr.
Qed.
Lemma mul2nN N : (2 * N)%N = (N + N)%N. Proof. by rewrite mul2n addnn. Qed.

Section Draws.
Variables (N : nat) (bd : bool) (xy1 xy2 : mat * mat) (rx ry : vec) (scale : C).
Hypotheses (ns1 : nonsing N (draw bd xy1)) (ns2 : nonsing N (draw bd xy2)) (rs : scale \is Num.real).
Let S passive := random_symplectic qr exp N passive bd scale xy1 xy2 rx ry.

Lemma rs_passive : mxo (N + N) (S true) = mxo (N + N) (realform N (random_interferometer qr N bd xy1)).
Proof. by []. Qed.
Lemma rs_active : mxo (N + N) (S false) = mxo (N + N) (realform N (random_interferometer qr N bd xy1)) *m
  mxo (N + N) (sq_diag N (fun i => scale * `|rx i + 'i * ry i|)) *m mxo (N + N) (realform N (random_interferometer qr N bd xy2)).
Proof. by rewrite /S /random_symplectic mul2nN !mxof_mmul. Qed.
Lemma rs_ok passive : symp (mxo (N + N) (S passive)) /\ rmx (mxo (N + N) (S passive)).
Proof.
have [s1 r1 _] := realform_ok (random_interferometer_unitary qro ns1).
have [s2 r2 _] := realform_ok (random_interferometer_unitary qro ns2).
have [s3 r3] : symp (mxo (N + N) (sq_diag N (fun i => scale * `|rx i + 'i * ry i|))) /\ rmx (mxo (N + N) (sq_diag N (fun i => scale * `|rx i + 'i * ry i|))).
  by apply: sq_ok => i _; rewrite realM // normr_real.
case: passive; first by rewrite rs_passive.
by rewrite rs_active; split; [do 2![apply: sympM => //]|do 2![apply: rmxM => //]].
Qed.

(** random_symplectic returns a real symplectic matrix, which is also orthogonal with passive=True *)
Theorem random_symplectic_correct passive : [/\ realm (2 * N) (S passive), symplectic N (S passive) & passive -> orth (2 * N) (S passive)].
Proof.
have [s r] := rs_ok passive; rewrite mul2nN.
have rS : realm (N + N) (S passive) by exact/rmx_real.
split=> //; first exact/symplectic_mx.
case: passive s r rS => // s r rS _; split=> //; apply/eqm_mx; rewrite mx_prod mx_tr mx_idm rs_passive.
by have [_ _] := realform_ok (random_interferometer_unitary qro ns1).
Qed.
End Draws.

(** with block_diag=True positions and momenta are not mixed *)
Definition xp_free N (A : mat) : Prop := forall i j, (i < N)%N -> (j < N)%N -> A i (N + j)%N = 0 /\ A (N + i)%N j = 0.
Lemma xp_free_mx N (A : mat) : xp_free N A <-> exists B D, mxo (N + N) A = block_mx B 0 0 D.
Proof.
split=> [h|[B [D e]] i j hi hj].
  rewrite mx_split; exists (mxo N A), (mxo N (mshift N N A)); congr block_mx; apply/matrixP => i j; rewrite !mxE /mshift.
    by have [e _] := h i j (ltn_ord i) (ltn_ord j); rewrite add0n.
  by have [_ e] := h i j (ltn_ord i) (ltn_ord j); rewrite add0n.
move/matrixP: e => e; split.
  by have := e (lshift N (Ordinal hi)) (rshift N (Ordinal hj)); rewrite block_mxEur !mxE.
by have := e (rshift N (Ordinal hi)) (lshift N (Ordinal hj)); rewrite block_mxEdl !mxE.
Qed.
Lemma xp_freeM N (A B D : mat) : mxo (N + N) D = mxo (N + N) A *m mxo (N + N) B -> xp_free N A -> xp_free N B -> xp_free N D.
Proof.
move=> e /xp_free_mx[A1 [A2 eA]] /xp_free_mx[B1 [B2 eB]]; apply/xp_free_mx; exists (A1 *m B1), (A2 *m B2).
by rewrite e eA eB mulmx_block !mul0mx !mulmx0 !addr0 add0r.
Qed.
Lemma xp_free_tr N (A : mat) : xp_free N A -> xp_free N (tr A).
Proof. by move=> h i j hi hj; have [a b] := h j i hj hi. Qed.
Lemma xp_free_diag N (d : vec) : xp_free N (np_diag d).
Proof. by move=> i j hi hj; rewrite /np_diag; split; case: eqP => // e; exfalso; lia. Qed.
Lemma realform_free N xy : nonsing N (draw true xy) -> real_draw xy -> xp_free N (realform N (random_interferometer qr N true xy)).
Proof.
move=> ns rd i j hi hj; have [r _] := random_interferometer_real qro ns rd.
have im a b : (a < N)%N -> (b < N)%N -> 'Im (random_interferometer qr N true xy a b) = 0.
  by move=> ha hb; apply/Creal_ImP/r.
rewrite /realform /npblock hi hj ![(N + _ < N)%N]ltnNge !leq_addr /= !addKn !im //; by rewrite oppr0.
Qed.
Theorem random_symplectic_block_diag N passive scale xy1 xy2 rx ry : nonsing N (draw true xy1) -> nonsing N (draw true xy2) ->
  real_draw xy1 -> real_draw xy2 -> xp_free N (random_symplectic qr exp N passive true scale xy1 xy2 rx ry).
Proof.
move=> n1 n2 r1 r2; case: passive; first exact: realform_free.
have f1 := realform_free n1 r1; have f2 := realform_free n2 r2.
apply: (@xp_freeM N (mmul (2 * N) (realform N (random_interferometer qr N true xy1)) (sq_diag N (fun i => scale * `|rx i + 'i * ry i|)))
  (realform N (random_interferometer qr N true xy2))) => //.
  by rewrite /random_symplectic mul2nN !mxof_mmul.
apply: (xp_freeM _ f1 (@xp_free_diag N _)).
by rewrite mul2nN mxof_mmul.
Qed.

Section Cov.
Variables (N : nat) (bd : bool) (xy1 xy2 : mat * mat) (rx ry u : vec) (hbar : C).
Hypotheses (ns1 : nonsing N (draw bd xy1)) (ns2 : nonsing N (draw bd xy2)) (h0 : 0 < hbar).
Let V pure := random_covariance qr exp N hbar pure bd xy1 xy2 rx ry u.
Let S := mxo (N + N) (random_symplectic qr exp N false bd 1 xy1 xy2 rx ry).
Let nb : 'rV[C]_(N + N) := \row_(i < N + N) (if (i < N)%N then 2%:R * `|u i| + 1 else 2%:R * `|u (i - N)%N| + 1).
Let Sok : symp S /\ rmx S. Proof. exact: (@rs_ok N bd xy1 xy2 rx ry 1 ns1 ns2 (real1 _) false). Qed.
Lemma cov_pure : mxo (N + N) (V true) = (hbar / 2%:R) *: (S *m S^T).
Proof. by rewrite /V /random_covariance mul2nN mxof_mmul mxof_mscale mxof_trn -scalemxAl. Qed.
Lemma cov_mixed : mxo (N + N) (V false) = (hbar / 2%:R) *: (S *m diag_mx nb *m S^T).
Proof.
rewrite /V /random_covariance mul2nN mxof_mmul mxof_mmul mxof_mscale mxof_trn -scalemxAr -scalemxAl; congr (_ *: (_ *m _ *m _)).
exact: mx_npdiag.
Qed.
Let h2 : 0 < hbar / 2%:R. Proof. by rewrite divr_gt0 // ltr0n. Qed.
Lemma nb1 i : 1 <= nb 0 i.
Proof. by rewrite mxE; case: ifP => _; rewrite ler_addr mulr_ge0 ?ler0n. Qed.
(** both cases: hbar/2 S diag(d) S^T with d >= 1 *)
Lemma cov_form pure : exists2 d : 'rV[C]_(N + N), (forall i, 1 <= d 0 i) & mxo (N + N) (V pure) = (hbar / 2%:R) *: (S *m diag_mx d *m S^T).
Proof.
case: pure; last by exists nb; [exact: nb1|exact: cov_mixed].
exists (const_mx 1); first by move=> i; rewrite mxE.
by rewrite cov_pure diag_const_mx mulmx1.
Qed.
Lemma cov_rs pure : real_sym (N + N) (V pure).
Proof.
have [d d1 e] := cov_form pure; have [_ rS] := Sok.
have r2 : hbar / 2%:R \is Num.real by exact: gtr0_real.
have rD : rmx (diag_mx d).
  apply/matrixP => i j; rewrite !mxE; case: eqP => [->|_]; rewrite ?mulr0n ?conjC0 // mulr1n; apply/CrealP.
  by apply: ger0_real; exact: le_trans ler01 (d1 _).
have rV : realm (N + N) (V pure).
  apply/rmx_real; rewrite e /rmx map_mxZ (CrealP r2); congr (_ *: _).
  by apply: rmxM; [exact: rmxM|exact: rmxT].
have sV : (mxo (N + N) (V pure))^T = mxo (N + N) (V pure).
  by rewrite e linearZ /= trmx_mul trmx_mul trmxK tr_diag_mx mulmxA.
move=> i j hi hj; split; first exact: rV.
by move/matrixP/(_ (Ordinal hj) (Ordinal hi)): sV; rewrite !mxE.
Qed.
Lemma cov_psd pure : possemi (N + N) (uncertainty N (V pure) hbar).
Proof.
apply/possemi_PS; have [d d1 e] := cov_form pure; have [sS rS] := Sok.
have -> : mxo (N + N) (uncertainty N (V pure) hbar) = (hbar / 2%:R) *: (S *m (diag_mx d + 'i *: J C N) *m S^T).
  have -> : mxo (N + N) (uncertainty N (V pure) hbar) = mxo (N + N) (V pure) + ('i * (hbar / 2%:R)) *: mxo (N + N) (Omega C N).
    by apply/matrixP => i j; rewrite !mxE.
  rewrite mx_Omega e mulmxDr mulmxDl -scalemxAr -scalemxAl scalerDr; congr (_ + _).
  by rewrite scalerA [_ * 'i]mulrC -{1}(symp_tr sS) trmxK.
have PSd : PS (diag_mx d + 'i *: J C N).
  move=> v; have -> : diag_mx d = diag_mx (d - const_mx 1) + 1%:M by rewrite -diag_const_mx linearB /= subrK.
  rewrite -addrA mulmxDr mulmxDl mxE addr_ge0 //.
    rewrite diag_qform sumr_ge0 // => i _; rewrite !mxE mulr_ge0 ?exprn_ge0 ?normr_ge0 //; by rewrite subr_ge0.
  have /possemi_PS : possemi (N + N) (fun i j => (i == j)%:R + 'i * Omega C N i j).
    by rewrite -mul2nN => w; exact: qform_vac.
  have -> : mxo (N + N) (fun i j => (i == j)%:R + 'i * Omega C N i j) = 1%:M + 'i *: J C N.
    by rewrite -mx_Omega; apply/matrixP => i j; rewrite !mxE.
  exact.
move=> v; rewrite -scalemxAr -scalemxAl mxE mulr_ge0 ?(ltW h2) //.
have -> : S *m (diag_mx d + 'i *: J C N) *m S^T = ct S^T *m (diag_mx d + 'i *: J C N) *m S^T.
  by rewrite (rmx_ct (rmxT rS)) trmxK.
exact: (@PS_congr _ _ _ S^T PSd v).
Qed.

(** random_covariance returns the real symmetric covariance matrix of a physical state, a pure one with pure=True *)
Theorem random_covariance_correct pure :
  [/\ real_sym (2 * N) (V pure), possemi (2 * N) (uncertainty N (V pure) hbar) & pure -> pure_cov N (V pure) hbar].
Proof.
rewrite mul2nN; split; [exact: cov_rs|exact: cov_psd|].
case: pure => // _; have [sS rS] := Sok; apply/symplectic_mx.
have -> : mxo (N + N) (fun i j => 2%:R * V true i j / hbar) = (2%:R / hbar) *: mxo (N + N) (V true).
  by apply/matrixP => i j; rewrite !mxE mulrAC.
rewrite cov_pure scalerA mulrA divfK ?gt_eqF // divff ?pnatr_eq0 // scale1r.
by apply: sympM => //; exact: symp_tr.
Qed.
(** it passes the checks of gaussian_checks.py *)
Theorem random_covariance_accepted eigvalsh rtol atol pure : eigvalsh_ok eigvalsh -> 0 <= rtol -> 0 <= atol ->
  is_valid_cov eigvalsh (2 * N) (2 * N) (V pure) hbar rtol atol /\
  (pure -> is_pure_cov eigvalsh (2 * N) (2 * N) (V pure) hbar rtol atol).
Proof.
move=> eig r0 a0; have [rs un p] := random_covariance_correct pure; split.
  by apply/(is_valid_cov_correct eig rs h0 r0 a0) => v nz; left; exact: un.
by move=> /p pu; apply: is_pure_cov_accepts.
Qed.
End Cov.

Theorem random_covariance_block_diag N hbar pure xy1 xy2 rx ry u : nonsing N (draw true xy1) -> nonsing N (draw true xy2) ->
  real_draw xy1 -> real_draw xy2 -> xp_free N (random_covariance qr exp N hbar pure true xy1 xy2 rx ry u).
Proof.
move=> n1 n2 r1 r2; have f := @random_symplectic_block_diag N false 1 _ _ rx ry n1 n2 r1 r2.
set S := random_symplectic _ _ _ _ _ _ _ _ _ _ in f.
have fs (A : mat) : xp_free N A -> xp_free N (mscale (hbar / 2%:R) A).
  by move=> h i j hi hj; have [a b] := h i j hi hj; rewrite /mscale a b mulr0.
rewrite /random_covariance -/S; case: pure.
  by apply: (xp_freeM _ (fs _ f) (xp_free_tr f)); rewrite mul2nN mxof_mmul.
apply: (@xp_freeM N (mmul (2 * N) S (mscale (hbar / 2%:R) (np_diag (fun i => if (i < N)%N then 2%:R * `|u i| + 1 else 2%:R * `|u (i - N)%N| + 1)))) (tr S)).
- by rewrite mul2nN mxof_mmul.
- by apply: (xp_freeM _ f (fs _ (xp_free_diag _))); rewrite mul2nN mxof_mmul.
exact: xp_free_tr.
Qed.
End Sym.
Print Assumptions random_symplectic_correct.
Print Assumptions random_symplectic_block_diag.
Print Assumptions random_covariance_accepted.
Print Assumptions random_covariance_block_diag.
