(** The Iwasawa decomposition. *)
From mathcomp Require Import all_ssreflect all_algebra zify.
From Verif Require Import Prelude PyBase ArrLoop MHafnian MHermite MSymplectic MDecomp SpecSymp SpecTor SpecDecomp PropTor PropTor5 PropThr3 PropSpectral PropChannels PropSymp2 PropDecomp PropDecomp2.
Set Implicit Arguments.
Unset Strict Implicit.
Unset Printing Implicit Defensive.
Import Order.TTheory GRing.Theory Num.Theory.
Local Open Scope ring_scope.

Section Iwa.
Variable C : numClosedFieldType.
Notation mat := (nat -> nat -> C).
Notation vec := (nat -> C).
Notation mxo n A := (mxof n n A).
Variable sqrtm : nat -> mat -> mat.
Hypothesis sqrtmP : sqrtm_ok sqrtm.
Variable qr : nat -> mat -> mat * mat.
Hypothesis qrP : qr_ok qr.

Lemma diag_mul n (d e : 'rV[C]_n) : diag_mx d *m diag_mx e = diag_mx (\row_i (d 0 i * e 0 i)).
Proof. by apply/matrixP => i j; rewrite mul_diag_mx !mxE; case: eqP => [->|]; rewrite ?mulr0. Qed.
Lemma diag_one n (d : 'rV[C]_n) : (forall i, d 0 i = 1) -> diag_mx d = 1%:M.
Proof. by move=> h; apply/matrixP => i j; rewrite !mxE h. Qed.

(** C43: for every real symplectic S, iwasawa(S) returns (E, D, F) with E D F = S, E = [[L, 0], [K, L^-T]] symplectic with L
    lower triangular with unit diagonal (the docstring says upper triangular), D = diag(d, 1/d) with d > 0, and F symplectic
    and orthogonal. *)
Theorem iwasawa_correct N (S : mat) : realm (2 * N) S -> symplectic N S ->
  exists E D F, [/\ iwasawa sqrtm qr (2 * N) (2 * N) S = Ok (E, D, F),
    eqm (2 * N) (mprod (2 * N) (mprod (2 * N) E D) F) S,
    exists L K M, [/\ eqm (2 * N) E (blocks N L (fun _ _ => 0) K M), eqm N (mprod N (tr L) M) (idm C),
                      forall i j, (i < j)%N -> (j < N)%N -> L i j = 0 & forall i, (i < N)%N -> L i i = 1],
    exists d : vec, eqm (2 * N) D (diag2 N d (fun i => 1 / d i)) /\ forall i, (i < N)%N -> 0 < d i &
    [/\ orth (2 * N) F, realm (2 * N) E, symplectic N E, symplectic N D & symplectic N F]].
Proof.
move=> rS sS; have [E0 [D0 [F0 [pre prod [X [EX rX sX]] [G [H [DG rG pG GH]]] [oF sE sD sF]]]]] := pre_iwasawa_correct sqrtmP rS sS.
rewrite /iwasawa pre /= half_double; case qrE : (qr N D0) => [Q R]; move: rS prod EX DG oF; rewrite twoE => rS prod EX DG oF.
have D0E : mxo N D0 = mxo N G.
  apply/eqm_mx => i j hi hj; have hi2 : (i < N + N)%N by lia. have hj2 : (j < N + N)%N by lia.
  by rewrite DG // /blocks hi hj.
have rD0 : realm N D0 by apply/rmx_real; rewrite D0E; apply/rmx_real.
have [oQ rR triR qrM] := qrP rD0; rewrite qrE /= in oQ rR triR qrM.
move: oQ rR qrM => /orth_mx[rQ oQ] /rmx_real rR /eqm_mx; rewrite mx_prod D0E => GQR.
have posG := proj1 (pos_mx _ _) pG; have uG := pos_unit posG.
have rG' : rmx (mxo N G) by apply/rmx_real.
have tG : (mxo N G)^T = mxo N G by case: posG => h _; rewrite -[RHS]h (rmx_ct rG').
have uR : mxo N R \in unitmx by move: uG; rewrite GQR unitmx_mul => /andP[].
have trig : is_trig_mx (mxo N R)^T.
  by apply/is_trig_mxP => i j hij; rewrite !mxE triR.
have dn (i : nat) : (i < N)%N -> R i i != 0.
  move=> hi; move: uR; rewrite unitmxE -det_tr det_trig // unitfE => /prodf_neq0/(_ (Ordinal hi) isT).
  by rewrite !mxE.
have dreal (i : nat) : (i < N)%N -> R i i \is Num.real by move=> hi; move/rmx_real: rR; apply.
set L : mat := fun i j => trn R i j * (1 / trn R j j).
have LE : mxo N L = (mxo N R)^T *m diag_mx (\row_(i < N) (R i i)^-1).
  by apply/matrixP => i j; rewrite mul_mx_diag !mxE /L /trn mul1r.
have uD : diag_mx (\row_(i < N) (R i i)^-1) \in unitmx.
  rewrite unitmxE det_diag unitfE; apply/prodf_neq0 => i _; by rewrite mxE invr_neq0 // dn.
have uL : mxo N L \in unitmx by rewrite LE unitmx_mul uD unitmx_tr uR.
rewrite (np_inv_ok uL) /=; set Li := ofmx _.
have LiE : mxo N (trn Li) = (invmx (mxo N L))^T by rewrite (mxof_trn N N Li) /Li mxof_ofmx.
set d : vec := fun i => `|trn R i i|.
set ds : vec := fun i => if 0 < trn R i i then 1 else if trn R i i < 0 then -1 else 0.
set Qs : mat := fun i j => ds i * trn Q i j.
have QsE : mxo N Qs = diag_mx (\row_(i < N) ds i) *m (mxo N Q)^T.
  by apply/matrixP => i j; rewrite mul_diag_mx !mxE.
have dgt (i : nat) : (i < N)%N -> 0 < d i by move=> hi; rewrite /d normr_gt0 /trn dn.
have dsr (i : nat) : (i < N)%N -> ds i \is Num.real by move=> hi; rewrite /ds; case: (0 < trn R i i); rewrite ?rpred1 //; case: (trn R i i < 0); rewrite ?rpredN ?rpred1 ?rpred0.
have ds2 (i : nat) : (i < N)%N -> ds i * ds i = 1.
  move=> hi; rewrite /ds /trn; case: (real_ltgt0P (dreal i hi)) => // [_|_|e]; rewrite ?mulr1 ?mulrNN ?mulr1 //.
  by move: (dn i hi); rewrite e eqxx.
have dds (i : nat) : (i < N)%N -> d i * ds i = R i i.
  move=> hi; rewrite /d /ds /trn; case: (real_ltgt0P (dreal i hi)) => [h|h|e]; rewrite ?mulr1 ?mulrN1 ?opprK //.
  by move: (dn i hi); rewrite e eqxx.
have oQs : (mxo N Qs)^T *m mxo N Qs = 1%:M.
  rewrite QsE trmx_mul trmxK tr_diag_mx -mulmxA (mulmxA (diag_mx _)) diag_mul diag_one ?mul1mx; last by move=> i; rewrite !mxE ds2.
  exact: mulmx1C oQ.
have rQs : rmx (mxo N Qs).
  apply/rmx_real => i j hi hj; rewrite /Qs rpredM ?dsr //.
  by move/rmx_real: rQ; apply.
have top : mxo N L *m diag_mx (\row_(i < N) d i) *m mxo N Qs = mxo N G.
  rewrite LE QsE -!mulmxA (mulmxA (diag_mx (\row_i d i))) diag_mul (mulmxA (diag_mx _) (diag_mx _)) diag_mul diag_one ?mul1mx.
    by rewrite -trmx_mul -GQR tG.
  by move=> i; rewrite !mxE dds // mulVf // dn.
have dV : diag_mx (\row_(i < N) d i) *m diag_mx (\row_(i < N) (1 / d i)) = 1%:M.
  rewrite diag_mul diag_one // => i; rewrite !mxE mul1r divff // gt_eqF // dgt //.
have bot : mxo N (trn Li) *m diag_mx (\row_(i < N) (1 / d i)) *m mxo N Qs = mxo N H.
  have GHm : mxo N G *m mxo N H = 1%:M by rewrite -mx_prod -mx_idm; apply/eqm_mx.
  rewrite -[RHS]mul1mx -[LHS]mul1mx; have <- : invmx (mxo N G) *m mxo N G = 1%:M by rewrite mulVmx.
  rewrite -!mulmxA GHm; congr (_ *m _); rewrite -tG -top !trmx_mul tr_diag_mx -!mulmxA.
  rewrite (mulmxA (mxo N L)^T) LiE -trmx_mul mulVmx // trmx1 mul1mx (mulmxA (diag_mx _)) dV mul1mx //.
set OO := npblock N N L _ _ _; set AA := npblock N N Qs _ _ _; set DD := np_diag _.
have OOE : mxo (N + N) OO = block_mx (mxo N L) 0 0 (mxo N (trn Li)) by rewrite mx_block mx_zero.
have AAE : mxo (N + N) AA = block_mx (mxo N Qs) 0 0 (mxo N Qs) by rewrite mx_block mx_zero.
have DDE : mxo (N + N) DD = block_mx (diag_mx (\row_(i < N) d i)) 0 0 (diag_mx (\row_(i < N) (1 / d i))).
  have e1 : eqm (N + N) DD (blocks N (diagm d) (fun _ _ => 0) (fun _ _ => 0) (diagm (fun i => 1 / d i))).
    move=> i j hi hj; rewrite /DD /np_diag /blocks /diagm; case: (ltnP i N) => hi'; case: (ltnP j N) => hj' //.
    - by have -> : (i == j) = false by lia.
    - by have -> : (i == j) = false by lia.
    by have -> : (i - N == j - N)%N = (i == j) by lia.
  by move/eqm_mx: e1 => ->; rewrite mx_blocks !mx_diag mx_zero.
have E0E : mxo (N + N) E0 = block_mx 1%:M 0 (mxo N X) 1%:M.
  by move/eqm_mx: EX => ->; rewrite mx_blocks mx_idm mx_zero.
have D0E' : mxo (N + N) D0 = block_mx (mxo N G) 0 0 (mxo N H).
  by move/eqm_mx: DG => ->; rewrite mx_blocks mx_zero.
have mid : mxo (N + N) OO *m mxo (N + N) DD *m mxo (N + N) AA = mxo (N + N) D0.
  by rewrite OOE DDE AAE !mulmx_block ?(mul0mx, mulmx0, addr0, add0r) top bot D0E'.
have sOO : symp (mxo (N + N) OO).
  rewrite OOE; apply/symp_blockP; rewrite !trmx0 !mul0mx !mulmx0 subr0; split=> //.
  by rewrite LiE -trmx_mul mulVmx // trmx1.
have sDD : symp (mxo (N + N) DD).
  by rewrite DDE; apply/symp_blockP; rewrite !trmx0 !mul0mx !mulmx0 subr0 tr_diag_mx dV.
have sAA : symp (mxo (N + N) AA).
  by rewrite AAE; apply/symp_blockP; rewrite !trmx0 !mul0mx !mulmx0 subr0 oQs.
exists (mmul (2 * N) E0 OO), DD, (mmul (2 * N) AA F0); rewrite twoE; split=> //.
- apply/eqm_mx; rewrite !mx_prod !mxof_mmul !mulmxA -(mulmxA (mxo _ E0)) -(mulmxA (mxo _ E0)) mid.
  by rewrite -!mx_prod; apply/eqm_mx.
- exists L, (mmul N X L), (trn Li); split.
  + apply/eqm_mx; rewrite [RHS]mx_blocks mx_zero !mxof_mmul E0E OOE mulmx_block !mul0mx !mulmx0 !mul1mx !addr0 add0r //.
  + by apply/eqm_mx; rewrite mx_prod mx_tr mx_idm LiE -trmx_mul mulVmx // trmx1.
  + by move=> i j hij hj; rewrite /L /trn triR ?mul0r.
  by move=> i hi; rewrite /L /trn mul1r divff // dn.
- by exists d; split=> // i j hi hj; rewrite /diag2 /diagm /DD /np_diag; case: eqP.
split.
- have [rF oF'] := proj1 (orth_mx _ _) oF.
  apply/orth_mx; rewrite mxof_mmul AAE; split.
    by apply: rmxM => //; apply/rmx_block; split=> //; apply: rmx0.
  have oAA : (block_mx (mxo N Qs) 0 0 (mxo N Qs))^T *m block_mx (mxo N Qs) 0 0 (mxo N Qs) = 1%:M.
    by rewrite tr_block_mx mulmx_block !trmx0 !mul0mx !mulmx0 !addr0 !add0r oQs -scalar_mx_block.
  by rewrite trmx_mul mulmxA -(mulmxA _ _^T) oAA mulmx1.
- apply/rmx_real; rewrite mxof_mmul E0E OOE LiE; have rL : rmx (mxo N L).
    apply/rmx_real => i j hi hj; rewrite /L /trn mul1r rpredM ?rpredV ?dreal //; by move/rmx_real: rR; apply.
  by apply: rmxM; apply/rmx_block; split; try exact: rmx0; try exact: rmx1; try exact/rmx_real; try exact: rmxT (rmxV rL).
- by apply/symplectic_mx; rewrite mxof_mmul; apply: sympM => //; apply/symplectic_mx.
- exact/symplectic_mx.
by apply/symplectic_mx; rewrite mxof_mmul; apply: sympM => //; apply/symplectic_mx.
Qed.

Theorem iwasawa_rejects n m (S : mat) : is_symplectic2 (rtol0 C) (atol0 C) n m S = false -> iwasawa sqrtm qr n m S = Err ValueError.
Proof. by rewrite /iwasawa => /pre_iwasawa_rejects ->. Qed.
End Iwa.
