(** C62: the Gaussian state encoding a symmetric matrix of norm less than one. *)
From mathcomp Require Import all_ssreflect all_algebra zify.
From Verif Require Import Prelude PyBase ArrLoop MHafnian MHermite MSymplectic MDecomp SpecSymp SpecTor SpecDecomp PropTor PropTor5 PropThr3 PropThr5 PropSpectral PropChannels PropConversions PropSymp2 PropDecomp PropDecomp2 PropDecomp6 PropChecks MClicks MAdj SpecAdj.
Set Implicit Arguments.
Unset Strict Implicit.
Unset Printing Implicit Defensive.
Import Order.TTheory GRing.Theory Num.Theory.
Local Open Scope ring_scope.

Section Blk.
Variable C : numClosedFieldType.
Variables (n : nat) (U V B : 'M[C]_n) (d : 'I_n -> C).
Hypothesis uU : ct U *m U = 1%:M.
Hypothesis uV : ct V *m V = 1%:M.
Hypothesis BE : B = U *m diag_mx (\row_i d i) *m V.
Hypothesis d0 : forall i, 0 <= d i.
Hypothesis d1 : forall i, d i < 1.
Let dd (f : 'I_n -> C) : 'M[C]_n := diag_mx (\row_i f i).
Let e i := (1 - d i ^+ 2)^-1.
Lemma e_pos i : 0 < 1 - d i ^+ 2.
Proof. by rewrite subr_gt0 expr_lt1. Qed.
Lemma e0 i : 1 - d i ^+ 2 != 0. Proof. by rewrite gt_eqF ?e_pos. Qed.
Lemma ddM f g : dd f *m dd g = dd (fun i => f i * g i).
Proof. by rewrite /dd mulmx_diag; congr diag_mx; apply/matrixP => i j; rewrite !mxE. Qed.
Lemma dd_ct f : (forall i, f i \is Num.real) -> ct (dd f) = dd f.
Proof.
move=> rf; apply/matrixP => i j; rewrite !mxE rmorphMn /= [i == j]eq_sym; case: eqP => [->|]; by rewrite ?mulr1n ?mulr0n // (CrealP (rf _)).
Qed.
Lemma dD f g : dd f + dd g = dd (fun i => f i + g i).
Proof. by apply/matrixP => i j; rewrite !mxE mulrnDl. Qed.
Lemma dd1 : dd (fun _ => 1) = 1%:M. Proof. by apply/matrixP => i j; rewrite !mxE. Qed.
Lemma ddE f g : (forall i, f i = g i) -> dd f = dd g. Proof. by move=> h; congr diag_mx; apply/matrixP => i j; rewrite !mxE h. Qed.
Let rd i : d i \is Num.real. Proof. exact: ger0_real. Qed.
Let re i : e i \is Num.real. Proof. by rewrite rpredV gtr0_real ?e_pos. Qed.
Lemma UU : U *m ct U = 1%:M. Proof. exact: mulmx1C. Qed.
Lemma VV : V *m ct V = 1%:M. Proof. exact: mulmx1C. Qed.
Lemma ctB : ct B = ct V *m dd d *m ct U. Proof. by rewrite BE !ctM dd_ct // mulmxA. Qed.

Definition MM : 'M[C]_(n + n) := block_mx 1%:M (- ct B) (- B) 1%:M.
Definition RR : 'M[C]_(n + n) := block_mx (ct V *m dd e *m V) (ct V *m dd (fun i => d i * e i) *m ct U) (U *m dd (fun i => d i * e i) *m V) (U *m dd e *m ct U).
Lemma tri (X Y : 'M[C]_n) f g (W W' : 'M[C]_n) : W *m W' = 1%:M -> (X *m dd f *m W) *m (W' *m dd g *m Y) = X *m dd (fun i => f i * g i) *m Y.
Proof. by move=> h; rewrite !mulmxA -[X *m dd f *m W *m W']mulmxA h mulmx1 -[X *m dd f *m dd g]mulmxA ddM. Qed.
Lemma tD (X Y : 'M[C]_n) f g : X *m dd f *m Y - X *m dd g *m Y = X *m dd (fun i => f i - g i) *m Y.
Proof. by rewrite -mulmxBl -mulmxBr; congr (_ *m _ *m _); apply/matrixP => i j; rewrite !mxE mulrnBl. Qed.
Lemma MR : MM *m RR = 1%:M.
Proof.
rewrite /MM /RR mulmx_block !mul1mx !mulNmx ctB BE -/(dd d) !tri ?UU ?VV //.
have q i : e i - d i * (d i * e i) = 1 by rewrite mulrA -expr2 -{1}[e i]mul1r -mulrBl mulfV ?e0.
rewrite ![- _ + _]addrC !tD (ddE (g := fun _ => 1)) // !dd1 !mulmx1 uV UU (ddE (g := fun _ => 0)); last by move=> i; rewrite subrr.
have -> : dd (fun _ => 0) = 0 by apply/matrixP => i j; rewrite !mxE mul0rn.
by rewrite !mulmx0 !mul0mx [RHS]scalar_mx_block.
Qed.
Lemma M_unit : MM \in unitmx. Proof. by have [] := mulmx1_unit MR. Qed.
Lemma M_inv : invmx MM = RR. Proof. by rewrite -[RHS](mulKmx M_unit) MR mulmx1. Qed.
Lemma R_ct : ct RR = RR.
Proof.
have rde i : d i * e i \is Num.real by rewrite rpredM.
have ctb (P Q R S : 'M[C]_n) : ct (block_mx P Q R S) = block_mx (ct P) (ct R) (ct Q) (ct S) by rewrite /ct tr_block_mx map_block_mx.
by rewrite /RR ctb !ctM !ctK !dd_ct // !mulmxA.
Qed.
(** R - diag(1, 0) = G^* diag(e) G *)
Definition GG : 'M[C]_(n, n + n) := row_mx (dd d *m V) (ct U).
Lemma R_gram : RR = ct GG *m dd e *m GG + block_mx 1%:M 0 0 0.
Proof.
have -> : ct GG = col_mx (ct V *m dd d) U by rewrite /ct tr_row_mx map_col_mx -!/(ct _) ctM ctK dd_ct.
rewrite mul_col_mx mul_col_row add_block_mx !addr0 /RR; congr block_mx.
- rewrite -[ct V *m dd d *m dd e]mulmxA ddM !mulmxA -[ct V *m dd _ *m dd d]mulmxA ddM -uV -[X in _ = _ + X *m _]mulmx1 -dd1 -mulmxDl -mulmxDr dD.
  by congr (_ *m _ *m _); apply: ddE => i; rewrite mulrAC -expr2 -[X in _ + X](mulfV (e0 i)) -mulrDl addrC subrK mul1r.
- by rewrite -[ct V *m dd d *m dd e]mulmxA ddM.
- by rewrite !mulmxA -[U *m dd e *m dd d]mulmxA ddM; congr (_ *m _ *m _); apply: ddE => i; exact: mulrC.
Qed.
(** v^* R v - |v_1|^2 is a sum of squares *)
Lemma R_form (v : 'cV[C]_(n + n)) : 0 <= (ct v *m RR *m v) 0 0 - (ct (usubmx v) *m usubmx v) 0 0.
Proof.
rewrite R_gram mulmxDr mulmxDl mxE.
have -> : ct v *m block_mx 1%:M 0 0 0 *m v = ct (usubmx v) *m usubmx v.
  have cv : ct v = row_mx (ct (usubmx v)) (ct (dsubmx v)) by rewrite -{1}[v]vsubmxK /ct tr_col_mx map_row_mx.
  by rewrite cv mul_row_block !mulmx0 !addr0 mulmx1 -[X in row_mx _ _ *m X]vsubmxK mul_row_col mul0mx addr0.
rewrite addrK; have -> : ct v *m (ct GG *m dd e *m GG) *m v = ct (GG *m v) *m (dd e *m (GG *m v)) by rewrite ctM !mulmxA.
move: (GG *m v) => y; rewrite mxE sumr_ge0 // => i _; rewrite mul_diag_mx !mxE mulrCA mulr_ge0 //; first by rewrite invr_ge0 ltW ?e_pos.
by rewrite mulrC mul_conjC_ge0.
Qed.
(** sum of the first n diagonal entries *)
Lemma R_trace : \tr (ulsubmx RR) = \sum_i e i.
Proof.
rewrite block_mxKul mxtrace_mulC mulmxA VV mul1mx.
by apply: eq_bigr => i _; rewrite !mxE eqxx mulr1n.
Qed.
Hypothesis Bs : B^T = B.
Lemma ctBs : (ct B)^T = ct B.
Proof. by apply/matrixP => i j; rewrite !mxE -[in LHS]Bs mxE. Qed.
Let X2 : 'M[C]_(n + n) := block_mx 0 1%:M 1%:M 0.
Lemma X2X : X2 *m X2 = 1%:M.
Proof. by rewrite /X2 mulmx_block !mulmx0 !mul0mx !mulmx1 !addr0 !add0r -scalar_mx_block. Qed.
Lemma conjX P Q R S : X2 *m block_mx P Q R S *m X2 = block_mx S R Q P.
Proof. by rewrite /X2 !mulmx_block !mulmx0 !mul0mx !mulmx1 !mul1mx !addr0 !add0r. Qed.
Lemma M_tr : MM^T = X2 *m MM *m X2.
Proof. by rewrite conjX /MM tr_block_mx !trmx1 !trN ctBs Bs. Qed.
Lemma R_tr : RR^T = X2 *m RR *m X2.
Proof.
rewrite -M_inv trmx_inv M_tr; have uX : X2 \in unitmx by have [] := mulmx1_unit X2X.
have uM := M_unit; have u1 : X2 *m MM *m X2 \in unitmx by rewrite !unitmx_mul uX uM.
rewrite -[LHS]mulmx1; have <- : (X2 *m MM *m X2) *m (X2 *m invmx MM *m X2) = 1%:M.
  by rewrite !mulmxA -[_ *m X2 *m X2]mulmxA X2X mulmx1 -[_ *m MM *m invmx MM]mulmxA mulmxV // mulmx1 X2X.
by rewrite mulKmx.
Qed.
End Blk.
