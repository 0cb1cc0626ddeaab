(** Symplectic eigenvalues. *)
From mathcomp Require Import all_ssreflect all_algebra zify.
From Verif Require Import Prelude PyBase ArrLoop MHafnian MHermite MSymplectic MDecomp SpecSymp SpecTor SpecDecomp PropTor PropTor5 PropThr3 PropSpectral PropChannels PropSymp2 PropCharpoly PropDecomp PropDecomp2 PropDecomp3 PropDecomp4.
Set Implicit Arguments.
Unset Strict Implicit.
Unset Printing Implicit Defensive.
Import Order.TTheory GRing.Theory Num.Theory.
Local Open Scope ring_scope.

Section SE.
Variable C : numClosedFieldType.
Notation mat := (nat -> nat -> C).
Notation vec := (nat -> C).
Notation mxo n A := (mxof n n A).

Lemma prod_XsubC_perm (s t : seq C) : \prod_(x <- s) ('X - x%:P) = \prod_(x <- t) ('X - x%:P) -> perm_eq s t.
Proof.
elim: s t => [|x s IH] t e.
  by case: t e => // y t; rewrite big_nil => /(congr1 (fun p : {poly C} => size p)); rewrite size_poly1 size_prod_XsubC.
have xt : x \in t by rewrite -root_prod_XsubC -e root_prod_XsubC mem_head.
have pt := perm_to_rem xt; rewrite perm_sym (perm_trans pt) // perm_cons perm_sym; apply: IH.
have := e; rewrite (perm_big _ pt) !big_cons /= => /mulfI; apply; by rewrite polyXsubC_eq0.
Qed.

Lemma filter_pairs (P : pred C) N (e : seq C) : size e = (2 * N)%N ->
  (forall i, (i < N)%N -> P (nth 0 e (2 * i)) /\ ~~ P (nth 0 e (2 * i).+1)) -> filter P e = [seq nth 0 e (2 * i)%N | i <- iota 0 N].
Proof.
elim: N e => [|N IH] e; first by rewrite muln0 => /size0nil ->.
case: e => [|x [|y e]] //= sz h; try lia.
have [h1 h2] := h 0%N isT; rewrite h1 (negPf h2) /=; congr (_ :: _).
rewrite (IH e) => [||i hi]; [|lia|by have := h i.+1 hi; rewrite mulnS].
have -> : iota 1 N = [seq i.+1 | i <- iota 0 N] by rewrite -(iotaDl 1 0).
by rewrite -map_comp; apply/eq_in_map => i _; rewrite -[RHS]/(nth 0 [:: x, y & e] (2 * i.+1)) mulnS.
Qed.

Variable eigvals : nat -> mat -> seq C.
Hypothesis eigP : eigvals_ok eigvals.

Lemma char_JD N (d : 'rV[C]_N) : char_poly (J C N *m block_mx (diag_mx d) 0 0 (diag_mx d))
  = \prod_(x <- [seq 'i * d 0 i | i <- enum 'I_N] ++ [seq - 'i * d 0 i | i <- enum 'I_N]) ('X - x%:P).
Proof.
pose T : 'M[C]_(N + N) := block_mx 1%:M 1%:M ('i%:M) ((- 'i)%:M).
pose T' : 'M[C]_(N + N) := 2%:R^-1 *: block_mx 1%:M ((- 'i)%:M) 1%:M ('i%:M).
have ii : 'i * 'i = -1 :> C by rewrite -expr2 sqrCi.
have two : 2%:R != 0 :> C by rewrite pnatr_eq0.
have TT : T *m T' = 1%:M.
  rewrite /T /T' -scalemxAr mulmx_block !mul1mx !mulmx1 -!scalar_mxM !mulrN !mulNr ii !opprK.
  have sD (a b : C) : a%:M + b%:M = (a + b)%:M :> 'M[C]_N by apply/matrixP => i j; rewrite !mxE mulrnDl.
  by rewrite !sD addNr subrr raddf0 (scalar_mx_block N N) scale_block_mx !scaler0 !scale_scalar_mx mulVf.
pose dd := row_mx ('i *: d) (- 'i *: d).
have key : J C N *m block_mx (diag_mx d) 0 0 (diag_mx d) = T *m diag_mx dd *m T'.
  suff e : J C N *m block_mx (diag_mx d) 0 0 (diag_mx d) *m T = T *m diag_mx dd by rewrite -e -mulmxA TT mulmx1.
  rewrite /J /T /dd diag_mx_row !mulmx_block !mul0mx !mulmx0 !mul1mx ?mulmx1 !addr0 !add0r ?mulNmx ?mul1mx ?mul_scalar_mx ?mul_mx_scalar ?mulmx1 !linearZ /= !scalerA.
  by rewrite !scaler0 !addr0 mulrNN ii scaleN1r.
rewrite key (char_poly_conj _ TT) char_poly_trig ?diag_mx_is_trig //.
rewrite big_split_ord big_cat !big_map /= -!enumT !big_enum /=.
by congr (_ * _); apply: eq_bigr => i _; rewrite mxE eqxx mulr1n /dd ?row_mxEl ?row_mxEr mxE.
Qed.

(** the spectrum of Omega V determines the returned list *)
Theorem symplectic_eigenvals_spectrum N (V : mat) (dr : 'rV[C]_N) : realm (2 * N) V -> (forall i, 0 < dr 0 i) ->
  char_poly (J C N *m mxof (N + N) (N + N) V) = \prod_(x <- [seq 'i * dr 0 i | i <- enum 'I_N] ++ [seq - 'i * dr 0 i | i <- enum 'I_N]) ('X - x%:P) ->
  perm_eq (symplectic_eigenvals eigvals (2 * N) V) [seq dr 0 i | i <- enum 'I_N].
Proof.
rewrite /symplectic_eigenvals half_double twoE => rV imd cV.
set A := mmul _ _ V.
have AE : mxo (N + N) A = J C N *m mxo (N + N) V by rewrite mxof_mmul mx_sympmat.
have rA : realm (N + N) A by apply/rmx_real; rewrite AE; apply: rmxM; [exact: Jreal|exact/rmx_real].
have [cp pairs] := eigP rA.
set e := eigvals (N + N)%N A in cp pairs *.
have pe : perm_eq e ([seq 'i * dr 0 i | i <- enum 'I_N] ++ [seq - 'i * dr 0 i | i <- enum 'I_N]).
  by apply: prod_XsubC_perm; rewrite -cV -AE -cp.
have ii : 'i * 'i = -1 :> C by rewrite -expr2 sqrCi.
have sz : size e = (2 * N)%N by rewrite (perm_size pe) size_cat !size_map -?enumT size_enum_ord; lia.
have ImE (x : C) : x \is Num.real -> 'Im ('i * x) = x.
  by move=> rx; rewrite -[X in 'Im X]add0r Im_rect // rpred0.
have emem x : x \in e -> exists2 k : 'I_N, x = 'i * dr 0 k \/ x = - 'i * dr 0 k & true.
  rewrite (perm_mem pe) mem_cat => /orP[] /mapP[k _ ->]; exists k => //; by [left|right].
have nr : all (fun x => x \isn't Num.real) e.
  apply/allP => x /emem[k h _]; rewrite CrealE; case: h => ->.
    rewrite rmorphM conjCi (conj_Creal (gtr0_real (imd k))) mulNr eq_sym -addr_eq0 -mulr2n mulrn_eq0 /= mulf_eq0 negb_or neq0Ci.
    by rewrite gt_eqF.
  rewrite mulNr rmorphN rmorphM conjCi (conj_Creal (gtr0_real (imd k))) mulNr opprK -addr_eq0 -mulr2n mulrn_eq0 /= mulf_eq0 negb_or neq0Ci.
  by rewrite gt_eqF.
have pr := pairs nr.
have fl : [seq x <- e | 0 < 'Im x] = [seq nth 0 e (2 * i)%N | i <- iota 0 N].
  apply: filter_pairs => // i hi; have [|h1 h2] := pr i; first lia.
  split=> //; by rewrite h2 Im_conj oppr_gt0 lt_gtF.
have fr : perm_eq [seq x <- e | 0 < 'Im x] [seq 'i * dr 0 i | i <- enum 'I_N].
  rewrite (perm_trans (perm_filter _ pe)) // filter_cat.
  rewrite (@eq_in_filter _ _ predT) ?filter_predT; last first.
    by move=> x /mapP[k _ ->] /=; rewrite ImE ?imd // gtr0_real.
  rewrite (@eq_in_filter _ _ pred0 [seq - 'i * _ | _ <- _]) ?filter_pred0 ?cats0 //.
  by move=> x /mapP[k _ ->] /=; rewrite mulNr raddfN /= ImE ?gtr0_real // oppr_gt0 lt_gtF.
have al : all (fun x => `|'Im x| < ric_tol C) [seq - 'i * x | x <- e].
  apply/allP => x /mapP[y /emem[k h _] ->].
  have hy : - 'i * y \is Num.real.
    by case: h => ->; rewrite mulrA ?mulrNN ?mulNr ii ?opprK ?mulN1r ?mul1r ?rpredN gtr0_real.
  by rewrite (Creal_ImP _ hy) normr0 /ric_tol mulr_gt0 ?ltr0n // invr_gt0 exprn_gt0 ?ltr0n.
rewrite al size_map size_map sz.
have -> : uphalf (2 * N) = N by lia.
have := perm_map (fun x => 'Re (- 'i * x)) fr; rewrite fl.
have -> : [seq 'Re (- 'i * x) | x <- [seq 'i * dr 0 i | i <- enum 'I_N]] = [seq dr 0 i | i <- enum 'I_N].
  rewrite -map_comp; apply: eq_map => k /=.
  by rewrite mulrA mulNr ii opprK mul1r (Creal_ReP _ (gtr0_real (imd k))).
apply: perm_trans; rewrite perm_sym -map_comp.
have -> : [seq nth 0 [seq 'Re x | x <- [seq - 'i * x | x <- e]] (2 * i) | i <- iota 0 N]
  = [seq ((fun x => 'Re (- 'i * x)) \o (fun i => nth 0 e (2 * i))) i | i <- iota 0 N].
  by apply/eq_in_map => i; rewrite mem_iota => hi; rewrite -map_comp (nth_map 0) //= sz; lia.
exact: perm_refl.
Qed.

(** [symplectic_eigenvals(cov)] of a real symmetric positive definite covariance matrix returns, in some order, exactly the diagonal d of
    any Williamson factorisation cov = S diag(d, d) S^T with S symplectic. *)
Theorem symplectic_eigenvals_correct N (V S : mat) (d : vec) : realm (2 * N) V -> symplectic N S ->
  (forall i, (i < N)%N -> 0 < d i) -> eqm (2 * N) V (mprod (2 * N) (mprod (2 * N) S (diag2 N d d)) (tr S)) ->
  perm_eq (symplectic_eigenvals eigvals (2 * N) V) (mkseq d N).
Proof.
move=> rV /symplectic_mx sS dp; rewrite twoE => /eqm_mx; rewrite !mx_prod mx_tr => VE.
set s := mxo _ S in sS VE; pose dr := \row_(i < N) d i.
have De : mxo (N + N) (diag2 N d d) = block_mx (diag_mx dr) 0 0 (diag_mx dr).
  rewrite /diag2 mx_diag -diag_mx_row; congr diag_mx; apply/rowP => i; rewrite !mxE.
  case: splitP => k ke; rewrite !mxE ke ?ltn_ord //.
  by rewrite addKn.
rewrite De in VE.
have uS := symp_unit (symp_tr sS).
have sJ : J C N *m s = invmx s^T *m J C N.
  by rewrite -[in RHS](sS : s^T *m J C N *m s = J C N) !mulmxA mulVmx // mul1mx.
have cA : char_poly (J C N *m mxo (N + N) V) = char_poly (J C N *m block_mx (diag_mx dr) 0 0 (diag_mx dr)).
  rewrite VE !mulmxA sJ -!mulmxA [J C N *m _]mulmxA.
  by rewrite [in LHS]mulmxA char_poly_conj // mulVmx.
have -> : mkseq d N = [seq dr 0 i | i <- enum 'I_N].
  by rewrite /mkseq -val_enum_ord -map_comp; apply: eq_map => k /=; rewrite mxE.
rewrite -[in symplectic_eigenvals _ _ _]twoE.
by apply: symplectic_eigenvals_spectrum => // [i|]; [rewrite mxE dp|rewrite cA char_JD].
Qed.
End SE.
