(** C62: a concrete case, and photon numbers of clicks that no scaling attains. *)
From mathcomp Require Import all_ssreflect all_algebra zify.
From Verif Require Import Prelude PyBase ArrLoop MHafnian MHermite MSymplectic MDecomp SpecHaf SpecSymp SpecTor SpecThr SpecDecomp SpecGauss PropTor PropTor5 PropThr5 PropSpectral PropChannels PropConversions PropSymp2 PropDecomp PropDecomp2 PropDecomp6 PropChecks PropMeans2 MTor MClicks MAdj SpecAdj PropCts PropAdj PropAdj2 PropAdj3 PropAdj4 PropAdj5.
Set Implicit Arguments.
Unset Strict Implicit.
Unset Printing Implicit Defensive.
Import Order.TTheory GRing.Theory Num.Theory.
Local Open Scope ring_scope.

Section Case.
Variable C : numClosedFieldType.
Notation mat := (nat -> nat -> C).
Notation vec := (nat -> C).
Notation mxo n A := (mxof n n A).
(** a root finder that tests one point z only *)
Definition root_at (z : C) (f : C -> res C) (a b : C) : res (bool * C) :=
  match f a, f b, f z with
  | Ok u, Ok v, Ok w => if 0 < u * v then Err ValueError else Ok ((a <= z <= b) && (w == 0), z)
  | Ok u, Ok v, _ => if 0 < u * v then Err ValueError else Ok (false, z)
  | _, _, _ => Ok (false, z)
  end.
Lemma root_at_ok z : root_ok (root_at z).
Proof.
move=> f g a b ab h; rewrite /root_at; have [-> ra] := h a (introT andP (conj (lexx _) ab)); have [-> rb] := h b (introT andP (conj ab (lexx _))).
have rr : g a * g b \is Num.real by rewrite rpredM.
case E : (f z) => [w|e] /=; case: (real_ltP (real0 C) rr) => // p; split=> //.
by move=> /andP[hz /eqP w0]; split=> //; left; have [e _] := h z hz; move: E; rewrite e => -[->].
Qed.

(** two modes, A = [[0, 1], [1, 0]]: two-mode squeezing *)
Definition swap : mat := fun i j => (i != j)%:R.
Definition svd1 (n : nat) (A : mat) : mat * vec * mat := (swap, fun _ => 1, idm C).
Lemma svd1_ok : svd_at svd1 2 swap.
Proof.
have I1 : mxo 2 (idm C) = 1%:M by exact: mx_idm.
split=> [|||i _|i j _ _]; rewrite /svd1 /= ?ler01 //.
- move=> i j hi hj; rewrite !big_ord_recl big_ord0 /swap /=.
  by move: hi hj; case: i => [|[|i]] // _; case: j => [|[|j]] // _; rewrite /= ?conjC0 ?conjC1; rring.
- move=> i j hi hj; rewrite !big_ord_recl big_ord0 /idm /=.
  by move: hi hj; case: i => [|[|i]] // _; case: j => [|[|j]] // _; rewrite /= ?conjC0 ?conjC1; rring.
move=> i j hi hj; rewrite /mprod !big_ord_recl !big_ord0 /swap /diagm /idm /=.
by move: hi hj; case: i => [|[|i]] // _; case: j => [|[|j]] // _; rewrite /= ?mulr1 ?mulr0 ?addr0 ?add0r ?mul0r.
Qed.
Example adj_to_qmat_case : exists Q, adj_to_qmat svd1 (root_at 2%:R^-1) 2 2 swap (2%:R / 3%:R) = Ok Q.
Proof.
have sw : symm 2 swap by move=> i j _ _; rewrite /tr /swap eq_sym.
have rm : (2%:R / 3%:R : C) \is Num.real by rewrite rpred_div ?realn.
apply: (@adj_to_qmat_total C svd1 _ (root_at_ok _) 2 swap _ 2%:R^-1 isT svd1_ok sw rm).
have e0 : 0 < 10%:R^-1 ^+ 10 :> C by rewrite exprn_gt0 // invr_gt0 ltr0n.
have e1 : 1000%:R * 10%:R^-1 ^+ 10 < 1 :> C.
  rewrite (_ : 1000%:R = 10%:R ^+ 3 :> C); last by rewrite -natrX.
  have t0 : 10%:R != 0 :> C by rewrite pnatr_eq0.
  rewrite exprVn (_ : 10 = 3 + 7)%N // exprD invfM mulrA mulfV ?mul1r ?expf_neq0 //.
  by rewrite invf_lt1 ?exprn_gt0 ?ltr0n // exprn_egt1 // ltr1n.
rewrite /adj_scaling /= /svdvals /= (lt_geF e1); set b := 1 / _.
have e2 : 10%:R^-1 ^+ 10 < 1 :> C by apply: lt_trans e1; rewrite ltr_pmull // ltr1n.
have bb : 2%:R^-1 <= b < 1.
  have p : 0 < 10%:R^-1 ^+ 10 + 1 :> C by rewrite addr_gt0 ?ltr01.
  rewrite /b mul1r invf_lt1 // ltr_addr e0 andbT lef_pinv ?posrE ?ltr0n //.
  by rewrite -[2%:R]/(1 + 1) ler_add2r ltW.
have F x : x ^+ 2 != 1 -> \sum_(i < 2) (x * 1) ^+ 2 / (1 - (x * 1) ^+ 2) - 2%:R / 3%:R = 2%:R * (4%:R * x ^+ 2 - 1) / (3%:R * (1 - x ^+ 2)) :> C.
  move=> xn; have xn' : 1 - x ^+ 2 != 0 by rewrite subr_eq0 eq_sym.
  have t3 : 3%:R != 0 :> C by rewrite pnatr_eq0.
  by rewrite !big_ord_recl big_ord0 mulr1; ffield; rewrite ?mulf_neq0 //.
have half : (2%:R^-1 : C) ^+ 2 = 4%:R^-1 by rewrite exprVn -natrX.
have [b1 b2] := andP bb; have h0 : 0 < 2%:R^-1 :> C by rewrite invr_gt0 ltr0n.
have b0 : 0 < b by exact: lt_le_trans b1.
have bs : b ^+ 2 < 1 by rewrite expr_lt1 // ltW.
rewrite /root_at !F; last first.
- by rewrite expr0n /= eq_sym oner_eq0.
- by rewrite lt_eqF.
- by rewrite half lt_eqF // invf_lt1 ?ltr0n // ltr1n.
rewrite half mulfV ?pnatr_eq0 // subrr mulr0 mul0r eqxx (ltW h0) b1 /=.
rewrite le_gtF //= expr0n /= mulr0 sub0r mulr_le0_ge0 //.
  by rewrite subr0 mulr1 mulrN1 mulNr oppr_le0 divr_ge0 ?ler0n.
rewrite divr_ge0 ?mulr_ge0 ?ler0n ?subr_ge0 ?(ltW bs) //.
have : 4%:R^-1 <= b ^+ 2 by rewrite -half ler_expn2r // nnegrE ltW.
by rewrite -(ler_pmul2l (ltr0Sn C 3)) mulfV ?pnatr_eq0.
Qed.

(** the diagonal matrix diag(1, 1/2) *)
Definition dmat : mat := fun i j => if i == j then (if i == 0%N then 1 else 2%:R^-1) else 0.
Definition svd2 (n : nat) (A : mat) : mat * vec * mat := (idm C, fun i => if i == 0%N then 1 else 2%:R^-1, idm C).
Lemma svd2_ok : svd_at svd2 2 dmat.
Proof.
have h : (2%:R^-1 : C) <= 1 by rewrite invf_le1 ?ltr0n // ler1n.
have u : unitary 2 (idm C) by apply/unitary_mx; rewrite mx_idm ct1 mulmx1.
split=> [//|//||i _|i j ij _]; rewrite /svd2 /=.
- by apply/eqm_mx; rewrite !mx_prod mx_idm mul1mx mulmx1; apply/matrixP => i j; rewrite !mxE.
- by case: ifP => _; rewrite ?ler01 // invr_ge0 ler0n.
by case: (eqVneq j 0%N) ij => [->|_]; [rewrite leqn0 => ->|case: ifP].
Qed.
Lemma clicks2 s : dom svd2 2 dmat s -> clicks svd2 2 dmat s = 2%:R - (sqrtC (1 - s ^+ 2) + sqrtC (1 - (s / 2%:R) ^+ 2)).
Proof.
move=> ds; rewrite /clicks !big_ord_recl big_ord0 addr0.
have E (i : 'I_2) : dv svd2 dmat s i = (1 - (s * (svd2 2 dmat).1.2 i) ^+ 2)^-1.
  have := dom_lt svd2_ok i ds; rewrite /svdvals; set d := s * _ => /andP[d0 d1].
  have p : 0 < 1 - d ^+ 2 by rewrite subr_gt0 expr_lt1.
  have hi := ltn_ord i.
  have R1 : RR (mxo 2 (svd2 2 dmat).1.1) (mxo 2 (svd2 2 dmat).2) (fun i : 'I_2 => s * svdvals svd2 2 dmat i) =
    block_mx (diag_mx (\row_i (1 - (s * svdvals svd2 2 dmat i) ^+ 2)^-1)) (diag_mx (\row_i (s * svdvals svd2 2 dmat i / (1 - (s * svdvals svd2 2 dmat i) ^+ 2))))
     (diag_mx (\row_i (s * svdvals svd2 2 dmat i / (1 - (s * svdvals svd2 2 dmat i) ^+ 2)))) (diag_mx (\row_i (1 - (s * svdvals svd2 2 dmat i) ^+ 2)^-1)).
    by rewrite /RR /= mx_idm ct1 !mul1mx !mulmx1.
  rewrite /dv /det_val /Qof R1.
  have hj : (i < 2 + 2)%N by apply: ltn_trans hi _.
  have hk : (i + 2 < 2 + 2)%N by rewrite ltn_add2r.
  have L : Ordinal hj = lshift 2 i by apply: val_inj.
  have R : Ordinal hk = rshift 2 i by apply: val_inj; rewrite /= addnC.
  rewrite !ofmxE L R block_mxEul block_mxEdr block_mxEdl block_mxEur !mxE eqxx !mulr1n.
  have dE : s * svdvals svd2 2 dmat i = d by [].
  rewrite !dE; have pn : 1 - d ^+ 2 != 0 by rewrite gt_eqF.
  have -> : (1 - d ^+ 2)^-1 * (1 - d ^+ 2)^-1 - d / (1 - d ^+ 2) * (d / (1 - d ^+ 2)) = (1 - d ^+ 2)^-1.
    by ffield.
  by apply/Creal_ReP; rewrite gtr0_real // invr_gt0.
have [s0 s1] := ds; rewrite /= /svdvals /= mulr1 in s1.
have half1 : (2%:R^-1 : C) <= 1 by rewrite invf_le1 ?ltr0n // ler1n.
have p1 : 0 <= 1 - s ^+ 2 by rewrite subr_ge0 expr_le1 // ltW.
have p2 : 0 <= 1 - (s / 2%:R) ^+ 2.
  have h0 : 0 <= s / 2%:R by rewrite divr_ge0 ?ler0n.
  by rewrite subr_ge0 expr_le1 // -[X in _ <= X]mulr1 ler_pmul ?invr_ge0 ?ler0n // ltW.
by rewrite !E /= mulr1 !(rootCV 2) // !div1r !invrK.
Qed.
(** finding: for diag(1, 1/2) no scaling yields a mean number of clicks above 2 - sqrt(3/4), yet on such a request the routine
    returns the boundary scaling 1, at which there is no Gaussian state: the matrix to be inverted is singular *)
Theorem adj_scaling_torontonian_boundary_refuted root_scalar c : root_ok root_scalar -> (forall f a b r, root_scalar f a b = Ok r -> r.1) ->
  2%:R - sqrtC (3%:R / 4%:R) < c <= 2%:R ->
  [/\ forall s, 0 <= s < 1 -> mean_clicks_adj 2 (fun i j => s * dmat i j) <> Ok c,
      adj_scaling_torontonian svd2 root_scalar 2 dmat c = Ok 1 &
      exists e, mean_clicks_adj 2 (fun i j => 1 * dmat i j) = Err e].
Proof.
move=> rP conv /andP[c1 c2].
have sym : symm 2 dmat by move=> i j _ _; rewrite /tr /dmat; case: (eqVneq i j) => [->|].
have nz : exists i j, [/\ (i < 2)%N, (j < 2)%N & dmat i j != 0] by exists 0%N, 0%N; rewrite /dmat eqxx oner_eq0.
have bound s : 0 <= s < 1 -> clicks svd2 2 dmat s < 2%:R - sqrtC (3%:R / 4%:R).
  move=> /andP[s0 s1].
  have ds : dom svd2 2 dmat s by split; rewrite //= mulr1.
  have h0 : 0 <= s / 2%:R by rewrite divr_ge0 ?ler0n.
  have e34 : 3%:R / 4%:R = 1 - (1 / 2%:R) ^+ 2 :> C.
    have n4 : 4%:R != 0 :> C by rewrite pnatr_eq0.
    apply: (mulIf n4); rewrite expr_div_n expr1n -natrX mulrBl !mulrVK ?unitfE // mul1r.
    by apply/eqP; rewrite eq_sym subr_eq -[1 in X in _ == X]/(1%:R) -natrD.
  have lt : (s / 2%:R) ^+ 2 <= (1 / 2%:R) ^+ 2 by rewrite ler_expn2r ?nnegrE ?divr_ge0 ?ler01 ?ler0n // ler_pmul2r ?invr_gt0 ?ltr0n // ltW.
  have q0 : 0 <= 1 - (1 / 2%:R) ^+ 2 :> C by rewrite -e34 divr_ge0 ?ler0n.
  have q1 : 1 - (1 / 2%:R) ^+ 2 <= 1 - (s / 2%:R) ^+ 2 by rewrite ler_add2l ler_opp2.
  rewrite (clicks2 ds) e34 ltr_add2l ltr_opp2; apply: ltr_spaddl.
    by rewrite sqrtC_gt0 subr_gt0 expr_lt1.
  by rewrite ler_sqrtC // nnegrE // (le_trans q0).
split.
- move=> s hs; have ds : dom svd2 2 dmat s by case/andP: hs => ? ?; split; rewrite //= mulr1.
  rewrite (mcaE svd2_ok sym ds) => -[e]; have := bound s hs; by rewrite e => /(lt_trans c1); rewrite ltxx.
- have cr : 0 <= c <= 2%:R.
    rewrite c2 andbT; apply: le_trans (ltW c1); rewrite subr_ge0.
    have t34 : 3%:R / 4%:R <= 1 :> C by rewrite ler_pdivr_mulr ?ltr0n // mul1r ler_nat.
    have p34 : 0 <= 3%:R / 4%:R :> C by rewrite divr_ge0 ?ler0n.
    apply: le_trans (_ : 1 <= _); last by rewrite ler1n.
    by rewrite -[X in _ <= X]sqrtC1 ler_sqrtC // nnegrE ?ler01.
  have cR : c \is Num.real by case/andP: cr => /ger0_real.
  have [s e] := adj_scaling_torontonian_total rP (isT : (0 < 2)%N) svd2_ok sym nz cR conv cr.
  have [s0 _] := adj_scaling_torontonian_correct rP (isT : (0 < 2)%N) svd2_ok sym nz cR e.
  rewrite /svdvals /= !mulr1 => -[[s1]|[s1 _]]; last by rewrite e s1.
  have ds : dom svd2 2 dmat s by split; rewrite //= mulr1.
  rewrite (mcaE svd2_ok sym ds) => -[e']; have := bound s; by rewrite s0 s1 e' => /(_ isT) /(lt_trans c1); rewrite ltxx.
rewrite /mean_clicks_adj /np_inv /one_minus_XA -/(muln 2 2); change (2 * 2)%N with 4%N; case: ifP => [u|_]; last by exists RuntimeError.
exfalso; set M := mxof _ _ _ in u.
pose v : 'cV[C]_4 := \col_i (if ((i : nat) == 0%N) || ((i : nat) == 2%N) then 1 else 0).
have z : M *m v = 0.
  apply/matrixP => i j; rewrite !mxE !big_ord_recl big_ord0 !mxE /= /mmul /Xmat /npblock /zerom /conjm /dmat /= ?big_cons ?big_nil /=.
  case: i => -[|[|[|[|]]]] //= _; rewrite -?[(2 - 2)%N]/0%N -?[(3 - 2)%N]/1%N /eye /bump /= !(mulr0, mul0r, mulr1, mul1r, addr0, add0r, rmorph1, rmorph0, subr0, sub0r).
  all: rewrite ?subrr ?addNr ?oppr0 ?rmorph0 ?mul0r ?mulr0 ?addr0 ?oppr0 ?conjC0 ?addNr ?subrr //.
have : v = 0 by rewrite -[v]mul1mx -(mulVmx u) -mulmxA z mulmx0.
by move/matrixP/(_ 0 0); rewrite !mxE /= => /eqP; rewrite oner_eq0.
Qed.
End Case.
