(** Concrete inputs meeting the hypotheses of the theorems about decompositions. *)
From mathcomp Require Import all_ssreflect all_algebra zify.
From Verif Require Import Prelude PyBase ArrLoop MHafnian MHermite MSymplectic MDecomp SpecSymp SpecTor SpecDecomp PropTor PropTor5 PropThr3 PropSpectral PropChannels PropSymp2 PropDecomp PropDecomp2 PropDecomp3 PropDecomp4 PropDecomp6 PropDecomp7 PropDecomp8.
Set Implicit Arguments.
Unset Strict Implicit.
Unset Printing Implicit Defensive.
Import Order.TTheory GRing.Theory Num.Theory.
Local Open Scope ring_scope.

Section Ex.
Variable C : numClosedFieldType.
Notation mat := (nat -> nat -> C).
Notation vec := (nat -> C).
Notation mxo n A := (mxof n n A).

(** diag(i c, a) with 1 <= a < c meets the hypotheses of takagi_correct *)
Lemma dg_exact (a c : C) : 1 <= a -> a < c -> let M := dg ('i * c) a in
  [/\ symm 2 M, zero_exact 2 M, real_exact 2 M, phase_exact 2 M & diag_exact 2 M].
Proof.
move=> a1 ac M.
have a0 : 0 < a := lt_le_trans ltr01 a1.
have c1 : 1 <= c := le_trans a1 (ltW ac).
have c0 : 0 < c := lt_trans a0 ac.
have nc : `|'i * c| = c by rewrite normrM normCi mul1r gtr0_norm.
split.
- by move=> [|[|i]] [|[|j]].
- move=> /(_ 0%N 0%N isT isT); rewrite /M /dg /= nc => h.
  by have := le_lt_trans (le_trans c1 h) (atol_lt1 C); rewrite ltxx.
- move=> /(_ 0%N 0%N isT isT); rewrite /M /dg /= Im_ic ?gtr0_real // (gtr0_norm c0) => h.
  by have := lt_le_trans h (le_trans (tol_le1 C) c1); rewrite ltxx.
- move=> p q hp hq /(_ 0%N 0%N isT isT); rewrite {1}/M /dg /= nc => le.
  have -> : M p q = 'i * c.
    move: le; rewrite /M /dg; case: p q hp hq => [|[|p]] [|[|q]] // _ _ /=; rewrite ?normr0 ?(gtr0_norm a0) => h.
    + by have := lt_le_trans c0 h; rewrite ltxx.
    + by have := lt_le_trans c0 h; rewrite ltxx.
    + by have := lt_le_trans ac h; rewrite ltxx.
  move=> /(_ 1%N 1%N isT isT); rewrite /M /dg /= nc rmorphM conjCi (conj_Creal (gtr0_real c0)) mulNr mulNr mulfK ?gt_eqF //.
  rewrite mulNr raddfN /= Im_ic ?gtr0_real // normrN (gtr0_norm a0) => h.
  by have := lt_le_trans h (le_trans (tol_le1 C) a1); rewrite ltxx.
move=> _; split=> [[|[|i]] [|[|j]]|[|[|i]] [|[|j]]] //= _ _; by rewrite /M /dg /= nc (gtr0_norm a0).
Qed.

(** a two-mode squeezing matrix meets the hypotheses of all the theorems about symplectic matrices *)
Lemma bm_example : exists S : mat, [/\ realm 4 S, symplectic 2 S, posd 4 S, bm_exact 2 S & ~ eqm 4 S (idm C)].
Proof.
pose q (x y : C) : vec := fun i => if i == 0%N then x else y.
pose S := dblock 2 (q (5%:R / 3%:R) 2%:R) (q (4%:R / 3%:R) 0) (q (5%:R / 3%:R) 2%:R^-1).
have n2 : 2%:R != 0 :> C by rewrite pnatr_eq0.
have n3 : 3%:R != 0 :> C by rewrite pnatr_eq0.
have fr : 5%:R / 3%:R * (5%:R / 3%:R) - (4%:R / 3%:R) ^+ 2 = 1 :> C by ffield; rewrite ?mulf_neq0.
have g1 : 0 < 5%:R / 3%:R :> C by rewrite divr_gt0 ?ltr0n.
have r1 : 4%:R / 3%:R \is @Num.real C by rewrite ger0_real // divr_ge0 ?ler0n.
have [sS rS pS] : [/\ symplectic 2 S, realm (2 + 2) S & posd (2 + 2) S].
  apply: dblock_ok => -[|[|i]] // _; rewrite /q /=; split; rewrite ?ltr0n ?rpred0 //.
  by rewrite mulfV // expr2 mul0r subr0.
have half3 : 2%:R - 2%:R^-1 = 3%:R / 2%:R :> C by ffield; rewrite ?mulf_neq0.
have eight : 4%:R / 3%:R + 4%:R / 3%:R = 8%:R / 3%:R :> C by ffield; rewrite ?mulf_neq0.
have l1 : 1 <= 3%:R / 2%:R :> C by rewrite ler_pdivl_mulr ?ltr0n // mul1r ler_nat.
have l2 : 3%:R / 2%:R < 8%:R / 3%:R :> C.
  by rewrite ltr_pdivr_mulr ?ltr0n // mulrAC ltr_pdivl_mulr ?ltr0n // -!natrM ltr_nat.
exists S; split=> //; last first.
  move=> /(_ 1%N 1%N isT isT); rewrite /S /dblock /blocks /diagm /q /idm /= => /eqP; by rewrite -[1]/1%:R eqr_nat.
change (2 * 2)%N with (2 + 2)%N => P; rewrite -[(2 * 2)%N]/(2 + 2)%N => /pos_mx pP /eqm_mx; rewrite !mx_prod mx_tr.
have pS2 := proj1 (pos_mx _ _) pS; have rS2 := proj1 (rmx_real _ _) rS.
have tS : (mxo (2 + 2) S)^T = mxo (2 + 2) S by case: pS2 => hh _; rewrite -[RHS]hh (rmx_ct rS2).
rewrite tS => /(pos_sqrt_unique pP pS2)/eqm_mx PSf.
have ME : eqm 2 (bm_matrix 2 P) (dg ('i * (8%:R / 3%:R)) (3%:R / 2%:R)).
  move=> [|[|i]] [|[|j]] // _ _; rewrite /bm_matrix !PSf // /S /dblock /blocks /diagm /dg /q /=.
  - by rewrite subrr add0r eight.
  - by rewrite subr0 addr0 mulr0 addr0.
  - by rewrite subr0 addr0 mulr0 addr0.
  - by rewrite addr0 mulr0 addr0 half3.
have [_ zE rE pE dE] := dg_exact l1 l2.
have ME' i j : (i < 2)%N -> (j < 2)%N -> dg ('i * (8%:R / 3%:R)) (3%:R / 2%:R) i j = bm_matrix 2 P i j by move=> hi hj; rewrite ME.
split.
- by apply: zero_ext zE => i j hi hj; rewrite ME.
- by move=> h i j hi hj; rewrite ME //; apply: rE => // k l hk hl; rewrite ME' // h.
- move=> p' q' hp hq h h' i j hi hj; rewrite ME // ME //; apply: (pE p' q' hp hq) => // [k l hk hl|k l hk hl].
    by rewrite !ME' // h.
  by rewrite !ME' // h'.
move=> h; have [|d1 d2] := dE; first by move=> i j hi hj ne; rewrite ME' // h.
split=> [i j hi hj ne|i j ij hj]; first by rewrite ME // d1.
by have hi := ltn_trans ij hj; rewrite !ME // d2.
Qed.
End Ex.
