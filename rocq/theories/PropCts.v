(** Elementary continuity of functions on a subset of the real line, with values in a closed field. *)
From mathcomp Require Import all_ssreflect all_algebra.
Set Implicit Arguments.
Unset Strict Implicit.
Unset Printing Implicit Defensive.
Import Order.TTheory GRing.Theory Num.Theory.
Local Open Scope ring_scope.

Section Cts.
Variable C : numClosedFieldType.
Variable D : C -> Prop.
Implicit Types f g : C -> C.
Definition cts f (x : C) : Prop := forall e, 0 < e -> exists2 d, 0 < d & forall y, D y -> `|y - x| < d -> `|f y - f x| < e.
Lemma pmin (a b : C) : 0 < a -> 0 < b -> exists2 c, 0 < c & forall t, t < c -> t < a /\ t < b.
Proof.
move=> pa pb; case: (real_leP (gtr0_real pa) (gtr0_real pb)) => h; [exists a|exists b] => // t tc; split=> //.
  exact: lt_le_trans h.
exact: lt_trans h.
Qed.
Variable x : C.
Hypothesis Dx : D x.
Lemma cts_ext f g : (forall y, D y -> f y = g y) -> cts f x -> cts g x.
Proof. by move=> e h r /h[d d0 q]; exists d => // y Dy yd; rewrite -!e //; exact: q. Qed.
Lemma cts_const c : cts (fun _ => c) x.
Proof. by move=> e e0; exists 1; rewrite ?ltr01 // => y _ _; rewrite subrr normr0. Qed.
Lemma cts_id : cts id x. Proof. by move=> e e0; exists e. Qed.
Lemma half_pos (e : C) : 0 < e -> 0 < e / 2%:R. Proof. by move=> h; rewrite divr_gt0 ?ltr0n. Qed.
Lemma halves (e : C) : e / 2%:R + e / 2%:R = e.
Proof. by rewrite -mulr2n -mulr_natr -mulrA mulVf ?mulr1 // pnatr_eq0. Qed.
Lemma cts_add f g : cts f x -> cts g x -> cts (fun y => f y + g y) x.
Proof.
move=> hf hg e e0; have h2 := half_pos e0; have [a a0 qa] := hf _ h2; have [b b0 qb] := hg _ h2; have [c c0 qc] := pmin a0 b0.
exists c => // y Dy /qc[ya yb]; rewrite opprD addrACA -(halves e); apply: le_lt_trans (ler_norm_add _ _) _.
by rewrite ltr_add ?qa ?qb.
Qed.
Lemma cts_lip f g k : 0 <= k -> (forall y, D y -> `|g y - g x| <= k * `|f y - f x|) -> cts f x -> cts g x.
Proof.
move=> k0 h hf e e0; have k1 : 0 < k + 1 by rewrite ltr_paddl ?ltr01.
have [d d0 q] := hf (e / (k + 1)) (divr_gt0 e0 k1); exists d => // y Dy yd; apply: le_lt_trans (h _ Dy) _.
have := q _ Dy yd; rewrite ltr_pdivl_mulr // mulrC => p; apply: le_lt_trans p.
by rewrite ler_wpmul2r ?normr_ge0 // ler_addl ler01.
Qed.
Lemma cts_opp f : cts f x -> cts (fun y => - f y) x.
Proof. by move=> hf; apply: (@cts_lip f _ 1) => // y _; rewrite -opprD normrN mul1r. Qed.
Lemma cts_bound f : cts f x -> exists2 d, 0 < d & forall y, D y -> `|y - x| < d -> `|f y| <= `|f x| + 1.
Proof.
move=> hf; have [d d0 q] := hf 1 ltr01; exists d => // y Dy yd; rewrite -[f y](subrK (f x)) addrC.
by apply: le_trans (ler_norm_add _ _) _; rewrite ler_add2l ltW // q.
Qed.
Lemma cts_mul f g : cts f x -> cts g x -> cts (fun y => f y * g y) x.
Proof.
move=> hf hg e e0; have h2 := half_pos e0.
have pf : 0 < `|f x| + 1 by rewrite ltr_paddl ?ltr01.
have pg : 0 < `|g x| + 1 by rewrite ltr_paddl ?ltr01.
have [a a0 qa] := hf _ (divr_gt0 h2 pg); have [b b0 qb] := hg _ (divr_gt0 h2 pf); have [m m0 qm] := cts_bound hg.
have [c c0 qc] := pmin a0 b0; have [c' c'0 qc'] := pmin c0 m0.
exists c' => // y Dy /qc'[/qc[ya yb] ym].
have -> : f y * g y - f x * g x = (f y - f x) * g y + f x * (g y - g x) by rewrite mulrBl mulrBr addrA subrK.
rewrite -(halves e); apply: le_lt_trans (ler_norm_add _ _) _; rewrite !normrM; apply: ltr_add.
  have := qa _ Dy ya; rewrite ltr_pdivl_mulr // => p; apply: le_lt_trans p.
  by rewrite ler_wpmul2l ?normr_ge0 ?qm.
have := qb _ Dy yb; rewrite ltr_pdivl_mulr // mulrC => p; apply: le_lt_trans p.
by rewrite ler_wpmul2r ?normr_ge0 // ler_addl ler01.
Qed.
Lemma cts_inv f : f x != 0 -> cts f x -> cts (fun y => (f y)^-1) x.
Proof.
move=> nz hf e e0; have pf : 0 < `|f x| by rewrite normr_gt0.
have p2 := half_pos pf; have [a a0 qa] := hf _ p2.
have p3 : 0 < e * (`|f x| * (`|f x| / 2%:R)) by apply: mulr_gt0 => //; apply: mulr_gt0.
have [b b0 qb] := hf _ p3; have [c c0 qc] := pmin a0 b0.
exists c => // y Dy /qc[ya yb].
have lo : `|f x| / 2%:R < `|f y|.
  have := qa _ Dy ya; rewrite distrC => h; rewrite -(ltr_add2l (`|f x| / 2%:R)) halves -{1}[f x](subrK (f y)).
  by apply: le_lt_trans (ler_norm_add _ _) _; rewrite ltr_add2r.
have py : 0 < `|f y| by apply: lt_trans lo.
have ny : f y != 0 by rewrite -normr_gt0.
have -> : (f y)^-1 - (f x)^-1 = (f x - f y) / (f x * f y).
  by rewrite mulrBl invfM [in X in _ = _ - X]mulrCA mulfV // mulr1 mulrA mulfV // mul1r.
rewrite normrM normfV normrM ltr_pdivr_mulr ?mulr_gt0 // distrC; apply: lt_trans (qb _ Dy yb) _.
by rewrite ltr_pmul2l // ltr_pmul2l.
Qed.
Lemma cts_conj f : cts f x -> cts (fun y => (f y)^*) x.
Proof. by move=> hf; apply: (@cts_lip f _ 1) => // y _; rewrite -rmorphB norm_conjC mul1r. Qed.
Lemma cts_Re f : cts f x -> cts (fun y => 'Re (f y)) x.
Proof.
move=> hf; have h : cts (fun y => (f y + (f y)^*) * 2%:R^-1) x by apply: cts_mul (cts_const _); apply: cts_add (cts_conj _).
by apply: cts_ext h => y _; rewrite ReE.
Qed.
Lemma cts_sqrt f : (forall y, D y -> f y \is Num.real) -> 0 < f x -> cts f x -> cts (fun y => sqrtC (f y)) x.
Proof.
move=> rf p hf e e0; have ps : 0 < sqrtC (f x) by rewrite sqrtC_gt0.
have [a a0 qa] := hf _ p; have [b b0 qb] := hf _ (mulr_gt0 e0 ps); have [c c0 qc] := pmin a0 b0.
exists c => // y Dy /qc[ya yb].
have py : 0 < f y.
  have := qa _ Dy ya; have r : f y - f x \is Num.real by rewrite rpredB ?rf.
  by rewrite real_ltr_norml // => /andP[h _]; move: h; rewrite ltr_subr_addl subrr.
have psy : 0 < sqrtC (f y) by rewrite sqrtC_gt0.
have sp : 0 < sqrtC (f y) + sqrtC (f x) by rewrite addr_gt0.
have -> : sqrtC (f y) - sqrtC (f x) = (f y - f x) / (sqrtC (f y) + sqrtC (f x)).
  by apply: (canRL (mulfK _)); rewrite ?gt_eqF // -subr_sqr ?sqrtCK.
rewrite normrM normfV (gtr0_norm sp) ltr_pdivr_mulr //; apply: lt_trans (qb _ Dy yb) _.
by rewrite ltr_pmul2l // ltr_addr.
Qed.
Lemma cts_sum (I : Type) (r : seq I) (F : I -> C -> C) : (forall i, cts (F i) x) -> cts (fun y => \sum_(i <- r) F i y) x.
Proof.
move=> h; elim: r => [|i r IH]; first by apply: cts_ext (cts_const 0) => y _; rewrite big_nil.
by apply: cts_ext (cts_add (h i) IH) => y _; rewrite big_cons.
Qed.
Definition mcts m n (M : C -> 'M[C]_(m, n)) : Prop := forall i j, cts (fun y => M y i j) x.
Lemma mcts_const m n (M : 'M[C]_(m, n)) : mcts (fun _ => M). Proof. by move=> i j; exact: cts_const. Qed.
Lemma mcts_mul m n k (A : C -> 'M[C]_(m, n)) (B : C -> 'M[C]_(n, k)) : mcts A -> mcts B -> mcts (fun y => A y *m B y).
Proof.
move=> hA hB i j; have h : cts (fun y => \sum_(t <- enum 'I_n) A y i t * B y t j) x by apply: cts_sum => t; exact: cts_mul.
by apply: cts_ext h => y _; rewrite mxE big_enum.
Qed.
Lemma mcts_diag n (f : 'I_n -> C -> C) : (forall i, cts (f i) x) -> mcts (fun y => diag_mx (\row_i f i y)).
Proof.
move=> h i j; case: (eqVneq i j) => [->|ne].
  by apply: cts_ext (h j) => y _; rewrite !mxE eqxx mulr1n.
by apply: cts_ext (cts_const 0) => y _; rewrite !mxE (negbTE ne) mulr0n.
Qed.
Lemma mcts_block m n k l (P : C -> 'M[C]_(m, k)) (Q : C -> 'M[C]_(m, l)) (R : C -> 'M[C]_(n, k)) (S : C -> 'M[C]_(n, l)) :
  mcts P -> mcts Q -> mcts R -> mcts S -> mcts (fun y => block_mx (P y) (Q y) (R y) (S y)).
Proof.
move=> hP hQ hR hS i j; case: (split_ordP i) => a ->; case: (split_ordP j) => b ->.
- by apply: cts_ext (hP a b) => y _; rewrite block_mxEul.
- by apply: cts_ext (hQ a b) => y _; rewrite block_mxEur.
- by apply: cts_ext (hR a b) => y _; rewrite block_mxEdl.
by apply: cts_ext (hS a b) => y _; rewrite block_mxEdr.
Qed.
(** a continuous function has no sign-changing discontinuity *)
Lemma cts_nojump f : (forall y, D y -> f y \is Num.real) -> cts f x -> ~ (forall d, 0 < d -> exists2 y, D y & `|y - x| < d /\ (f y * f x < 0)).
Proof.
move=> rf hf h; have [y0 _ [_ n0]] := h 1 ltr01.
have nz : f x != 0 by apply: contraTneq n0 => ->; rewrite mulr0 ltxx.
have pf : 0 < `|f x| by rewrite normr_gt0.
have [d d0 q] := hf _ pf; have [y Dy [yd n]] := h d d0; have := q _ Dy yd.
rewrite -(@ltr_pexpn2r _ 2%N) ?nnegrE ?normr_ge0 // !real_normK ?rpredB ?rf // sqrrB => {}q.
suff : f x ^+ 2 < f y ^+ 2 - f y * f x *+ 2 + f x ^+ 2 by move=> /lt_trans/(_ q); rewrite ltxx.
rewrite ltr_addr; apply: ltr_paddl; first by rewrite real_exprn_even_ge0 ?rf.
by rewrite oppr_gt0 pmulrn_llt0.
Qed.
End Cts.
