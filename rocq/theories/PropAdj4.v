(** C62: adj_scaling_torontonian. *)
From mathcomp Require Import all_ssreflect all_algebra zify.
From Verif Require Import Prelude PyBase ArrLoop MHafnian MHermite MSymplectic MDecomp SpecHaf SpecSymp SpecTor SpecThr SpecDecomp SpecGauss PropTor PropTor2 PropTor3 PropTor4 PropTor5 PropThr PropThr2 PropThr3 PropThr4 PropThr5 PropSpectral PropChannels PropConversions PropSymplectic PropSymp2 PropDecomp PropDecomp2 PropDecomp6 PropChecks PropPure PropMeans2 MTor MClicks PropClicks PropClicks2 MAdj SpecAdj PropCts PropAdj PropAdj2 PropAdj3.
Set Implicit Arguments.
Unset Strict Implicit.
Unset Printing Implicit Defensive.
Import Order.TTheory GRing.Theory Num.Theory.
Local Open Scope ring_scope.

Section Ext.
Variable C : numClosedFieldType.
Notation mat := (nat -> nat -> C).
Lemma one_minus_ext n (F G : mat) : (forall i j, F i j = G i j) -> forall a b, one_minus_XA n F a b = one_minus_XA n G a b.
Proof.
move=> h a b; rewrite /one_minus_XA /mmul; congr (_ - _); apply: eq_bigr => t _; congr (_ * _).
by rewrite /npblock /zerom /conjm; case: ifP => _; case: ifP => _; rewrite h.
Qed.
Lemma np_inv_ext n (F G : mat) : (forall i j, F i j = G i j) -> np_inv n F = np_inv n G.
Proof. by move=> h; rewrite /np_inv; have -> : mxof n n F = mxof n n G by apply/matrixP => i j; rewrite !mxE. Qed.
Lemma mca_ext n (F G : mat) : (forall i j, F i j = G i j) -> mean_clicks_adj n F = mean_clicks_adj n G.
Proof. by move=> h; rewrite /mean_clicks_adj (np_inv_ext _ (one_minus_ext n h)). Qed.
End Ext.

Section Tor.
Variable C : numClosedFieldType.
Notation mat := (nat -> nat -> C).
Notation vec := (nat -> C).
Notation mxo n A := (mxof n n A).
Variable svd : nat -> mat -> mat * vec * mat.
Section S.
Variables (n : nat) (A : mat).
Hypothesis svdP : svd_at svd n A.
Hypothesis sA : symm n A.
Let sg := svdvals svd n A.
Let U := mxo n (svd n A).1.1.
Let V := mxo n (svd n A).2.
Definition Qof (s : C) : mat := ofmx (RR U V (fun i => s * sg i)).
Definition dom (s : C) : Prop := 0 <= s /\ s * sg 0%N < 1.
Lemma sgm0 (i : 'I_n) : 0 <= sg i <= sg 0%N. Proof. by have [_ _ _ h1 h2] := svdP; rewrite h1 //= h2. Qed.
Lemma dom_lt s (i : 'I_n) : dom s -> 0 <= s * sg i < 1.
Proof. move=> [s0 s1]; have /andP[a b] := sgm0 i; by rewrite mulr_ge0 //= (le_lt_trans _ s1) // ler_wpmul2l. Qed.
(** the state of s A: Q matrix and its entries *)
Lemma Qof_inv s : dom s -> np_inv (2 * n) (one_minus_XA n (fun i j => s * A i j)) = Ok (Qof s).
Proof. by move=> [s0 s1]; exact: (Q_inv svdP sA s0 s1). Qed.
Definition dv (s : C) (i : 'I_n) : C := det_val n (Qof s) i.
Definition clicks (s : C) : C := n%:R - \sum_(i < n) 1 / sqrtC (dv s i).
Lemma det_val_ext (Q Q' : mat) (i : 'I_n) : eqm (2 * n) Q Q' -> det_val n Q i = det_val n Q' i.
Proof. by move=> h; rewrite /det_val !h //; have := ltn_ord i; lia. Qed.
Lemma clicksE s : dom s -> mean_clicks n (Covmat n (Qof s) 2%:R) 2%:R = clicks s.
Proof.
move=> [s0 s1]; have q := @Qcov _ _ _ _ _ svdP sA s0 s1 2%:R (ltr0Sn _ _).
rewrite /mean_clicks (for_sum _ _ (fun i => - (1 / sqrtC (det_val n (Qmat n (Covmat n (Qof s) 2%:R) 2%:R) i)))) sum_iota sumrN; congr (_ - _).
by apply: eq_bigr => i _; rewrite (det_val_ext i q).
Qed.
Lemma mcaE s : dom s -> mean_clicks_adj n (fun i j => s * A i j) = Ok (clicks s).
Proof. by move=> h; rewrite /mean_clicks_adj Qof_inv //= clicksE. Qed.
Lemma dv_pos s i : dom s -> 0 < dv s i.
Proof.
move=> [s0 s1]; have q := @Qcov _ _ _ _ _ svdP sA s0 s1 2%:R (ltr0Sn _ _); have h2 : 0 < 2%:R :> C by rewrite ltr0n.
have rs := @cov_sym _ _ _ _ _ svdP sA s0 s1 2%:R h2; have ps := @cov_ps _ _ _ _ _ svdP sA s0 s1 2%:R h2.
rewrite /dv -(det_val_ext i q); set M := Qmat _ _ _.
have hi := ltn_ord i; pose r := [:: val i; (n + i)%N].
have ur : uniq r by rewrite /= inE andbT; apply/eqP; lia.
have ar : all (fun k => k < 2 * n)%N r by rewrite /= andbT; apply/andP; split; lia.
have [_ p] := posdef_det (hermitian_ix (Qmat_hermitian rs h2) ar) (posdef_ix (Qmat_posdef rs h2 ps) ur ar).
rewrite /det_val; suff -> : M i i * M (i + n)%N (i + n)%N - M (i + n)%N i * M i (i + n)%N = \det (mxof 2 2 (ix M r)) by rewrite (Creal_ReP _ (gtr0_real p)).
rewrite (expand_det_row _ ord0) !big_ord_recl big_ord0 addr0 /cofactor !det_mx11 !mxE /= expr0 expr1 mul1r mulN1r mulrN /ix /= [(i + n)%N]addnC.
by congr (_ - _); exact: mulrC.
Qed.
Lemma Qof_cts s a b : dom s -> (a < n + n)%N -> (b < n + n)%N -> cts dom (fun t => Qof t a b) s.
Proof.
move=> ds ha hb; suff h : mcts dom s (fun t => RR U V (fun i => t * sg i)).
  by apply: cts_ext (h (Ordinal ha) (Ordinal hb)) => // y _; rewrite /Qof ofmxE.
have ci c : cts dom (fun t => t * c) s by apply: cts_mul; [exact: cts_id|exact: cts_const].
have c2 (i : 'I_n) : cts dom (fun t => (1 - (t * sg i) ^+ 2)^-1) s.
  apply: cts_inv; first by have /andP[d0 d1] := dom_lt i ds; rewrite gt_eqF // subr_gt0 expr_lt1.
  apply: cts_add; first exact: cts_const.
  by apply: cts_opp; apply: (@cts_ext C _ s ds (fun y => (y * sg i) * (y * sg i))) => [y _|]; [by rewrite expr2|exact: cts_mul].
rewrite /RR; apply: mcts_block => //.
- by apply: mcts_mul => //; [apply: mcts_mul => //; [exact: mcts_const|exact: mcts_diag]|exact: mcts_const].
- apply: mcts_mul => //; [apply: mcts_mul => //; [exact: mcts_const|]|exact: mcts_const].
  by apply: mcts_diag => // i; exact: cts_mul.
- apply: mcts_mul => //; [apply: mcts_mul => //; [exact: mcts_const|]|exact: mcts_const].
  by apply: mcts_diag => // i; exact: cts_mul.
by apply: mcts_mul => //; [apply: mcts_mul => //; [exact: mcts_const|exact: mcts_diag]|exact: mcts_const].
Qed.
Lemma clicks_cts s : dom s -> cts dom clicks s.
Proof.
move=> ds; apply: cts_add; first exact: cts_const.
apply: cts_opp; apply: cts_sum => // i.
have p := dv_pos i ds; apply: cts_mul; first exact: cts_const.
apply: cts_inv; first by rewrite gt_eqF // sqrtC_gt0.
apply: cts_sqrt => //; first by move=> y dy; exact/gtr0_real/dv_pos.
have hi := ltn_ord i; apply: cts_Re => //; apply: cts_add; first by apply: cts_mul; apply: Qof_cts => //; lia.
by apply: cts_opp; apply: cts_mul; apply: Qof_cts => //; lia.
Qed.
Lemma clicks0 : (0 < n)%N -> clicks 0 = 0.
Proof.
move=> n0; suff h (i : 'I_n) : dv 0 i = 1.
  by rewrite /clicks (eq_bigr (fun _ => 1)) ?sumr_const ?card_ord ?subrr // => i _; rewrite h sqrtC1 divr1.
have [/unitary_mx uU /unitary_mx uV _ _ _] := svdP; rewrite -/U in uU; rewrite -/V in uV.
have R1 : RR U V (fun i => 0 * sg i) = 1%:M.
  rewrite /RR (ddE (g := fun _ => 1)) => [|k]; last by rewrite mul0r expr0n /= subr0 invr1.
  rewrite (ddE (f := fun i => _ / _) (g := fun _ => 0)) => [|k]; last by rewrite mul0r mul0r.
  have -> : diag_mx (\row_(i < n) 0) = 0 :> 'M[C]_n by apply/matrixP => a b; rewrite !mxE mul0rn.
  by rewrite dd1 !mulmx1 !mulmx0 !mul0mx uV (mulmx1C uU) [RHS]scalar_mx_block.
have hi := ltn_ord i; have E a b (ha : (a < n + n)%N) (hb : (b < n + n)%N) : Qof 0 a b = (a == b)%:R by rewrite /Qof ofmxE R1 mxE.
rewrite /dv /det_val !E; try lia; rewrite !eqxx.
have -> : (i + n == i)%N = false by lia.
by rewrite /= mulr1 mul0r subr0 (Creal_ReP _ (rpred1 _)).
Qed.
Lemma clicks_lt s : (0 < n)%N -> dom s -> clicks s < n%:R.
Proof.
move=> n0 ds; rewrite ltr_subl_addr ltr_addl; have p i : 0 < 1 / sqrtC (dv s i) by rewrite divr_gt0 ?ltr01 // sqrtC_gt0 dv_pos.
by rewrite (bigD1 (Ordinal n0)) //= ltr_paddr // sumr_ge0 // => i _; exact: ltW.
Qed.
End S.
End Tor.
