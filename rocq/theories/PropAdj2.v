(** C62: the covariance matrix of the state encoding a symmetric matrix, its uncertainty relation and its photon number. *)
From mathcomp Require Import all_ssreflect all_algebra zify.
From Verif Require Import Prelude PyBase ArrLoop MHafnian MHermite MSymplectic MDecomp SpecHaf SpecSymp SpecTor SpecDecomp SpecGauss PropTor PropTor5 PropThr3 PropThr5 PropSpectral PropChannels PropConversions PropSymplectic PropSymp2 PropDecomp PropDecomp2 PropDecomp6 PropChecks PropPure PropMeans2 MClicks MAdj SpecAdj PropAdj.
Set Implicit Arguments.
Unset Strict Implicit.
Unset Printing Implicit Defensive.
Import Order.TTheory GRing.Theory Num.Theory.
Local Open Scope ring_scope.

Section Form.
Variable C : numClosedFieldType.
Notation mat := (nat -> nat -> C).
Notation vec := (nat -> C).
Variables (N : nat) (cov : mat) (hbar : C).
Hypothesis rs : real_sym (2 * N) cov.
Hypothesis h0 : 0 < hbar.
Let rh : hbar \is Num.real. Proof. exact: gtr0_real. Qed.
Definition wvec (v : vec) : vec := fun i => if (i < N)%N then v i + v (N + i)%N else 'i * (v (i - N)%N - v i).
Lemma wl v i : (i < N)%N -> wvec v i = v i + v (N + i)%N. Proof. by rewrite /wvec => ->. Qed.
Lemma wr v i : wvec v (N + i)%N = 'i * (v i - v (N + i)%N). Proof. by rewrite /wvec ltnNge leq_addr /= addKn. Qed.
Lemma Qform (v : vec) : \sum_(i < 2 * N) \sum_(j < 2 * N) (v i)^* * Qmat N cov hbar i j * v j =
  (\sum_(i < 2 * N) \sum_(j < 2 * N) (wvec v i)^* * cov i j * wvec v j) / (2%:R * hbar) + (\sum_(i < 2 * N) (v i)^* * v i) / 2%:R.
Proof.
set w := wvec v.
rewrite (sum_halves2 N (fun i j => (v i)^* * Qmat N cov hbar i j * v j)) (sum_halves2 N (fun i j => (w i)^* * cov i j * w j)) (sum_halves N (fun i => (v i)^* * v i)) !mulr_suml -big_split /=; apply: eq_bigr => i _.
have -> : ((v i)^* * v i + (v (N + i)%N)^* * v (N + i)%N) / 2%:R = \sum_(j < N) (nat_of_ord i == j)%:R * ((v i)^* * v j + (v (N + i)%N)^* * v (N + j)%N) / 2%:R.
  rewrite (bigD1 i) //= eqxx mul1r big1 ?addr0 // => j ji.
  by rewrite [(_ == _)%N](_ : _ = false) ?mul0r //; apply/negbTE; rewrite eq_sym.
rewrite mulr_suml -big_split /=; apply: eq_bigr => j _.
have hi := ltn_ord i; have hj := ltn_ord j.
have [_ -> -> -> ->] := Qmat_parts rs rh hi hj.
rewrite scal -?expr2 ?sqrCi // /w !wr !wl // !rmorphM !rmorphB rmorphD /= conjCi.
have s1 : cov j (N + i)%N = cov (N + i)%N j by apply: (proj2 (rs _ _)); lia.
rewrite s1; have hn : hbar != 0 by rewrite gt_eqF.
have t0 : 1 + 1 != 0 :> C := two0 C.
congr (_ + _); ffield; rewrite ?mulf_neq0 ?t0 ?hn //.
Qed.
Lemma omE i j : (i < N)%N -> (j < N)%N ->
  [/\ Omega C N i j = 0, Omega C N i (N + j)%N = (i == j)%:R, Omega C N (N + i)%N j = - (i == j)%:R & Omega C N (N + i)%N (N + j)%N = 0].
Proof.
move=> hi hj; rewrite /Omega !eqn_add2l; split.
- have -> : (j == N + i)%N = false by lia. have -> : (i == N + j)%N = false by lia. by rewrite subrr.
- have -> : (i == N + (N + j))%N = false by lia. by rewrite subr0 eq_sym.
- have -> : (j == N + (N + i))%N = false by lia. by rewrite sub0r.
have -> : (j == N + i)%N = false by lia. have -> : (i == N + j)%N = false by lia. by rewrite subrr.
Qed.
(** the uncertainty relation in terms of Q *)
Lemma unc_Q : (forall v : vec, 0 <= \sum_(i < 2 * N) \sum_(j < 2 * N) (v i)^* * Qmat N cov hbar i j * v j - \sum_(i < N) (v i)^* * v i) ->
  possemi (2 * N) (uncertainty N cov hbar).
Proof.
move=> h u; pose v : vec := fun i => if (i < N)%N then (u i - 'i * u (N + i)%N) / 2%:R else (u (i - N)%N + 'i * u i) / 2%:R.
have i2 : 'i * 'i = -1 :> C by rewrite -expr2 sqrCi.
have vl i : (i < N)%N -> v i = (u i - 'i * u (N + i)%N) / 2%:R by rewrite /v => ->.
have vr i : v (N + i)%N = (u i + 'i * u (N + i)%N) / 2%:R by rewrite /v ltnNge leq_addr /= addKn.
have t0 : 1 + 1 != 0 :> C := two0 C.
have uw i : (i < 2 * N)%N -> wvec v i = u i.
  move=> hi; case: (ltnP i N) => li; first by rewrite wl // vl // vr; ffield.
  have ei : i = (N + (i - N))%N by lia.
  have l2 : (i - N < N)%N by lia.
  rewrite ei wr vl // vr; transitivity (- ('i * 'i) * u (N + (i - N))%N); last by rewrite i2; rring.
  by move: ('i : C) => I; ffield.
have {h} := h v; rewrite Qform.
have -> : \sum_(i < 2 * N) \sum_(j < 2 * N) (wvec v i)^* * cov i j * wvec v j = \sum_(i < 2 * N) \sum_(j < 2 * N) (u i)^* * cov i j * u j.
  by apply: eq_bigr => i _; apply: eq_bigr => j _; rewrite !uw.
rewrite (sum_halves N (fun i => (v i)^* * v i)) => h.
have hh : 0 <= 2%:R * hbar by rewrite mulr_ge0 ?ler0n ?ltW.
have {h} := mulr_ge0 hh h; congr (0 <= _).
rewrite mulrBr mulrDr mulrCA mulfV ?mulr1; last by rewrite mulf_neq0 ?gt_eqF ?two0 // ltr0n.
have -> : \sum_(i < 2 * N) \sum_(j < 2 * N) (u i)^* * uncertainty N cov hbar i j * u j =
   \sum_(i < 2 * N) \sum_(j < 2 * N) (u i)^* * cov i j * u j + 'i * (hbar / 2%:R) * \sum_(i < 2 * N) \sum_(j < 2 * N) (u i)^* * Omega C N i j * u j.
  rewrite mulr_sumr -big_split; apply: eq_bigr => i _; rewrite mulr_sumr -big_split; apply: eq_bigr => j _; rewrite /uncertainty /=.
  by rring.
rewrite -addrA; congr (_ + _).
rewrite (sum_halves2 N (fun i j => (u i)^* * Omega C N i j * u j)).
have -> : \sum_(i < N) \sum_(j < N) ((u i)^* * Omega C N i j * u j + (u i)^* * Omega C N i (N + j)%N * u (N + j)%N
   + (u (N + i)%N)^* * Omega C N (N + i)%N j * u j + (u (N + i)%N)^* * Omega C N (N + i)%N (N + j)%N * u (N + j)%N) = 
   \sum_(i < N) ((u i)^* * u (N + i)%N - (u (N + i)%N)^* * u i).
  apply: eq_bigr => i _; rewrite (bigD1 i) //= big1 => [|j ji].
    by have [-> -> -> ->] := omE (ltn_ord i) (ltn_ord i); rewrite eqxx /=; rring.
  have [-> -> -> ->] := omE (ltn_ord i) (ltn_ord j); have -> : (nat_of_ord i == j)%N = false by apply/negbTE; rewrite eq_sym.
  by rewrite /= mulr0n; rring.
rewrite !mulr_sumr !mulr_suml !mulr_sumr -sumrB; apply: eq_bigr => i _; rewrite vl // vr.
rewrite !rmorphM !rmorphD rmorphN !rmorphM /= conjCi fmorphV conjC_nat.
move: (u i) (u (N + i)%N) (u i)^* ((u (N + i)%N)^*) => a b a' b'.
have hn : hbar != 0 by rewrite gt_eqF.
by move: ('i : C) => I; ffield; rewrite ?t0.
Qed.
(** and so is cov itself *)
Lemma cov_Q : (forall v : vec, 0 <= \sum_(i < 2 * N) \sum_(j < 2 * N) (v i)^* * Qmat N cov hbar i j * v j - \sum_(i < N) (v i)^* * v i) ->
  possemi (2 * N) cov.
Proof.
move=> h; case: (unc_PS rs h0 (unc_Q h)) => _ _ p; apply/possemi_PS => v; have := p v; set S := mxof _ _ _.
have -> : S = (2%:R / hbar) *: mxof (2 * N) (2 * N) cov by apply/matrixP => i j; rewrite !mxE mulrAC.
by rewrite -scalemxAr -scalemxAl mxE pmulr_rge0 // divr_gt0 ?ltr0n.
Qed.
End Form.

Section Adj.
Lemma tr_entries (K : numClosedFieldType) n (M : 'M[K]_(n + n)) : M^T = block_mx (drsubmx M) (dlsubmx M) (ursubmx M) (ulsubmx M) ->
  (forall i j : 'I_n, M (lshift n j) (rshift n i) = M (lshift n i) (rshift n j)) /\
  (forall i j : 'I_n, M (rshift n i) (rshift n j) = M (lshift n j) (lshift n i)).
Proof.
move=> /matrixP h; split=> i j.
  by have := h (rshift n i) (lshift n j); rewrite block_mxEdl !mxE.
by have := h (rshift n j) (rshift n i); rewrite block_mxEdr !mxE.
Qed.
Variable C : numClosedFieldType.
Notation mat := (nat -> nat -> C).
Notation vec := (nat -> C).
Notation mxo n A := (mxof n n A).
Variable svd : nat -> mat -> mat * vec * mat.

Section State.
Variables (n : nat) (A : mat) (s : C).
Hypothesis svdP : svd_at svd n A.
Hypothesis sA : symm n A.
Let sg := svdvals svd n A.
Hypothesis s0 : 0 <= s.
Hypothesis s1 : s * sg 0%N < 1.
Let sc : mat := fun i j => s * A i j.
Let U := mxo n (svd n A).1.1.
Let V := mxo n (svd n A).2.
Let B := mxo n sc.
Let d (i : 'I_n) : C := s * sg i.
Let d0 i : 0 <= d i. Proof. by have [_ _ _ h _] := svdP; rewrite mulr_ge0 ?h. Qed.
Let d1 i : d i < 1.
Proof. by have [_ _ _ _ h] := svdP; apply: le_lt_trans s1; rewrite ler_wpmul2l ?h. Qed.
Let uU : ct U *m U = 1%:M. Proof. by have [h _ _ _ _] := svdP; apply/unitary_mx. Qed.
Let uV : ct V *m V = 1%:M. Proof. by have [_ h _ _ _] := svdP; apply/unitary_mx. Qed.
Let BE : B = U *m diag_mx (\row_i d i) *m V.
Proof.
have [_ _ /eqm_mx e _ _] := svdP; rewrite !mx_prod mx_diag in e.
have -> : B = s *: mxo n A by apply/matrixP => i j; rewrite !mxE.
rewrite e scalemxAl scalemxAr; congr (_ *m _ *m _); apply/matrixP => i j; by rewrite !mxE mulrnAr.
Qed.
Let Bs : B^T = B.
Proof. by apply/matrixP => i j; rewrite !mxE /sc (sA (ltn_ord j) (ltn_ord i)). Qed.
Let MMB := MM B.
Let BBc : mxo n (conjm sc) = ct B.
Proof. by apply/matrixP => i j; rewrite !mxE /conjm /sc (sA (ltn_ord i) (ltn_ord j)). Qed.
Lemma one_minus_mx : mxo (n + n) (one_minus_XA n sc) = MMB.
Proof.
have -> : mxo (n + n) (one_minus_XA n sc) = 1%:M - mxo (n + n) (mmul (n + n) (Xmat C n) (npblock n n sc (zerom sc) (zerom sc) (conjm sc))).
  by apply/matrixP => i j; rewrite !mxE /one_minus_XA (twoE n).
rewrite mxof_mmul /Xmat !mx_block BBc.
have -> : mxo n (zerom sc) = 0 by apply/matrixP => i j; rewrite !mxE /zerom mul0r.
have -> : mxo n (eye C) = 1%:M by apply/matrixP => i j; rewrite !mxE.
have -> : mxo n (fun _ _ => 0 : C) = 0 by apply/matrixP => i j; rewrite !mxE.
rewrite mulmx_block !mulmx0 !mul0mx !mul1mx !addr0 !add0r scalar_mx_block opp_block_mx add_block_mx oppr0 addr0 !add0r //.
Qed.
Let R := RR U V d.
Let Q : mat := ofmx R.
Lemma Q_inv : np_inv (2 * n) (one_minus_XA n sc) = Ok Q.
Proof. by rewrite twoE /np_inv one_minus_mx (M_unit uU uV BE d0 d1) (M_inv uU uV BE d0 d1). Qed.
Lemma Q_mx : mxo (n + n) Q = R. Proof. exact: mxof_ofmx. Qed.
Lemma QE (i j : 'I_(n + n)) : Q i j = R i j. Proof. by rewrite -Q_mx mxE. Qed.
Lemma Q_conj i j : (i < n + n)%N -> (j < n + n)%N -> Q i j = (Q j i)^*.
Proof.
move=> hi hj; rewrite (QE (Ordinal hi) (Ordinal hj)) (QE (Ordinal hj) (Ordinal hi)).
by have /matrixP/(_ (Ordinal hi) (Ordinal hj)) := R_ct U V d0 d1; rewrite !mxE.
Qed.
Lemma Q_sw : [/\ forall i j, (i < n)%N -> (j < n)%N -> Q (n + i)%N j = Q (n + j)%N i & forall i j, (i < n)%N -> (j < n)%N -> Q (n + i)%N (n + j)%N = Q j i].
Proof.
have := R_tr uU uV BE d0 d1 Bs; rewrite -/R -[in X in _ = X](submxK R) conjX => /tr_entries[h1 h2].
split=> i j hi hj.
  have := h1 (Ordinal hi) (Ordinal hj); rewrite -!QE /= => e.
  by rewrite Q_conj; [rewrite e -Q_conj //|..]; lia.
by have := h2 (Ordinal hi) (Ordinal hj); rewrite -!QE /=.
Qed.
Lemma Q_husimi : husimi_form n Q.
Proof.
have [h1 h2] := Q_sw; move=> i j hi hj; split.
- by apply: Q_conj; lia.
- exact: h1.
- by rewrite h1 // Q_conj //; lia.
by rewrite h2 // Q_conj //; lia.
Qed.
Lemma Q_form (v : vec) : 0 <= \sum_(i < 2 * n) \sum_(j < 2 * n) (v i)^* * Q i j * v j - \sum_(i < n) (v i)^* * v i.
Proof.
have := @R_form C n U V d uV d0 d1 (\col_(i < n + n) v i); set x := \col_i _; rewrite -/R -Q_mx; congr (0 <= _ - _).
  rewrite twoE mxE exchange_big; apply: eq_bigr => j _; rewrite !mxE mulr_suml; by apply: eq_bigr => i _; rewrite !mxE.
by rewrite mxE; apply: eq_bigr => i _; rewrite !mxE.
Qed.

Section Cov.
Variable hbar : C.
Hypothesis h0 : 0 < hbar.
Let rh : hbar \is Num.real. Proof. exact: gtr0_real. Qed.
Let hn : hbar != 0. Proof. by rewrite gt_eqF. Qed.
Let cov := Covmat n Q hbar.
Lemma cov_sym : real_sym (2 * n) cov. Proof. exact: (Covmat_real_sym Q_husimi rh). Qed.
Lemma Qcov : eqm (2 * n) (Qmat n cov hbar) Q. Proof. exact: (Qmat_Covmat Q_husimi rh hn). Qed.
Lemma Qcov_form (v : vec) : 0 <= \sum_(i < 2 * n) \sum_(j < 2 * n) (v i)^* * Qmat n cov hbar i j * v j - \sum_(i < n) (v i)^* * v i.
Proof.
have := Q_form v; congr (0 <= _ - _); apply: eq_bigr => i _; apply: eq_bigr => j _.
by rewrite (Qcov (ltn_ord i) (ltn_ord j)).
Qed.
Lemma cov_unc : possemi (2 * n) (uncertainty n cov hbar). Proof. exact: (unc_Q cov_sym h0 Qcov_form). Qed.
Lemma cov_ps : possemi (2 * n) cov. Proof. exact: (cov_Q cov_sym h0 Qcov_form). Qed.
Lemma cov_encodes : encodes n sc cov hbar.
Proof.
rewrite /encodes; have qc := Qcov; rewrite twoE in qc *; apply/eqm_mx; rewrite mx_prod mx_idm (proj1 (eqm_mx _ _ _) qc) Q_mx blocksE mx_block mx_idm.
have -> : mxo n (fun i j => - (sc i j)^*) = - ct B by rewrite -BBc; apply/matrixP => i j; rewrite !mxE.
have -> : mxo n (fun i j => - sc i j) = - B by apply/matrixP => i j; rewrite !mxE.
exact: mulmx1C (MR uU uV BE d0 d1).
Qed.
Lemma cov_photons : \sum_(j < n) E_n n (fun _ => 0) cov hbar j = \sum_(i < n) d i ^+ 2 / (1 - d i ^+ 2).
Proof.
transitivity (\sum_(j < n) (Q j j - 1)).
  apply: eq_bigr => j _; have hj := ltn_ord j; rewrite /E_n /E_abs2 !qm2 mul0r !add0r.
  have [e1 _ _ e4] := Covmat_parts Q hbar hj hj; rewrite /cov e1 e4 eqxx /= mulr1n.
  have r : Q j j - 1 \is Num.real by rewrite rpredB ?rpred1 //; apply/CrealP; rewrite -Q_conj //; lia.
  have r2 : 'Re (Q j j - 1) = Q j j - 1 by apply/Creal_ReP.
  rewrite r2; move: (Q j j) ('Re _) => a b.
  have t0 : 1 + 1 != 0 :> C := two0 C.
  by ffield; rewrite ?mulf_neq0 ?t0 ?hn.
rewrite sumrB; have -> : \sum_(j < n) Q j j = \tr (ulsubmx R).
  by rewrite -Q_mx; apply: eq_bigr => i _; rewrite !mxE.
rewrite (R_trace U d uV) -sumrB; apply: eq_bigr => i _.
have e := e0 d0 d1 i; apply: (mulfI e); rewrite mulrBr mulfV // mulr1 mulrCA mulfV // mulr1; rring.
Qed.
End Cov.
End State.
End Adj.
