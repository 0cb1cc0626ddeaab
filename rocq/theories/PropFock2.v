(** C54, part 2: density_matrix_element, density_matrix without post-selection. *)
From mathcomp Require Import all_ssreflect all_algebra algC zify.
From Verif Require Import Prelude PyBase ArrLoop SpecHaf ThHaf MHafnian PropPowerHaf PropHafnian MHermite PropHermite PropHermite2 SpecSymp MSymplectic
  PropSymplectic PropSymp2 PropGates PropChannels PropConversions SpecGauss MMeans PropMeans SpecTor PropTor5 PropThr4 PropThr5 SpecFock MFock PropFock.
Set Implicit Arguments.
Unset Strict Implicit.
Unset Printing Implicit Defensive.
Import Order.Theory GRing.Theory Num.Theory.
Local Open Scope ring_scope.

Lemma nth_rep_lt r i : (i < size (rep_index r))%N -> (nth 0%N (rep_index r) i < size r)%N.
Proof. by move=> h; apply: rep_index_lt; apply: mem_nth. Qed.

Section Rpt.
Variable C : numClosedFieldType.
Variable sched : nat -> seq nat.
Variable oracle : nat -> (nat -> nat -> C) -> nat -> C.
Hypothesis sched_ok : forall n, perm_eq (sched n) (iota 0 n).
Notation mat := (nat -> nat -> C).
Notation vec := (nat -> C).

Lemma rpt_hafnian_correct (small : bool) n (A : mat) (gamma : vec) (rpt : seq nat) :
  size rpt = n -> (0 < n)%N -> sym_upto n A -> (forall i j, (i < n)%N -> (j < n)%N -> tiny_or_zero (A i j)) ->
  (small -> forall i, (i < n)%N -> gamma i = 0) ->
  rpt_hafnian sched oracle small n A gamma rpt = Ok (lhaf_rep_spec rpt A gamma).
Proof.
move=> sr n0 sA tA sm; rewrite /rpt_hafnian sr eqxx; have -> : (n == 0)%N = false by lia.
have zA : allclose (rtol0 C) (atol0 C) (size rpt) (size rpt) A (fun _ _ => 0) -> forall i j, (i < size rpt)%N -> (j < size rpt)%N -> A i j = 0.
  move=> /allP2 h i j hi hj; apply: tA; rewrite -?sr // ; apply: le_trans (_ : atol0 C <= _); first by rewrite -close0 h.
  by rewrite ler_addl mulr_ge0 ?rtol_ge0.
have sA' : sym_upto (size rpt) A by rewrite sr.
set rows := rep_index rpt; set m := size rows.
pose Z i j := A (nth 0%N rows i) (nth 0%N rows j).
have lr i : (i < m)%N -> (nth 0%N rows i < n)%N by move=> hi; rewrite -sr; exact: nth_rep_lt.
have symZ : sym_upto m Z by move=> i j hi hj; rewrite /Z sA ?lr.
have tZ i j : (i < m)%N -> (j < m)%N -> `|Z i j| <= atol0 C + rtol0 C * `|Z i j| -> Z i j = 0.
  by move=> hi hj; apply: tA; exact: lr.
case: small sm => sm; case: ifP => few.
- rewrite /reduction red_rowsE -[PyArr (NdArr _ _ _)]/(PyArr (arr_of m m Z)) hafnian_correct ?rtol_ge0 ?atol_ge0 //.
    congr Ok; rewrite /haf_or_lhaf haf_spec_lhaf /lhaf_rep_spec; apply: eq_lhaf_spec => // i hi.
    by rewrite sm // lr.
  move=> /allP2 h i j hi hj ij; apply: tZ => //.
  by have := h i j hi hj; rewrite /close /diag_part (negPf ij) sub0r normrN.
- have := hafnian_repeated_correct sched_ok None false true (rtol_ge0 C) (atol_ge0 C) sA' zA.
  rewrite sr /rats => ->; congr Ok; rewrite /rep_value haf_rep_lhaf; apply: lhaf_rep_spec_ext => // i hi.
  by rewrite sm // -sr.
- pose Z2 i j := if i == j then gamma (nth 0%N rows i) else Z i j.
  rewrite /reduction /reduction1 !red_rowsE -[PyArr (NdArr _ _ _)]/(PyArr (arr_of m m Z2)).
  have Z2E i j : i != j -> Z2 i j = Z i j by rewrite /Z2 => /negPf ->.
  rewrite hafnian_correct ?rtol_ge0 ?atol_ge0 //.
  - congr Ok; rewrite /haf_or_lhaf /lhaf_rep_spec; apply: eq_lhaf_spec => [i j /andP[ij jn]|i hi].
      by rewrite Z2E ?ltn_eqF.
    by rewrite /Z2 eqxx.
  - by move=> i j hi hj; rewrite /Z2 [j == i]eq_sym; case: eqP => [->|_] //; rewrite symZ.
  - move=> /allP2 h i j hi hj ij; rewrite Z2E //; apply: tZ => //.
    by have := h i j hi hj; rewrite /close /diag_part (negPf ij) sub0r normrN Z2E.
- have := hafnian_repeated_correct sched_ok (Some gamma) true true (rtol_ge0 C) (atol_ge0 C) sA' zA.
  by rewrite sr /rats /omap /= => ->.
Qed.
End Rpt.

(** numbers below the tolerances of the np.allclose and np.real_if_close shortcuts vanish; displacements are zero or
    not negligible *)
Section Tol.
Variable C : numClosedFieldType.
Notation mat := (nat -> nat -> C).
Notation vec := (nat -> C).
Definition quad_ok (N : nat) (cov : mat) (hbar : C) : Prop :=
  forall t u, (t < 2 * N)%N -> (u < 2 * N)%N -> tiny_or_zero (rho_quad N cov hbar t u).
Definition disp_ok (N : nat) (mu : vec) (hbar tol : C) : Prop :=
  np_norm (2 * N) (complex_to_real_displacements N mu hbar) < tol -> forall a, (a < 2 * N)%N -> mu a = 0.
Definition means_ok (N : nat) (mu : vec) : Prop :=
  (forall a, (a < 2 * N)%N -> `|mu a| <= atol0 C) -> forall a, (a < 2 * N)%N -> mu a = 0.
Definition ric_ok (N : nat) (mu : vec) (cov : mat) (hbar : C) : Prop :=
  ric_exact2 (2 * N) (rho_quad N cov hbar) /\ ric_exact1 (2 * N) (rho_lin N mu cov hbar).
End Tol.

Section Fock.
Variable C : numClosedFieldType.
Notation mat := (nat -> nat -> C).
Notation vec := (nat -> C).
Variable sched : nat -> seq nat.
Variable oracle : nat -> (nat -> nat -> C) -> nat -> C.
Hypothesis sched_ok : forall n, perm_eq (sched n) (iota 0 n).
Variable oob : nat -> C.
Variable trunc : C -> C.
Variable exp : C -> C.

Section State.
Variables (N : nat) (mu : vec) (cov : mat) (hbar : C).
Hypothesis N0 : (0 < N)%N.
Hypothesis rs : real_sym (2 * N) cov.
Hypothesis rmu : forall a, (a < 2 * N)%N -> mu a \is Num.real.
Hypothesis h0 : 0 < hbar.
Hypothesis ps : possemi (2 * N) cov.
Notation Q := (Qmat N cov hbar).
Notation beta := (complex_to_real_displacements N mu hbar).
Notation AQ := (AQ N cov hbar).
Notation gammaQ := (gammaQ N mu cov hbar).

Lemma mu0_beta : (forall a, (a < 2 * N)%N -> mu a = 0) -> forall t, (t < 2 * N)%N -> beta t = 0.
Proof.
move=> z t ht; rewrite /complex_to_real_displacements; case: (ltnP t N) => h.
  by rewrite !z; try lia; rewrite mulr0 addr0 mul0r.
by rewrite !z; try lia; rewrite mulr0 addr0 mul0r conjC0.
Qed.
Lemma mu0_gamma : (forall a, (a < 2 * N)%N -> mu a = 0) -> forall t, (t < 2 * N)%N -> gammaQ t = 0.
Proof.
move=> z t ht; rewrite /PropFock.gammaQ (mu0_beta z ht) conjC0 /mvmul sum_iota big1 ?subr0 // => u _.
by rewrite (mu0_beta z) ?mulr0.
Qed.
Lemma mu0_lin : (forall a, (a < 2 * N)%N -> mu a = 0) -> forall t, (t < 2 * N)%N -> rho_lin N mu cov hbar t = 0.
Proof. by move=> z t ht; rewrite rho_linE // mu0_gamma // partner_lt. Qed.
Lemma tiny_AQ : quad_ok N cov hbar -> forall t u, (t < 2 * N)%N -> (u < 2 * N)%N -> tiny_or_zero (AQ t u).
Proof.
move=> qo t u ht hu; have := qo t u ht hu; rewrite /tiny_or_zero rho_quad_conj // norm_conjC => h /h /eqP.
by rewrite conjC_eq0 => /eqP.
Qed.

(** C54 (matrix elements): for all photon-number patterns i, j, [density_matrix_element(mu, cov, i, j)] is <j| rho |i>. *)
Theorem density_matrix_element_correct (i j : seq nat) tol :
  quad_ok N cov hbar -> disp_ok N mu hbar tol -> size i = N -> size j = N ->
  density_matrix_element sched oracle exp N mu cov i j true tol hbar = Ok (fock_rho exp N mu cov hbar j i) /\
  density_matrix_element sched oracle exp N mu cov i j false tol hbar =
    Ok (lhaf_rep_spec (j ++ i) (rho_quad N cov hbar) (rho_lin N mu cov hbar) / sqrtC (fact_prod j * fact_prod i)%:R).
Proof.
move=> qo dok si sj; rewrite /density_matrix_element Amat_ok // /bind -!/gammaQ.
have n0 : (0 < 2 * N)%N by lia.
rewrite rpt_hafnian_correct //.
- rewrite prefactorE // lhaf_swap // sqrt_fact; split=> //.
  by rewrite /fock_rho [_ * rho_vac _ _ _ _ _]mulrC.
- by rewrite size_cat si sj; lia.
- by move=> t u ht hu; exact: AQ_sym.
- exact: tiny_AQ.
- by move=> /dok z; exact: mu0_gamma.
Qed.

(** Hermitian and real on the diagonal *)
Hypothesis e_ok : exp_ok exp.
Lemma rho_vac_real : rho_vac exp N mu cov hbar \is Num.real.
Proof.
have [_ _ eR] := e_ok; rewrite /rho_vac; apply: realM; last by rewrite realV ger0_real // sqrtC_ge0 normr_ge0.
apply: eR; apply: realM; first by rewrite realN realV realn.
apply/CrealP; rewrite rmorph_sum /=.
rewrite -[RHS](sum_partner N (fun t => amp_mean N mu hbar t * rho_lin N mu cov hbar t)); apply: eq_bigr => t _.
have ht := ltn_ord t; have hp := partner_lt ht.
rewrite rmorphM /= !amp_mean_beta // partnerK // partner_conj // conjCK; congr (_ * _).
by rewrite !rho_linE // partnerK // gammaQ_conj // conjCK.
Qed.
Theorem fock_rho_hermitian k l : size k = N -> size l = N ->
  fock_rho exp N mu cov hbar l k = (fock_rho exp N mu cov hbar k l)^*.
Proof.
move=> sk sl; have rv := rho_vac_real; have rf : (sqrtC (fact_prod k * fact_prod l)%:R : C) \is Num.real.
  by rewrite ger0_real // sqrtC_ge0 ler0n.
rewrite /fock_rho [(fact_prod l * _)%N]mulnC.
move: (rho_vac _ _ _ _ _) rv (sqrtC _) rf => v rv f rf.
have -> (x : C) : (v * x / f)^* = v * x^* / f by rewrite !rmorphM /= fmorphV /= (CrealP rv) (CrealP rf).
congr (_ * _ / _).
rewrite -(lhaf_swap rs rmu h0 ps) //.
rewrite (lhaf_rep_spec_lhq_any (k ++ l) (rho_quad _ _ _)) (lhq_hom [rmorphism of conjC]) lhaf_rep_spec_lhq_any.
have lt2 x : x \in rep_index (k ++ l) -> (x < 2 * N)%N by move=> /rep_index_lt; rewrite size_cat sk sl; lia.
apply: eq_lhq => [x y /lt2 hx /lt2 hy|x /lt2 hx] /=.
  by rewrite rho_quad_conj // conjCK.
by rewrite rho_linE // gammaQ_conj // conjCK.
Qed.
Lemma fock_rho_real k : size k = N -> fock_rho exp N mu cov hbar k k \is Num.real.
Proof. by move=> sk; apply/CrealP; rewrite -fock_rho_hermitian. Qed.
End State.
End Fock.
