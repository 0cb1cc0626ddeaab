(** C54, part 6: state vectors of pure states and photon-number probabilities. *)
From mathcomp Require Import all_ssreflect all_algebra algC zify.
From Verif Require Import Prelude PyBase ArrLoop SpecHaf ThHaf MHafnian PropPowerHaf PropHafnian MHermite PropHermite PropHermite2 SpecSymp MSymplectic
  PropSymplectic PropSymp2 PropGates PropChannels PropConversions SpecGauss MMeans PropMeans SpecTor PropTor5 PropThr4 PropThr5 SpecFock MFock PropFock PropFock2 PropFock3 PropFock4 PropFock5.
Set Implicit Arguments.
Unset Strict Implicit.
Unset Printing Implicit Defensive.
Import Order.Theory GRing.Theory Num.Theory.
Local Open Scope ring_scope.

Section Tol.
Variable C : numClosedFieldType.
Notation mat := (nat -> nat -> C).
Notation vec := (nat -> C).
Definition disp_ok_pure (N : nat) (mu : vec) (hbar tol : C) : Prop :=
  np_norm N (complex_to_real_displacements N mu hbar) < tol -> forall a, (a < 2 * N)%N -> mu a = 0.
Definition quad_ok_pure (N : nat) (cov : mat) (hbar : C) : Prop :=
  forall t u, (t < N)%N -> (u < N)%N -> tiny_or_zero (rho_quad N cov hbar t u).
Definition ric_ok_pure (N : nat) (mu : vec) (cov : mat) (hbar : C) : Prop :=
  ric_exact2 N (rho_quad N cov hbar) /\ ric_exact1 N (psi_lin N mu cov hbar).
End Tol.

Section Fock.
Variable C : numClosedFieldType.
Notation mat := (nat -> nat -> C).
Notation vec := (nat -> C).
Variable sched : nat -> seq nat.
Variable oracle : nat -> (nat -> nat -> C) -> nat -> C.
Hypothesis sched_ok : forall n, perm_eq (sched n) (iota 0 n).
Variable oob : nat -> C.
Variable trunc : C -> C.
Variable exp : C -> C.
Variable eigvalsh : nat -> mat -> seq C.
Hypothesis e_ok : cexp_ok exp.

Section State.
Variables (N : nat) (mu : vec) (cov : mat) (hbar : C).
Hypothesis N0 : (0 < N)%N.
Hypothesis rs : real_sym (2 * N) cov.
Hypothesis rmu : forall a, (a < 2 * N)%N -> mu a \is Num.real.
Hypothesis h0 : 0 < hbar.
Hypothesis ps : possemi (2 * N) cov.
Notation Q := (Qmat N cov hbar).
Notation beta := (complex_to_real_displacements N mu hbar).
Notation AQ := (AQ N cov hbar).
Notation Rq := (rho_quad N cov hbar).
Notation psi := (fock_psi exp N mu cov hbar).
Notation psa := (pure_state_amplitude sched oracle exp eigvalsh N mu cov).
Notation sv := (state_vector sched oracle oob trunc exp eigvalsh N mu cov).
Notation pure_check := (is_pure_cov eigvalsh (2 * N) (2 * N) cov hbar (rtol0 C) (atol0 C)).

Lemma npnorm2 n (v : vec) : np_norm n v ^+ 2 = \sum_(t < n) `|v t| ^+ 2.
Proof. by rewrite /np_norm sqrtCK sum_iota. Qed.
Lemma prod_facE k : prod_fac C k = (fact_prod k)%:R.
Proof. by rewrite /prod_fac /fact_prod natr_prod. Qed.
Lemma half_lt t : (t < N)%N -> (t < 2 * N)%N. Proof. by lia. Qed.
Lemma psi_linB t : (t < N)%N -> beta t - mvmul N (fun s t => (AQ s t)^*) (fun u => (beta u)^*) t = psi_lin N mu cov hbar t.
Proof.
move=> ht; rewrite /psi_lin displE // /mvmul sum_iota; congr (_ - _); apply: eq_bigr => u _.
by rewrite displE // rho_quad_conj ?half_lt.
Qed.
Lemma psi_vacB : exp (- 2%:R^-1 * (np_norm N beta ^+ 2
     - vdot N (fun t => \sum_(s <- iota 0 N) (beta s)^* * (AQ s t)^*) (fun t => (beta t)^*))) = psi_vac exp N mu cov hbar.
Proof.
rewrite /psi_vac npnorm2; congr (exp (_ * (_ - _))); first by apply: eq_bigr => t _; rewrite displE.
rewrite /vdot sum_iota exchange_big /=; apply: eq_bigr => t _; rewrite sum_iota mulr_suml; apply: eq_bigr => s _.
by rewrite !displE // rho_quad_conj ?half_lt.
Qed.

(** C54 (pure-state amplitudes) *)
Theorem pure_state_amplitude_correct k tol (check : bool) :
  quad_ok_pure N cov hbar -> disp_ok_pure N mu hbar tol -> size k = N -> (check -> pure_check) ->
  psa k true tol hbar check = Ok (psi k) /\
  psa k false tol hbar check =
    Ok (lhaf_rep_spec k Rq (psi_lin N mu cov hbar) / sqrtC ((fact_prod k)%:R * sqrtC `|\det (anti_cov N cov hbar)|)).
Proof.
move=> qo dok sk ck; rewrite /pure_state_amplitude.
have -> : check && ~~ pure_check = false by case: check ck => //= ->.
rewrite Amat_ok // /bind rpt_hafnian_correct //; last first.
- move=> /dok z t ht; rewrite psi_linB // /psi_lin displE // mu0_beta ?half_lt // sub0r big1 ?oppr0 // => u _.
  by rewrite displE // mu0_beta ?half_lt // conjC0 mulr0.
- by move=> t u ht hu; rewrite -rho_quad_conj ?half_lt //; exact: qo.
- by move=> t u ht hu; rewrite (AQ_sym rs h0 ps) // half_lt.
rewrite psi_vacB prod_facE -norm_absdet //.
have -> : lhaf_rep_spec k (fun s t => (AQ s t)^*) (fun t => beta t - mvmul N (fun s t => (AQ s t)^*) (fun u => (beta u)^*) t)
    = lhaf_rep_spec k Rq (psi_lin N mu cov hbar).
  apply: lhaf_rep_spec_ext => [t u|t]; rewrite sk => ht; last by rewrite psi_linB.
  by move=> hu; rewrite rho_quad_conj ?half_lt.
by split=> //; rewrite /fock_psi [_ * psi_vac _ _ _ _ _]mulrC.
Qed.
Theorem pure_state_amplitude_impure k incl tol : ~~ pure_check -> psa k incl tol hbar true = Err ValueError.
Proof. by rewrite /pure_state_amplitude => ->. Qed.
Theorem state_vector_impure post norm cutoff : ~~ pure_check -> sv post norm cutoff hbar true = Err ValueError.
Proof. by rewrite /state_vector => ->. Qed.

Lemma pref_conj : exp (- 2%:R^-1 * (np_norm N beta ^+ 2 - vdot N (fun t => \sum_(s <- iota 0 N) beta s * AQ s t) beta))^*
  = psi_vac exp N mu cov hbar.
Proof.
rewrite -psi_vacB rmorphM /= rmorphN fmorphV /= conjC_nat rmorphB /= npnorm2; congr (exp (_ * (_ - _))).
  by apply/CrealP; apply: rpred_sum => t _; rewrite rpredX // normr_real.
rewrite /vdot !sum_iota rmorph_sum /=; apply: eq_bigr => t _; rewrite rmorphM /= !sum_iota rmorph_sum /=; congr (_ * _).
by apply: eq_bigr => s _; rewrite rmorphM.
Qed.

(** norm of a truncated vector *)
Definition vec_norm (M cutoff : nat) (f : seq nat -> C) : C := sqrtC (\sum_(k <- ndindex (nseq M cutoff)) `|f k| ^+ 2).
Lemma norm_t M cutoff (t : tensor C) (f : seq nat -> C) : tshape t = nseq M cutoff ->
  (forall k, size k = M -> all (fun x => x < cutoff)%N k -> tent t k = f k) ->
  sqrtC (\sum_(k <- ndindex (tshape t)) `|tent t k| ^+ 2) = vec_norm M cutoff f.
Proof.
move=> st tE; rewrite /vec_norm st; congr sqrtC; apply: eq_big_seq => k.
by rewrite mem_ndindex below_nseq => /andP[/eqP sk ak]; rewrite tE.
Qed.

Lemma sv_finish M cutoff (normalize : bool) (t : tensor C) f : tshape t = nseq M cutoff ->
  (forall k, size k = M -> all (fun x => x < cutoff)%N k -> tent t k = f k) ->
  let r := if normalize then Tensor (tshape t) (fun k => tent t k / sqrtC (\sum_(k <- ndindex (tshape t)) `|tent t k| ^+ 2)) else t in
  tshape r = nseq M cutoff /\ forall k, size k = M -> all (fun x => x < cutoff)%N k ->
    tent r k = f k / (if normalize then vec_norm M cutoff f else 1).
Proof.
move=> st tE; case: normalize => /=; split=> // k sk ak; last by rewrite divr1 tE.
by rewrite tE // (norm_t st tE).
Qed.

(** C54 (state vector, no post-selection) *)
Theorem state_vector_correct (normalize : bool) cutoff (check : bool) :
  (0 < cutoff <= 1000)%N -> ric_ok_pure N mu cov hbar -> (check -> pure_check) ->
  exists t : tensor C, [/\ sv None normalize cutoff hbar check = Ok t, tshape t = nseq N cutoff &
    forall k, size k = N -> all (fun x => x < cutoff)%N k -> tent t k = psi k / (if normalize then vec_norm N cutoff psi else 1)].
Proof.
case/andP=> c0 c1 [rq rl] ck; rewrite /state_vector.
have -> : check && ~~ pure_check = false by case: check ck => //= ->.
rewrite Amat_ok // /bind pref_conj.
set B : mat := fun i j => (AQ i j)^*; set y : vec := fun t => _^*.
have BE i j : (i < N)%N -> (j < N)%N -> B i j = Rq i j by move=> hi hj; rewrite rho_quad_conj ?half_lt.
have yE t : (t < N)%N -> y t = psi_lin N mu cov hbar t.
  move=> ht; rewrite -psi_linB // /y rmorphB /= conjCK /mvmul !sum_iota rmorph_sum /=; congr (_ - _).
  by apply: eq_bigr => u _; rewrite rmorphM.
have sB i j : (i < N)%N -> (j < N)%N -> B i j = B j i by move=> hi hj; rewrite /B AQ_sym ?half_lt.
have ricB : ric_exact2 N B by apply: ric_ext2 rq => i j hi hj; rewrite BE.
have ricy : ric_exact1 N y by apply: ric_ext1 rl => i hi; rewrite yE.
have scs : size (cutoffs_of N (CInt cutoff)) = N by rewrite size_nseq.
have acs : all (fun v => 0 < v)%N (cutoffs_of N (CInt cutoff)) by rewrite /= all_nseq c0 orbT.
have acs' : all (fun v => v <= 1000)%N (cutoffs_of N (CInt cutoff)) by rewrite /= all_nseq c1 orbT.
have [t [ts -> tE _]] := hafnian_batched_correct oob trunc (renorm := true) (it := cplx_types) (rtol_ge0 C) (atol_ge0 C) sB scs acs (fun _ => acs') (fun _ => isT) ricB ricy.
eexists; split; first by reflexivity.
  by case: normalize => /=; rewrite ts.
match goal with |- context [Tensor (tshape t) ?f] => set t1 := Tensor (tshape t) f end.
have t1E k : size k = N -> all (fun x => x < cutoff)%N k -> tent t1 k = psi k.
  move=> sk ak; rewrite /t1 /= tE; last by rewrite below_nseq sk eqxx.
  rewrite /norm_of -norm_absdet // (Creal_ReP _ _) ?normr_real // /fock_psi.
  have -> : \prod_(v <- k) sqrtC (v`!)%:R = sqrtC (fact_prod k)%:R :> C.
    rewrite /fact_prod; elim: (k) => [|v s IH]; first by rewrite !big_nil sqrtC1.
    by rewrite !big_cons IH natrM sqrtCM // qualifE /= ler0n.
  rewrite sqrtCM ?qualifE /= ?ler0n // ?sqrtC_ge0 ?normr_ge0 // invfM.
  have -> : lhaf_rep_spec k B y = lhaf_rep_spec k Rq (psi_lin N mu cov hbar).
    by apply: lhaf_rep_spec_ext => [i j|i]; rewrite sk => hi; [move=> hj; rewrite BE | rewrite yE].
  rewrite !mulrA; congr (_ * _ * _).
by have [_ h] := @sv_finish N cutoff normalize t1 psi (esym (esym ts)) t1E.
Qed.

(** post-selection *)
Variable sel : seq (nat * nat).
Hypothesis us : uniq (map fst sel).
Hypothesis ls : all (fun m => m < N)%N (map fst sel).
Let M := (N - size sel)%N.
Let sel_le : (size sel <= N)%N.
Proof.
rewrite -(size_map fst) -(size_iota 0 N); apply: uniq_leq_size => // x xs.
by rewrite mem_iota (allP ls _ xs).
Qed.
Definition post_psi (k : seq nat) : C := psi (fill (iota 0 N) sel k).
Theorem state_vector_post_select (normalize : bool) cutoff (check : bool) :
  quad_ok_pure N cov hbar -> disp_ok_pure N mu hbar (tol10 C) -> (check -> pure_check) ->
  exists t : tensor C, [/\ sv (Some sel) normalize cutoff hbar check = Ok t, tshape t = nseq M cutoff &
    forall k, size k = M -> all (fun x => x < cutoff)%N k -> tent t k = post_psi k / (if normalize then vec_norm M cutoff post_psi else 1)].
Proof.
move=> qo dok ck; rewrite /state_vector.
have -> : check && ~~ pure_check = false by case: check ck => //= ->.
rewrite Amat_ok // {1}/bind pref_conj ltnNge sel_le /= -/M itproductE.
pose val k := lhaf_rep_spec (fill (iota 0 N) sel k) Rq (psi_lin N mu cov hbar)
   / sqrtC ((fact_prod (fill (iota 0 N) sel k))%:R * sqrtC `|\det (anti_cov N cov hbar)|).
pose calc idx := bind (fill_modes (iota 0 N) sel idx) (fun el => psa el false (tol10 C) hbar false).
have uM : unsel sel (iota 0 N) = M by exact: unsel_iota.
match goal with |- context [foldM ?b _ _] => pose body := b end.
have := @foldM_upd _ _ (fun k => k) calc val body (ndindex (nseq M cutoff)) (fun=> 0).
move=> /(_ _ _ _) []; rewrite -/body.
- by move=> G x _; rewrite /body /calc; case: (fill_modes (iota 0 N) sel x).
- move=> idx; rewrite mem_ndindex below_nseq => /andP[/eqP si _]; rewrite /calc.
  rewrite fill_modes_ok ?uM ?si // /bind.
  by rewrite (proj2 (pure_state_amplitude_correct _ _ _ _)) // size_fill size_iota.
- by rewrite map_id ndindex_uniq.
- move=> G [-> [hG _]]; rewrite /bind.
  pose t := Tensor (nseq M cutoff) (fun k => G k * psi_vac exp N mu cov hbar).
  have tE k : size k = M -> all (fun x => x < cutoff)%N k -> tent t k = post_psi k.
    move=> sk ak; rewrite /= hG; last by rewrite mem_ndindex below_nseq sk eqxx.
    by rewrite /val /post_psi /fock_psi mulrAC [_ * psi_vac _ _ _ _ _]mulrC.
  have [h1 h2] := @sv_finish M cutoff normalize t post_psi (erefl _) tE.
  by eexists; split; first by reflexivity.
Qed.
End State.

Section Prob.
Variables (N : nat) (mu : vec) (cov : mat) (hbar : C).
Hypothesis N0 : (0 < N)%N.
Hypothesis rs : real_sym (2 * N) cov.
Hypothesis rmu : forall a, (a < 2 * N)%N -> mu a \is Num.real.
Hypothesis h0 : 0 < hbar.
Hypothesis ps : possemi (2 * N) cov.
Notation rho := (fock_rho exp N mu cov hbar).
Notation probs := (probabilities sched oracle oob trunc exp eigvalsh N mu cov).
Definition max0 (x : C) : C := if 0 <= x then x else 0.

Lemma maximum0_real (x : C) : x \is Num.real -> maximum0 x = max0 x.
Proof.
move=> rx; rewrite /maximum0 /max0 (Creal_ReP _ rx) (Creal_ImP _ rx) ltxx andbF orbF.
by have := real_leP (rpred0 _) rx; case=> // h; rewrite ?(lt_gtF h) ?h // ltNge h.
Qed.
Lemma ric_real (x : C) : x \is Num.real -> real_if_close x = x.
Proof. by move=> rx; rewrite /real_if_close (Creal_ReP _ rx); case: ifP. Qed.

(** C54 (probabilities) *)
Theorem probabilities_correct cutoff (parallel : bool) rtol atol :
  (0 < cutoff <= 1000)%N -> quad_ok N cov hbar -> disp_ok N mu hbar (tol10 C) -> ric_ok_pure N mu cov hbar ->
  (is_pure_cov eigvalsh (2 * N) (2 * N) cov hbar rtol atol -> pure_cov N cov hbar) ->
  exists t : tensor C, [/\ probs cutoff parallel hbar rtol atol = Ok t, tshape t = nseq N cutoff &
    forall k, size k = N -> all (fun x => x < cutoff)%N k -> tent t k = max0 (rho k k)].
Proof.
move=> c01 qo dok rok pok; rewrite /probabilities; case: ifP => [/pok pure|_].
  have [t [-> st tE]] := @state_vector_correct N mu cov hbar N0 rs rmu h0 ps false cutoff false c01 rok (fun h => ltac:(done)).
  rewrite /bind; eexists; split; first by reflexivity.
    by rewrite /= st.
  move=> k sk ak; rewrite /= tE // divr1 fock_rho_pure // -normCK /max0.
  by rewrite exprn_ge0 ?normr_ge0.
have el k : size k = N -> density_matrix_element sched oracle exp N mu cov k k true (tol10 C) hbar = Ok (rho k k).
  by move=> sk; rewrite (proj1 (density_matrix_element_correct _ _ _ _ _ _ _ _ _ _ _ _)).
have rr k : size k = N -> rho k k \is Num.real by move=> sk; apply: fock_rho_real => //; exact: cexp_exp_ok.
have inL k : k \in ndindex (nseq N cutoff) -> size k = N by rewrite mem_ndindex below_nseq => /andP[/eqP].
rewrite itproductE; case: parallel.
  have -> : forall L, {subset L <= ndindex (nseq N cutoff)} -> forall l0, foldM (fun l i => bind (density_matrix_element sched oracle exp N mu cov i i true (tol10 C) hbar) (fun x => Ok (rcons l x)))
     l0 L = Ok (l0 ++ [seq rho k k | k <- L]).
  - elim=> [|k L IH] sub l0; first by rewrite cats0.
    rewrite /= el; last by apply/inL/sub/mem_head.
    by rewrite /bind IH ?cat_rcons // => x xL; apply: sub; rewrite inE xL orbT.
  - rewrite /bind /=.
    have re : [seq 'Re x | x <- [seq rho k k | k <- ndindex (nseq N cutoff)]] = [seq rho k k | k <- ndindex (nseq N cutoff)].
      rewrite -map_comp; apply/eq_in_map => k /inL sk /=; exact: (Creal_ReP _ (rr k sk)).
    have -> (b : bool) : (if b then [seq 'Re x | x <- [seq rho k k | k <- ndindex (nseq N cutoff)]] else [seq rho k k | k <- ndindex (nseq N cutoff)]) = [seq rho k k | k <- ndindex (nseq N cutoff)].
      by case: b.
    eexists; split; [by reflexivity | by [] |] => k sk ak /=.
    have kL : k \in ndindex (nseq N cutoff) by rewrite mem_ndindex below_nseq sk eqxx.
    rewrite (nth_map 0) ?size_map ?index_mem // (nth_map [::]) ?index_mem // nth_index //.
    by rewrite maximum0_real // rr.
  by [].
match goal with |- context [foldM ?b _ _] => pose body := b end.
have := @foldM_upd _ _ (fun k => k) (fun k => Ok (max0 (rho k k))) (fun k => max0 (rho k k)) body (ndindex (nseq N cutoff)) (fun=> 0).
move=> /(_ _ _ _) []; rewrite -/body.
- move=> G k /inL sk; rewrite /body el // /bind ric_real ?rr //; by rewrite maximum0_real // rr.
- by [].
- by rewrite map_id ndindex_uniq.
- move=> G [-> [hG _]]; rewrite /bind; eexists; split; [by reflexivity | by [] |] => k sk ak /=.
  by rewrite hG // mem_ndindex below_nseq sk eqxx.
Qed.
End Prob.
End Fock.
