(** C48: n_body_marginals, for states *)
From mathcomp Require Import all_ssreflect all_algebra algC zify.
From Verif Require Import Prelude PyBase ArrLoop SpecHaf ThHaf MHafnian PropPowerHaf PropHafnian MHermite PropHermite PropHermite2 SpecSymp MSymplectic
  PropSymplectic PropSymp2 PropGates PropChannels PropConversions SpecGauss MMeans PropMeans MTor SpecTor PropTor PropTor5 PropThr4 PropThr5 SpecFock MFock PropFock PropFock2 PropFock3 PropFock4 PropFock5 PropFock6 PropFock7 MMarg PropMarg.
Set Implicit Arguments.
Unset Strict Implicit.
Unset Printing Implicit Defensive.
Import Order.Theory GRing.Theory Num.Theory.
Local Open Scope ring_scope.

Section Ext.
Variable C : numClosedFieldType.
Notation mat := (nat -> nat -> C).
Notation vec := (nat -> C).
Variable exp : C -> C.
Lemma possemi_ix n (M : mat) r : possemi n M -> uniq r -> all (fun i => i < n)%N r -> possemi (size r) (ix M r).
Proof.
move=> pd u l v.
pose v' x := if x \in r then v (index x r) else 0.
have := pd v'; set S := (X in 0 <= X -> _) => p; have -> : \sum_(i < size r) \sum_(j < size r) (v i)^* * ix M r i j * v j = S; last exact: p.
rewrite /S; transitivity (\sum_(x < n) (if val x \in r then \sum_(y < n) (if val y \in r then (v' x)^* * M x y * v' y else 0) else 0)).
  rewrite (@sum_sub _ n r (fun x => \sum_(y < n) (if val y \in r then (v' x)^* * M x y * v' y else 0))) //.
  apply: eq_bigr => a _; rewrite (@sum_sub _ n r (fun y => (v' (nth 0%N r a))^* * M (nth 0%N r a) y * v' y)) //.
  by apply: eq_bigr => b _; rewrite /v' !mem_nth // !index_uniq.
apply: eq_bigr => x _; case xr : (val x \in r); last by rewrite big1 // => y _; rewrite /v' xr conjC0 !mul0r.
by apply: eq_bigr => y _; case yr : (val y \in r) => //; rewrite /v' yr mulr0.
Qed.
Lemma possemi_ext n (M M' : mat) : (forall i j, (i < n)%N -> (j < n)%N -> M i j = M' i j) -> possemi n M -> possemi n M'.
Proof.
move=> e p v; have := p v; congr (_ <= _); apply: eq_bigr => i _; apply: eq_bigr => j _; by rewrite e.
Qed.

Section FE.
Variables (N : nat) (mu mu' : vec) (cov cov' : mat) (hbar : C).
Hypothesis em : forall a, (a < 2 * N)%N -> mu a = mu' a.
Hypothesis ec : forall a b, (a < 2 * N)%N -> (b < 2 * N)%N -> cov a b = cov' a b.
Lemma anti_cov_ext : anti_cov N cov hbar = anti_cov N cov' hbar.
Proof.
apply/matrixP => t u; rewrite !mxE /amp_cov_s /amp_cov; congr (_ - _); apply: eq_bigr => a _; apply: eq_bigr => b _.
by rewrite ec.
Qed.
Lemma amp_mean_ext t : amp_mean N mu hbar t = amp_mean N mu' hbar t.
Proof. by apply: eq_bigr => a _; rewrite em. Qed.
Lemma anti_inv_ext t u : anti_inv N cov hbar t u = anti_inv N cov' hbar t u.
Proof. by rewrite /anti_inv anti_cov_ext. Qed.
Lemma rho_quad_ext t u : rho_quad N cov hbar t u = rho_quad N cov' hbar t u.
Proof. by rewrite /rho_quad anti_inv_ext. Qed.
Lemma rho_lin_ext t : rho_lin N mu cov hbar t = rho_lin N mu' cov' hbar t.
Proof. by apply: eq_bigr => u _; rewrite anti_inv_ext amp_mean_ext. Qed.
Lemma fock_rho_ext k l : fock_rho exp N mu cov hbar k l = fock_rho exp N mu' cov' hbar k l.
Proof.
rewrite /fock_rho; congr (_ * _ / _).
  rewrite /rho_vac anti_cov_ext; congr (exp (_ * _) / _); apply: eq_bigr => t _; by rewrite amp_mean_ext rho_lin_ext.
by apply: lhaf_rep_spec_ext => [i j _ _|i _]; [exact: rho_quad_ext | exact: rho_lin_ext].
Qed.
End FE.

(** the state of the listed modes *)
Definition sub_mu N (w : seq nat) (mu : vec) : vec := fun t => mu (nth 0%N (quads N w) t).
Definition sub_cov N (w : seq nat) (cov : mat) : mat := ix cov (quads N w).
Lemma restricts_sub N w mu cov st : restricts N w mu cov st ->
  (forall a, (a < 2 * size w)%N -> sub_mu N w mu a = st.1 a) /\
  (forall a b, (a < 2 * size w)%N -> (b < 2 * size w)%N -> sub_cov N w cov a b = st.2 a b).
Proof.
move=> re.
have dec a : (a < 2 * size w)%N -> exists x a', [/\ (x < 2)%N, (a' < size w)%N, a = (x * size w + a')%N & nth 0%N (quads N w) a = (x * N + nth 0%N w a')%N].
  move=> ha; case: (ltnP a (size w)) => h.
    by exists 0%N, a; split=> //; rewrite /quads nth_cat h.
  exists 1%N, (a - size w)%N; split=> //; try lia.
  rewrite /quads nth_cat ltnNge h /= (nth_map 0%N); lia.
split=> [a /dec[x [a' [hx ha -> e]]]|a b /dec[x [a' [hx ha -> e]]] /dec[y [b' [hy hb -> e']]]].
  by rewrite /sub_mu e (proj1 (re _ _ ha hx)).
by rewrite /sub_cov /ix e e' (proj2 (re _ _ ha hx) _ _ hb hy).
Qed.
Lemma sub_real_sym N w (cov : mat) : real_sym (2 * N) cov -> all (fun m => m < N)%N w -> real_sym (2 * size w) (sub_cov N w cov).
Proof.
move=> rs aw i j; rewrite -(size_quads N w) => hi hj; rewrite /sub_cov /ix; apply: rs.
  by apply: (allP (quads_lt aw)); exact: mem_nth.
by apply: (allP (quads_lt aw)); exact: mem_nth.
Qed.
Lemma sub_possemi N w (cov : mat) : possemi (2 * N) cov -> uniq w -> all (fun m => m < N)%N w -> possemi (2 * size w) (sub_cov N w cov).
Proof.
by move=> ps uw aw; rewrite -(size_quads N w); apply: possemi_ix ps _ _; [exact: quads_uniq | exact: quads_lt].
Qed.
End Ext.

Section Marg.
Variable C : numClosedFieldType.
Notation mat := (nat -> nat -> C).
Notation vec := (nat -> C).
Variable sched : nat -> seq nat.
Variable oracle : nat -> (nat -> nat -> C) -> nat -> C.
Hypothesis sched_ok : forall n, perm_eq (sched n) (iota 0 n).
Variable oob : nat -> C.
Variable trunc : C -> C.
Variable exp : C -> C.
Variable eigvalsh : nat -> mat -> seq C.
Hypothesis e_ok : cexp_ok exp.
Variable set_order : seq nat -> seq nat.
Notation nbm := (n_body_marginals sched oracle oob trunc exp eigvalsh set_order).

(** no entry of the state is mistaken for zero (or for real, or pure) by the tolerances of [probabilities] *)
Definition prob_ok N (mu : vec) (cov : mat) (hbar : C) : Prop :=
  [/\ quad_ok N cov hbar, disp_ok N mu hbar (tol10 C), ric_ok_pure N mu cov hbar &
      is_pure_cov eigvalsh (2 * N) (2 * N) cov hbar (rtol0 C) (atol0 C) -> pure_cov N cov hbar].
(** probability of x_i photons in mode w_i of the reduced state *)
Definition mode_prob N (mu : vec) (cov : mat) (hbar : C) (w x : seq nat) : C :=
  max0 (fock_rho exp (size w) (sub_mu N w mu) (sub_cov N w cov) hbar x x).

Section Top.
Variables (M : nat) (mean : vec) (cov : mat) (cutoff n : nat) (hbar : C).
Hypothesis n1 : (0 < n <= M)%N.
Hypothesis rs : real_sym (2 * M) cov.
Hypothesis rmu : forall a, (a < 2 * M)%N -> mean a \is Num.real.
Hypothesis h0 : 0 < hbar.
Hypothesis ps : possemi (2 * M) cov.
Hypothesis c01 : (0 < cutoff <= 1000)%N.
Hypothesis pok : forall w st, sorted ltn w -> (0 < size w <= n)%N -> all (fun m => m < M)%N w -> restricts M w mean cov st ->
  prob_ok (size w) st.1 st.2 hbar.
Notation set_inc so := (forall ind, size ind = n -> all (fun m => m < M)%N ind -> so ind = sort leq (undup ind)).

Lemma calc_ok w : sorted ltn w -> (0 < size w <= n)%N -> all (fun m => m < M)%N w ->
  exists st p, [/\ reduced_state M mean cov w = Ok st, 
    probabilities sched oracle oob trunc exp eigvalsh (size w) st.1 st.2 cutoff false hbar (rtol0 C) (atol0 C) = Ok p &
    forall k, size k = size w -> all (fun x => x < cutoff)%N k -> tent p k = mode_prob M mean cov hbar w k].
Proof.
move=> sw /andP[w0 wn] aw; have [st est re] := reduced_state_correct mean cov aw.
have [em ec] := restricts_sub re.
have uw : uniq w by exact: (sorted_uniq ltn_trans ltnn).
have rs' : real_sym (2 * size w) st.2.
  by move=> i j hi hj; rewrite -!ec //; exact: (sub_real_sym rs aw).
have rmu' a : (a < 2 * size w)%N -> st.1 a \is Num.real.
  by move=> ha; rewrite -em // /sub_mu rmu //; apply: (allP (quads_lt aw)); rewrite mem_nth // size_quads.
have ps' : possemi (2 * size w) st.2 by apply: possemi_ext (sub_possemi ps uw aw) => i j hi hj; exact: ec.
have w0n : (0 < size w <= n)%N by rewrite w0.
have [q1 q2 q3 q4] := pok sw w0n aw re.
have [p [ep tp pE]] := probabilities_correct oracle sched_ok oob trunc e_ok w0 rs' rmu' h0 ps' false c01 q1 q2 q3 q4.
exists st, p; split=> // k sk ak; rewrite pE // /mode_prob; congr max0; apply/esym.
by apply: fock_rho_ext.
Qed.

(** C48: with sets listed in increasing order, the entry of an increasing list of modes, and of every list whose sorting
    permutation is an involution (in particular every pair), is the joint distribution of these modes *)
Theorem n_body_marginals_correct : set_inc set_order ->
  exists2 r, nbm (2 * M)%N mean (2 * M, 2 * M)%N cov cutoff n hbar = Ok r &
    [/\ forall w x, sorted ltn w -> (0 < size w <= n)%N -> all (fun m => m < M)%N w -> size x = size w -> all (fun y => y < cutoff)%N x ->
          r w x = mode_prob M mean cov hbar w x,
        forall v x, uniq v -> involutive_order v -> (0 < size v <= n)%N -> all (fun m => m < M)%N v -> size x = size v ->
          all (fun y => y < cutoff)%N x -> r v x = mode_prob M mean cov hbar (sort leq v) (assign v x),
        forall v x, uniq v -> (0 < size v <= n)%N -> all (fun m => m < M)%N v -> size x = size v ->
          all (fun y => y < cutoff)%N x -> r v x = mode_prob M mean cov hbar (sort leq v) (transposed v x) &
        forall v x, ~~ uniq v -> r v x = 0].
Proof.
case/andP: (n1) => n0 nM so.
have so' ind : ind \in itproduct M n -> set_order ind = sort leq (undup ind).
  by rewrite itproductE mem_ndindex below_nseq => /andP[/eqP si ai]; exact: so.
have [r -> [h1 h2]] := @n_body_marginals_loop C sched oracle oob trunc exp eigvalsh set_order M mean cov cutoff n hbar so' n0 nM
   (mode_prob M mean cov hbar) calc_ok.
exists r => //; split=> //.
- move=> w x sw hw aw sx ax; have sl : sorted leq w by apply: sub_sorted sw => a b /ltnW.
  rewrite h1 //; last by exact: (sorted_uniq ltn_trans ltnn).
  by rewrite (sorted_sort leq_trans sl) transposed_sorted.
- by move=> v x uv iv hv av sx ax; rewrite h1 // transposed_assign.
Qed.
End Top.

(** raises *)
Theorem n_body_marginals_errors M mean a b cov cutoff n hbar :
  ((a, b) != (M, M) -> nbm M mean (a, b) cov cutoff n hbar = Err ValueError) /\
  (odd M || (M./2 < n)%N -> nbm M mean (M, M) cov cutoff n hbar = Err ValueError).
Proof.
rewrite /n_body_marginals; split; first by rewrite eq_sym => ->.
by rewrite eqxx /=; case: odd => //= ->.
Qed.
End Marg.
