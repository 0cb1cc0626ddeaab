(** C49, C55: the covariance-matrix checks of gaussian_checks.py and find_classical_subsystem. *)
From mathcomp Require Import all_ssreflect all_algebra zify.
From Verif Require Import Prelude PyBase ArrLoop MHafnian PropPowerHaf PropHafnian SpecSymp MSymplectic
  PropSymplectic PropSymp2 PropGates PropChannels PropConversions SpecGauss MMeans MTor SpecTor PropTor PropTor5 PropThr5 SpecFock MFock PropMarg2 MMarg PropSpectral.
Set Implicit Arguments.
Unset Strict Implicit.
Unset Printing Implicit Defensive.
Import Order.Theory GRing.Theory Num.Theory.
Local Open Scope ring_scope.

Section Psd.
Variable C : numClosedFieldType.
Notation mat := (nat -> nat -> C).
Notation vec := (nat -> C).

Lemma qform_ext n (M M' : mat) v : (forall i j, (i < n)%N -> (j < n)%N -> M i j = M' i j) -> qform n M v = qform n M' v.
Proof. by move=> e; apply: eq_bigr => i _; apply: eq_bigr => j _; rewrite e. Qed.
Lemma psd_upto_ext atol n (M M' : mat) : (forall i j, (i < n)%N -> (j < n)%N -> M i j = M' i j) -> psd_upto atol n M -> psd_upto atol n M'.
Proof. by move=> e p v nz; rewrite -(qform_ext _ e); exact: p. Qed.
Lemma qformD n (M M' : mat) v : qform n (fun i j => M i j + M' i j) v = qform n M v + qform n M' v.
Proof.
by rewrite /qform -big_split; apply: eq_bigr => i _ /=; rewrite -big_split; apply: eq_bigr => j _ /=; rewrite mulrDr mulrDl.
Qed.
Lemma qformZ n c (M : mat) v : qform n (fun i j => c * M i j) v = c * qform n M v.
Proof.
rewrite /qform mulr_sumr; apply: eq_bigr => i _; rewrite mulr_sumr; apply: eq_bigr => j _.
by rewrite mulrCA -!mulrA.
Qed.
Lemma sqnorm_ge0 n (v : vec) : 0 <= sqnorm n v. Proof. by apply: sumr_ge0 => i _; rewrite exprn_ge0. Qed.

Lemma psd_upto0 n (M : mat) : psd_upto 0 n M <-> possemi n M.
Proof.
split=> [p v|p v _]; last by left; exact: p.
have [/existsP [i vi]|] := boolP [exists i : 'I_n, v i != 0].
  case: (p v); first by exists i.
    by [].
  by rewrite oppr0 mul0r; exact: ltW.
rewrite negb_exists => /forallP h; rewrite big1 // => i _; rewrite big1 // => j _.
by have := h i; rewrite negbK => /eqP ->; rewrite conjC0 !mul0r.
Qed.

Lemma psd_upto_ix atol n (M : mat) r : psd_upto atol n M -> uniq r -> all (fun i => i < n)%N r -> psd_upto atol (size r) (ix M r).
Proof.
move=> pd u l v [i0 hi0 vi0].
pose v' x := if x \in r then v (index x r) else 0.
have e1 : qform (size r) (ix M r) v = qform n M v'.
  rewrite /qform; transitivity (\sum_(x < n) (if val x \in r then \sum_(y < n) (if val y \in r then (v' x)^* * M x y * v' y else 0) else 0)).
    rewrite (@sum_sub _ n r (fun x => \sum_(y < n) (if val y \in r then (v' x)^* * M x y * v' y else 0))) //.
    apply: eq_bigr => a _; rewrite (@sum_sub _ n r (fun y => (v' (nth 0%N r a))^* * M (nth 0%N r a) y * v' y)) //.
    by apply: eq_bigr => b _; rewrite /v' !mem_nth // !index_uniq.
  apply: eq_bigr => x _; case xr : (val x \in r); last by rewrite big1 // => y _; rewrite /v' xr conjC0 !mul0r.
  by apply: eq_bigr => y _; case yr : (val y \in r) => //; rewrite /v' yr mulr0.
have e2 : sqnorm (size r) v = sqnorm n v'.
  rewrite /sqnorm; transitivity (\sum_(x < n) (if val x \in r then `|v' x| ^+ 2 else 0)).
    rewrite (@sum_sub _ n r (fun x => `|v' x| ^+ 2)) //; apply: eq_bigr => a _; by rewrite /v' mem_nth // index_uniq.
  by apply: eq_bigr => x _; case xr : (val x \in r) => //; rewrite /v' xr normr0 expr0n.
rewrite e1 e2; apply: pd; exists (nth 0%N r i0); first by apply: (allP l); exact: mem_nth.
by rewrite /v' mem_nth // index_uniq.
Qed.
End Psd.

Section Checks.
Variable C : numClosedFieldType.
Variable eigvalsh : nat -> (nat -> nat -> C) -> seq C.
Hypothesis eig : eigvalsh_ok eigvalsh.
Notation mat := (nat -> nat -> C).
Notation vec := (nat -> C).

Lemma cleanE atol (s : seq C) : 0 <= atol -> all (fun v => 0 <= v) (clean atol s) = all (fun x => (0 <= x) || (`|x| < atol)) s.
Proof.
move=> a0; rewrite /clean all_map; apply: eq_all => x /=; case: ifP => h; first by rewrite lexx orbT.
by rewrite orbF.
Qed.

Lemma eig_test n (M M' : mat) atol : hermitian n M' -> (forall i j, (i < n)%N -> (j < n)%N -> M i j = M' i j) -> 0 <= atol ->
  all (fun v => 0 <= v) (clean atol (eigvalsh n M)) <-> psd_upto atol n M'.
Proof.
move=> h e a0; rewrite cleanE //.
have hM : hermitian n M by move=> i j hi hj; rewrite !e // h.
rewrite (eig_clean (eig hM) a0); split; apply: psd_upto_ext => i j hi hj; by rewrite e.
Qed.

(** cov + (i hbar / 2) Omega: the uncertainty relation says that it is positive semidefinite *)
Definition uncertainty N (cov : mat) (hbar : C) : mat := fun i j => cov i j + 'i * (hbar / 2%:R) * Omega C N i j.
(** cov - hbar/2: positive semidefinite for classical states (mixtures of coherent states) *)
Definition above_vacuum (cov : mat) (hbar : C) : mat := fun i j => cov i j - (hbar / 2%:R) * (i == j)%:R.

Section Cov.
Variables (N : nat) (cov : mat) (hbar : C).
Hypothesis rs : real_sym (2 * N) cov.
Hypothesis h0 : 0 < hbar.
Let hr : (hbar / 2%:R)^* = hbar / 2%:R.
Proof. by rewrite (CrealP _) // gtr0_real // divr_gt0 ?ltr0n. Qed.

Lemma Omega_anti i j : Omega C N j i = - Omega C N i j. Proof. by rewrite /Omega opprB. Qed.
Lemma Omega_conj i j : (Omega C N i j)^* = Omega C N i j. Proof. by rewrite /Omega rmorphB /= !conjC_nat. Qed.
Lemma unc_herm : hermitian (2 * N) (uncertainty N cov hbar).
Proof.
move=> i j hi hj; have [r e] := rs hi hj; rewrite /uncertainty rmorphD /= (CrealP r) -e; congr (_ + _).
by rewrite 2!rmorphM /= Omega_conj hr conjCi Omega_anti mulrN !mulNr.
Qed.
Lemma above_herm : hermitian (2 * N) (above_vacuum cov hbar).
Proof.
move=> i j hi hj; have [r e] := rs hi hj; rewrite /above_vacuum rmorphB /= (CrealP r) -e; congr (_ - _).
by rewrite rmorphM /= hr conjC_nat eq_sym.
Qed.

Lemma sym_close rtol atol : 0 <= rtol -> 0 <= atol -> allclose rtol atol (2 * N) (2 * N) cov (trn cov).
Proof.
move=> r0 a0; apply/allP => i; rewrite mem_iota add0n => /andP[_ hi]; apply/allP => j; rewrite mem_iota add0n => /andP[_ hj].
have [_ e] := rs hi hj; by rewrite /close /trn e subrr normr0 addr_ge0 // mulr_ge0.
Qed.

(** is_valid_cov decides the uncertainty relation up to atol *)
Theorem is_valid_cov_correct rtol atol : 0 <= rtol -> 0 <= atol ->
  is_valid_cov eigvalsh (2 * N) (2 * N) cov hbar rtol atol <-> psd_upto atol (2 * N) (uncertainty N cov hbar).
Proof.
move=> r0 a0; rewrite /is_valid_cov eqxx /= sym_close //= mul2n odd_double doubleK -mul2n.
apply: (eig_test unc_herm _ a0) => i j hi hj.
by rewrite /uncertainty sympmatE //; congr (_ + _ * _); rewrite [2%:R^-1 * 'i]mulrC -mulrA [2%:R^-1 * _]mulrC.
Qed.

(** v^* (1 + i Omega) v = sum_a |v_a + i v_(N+a)|^2 *)
Lemma qform_vac v : 0 <= qform (2 * N) (fun i j => (i == j)%:R + 'i * Omega C N i j) v.
Proof.
have -> : qform (2 * N) (fun i j => (i == j)%:R + 'i * Omega C N i j) v = \sum_(a < N) `|v a + 'i * v (N + a)%N| ^+ 2.
  rewrite /qform; have s2 (f : nat -> C) : \sum_(i < 2 * N) f i = \sum_(a < N) (f a + f (N + a)%N).
    have e : (2 * N = N + N)%N by lia.
    by rewrite e big_split_ord /= big_split.
  transitivity (\sum_(i < 2 * N) (v i)^* * (v i + 'i * (\sum_(j < 2 * N) Omega C N i j * v j))).
    apply: eq_bigr => i _; rewrite mulrDr !mulr_sumr.
    have -> : (v i)^* * v i = \sum_(j < 2 * N) (v i)^* * (val i == val j)%:R * v j.
      rewrite (bigD1 i) //= eqxx mulr1 big1 ?addr0 // => j ji; rewrite [(_ == _)%N](_ : _ = false) ?mulr0 ?mul0r //.
      by apply: contraNF ji => /eqP e; apply/eqP/val_inj.
    by rewrite -big_split; apply: eq_bigr => j _ /=; rewrite mulrDr mulrDl -!mulrA.
  rewrite (s2 (fun i => (v i)^* * (v i + 'i * (\sum_(j < 2 * N) Omega C N i j * v j)))); apply: eq_bigr => a _.
  have o1 : \sum_(j < 2 * N) Omega C N a j * v j = v (N + a)%N.
    have l : (N + a < 2 * N)%N by have := ltn_ord a; lia.
    rewrite (bigD1 (Ordinal l)) //= big1 ?addr0 => [|j ja]; rewrite /Omega.
      by rewrite eqxx [(_ == N + (N + _))%N](_ : _ = false) ?subr0 ?mul1r //; apply/eqP; lia.
    have -> : (j == N + a :> nat)%N = false by apply: contraNF ja => /eqP e; apply/eqP/val_inj.
    by have -> : (a == N + j :> nat)%N = false; [apply/eqP; have := ltn_ord a; lia | rewrite subrr mul0r].
  have o2 : \sum_(j < 2 * N) Omega C N (N + a)%N j * v j = - v a.
    have l : (a < 2 * N)%N by have := ltn_ord a; lia.
    rewrite (bigD1 (Ordinal l)) //= big1 ?addr0 => [|j ja]; rewrite /Omega.
      by rewrite eqxx [(_ == N + (N + _))%N](_ : _ = false) ?sub0r ?mulN1r //; apply/eqP; have := ltn_ord a; lia.
    have -> : (N + a == N + j)%N = false by rewrite eqn_add2l eq_sym; apply: contraNF ja => /eqP e; apply/eqP/val_inj.
    by have -> : (j == N + (N + a) :> nat)%N = false; [apply/eqP; have := ltn_ord j; lia | rewrite subrr mul0r].
  rewrite o1 o2 normCK rmorphD rmorphM /= conjCi.
  have ii : 'i * 'i = -1 :> C by rewrite -expr2 sqrCi.
  move: (v a) (v (N + a)%N) (v a)^* (v (N + a)%N)^* => x y xs ys.
  have -> : (x + 'i * y) * (xs + - 'i * ys) = x * xs - 'i * x * ys + 'i * y * xs - ('i * 'i) * (y * ys) by rring.
  by rewrite ii; rring.
by apply: sumr_ge0 => a _; rewrite exprn_ge0.
Qed.

Lemma classical_valid atol : psd_upto atol (2 * N) (above_vacuum cov hbar) -> psd_upto atol (2 * N) (uncertainty N cov hbar).
Proof.
move=> p v nz.
have le : qform (2 * N) (above_vacuum cov hbar) v <= qform (2 * N) (uncertainty N cov hbar) v.
  have -> : qform (2 * N) (uncertainty N cov hbar) v =
      qform (2 * N) (fun i j => above_vacuum cov hbar i j + hbar / 2%:R * ((i == j)%:R + 'i * Omega C N i j)) v.
    apply: qform_ext => i j _ _; rewrite /uncertainty /above_vacuum mulrDr addrA subrK; congr (_ + _).
    by rewrite [RHS]mulrCA -mulrA.
  by rewrite qformD qformZ ler_addl mulr_ge0 ?qform_vac // ltW // divr_gt0 ?ltr0n.
by case: (p v nz) => h; [left; apply: le_trans le | right; apply: lt_le_trans le].
Qed.

(** is_classical_cov decides cov >= hbar/2 up to atol *)
Theorem is_classical_cov_correct atol : 0 <= atol ->
  is_classical_cov eigvalsh (2 * N) (2 * N) cov hbar atol <-> psd_upto atol (2 * N) (above_vacuum cov hbar).
Proof.
move=> a0; rewrite /is_classical_cov.
have r0 : 0 <= rtol0 C by rewrite exprn_ge0 // invr_ge0 ler0n.
have e : all (fun v => 0 <= v) (clean atol (eigvalsh (2 * N) (fun i j => cov i j - 2%:R^-1 * hbar * eye C i j))) <->
    psd_upto atol (2 * N) (above_vacuum cov hbar).
  by apply: (eig_test above_herm _ a0) => i j hi hj; rewrite /above_vacuum [2%:R^-1 * _]mulrC.
split=> [/andP[_ /e] //|p]; apply/andP; split; last exact/e.
by apply/(is_valid_cov_correct r0 a0); exact: classical_valid.
Qed.

Theorem covariance_checks_reject (n m : nat) rtol atol :
  (n != m \/ odd n \/ ~~ allclose rtol atol n n cov (trn cov)) ->
  is_valid_cov eigvalsh n m cov hbar rtol atol = false /\ is_pure_cov eigvalsh n m cov hbar rtol atol = false.
Proof.
rewrite /is_pure_cov /is_valid_cov => h; suff -> : (if n != m then false else
   if ~~ allclose rtol atol n n cov (trn cov) then false else if odd n then false
   else all (fun v => 0 <= v) (clean atol (eigvalsh n (fun i j => cov i j + 2%:R^-1 * 'i * hbar * sympmat C n./2 i j)))) = false by [].
by case: h => [-> //|[->|->]]; case: ifP => //; case: ifP.
Qed.
End Cov.

(** the covariance matrix of the first k of N modes, in the order (x_0 .. x_(k-1), p_0 .. p_(k-1)) *)
Definition prefix_cov N k (cov : mat) : mat := fun i j =>
  cov (if (i < k)%N then i else N + (i - k))%N (if (j < k)%N then j else N + (j - k))%N.
Lemma nth_quads_iota N k i : (k <= N)%N -> (i < 2 * k)%N -> nth 0%N (quads N (iota 0 k)) i = (if (i < k)%N then i else N + (i - k))%N.
Proof.
move=> kN hi; rewrite /quads nth_cat size_iota; case: ifP => h; first by rewrite nth_iota.
by rewrite (nth_map 0%N) ?size_iota ?nth_iota //; lia.
Qed.

Section Classical.
Variables (N : nat) (cov : mat) (hbar atol : C).
Hypothesis rs : real_sym (2 * N) cov.
Hypothesis h0 : 0 < hbar.
Hypothesis a0 : 0 <= atol.
Definition classical_prefix k := psd_upto atol (2 * k) (above_vacuum (prefix_cov N k cov) hbar).

Let all_iota k : (k <= N)%N -> all (fun m => m < N)%N (iota 0 k).
Proof. by move=> h; apply/allP => m; rewrite mem_iota; lia. Qed.
Lemma prefix_sub k i j : (k <= N)%N -> (i < 2 * k)%N -> (j < 2 * k)%N -> prefix_cov N k cov i j = sub_cov N (iota 0 k) cov i j.
Proof. by move=> kN hi hj; rewrite /sub_cov /ix !nth_quads_iota. Qed.
Lemma prefix_full k : k = N -> forall i j, prefix_cov N k cov i j = cov i j.
Proof.
move=> -> i j; rewrite /prefix_cov; have e m : (if (m < N)%N then m else N + (m - N))%N = m by case: ifP => // /negbT; lia.
by rewrite !e.
Qed.
(** any subsystem of a classical state is classical *)
Lemma classical_prefix_le k k' : (k' <= k <= N)%N -> classical_prefix k -> classical_prefix k'.
Proof.
move=> /andP[kk kN] p; pose r := quads k (iota 0 k').
have ur : uniq r by apply: quads_uniq; [exact: iota_uniq | apply/allP => m; rewrite mem_iota; lia].
have lr : all (fun i => i < 2 * k)%N r by apply: quads_lt; apply/allP => m; rewrite mem_iota; lia.
have := psd_upto_ix p ur lr; rewrite size_quads size_iota; apply: psd_upto_ext => i j hi hj.
rewrite /ix /above_vacuum !nth_quads_iota //; congr (_ - _ * _%:R).
  by rewrite /prefix_cov; congr cov; do ![case: ifP]; lia.
by congr nat_of_bool; apply/eqP/eqP; do ![case: ifP]; lia.
Qed.

Lemma prefix_check k : (0 < k <= N)%N -> exists2 st, reduced_gaussian N (fun=> 0) cov (iota 0 k) = Ok st &
  is_classical_cov eigvalsh (2 * k) (2 * k) st.2 hbar atol <-> classical_prefix k.
Proof.
move=> /andP[k0 kN]; have [st est re] : exists2 st, reduced_gaussian N (fun=> 0) cov (iota 0 k) = Ok st & restricts N (iota 0 k) (fun=> 0) cov st.
  have [->|kn] := eqVneq k N; first exact: reduced_gaussian_full.
  by apply: reduced_gaussian_correct; [exact: all_iota | rewrite size_iota; exact/eqP].
exists st => //; have [_ ec] := restricts_sub re; rewrite size_iota in ec.
have rs' : real_sym (2 * k) st.2.
  move=> i j hi hj; rewrite -!ec //; have := @sub_real_sym C N (iota 0 k) cov rs (all_iota kN) i j.
  by rewrite size_iota; exact.
rewrite (is_classical_cov_correct rs' h0 a0); split; apply: psd_upto_ext => i j hi hj;
  by rewrite /above_vacuum prefix_sub // ec.
Qed.

(** find_classical_subsystem returns the largest k <= N such that the first k modes are classical *)
Theorem find_classical_subsystem_correct : exists2 k, find_classical_subsystem eigvalsh (2 * N) (2 * N) cov hbar atol = Ok k &
  [/\ (k <= N)%N, classical_prefix k & forall j, (j <= N)%N -> classical_prefix j -> (j <= k)%N].
Proof.
rewrite /find_classical_subsystem mul2n doubleK -mul2n.
case E : (is_classical_cov _ _ _ _ _ _).
  exists N => //; split=> //; move/(is_classical_cov_correct rs h0 a0): E.
  by apply: psd_upto_ext => i j hi hj; rewrite /above_vacuum prefix_full.
have nN : ~ classical_prefix N.
  move=> p; suff : is_classical_cov eigvalsh (2 * N) (2 * N) cov hbar atol by rewrite E.
  by apply/(is_classical_cov_correct rs h0 a0); apply: psd_upto_ext p => i j hi hj; rewrite /above_vacuum prefix_full.
have p0 : classical_prefix 0 by move=> v [].
have Np : (0 < N)%N by rewrite lt0n; apply/eqP => e; apply: nN; rewrite e.
suff H fuel : forall k, classical_prefix k -> (k < N)%N -> (N - k < fuel)%N -> exists2 k',
    classical_loop eigvalsh fuel N (fun=> 0) cov hbar atol k = Ok k' &
    [/\ (k' <= N)%N, classical_prefix k' & forall j, (j <= N)%N -> classical_prefix j -> (j <= k')%N].
  by apply: H => //; lia.
elim: fuel => [|fuel IH] k pk hk hf; first by lia.
rewrite /=; have [st -> e] := @prefix_check k.+1 hk; rewrite /bind.
case E' : (is_classical_cov _ _ _ _ _ _).
  have pk' : classical_prefix k.+1 by apply/e.
  have kN : (k.+1 < N)%N by rewrite ltn_neqAle hk andbT; apply/eqP => ek; rewrite ek in pk'.
  by apply: IH => //; lia.
exists k => //; split=> //; first exact: ltnW.
move=> j jN pj; rewrite leqNgt; apply/negP => kj.
suff : is_classical_cov eigvalsh (2 * k.+1) (2 * k.+1) st.2 hbar atol by rewrite E'.
by apply/e; apply: classical_prefix_le pj; rewrite kj.
Qed.
End Classical.
End Checks.
