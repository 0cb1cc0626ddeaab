(** C46 and further: photon-number moments of Gaussian states. *)
From mathcomp Require Import all_ssreflect all_algebra algC zify.
From Verif Require Import Prelude PyBase ArrLoop SpecHaf ThHaf MHafnian PropPowerHaf PropHafnian MHermite SpecSymp MSymplectic
  PropSymplectic PropSymp2 PropGates PropChannels PropConversions MPartition PropPartition SpecGauss MMeans.
Set Implicit Arguments.
Unset Strict Implicit.
Unset Printing Implicit Defensive.
Import Order.Theory GRing.Theory Num.Theory.
Local Open Scope ring_scope.

Section Means.
Variable C : numClosedFieldType.
Variable sched : nat -> seq nat.
Variable oracle : nat -> (nat -> nat -> C) -> nat -> C.
Hypothesis sched_ok : forall n, perm_eq (sched n) (iota 0 n).
Notation mat := (nat -> nat -> C).
Notation vec := (nat -> C).

(** ** amplitudes *)
Lemma sum_two n (a b : nat) (x y : C) (f : nat -> C) : (a < n)%N -> (b < n)%N ->
  \sum_(i < n) (x * (i == a :> nat)%:R + y * (i == b :> nat)%:R) * f i = x * f a + y * f b.
Proof.
move=> ha hb; under eq_bigr => i _ do rewrite mulrDl -!mulrA ![_%:R * _]mulrC.
rewrite big_split /= (bigD1 (Ordinal ha)) //= eqxx mulr1 [X in _ + X + _]big1; last first.
  by move=> i; rewrite -val_eqE /= => /negPf ->; rewrite mulr0 mulr0.
rewrite addr0 (bigD1 (Ordinal hb)) //= eqxx mulr1 [X in _ + (_ + X)]big1 ?addr0 //.
by move=> i; rewrite -val_eqE /= => /negPf ->; rewrite mulr0 mulr0.
Qed.
Lemma amp_mode_lt N t : (t < 2 * N)%N -> (amp_mode N t < N)%N.
Proof. by rewrite /amp_mode; case: ifP => //; lia. Qed.

Variables (N : nat) (hbar : C).
Hypothesis hb0 : hbar != 0.
Let h2 : sqrtC (2%:R * hbar) != 0.
Proof. by rewrite sqrtC_eq0 mulf_neq0 // pnatr_eq0. Qed.
Let h22 : sqrtC (2%:R * hbar) * sqrtC (2%:R * hbar) = 2%:R * hbar.
Proof. by rewrite -expr2 sqrtCK. Qed.

Lemma amp_meanE (mu : vec) t : (t < 2 * N)%N ->
  amp_mean N mu hbar t = (mu (amp_mode N t) + amp_sign C N t * 'i * mu (N + amp_mode N t)%N) / sqrtC (2%:R * hbar).
Proof.
move=> ht; have hm := amp_mode_lt ht.
have l1 : (amp_mode N t < 2 * N)%N by lia. have l2 : (N + amp_mode N t < 2 * N)%N by lia.
pose w := (sqrtC (2%:R * hbar))^-1.
transitivity (w * mu (amp_mode N t) + (amp_sign C N t * 'i * w) * mu (N + amp_mode N t)%N).
  rewrite -(sum_two _ _ _ l1 l2) /amp_mean; apply: eq_bigr => a _; rewrite /amp -/w; rring.
rewrite /w; rring.
Qed.
Lemma amp_covE (cov : mat) t u : (t < 2 * N)%N -> (u < 2 * N)%N ->
  amp_cov N cov hbar t u =
    let m := amp_mode N t in let m' := amp_mode N u in
    (cov m m' + amp_sign C N u * 'i * cov m (N + m')%N + amp_sign C N t * 'i * cov (N + m)%N m'
     - amp_sign C N t * amp_sign C N u * cov (N + m)%N (N + m')%N) / (2%:R * hbar).
Proof.
move=> ht hu; have hm := amp_mode_lt ht; have hm' := amp_mode_lt hu; cbv zeta.
have l1 : (amp_mode N t < 2 * N)%N by lia. have l2 : (N + amp_mode N t < 2 * N)%N by lia.
have l1' : (amp_mode N u < 2 * N)%N by lia. have l2' : (N + amp_mode N u < 2 * N)%N by lia.
pose w := (sqrtC (2%:R * hbar))^-1.
have ww : w * w = (2%:R * hbar)^-1 by rewrite /w -invfM h22.
pose g a := w * cov a (amp_mode N u) + (amp_sign C N u * 'i * w) * cov a (N + amp_mode N u)%N.
transitivity (\sum_(a < 2 * N) (w * (a == amp_mode N t :> nat)%:R + (amp_sign C N t * 'i * w) * (a == N + amp_mode N t :> nat)%N%:R) * g a).
  rewrite /amp_cov; apply: eq_bigr => a _; rewrite /g -(sum_two _ _ _ l1' l2') mulr_sumr; apply: eq_bigr => b _.
  by rewrite /amp -/w; rring.
rewrite (sum_two _ _ _ l1 l2) /g -ww.
have ii : 'i * 'i = -1 :> C by rewrite -expr2 sqrCi.
set i := 'i in ii *; set s1 := amp_sign C N t; set s2 := amp_sign C N u.
transitivity (w * w * (cov (amp_mode N t) (amp_mode N u) + s2 * i * cov (amp_mode N t) (N + amp_mode N u)%N
   + s1 * i * cov (N + amp_mode N t)%N (amp_mode N u) + s1 * s2 * (i * i) * cov (N + amp_mode N t)%N (N + amp_mode N u)%N)); first by rring.
by rewrite ii; rring.
Qed.

(** symmetric *)
Lemma amp_cov_sym (cov : mat) t u : real_sym (2 * N) cov -> (t < 2 * N)%N -> (u < 2 * N)%N ->
  amp_cov N cov hbar t u = amp_cov N cov hbar u t.
Proof.
move=> rc ht hu; rewrite /amp_cov exchange_big /=; apply: eq_bigr => a _; apply: eq_bigr => b _.
by rewrite (proj2 (rc b a (ltn_ord b) (ltn_ord a))) [amp _ _ t _ * _]mulrC.
Qed.
Lemma amp_cov_s_sym (cov : mat) s t u : real_sym (2 * N) cov -> (t < 2 * N)%N -> (u < 2 * N)%N ->
  amp_cov_s N cov hbar s t u = amp_cov_s N cov hbar s u t.
Proof. by move=> rc ht hu; rewrite /amp_cov_s (amp_cov_sym rc) // /conj_pair orbC. Qed.
End Means.

Section Vmat.
Variable C : numClosedFieldType.
Notation mat := (nat -> nat -> C).
Notation vec := (nat -> C).
Lemma mmul_Xmat M (B : mat) a b : (b < 2 * M)%N ->
  mmul (2 * M) B (Xmat C M) a b = B a (if (b < M)%N then (b + M)%N else (b - M)%N).
Proof.
move=> hb; set c := (if _ then _ else _).
have hc : (c < 2 * M)%N by rewrite /c; case: ifP; lia.
rewrite /mmul -(subn0 (2 * M)%N) -/(index_iota 0 (2 * M)%N) big_mkord (bigD1 (Ordinal hc)) //= big1 ?addr0.
  by rewrite /Xmat /npblock /eye /c; case: (ltnP b M) => h; rewrite ?h;
   [have -> : (b + M < M)%N = false by [lia]; rewrite addnK eqxx mulr1
   |have -> : (b - M < M)%N by [lia]; rewrite eqxx mulr1].
move=> i; rewrite -val_eqE /= => ni; rewrite /Xmat /npblock /eye.
have hi := ltn_ord i.
case: (ltnP i M) => h1; case: (ltnP b M) => h2; rewrite ?mulr0 //.
  have -> : ((i : nat) == (b - M)%N) = false by move: ni; rewrite /c ltnNge h2 /= => /negPf.
  by rewrite mulr0.
have -> : ((i - M)%N == b) = false by apply/negbTE; apply: contraNneq ni => e; rewrite /c h2; lia.
by rewrite mulr0.
Qed.
Lemma Vmat_amp M (cov : mat) hbar s t u : real_sym (2 * M) cov -> hbar \is Num.real -> hbar != 0 -> (t < 2 * M)%N -> (u < 2 * M)%N ->
  mmul (2 * M) (msub (Qmat M cov hbar) (mscale (2%:R^-1 * (s + 1)) (eye C))) (Xmat C M) t u = amp_cov_s M cov hbar s t u.
Proof.
move=> rc rh h0 ht hu; rewrite mmul_Xmat // /msub /mscale /eye /amp_cov_s amp_covE //; cbv zeta.
have sym a b : (a < 2 * M)%N -> (b < 2 * M)%N -> cov a b = cov b a by move=> ha hb; exact: (proj2 (rc a b ha hb)).
have t0 : 2%:R != 0 :> C by rewrite pnatr_eq0. have f0 : 4%:R != 0 :> C by rewrite pnatr_eq0.
rewrite /amp_mode /amp_sign /conj_pair.
case: (ltnP t M) => h1; case: (ltnP u M) => h2.
- rewrite [(u + M)%N]addnC [(t + M)%N]addnC; have [_ _ _ -> _] := Qmat_parts rc rh h1 h2.
  have -> : (t == M + u)%N = false by lia. have -> : (u == M + t)%N = false by lia.
  rewrite (sym u (M + t)%N); try lia; rewrite /= mulr0n; ffield; rewrite ?mulf_neq0 //.
- have h2' : (u - M < M)%N by lia. have [_ -> _ _ _] := Qmat_parts rc rh h1 h2'.
  have -> : (t == u + M)%N = false by lia. have -> : (u == t + M)%N = (t == u - M)%N by lia.
  rewrite (sym (u - M)%N (M + t)%N) ?orbF; try lia; rewrite ?orbF /=; ffield; rewrite ?mulf_neq0 //.
- have h1' : (t - M < M)%N by lia. have := Qmat_parts rc rh h1' h2; rewrite (subnKC h1) [(M + u)%N]addnC => -[_ _ _ _ ->].
  have -> : (u == t + M)%N = false by lia. have -> : (t == u + M)%N = (t - M == u)%N by lia.
  rewrite (sym u t) /=; try lia; rewrite /=; ffield; rewrite ?mulf_neq0 //.
- have h1' : (t - M < M)%N by lia. have h2' : (u - M < M)%N by lia.
  have := Qmat_parts rc rh h1' h2'; rewrite (subnKC h1) (subnKC h2) => -[_ _ -> _ _].
  have -> : (t == u + M)%N = false by lia. have -> : (u == t + M)%N = false by lia.
  have -> : (t == u - M)%N = false by lia.
  rewrite (sym (u - M)%N t); try lia; rewrite /= mulr0n; ffield; rewrite ?mulf_neq0 //.
Qed.
End Vmat.

Lemma flatten_filter_nil (T U : Type) (p : pred T) (g : T -> seq U) s : (forall x, ~~ p x -> g x = [::]) ->
  flatten [seq g x | x <- filter p s] = flatten [seq g x | x <- s].
Proof. by move=> h; elim: s => //= x s IH; case e: (p x) => /=; rewrite IH // h ?e. Qed.

Lemma eq_lhaf_spec (R : comRingType) n (A B : nat -> nat -> R) mu nu :
  (forall i j, (i < j < n)%N -> A i j = B i j) -> (forall i, (i < n)%N -> mu i = nu i) ->
  lhaf_spec n A mu = lhaf_spec n B nu.
Proof.
move=> eA em; apply: eq_bigr => s _; congr (_ * _); apply: eq_bigr => i hi; last exact: em.
by apply: eA; rewrite hi ltn_ord.
Qed.

Lemma rep_index_pos r x : x \in rep_index r -> (x < size r)%N /\ (0 < nth 0%N r x)%N.
Proof.
case/flattenP => s /mapP[i]; rewrite mem_iota add0n => /andP[_ hi] -> /nseqP[-> h]; by split.
Qed.

Section SOrdered.
Variable C : numClosedFieldType.
Variable sched : nat -> seq nat.
Variable oracle : nat -> (nat -> nat -> C) -> nat -> C.
Hypothesis sched_ok : forall n, perm_eq (sched n) (iota 0 n).
Notation mat := (nat -> nat -> C).
Notation vec := (nat -> C).

(** the restriction to the modes that occur *)
Section Restrict.
Variables (N : nat) (rpt : seq nat).
Definition occ k := (nth 0%N rpt k + nth 0%N rpt (N + k) != 0)%N.
Definition omodes := [seq k <- iota 0 N | occ k].
Definition oind := omodes ++ [seq (m + N)%N | m <- omodes].
Definition orpt := [seq nth 0%N rpt i | i <- oind].
Let M := size omodes.
Let f := nth 0%N oind.

Lemma omodes_lt k : (k < M)%N -> (nth 0%N omodes k < N)%N.
Proof. by move=> hk; have := mem_nth 0%N hk; rewrite mem_filter mem_iota add0n => /andP[_ /andP[_ ->]]. Qed.
Lemma omodes_uniq : uniq omodes. Proof. by rewrite filter_uniq // iota_uniq. Qed.
Lemma size_oind : size oind = (2 * M)%N. Proof. by rewrite size_cat size_map -/M; lia. Qed.
Lemma oindE i : (i < 2 * M)%N -> f i = if (i < M)%N then nth 0%N omodes i else (nth 0%N omodes (i - M) + N)%N.
Proof. by move=> hi; rewrite /f nth_cat -/M; case: (ltnP i M) => h //; rewrite (nth_map 0%N) // -/M; lia. Qed.
Lemma oind_lt i : (i < 2 * M)%N -> (f i < 2 * N)%N.
Proof. 
move=> hi; rewrite oindE //; case: (ltnP i M) => h; first by have := omodes_lt h; lia.
have h' : (i - M < M)%N by lia. by have := omodes_lt h'; lia.
Qed.
Lemma oind_mode i : (i < 2 * M)%N -> amp_mode N (f i) = nth 0%N omodes (amp_mode M i).
Proof.
move=> hi; rewrite oindE // /amp_mode; case: (ltnP i M) => h; first by rewrite omodes_lt.
have -> : (nth 0%N omodes (i - M) + N < N)%N = false by lia.
by rewrite addnK.
Qed.
Lemma oind_sign i : (i < 2 * M)%N -> amp_sign C N (f i) = amp_sign C M i.
Proof.
move=> hi; rewrite oindE // /amp_sign; case: (ltnP i M) => h; first by rewrite omodes_lt.
by have -> : (nth 0%N omodes (i - M) + N < N)%N = false by lia.
Qed.
Lemma oind_N i : (i < M)%N -> f (M + i)%N = (N + nth 0%N omodes i)%N.
Proof. by move=> hi; rewrite oindE; [rewrite ltnNge leq_addr /= addKn addnC | lia]. Qed.
Lemma oind_pair i j : (i < 2 * M)%N -> (j < 2 * M)%N -> conj_pair N (f i) (f j) = conj_pair M i j.
Proof.
move=> hi hj; rewrite /conj_pair !oindE //.
have nu a b : (a < M)%N -> (b < M)%N -> (nth 0%N omodes a == nth 0%N omodes b) = (a == b).
  by move=> ha hb; rewrite nth_uniq // omodes_uniq.
have hm a : (a < M)%N -> (nth 0%N omodes a < N)%N by exact: omodes_lt.
case: (ltnP i M) => h1; case: (ltnP j M) => h2.
- have := hm _ h1; have := hm _ h2 => a b; apply/idP/idP; lia.
- have h2' : (j - M < M)%N by lia.
  have := hm _ h1; have := hm _ h2' => a b; rewrite eqn_add2r nu //; apply/idP/idP; lia.
- have h1' : (i - M < M)%N by lia.
  have := hm _ h1'; have := hm _ h2 => a b; rewrite eqn_add2r nu //; apply/idP/idP; lia.
- have h1' : (i - M < M)%N by lia. have h2' : (j - M < M)%N by lia.
  have := hm _ h1'; have := hm _ h2' => a b; apply/idP/idP; lia.
Qed.
Lemma red_gauss (mu : vec) (cov : mat) : exists mu' cov', reduced_gaussian N mu cov omodes = Ok (mu', cov') /\
  (forall i, (i < 2 * M)%N -> mu' i = mu (f i)) /\
  (forall i j, (i < 2 * M)%N -> (j < 2 * M)%N -> cov' i j = cov (f i) (f j)).
Proof.
rewrite /reduced_gaussian; have -> : has (fun m => (N < m)%N) omodes = false.
  by apply/hasP => -[m]; rewrite mem_filter mem_iota => /andP[_]; lia.
case: eqP => [e|ne].
  have em : omodes = iota 0 N.
    apply/all_filterP; rewrite all_count eqn_leq count_size /= -size_filter -/omodes e size_iota //.
  have hf i : (i < 2 * M)%N -> f i = i.
    move=> hi; rewrite oindE // em; have eM : M = N by rewrite /M e.
    case: (ltnP i M) => h; rewrite nth_iota ?add0n; lia.
  by exists mu, cov; split=> //; split=> [i hi|i j hi hj]; rewrite !hf.
rewrite /take_modes -/oind; have -> : all (fun i => (i < 2 * N)%N) oind.
  by apply/(all_nthP 0%N) => i; rewrite size_oind => hi; exact: oind_lt.
by eexists; eexists; split.
Qed.
Lemma orpt_rep : size rpt = (2 * N)%N -> [seq f i | i <- rep_index orpt] = rep_index rpt.
Proof.
move=> sr.
rewrite /rep_index /orpt size_map map_flatten -map_comp.
have -> : [seq ([eta map f] \o (fun i => nseq (nth 0%N [seq nth 0%N rpt i0 | i0 <- oind] i) i)) i | i <- iota 0 (size oind)]
   = [seq nseq (nth 0%N rpt x) x | x <- [seq f i | i <- iota 0 (size oind)]].
  rewrite -map_comp; apply/eq_in_map => i; rewrite mem_iota add0n => /andP[_ hi] /=.
  by rewrite map_nseq (nth_map 0%N).
have -> : [seq f i | i <- iota 0 (size oind)] = oind by exact: mkseq_nth.
have z x : ~~ occ x -> nth 0%N rpt x = 0%N /\ nth 0%N rpt (x + N) = 0%N.
  by rewrite /occ negbK addn_eq0 [(N + x)%N]addnC => /andP[/eqP -> /eqP ->].
rewrite map_cat flatten_cat -map_comp /omodes.
rewrite flatten_filter_nil; last by move=> x /z[-> _].
rewrite flatten_filter_nil; last by move=> x /z[_ /= ->].
rewrite sr mul2n -addnn iotaD map_cat flatten_cat add0n; congr (_ ++ _).
have -> : iota N N = [seq (N + x)%N | x <- iota 0 N] by rewrite -iotaDl addn0.
by rewrite -map_comp; congr flatten; apply: eq_map => x /=; rewrite addnC.
Qed.

(** amplitudes of the reduced state *)
Variables (mu mu' : vec) (cov cov' : mat) (hbar s : C).
Hypothesis hb0 : hbar != 0.
Hypothesis emu : forall i, (i < 2 * M)%N -> mu' i = mu (f i).
Hypothesis ecov : forall i j, (i < 2 * M)%N -> (j < 2 * M)%N -> cov' i j = cov (f i) (f j).
Lemma fmode i : (i < 2 * M)%N -> f (amp_mode M i) = amp_mode N (f i) /\ f (M + amp_mode M i)%N = (N + amp_mode N (f i))%N.
Proof.
move=> hi; have h := amp_mode_lt hi; rewrite (oind_N h) (oind_mode hi); split=> //.
by rewrite oindE ?h //; lia.
Qed.
Lemma red_mean i : (i < 2 * M)%N -> amp_mean M mu' hbar i = amp_mean N mu hbar (f i).
Proof.
move=> hi; have h := amp_mode_lt hi; rewrite !amp_meanE ?oind_lt // oind_sign //.
by have [<- <-] := fmode hi; rewrite !emu //; lia.
Qed.
Lemma red_cov i j : (i < 2 * M)%N -> (j < 2 * M)%N -> amp_cov_s M cov' hbar s i j = amp_cov_s N cov hbar s (f i) (f j).
Proof.
move=> hi hj; have h := amp_mode_lt hi; have h' := amp_mode_lt hj.
rewrite /amp_cov_s oind_pair // !amp_covE ?oind_lt // !oind_sign //; cbv zeta.
by have [<- <-] := fmode hi; have [<- <-] := fmode hj; rewrite !ecov //; lia.
Qed.
End Restrict.

(** the values on which the np.allclose shortcuts of the code are harmless: zero, or larger than the tolerance *)
Definition tiny_or_zero (x : C) : Prop := `|x| <= atol0 C + rtol0 C * `|x| -> x = 0.
Definition no_shortcut (N : nat) (mu : vec) (cov : mat) (rpt : seq nat) (hbar s : C) : Prop :=
  (forall a, (a < 2 * N)%N -> `|mu a| <= atol0 C -> mu a = 0) /\
  (forall t u, (t < 2 * N)%N -> (u < 2 * N)%N -> (0 < nth 0 rpt t)%N -> (0 < nth 0 rpt u)%N ->
     tiny_or_zero (amp_cov_s N cov hbar s t u)).

Lemma rtol_ge0 : 0 <= rtol0 C. Proof. by rewrite /rtol0 exprn_ge0 // invr_ge0 ler0n. Qed.
Lemma atol_ge0 : 0 <= atol0 C. Proof. by rewrite /atol0 exprn_ge0 // invr_ge0 ler0n. Qed.
Lemma close0 x : close (rtol0 C) (atol0 C) x 0 = (`|x| <= atol0 C).
Proof. by rewrite /close subr0 normr0 mulr0 addr0. Qed.

Lemma haf_spec_lhaf n (A : mat) : haf_spec n A = lhaf_spec n A (fun=> 0).
Proof. by rewrite haf_spec_lhq lhaf_spec_lhq. Qed.

(** C46 (main theorem): for every Gaussian state with real symmetric covariance matrix and real means, every list of
    exponents of length 2N, every hbar > 0 and every real ordering s, [s_ordered_expectation] returns the s-ordered moment *)
Theorem s_ordered_expectation_correct N (mu : vec) (cov : mat) (rpt : seq nat) (hbar s : C) :
  real_sym (2 * N) cov -> (forall a, (a < 2 * N)%N -> mu a \is Num.real) -> 0 < hbar -> size rpt = (2 * N)%N ->
  no_shortcut N mu cov rpt hbar s ->
  s_ordered_expectation sched oracle N mu cov rpt hbar s = Ok (s_ordered_moment N mu cov hbar s rpt).
Proof.
move=> rc rmu hp sr [nmu ncov]; rewrite /s_ordered_expectation.
have h0 : hbar != 0 by rewrite gt_eqF. have rh : hbar \is Num.real by rewrite gtr0_real.
case: ifP => [a0|_].
  rewrite /s_ordered_moment /gauss_moment /lhaf_rep_spec.
  have -> : rep_index rpt = [::].
    rewrite /rep_index; have: forall i, nth 0%N rpt i = 0%N.
      by move=> i; have [h|h] := ltnP i (size rpt); [apply/eqP/(all_nthP 0%N a0) | rewrite nth_default].
    by move=> z; elim: (iota _ _) => //= i l ->; rewrite z.
  by rewrite lhaf_spec_lhq lhq_nil.
rewrite sr eqxx /= -/(omodes N rpt).
have [mu' [cov' [-> [emu ecov]]]] := red_gauss N rpt mu cov; rewrite /bind -/(oind N rpt) -/(orpt N rpt).
set M := size (omodes N rpt) in emu ecov *; set f := nth 0%N (oind N rpt) in emu ecov.
have rc' : real_sym (2 * M) cov'.
  by move=> i j hi hj; rewrite !ecov //; apply: rc; exact: oind_lt.
have rmu' i : (i < 2 * M)%N -> mu' i \is Num.real by move=> hi; rewrite emu // rmu // oind_lt.
rewrite /reduction red_rowsE.
set rows := rep_index (orpt N rpt); set n := size rows.
have srows i : (i < n)%N -> (nth 0%N rows i < 2 * M)%N.
  by move=> hi; have := rep_index_pos (mem_nth 0%N hi); rewrite size_map size_oind => -[].
have prows i : (i < n)%N -> (0 < nth 0%N rpt (f (nth 0%N rows i)))%N.
  move=> hi; have [h1 h2] := rep_index_pos (mem_nth 0%N hi); move: h2; rewrite (nth_map 0%N) //.
  by rewrite size_map in h1.
have nrI i : (i < n)%N -> nth 0%N (rep_index rpt) i = f (nth 0%N rows i).
  by move=> hi; rewrite -(orpt_rep sr) (nth_map 0%N).
have nI : size (rep_index rpt) = n by rewrite -(orpt_rep sr) size_map.
set V := mmul _ _ _.
have VE t u : (t < 2 * M)%N -> (u < 2 * M)%N -> V t u = amp_cov_s N cov hbar s (f t) (f u).
  by move=> ht hu; rewrite /V (Vmat_amp _ rc') // (red_cov _ h0 ecov).
pose Z i j := V (nth 0%N rows i) (nth 0%N rows j).
have ZE i j : (i < n)%N -> (j < n)%N -> Z i j = amp_cov_s N cov hbar s (nth 0%N (rep_index rpt) i) (nth 0%N (rep_index rpt) j).
  by move=> hi hj; rewrite !nrI // /Z VE ?srows.
have symZ i j : (i < n)%N -> (j < n)%N -> Z i j = Z j i.
  by move=> hi hj; rewrite /Z !VE ?srows // (amp_cov_s_sym _ _ rc) // oind_lt // srows.
have tZ i j : (i < n)%N -> (j < n)%N -> `|Z i j| <= atol0 C + rtol0 C * `|Z i j| -> Z i j = 0.
  by move=> hi hj; rewrite /Z !VE ?srows //; apply: ncov; rewrite ?oind_lt ?srows // prows.
rewrite -[PyArr (NdArr n n _)]/(PyArr (arr_of n n Z)).
case: ifP => hz.
  rewrite hafnian_correct ?rtol_ge0 ?atol_ge0 //; last first.
    move=> /allP2 h i j hi hj ij; apply: tZ => //.
    by have := h i j hi hj; rewrite /close /diag_part (negPf ij) sub0r normrN.
  congr Ok; rewrite /haf_or_lhaf haf_spec_lhaf /s_ordered_moment /gauss_moment /lhaf_rep_spec nI.
  apply: eq_lhaf_spec => [i j /andP[ij jn]|i hi]; first by rewrite ZE //; lia.
  rewrite nrI // -(red_mean h0 emu) ?srows //.
  have mu0 a : (a < 2 * M)%N -> mu' a = 0.
    move=> ha; rewrite emu //; apply: nmu; first by rewrite oind_lt.
    by rewrite -emu // -close0; move/allP: hz => /(_ a); apply; rewrite mem_iota add0n ha.
  have hm := amp_mode_lt (srows i hi).
  have l1 : (amp_mode M (nth 0%N rows i) < 2 * M)%N by move: hm; clear; lia.
  have l2 : (M + amp_mode M (nth 0%N rows i) < 2 * M)%N by move: hm; clear; lia.
  by rewrite amp_meanE ?srows // !mu0 // ?mulr0 ?addr0 ?mul0r.
pose Z2 i j := if i == j then (complex_to_real_displacements M mu' hbar (nth 0%N rows i))^* else Z i j.
rewrite -[PyArr (NdArr n n _)]/(PyArr (arr_of n n Z2)).
have Z2E i j : i != j -> Z2 i j = Z i j by rewrite /Z2 => /negPf ->.
rewrite hafnian_correct ?rtol_ge0 ?atol_ge0 //; last 2 first.
- by move=> i j hi hj; rewrite /Z2 [j == i]eq_sym; case: eqP => [->|_] //; rewrite symZ.
- move=> /allP2 h i j hi hj ij; rewrite Z2E //; apply: tZ => //.
  by have := h i j hi hj; rewrite /close /diag_part (negPf ij) sub0r normrN Z2E.
congr Ok; rewrite /haf_or_lhaf /s_ordered_moment /gauss_moment /lhaf_rep_spec nI.
apply: eq_lhaf_spec => [i j /andP[ij jn]|i hi].
  by rewrite Z2E ?ltn_eqF // ZE //; exact: ltn_trans ij jn.
rewrite nrI // -(red_mean h0 emu) ?srows // /Z2 eqxx.
have ht := srows i hi; set t := nth 0%N rows i in ht *; have hm := amp_mode_lt ht.
have l1 : (amp_mode M t < 2 * M)%N by move: hm; clear; lia.
have l2 : (M + amp_mode M t < 2 * M)%N by move: hm; clear; lia.
rewrite amp_meanE // /complex_to_real_displacements.
have rs : (sqrtC (2%:R * hbar))^-1 \is Num.real.
  by rewrite rpredV ger0_real // sqrtC_ge0 mulr_ge0 ?ler0n // ltW.
move: l1 l2; rewrite /amp_mode /amp_sign; case: (ltnP t M) => h l1 l2.
  rewrite rmorphM (CrealP rs) conj_rect ?rmu' //; rring.
by rewrite conjCK; rring.
Qed.
End SOrdered.
