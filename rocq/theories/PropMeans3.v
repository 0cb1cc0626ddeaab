(** C46: the hafnian-based moments of means_and_variances.py: expectations of products of photon numbers, of their
    squares, general moments and cumulants. *)
From mathcomp Require Import all_ssreflect all_algebra algC zify.
From Verif Require Import Prelude PyBase ArrLoop SpecHaf ThHaf MHafnian PropPowerHaf PropHafnian MHermite SpecSymp MSymplectic
  PropSymplectic PropSymp2 PropGates PropChannels PropConversions MPartition PropPartition SpecGauss MMeans PropMeans PropMeans2.
Set Implicit Arguments.
Unset Strict Implicit.
Unset Printing Implicit Defensive.
Import Order.Theory GRing.Theory Num.Theory.
Local Open Scope ring_scope.

(** multiplicities *)
Lemma rep_index_permP r s : (forall x, count_mem x s = nth 0%N r x) -> perm_eq (rep_index r) s.
Proof. by move=> h; apply/allP => x _; apply/eqP; rewrite /= count_rep_index h. Qed.

Section Mom.
Variable C : numClosedFieldType.
Variable sched : nat -> seq nat.
Variable oracle : nat -> (nat -> nat -> C) -> nat -> C.
Hypothesis sched_ok : forall n, perm_eq (sched n) (iota 0 n).
Notation mat := (nat -> nat -> C).
Notation vec := (nat -> C).
Variables (N : nat) (mu : vec) (cov : mat) (hbar : C).
Hypothesis rc : real_sym (2 * N) cov.
Hypothesis rmu : forall a, (a < 2 * N)%N -> mu a \is Num.real.
Hypothesis hp : 0 < hbar.
Let h0 : hbar != 0. Proof. by rewrite gt_eqF. Qed.

Notation Z := (amp_cov_s N cov hbar 1).
Notation m := (amp_mean N mu hbar).
Notation smom := (s_ordered_moment N mu cov hbar 1).

Lemma smom_lhq r s : size r = (2 * N)%N -> (forall x, count_mem x s = nth 0%N r x) -> smom r = lhq Z m s.
Proof.
move=> sr h; rewrite /s_ordered_moment /gauss_moment lhaf_rep_lhq_lt; last first.
  by move=> i j; rewrite sr => hi hj; exact: amp_cov_s_sym.
pose Z' i j := if (i < 2 * N)%N && (j < 2 * N)%N then Z i j else 0.
have symZ' i j : Z' i j = Z' j i.
  by rewrite /Z' andbC; case: ifP => // /andP[hj hi]; exact: amp_cov_s_sym.
have hlt x : x \in s -> (x < 2 * N)%N.
  by rewrite -has_pred1 has_count h -sr; have [//|le] := ltnP x (size r); rewrite nth_default.
have e t : (forall x, x \in t -> (x < 2 * N)%N) -> lhq Z m t = lhq Z' m t.
  by move=> ht; apply: eq_lhq => // x y xt yt; rewrite /Z' !ht.
rewrite !e //; last by move=> x /rep_index_pos[]; rewrite sr.
by apply: lhq_perm => //; exact: rep_index_permP.
Qed.

(** the moments are real whenever creation and annihilation operators occur equally often *)
Definition flip t := if (t < N)%N then (N + t)%N else (t - N)%N.
Lemma flip_lt t : (t < 2 * N)%N -> (flip t < 2 * N)%N. Proof. by rewrite /flip; case: ifP; lia. Qed.
Lemma flip_mode t : (t < 2 * N)%N -> amp_mode N (flip t) = amp_mode N t /\ amp_sign C N (flip t) = - amp_sign C N t.
Proof.
move=> ht; rewrite /flip /amp_mode /amp_sign; case: (ltnP t N) => h.
  by have -> : (N + t < N)%N = false by [lia]; rewrite addKn opprK.
by have -> : (t - N < N)%N by [lia].
Qed.
Lemma conj_sign t : (amp_sign C N t)^* = amp_sign C N t.
Proof. by rewrite /amp_sign; case: ifP; rewrite ?rmorphN rmorph1. Qed.
Lemma m_conj t : (t < 2 * N)%N -> (m t)^* = m (flip t).
Proof.
move=> ht; rewrite !amp_meanE ?flip_lt //; have [-> ->] := flip_mode ht; have hm := amp_mode_lt ht.
have rs : (sqrtC (2%:R * hbar))^-1 \is Num.real by rewrite rpredV ger0_real // sqrtC_ge0 mulr_ge0 ?ler0n // ltW.
have l1 : (amp_mode N t < 2 * N)%N by lia. have l2 : (N + amp_mode N t < 2 * N)%N by lia.
rewrite rmorphM (CrealP rs) rmorphD !rmorphM conjCi conj_sign !(CrealP (rmu _)) //; rring.
Qed.
Lemma Z_conj t u : (t < 2 * N)%N -> (u < 2 * N)%N -> (Z t u)^* = Z (flip t) (flip u).
Proof.
move=> ht hu; rewrite /amp_cov_s !amp_covE ?flip_lt //; cbv zeta.
have -> : conj_pair N (flip t) (flip u) = conj_pair N t u.
  by rewrite /conj_pair /flip; case: (ltnP t N) => h1; case: (ltnP u N) => h2; apply/idP/idP; lia.
have [-> ->] := flip_mode ht; have [-> ->] := flip_mode hu; have hm := amp_mode_lt ht; have hm' := amp_mode_lt hu.
have cc a b : (a < 2 * N)%N -> (b < 2 * N)%N -> (cov a b)^* = cov a b by move=> ha hb; apply/CrealP; exact: (proj1 (rc ha hb)).
have l1 : (amp_mode N t < 2 * N)%N by lia. have l2 : (N + amp_mode N t < 2 * N)%N by lia.
have l3 : (amp_mode N u < 2 * N)%N by lia. have l4 : (N + amp_mode N u < 2 * N)%N by lia.
have rh : hbar^* = hbar by apply/CrealP; rewrite gtr0_real.
have d2 : (2%:R * hbar)^* = 2%:R * hbar by rewrite rmorphM rh conjC_nat.
have d3 : (1 / 2%:R * (conj_pair N t u)%:R : C)^* = 1 / 2%:R * (conj_pair N t u)%:R.
  by rewrite rmorphM fmorph_div rmorph1 !conjC_nat.
rewrite rmorphB d3 fmorph_div d2; congr (_ / _ - _).
rewrite !rmorphB !rmorphD !rmorphM !conj_sign conjCi !cc //; rring.
Qed.
Theorem smom_real r : size r = (2 * N)%N -> (forall t, (t < N)%N -> nth 0%N r (N + t) = nth 0%N r t) -> smom r \is Num.real.
Proof.
move=> sr er; apply/CrealP; rewrite (smom_lhq sr (fun x => count_rep_index r x)).
set L := rep_index r.
have hL x : x \in L -> (x < 2 * N)%N by move=> /rep_index_pos[]; rewrite sr.
rewrite -[(lhq _ _ _)^*]/(conjC (lhq _ _ _)) lhq_hom.
transitivity (lhq (fun x y => Z (flip x) (flip y)) (fun x => m (flip x)) L).
  by apply: eq_lhq => [x y xL yL|x xL]; rewrite ?Z_conj ?m_conj ?hL.
rewrite -(lhq_map_inj (f := flip)); last first.
  by move=> x y /hL hx /hL hy; rewrite /flip; case: (ltnP x N) => h1; case: (ltnP y N) => h2; lia.
rewrite -(@smom_lhq r L sr (fun x => count_rep_index r x)) -(@smom_lhq r (map flip L) sr) // => x.
rewrite count_map.
have [hx|hx] := ltnP x (2 * N)%N; last first.
  rewrite nth_default ?sr // (eq_in_count (a2 := pred0)) ?count_pred0 // => y /hL /flip_lt /=; lia.
rewrite (eq_in_count (a2 := pred1 (flip x))); last first.
  by move=> y /hL hy /=; rewrite /flip; case: (ltnP x N) => h1; case: (ltnP y N) => h2; apply/idP/idP; lia.
rewrite count_rep_index /flip; case: ltnP => h; first by rewrite er.
have h' : (x - N < N)%N by lia.
by rewrite -(er _ h') subnKC.
Qed.

(** no np.allclose shortcut fires on a nonzero quantity *)
Definition robust : Prop := (forall a, (a < 2 * N)%N -> `|mu a| <= atol0 C -> mu a = 0) /\
  (forall t u, (t < 2 * N)%N -> (u < 2 * N)%N -> tiny_or_zero (Z t u)).
Hypothesis rob : robust.
Lemma normal_ok r : size r = (2 * N)%N -> s_ordered_expectation sched oracle N mu cov r hbar 1 = Ok (smom r).
Proof.
by move=> sr; apply: s_ordered_expectation_correct => //; split; [exact: (proj1 rob)|move=> t u ht hu _ _; exact: (proj2 rob)].
Qed.

(** exponent list with all the operators a_k, conj(a_k) for k in [modes] once *)
Definition once (modes : seq nat) : seq nat := mkseq (fun t => nat_of_bool (amp_mode N t \in modes)) (2 * N).
Lemma expect_loop modes r0 : size r0 = (2 * N)%N -> all (fun i => i < N)%N modes ->
  let r := for_ modes r0 (fun rpt i => set_nth 0%N (set_nth 0%N rpt i 1%N) (i + N) 1%N) in
  size r = (2 * N)%N /\ forall t, (t < 2 * N)%N -> nth 0%N r t = if amp_mode N t \in modes then 1%N else nth 0%N r0 t.
Proof.
elim: modes r0 => [|i l IH] r0 s0 //= /andP[hi hl].
set r1 := set_nth _ _ _ _.
have s1 : size r1 = (2 * N)%N by rewrite /r1 !size_set_nth s0; lia.
have [sr hr] := IH r1 s1 hl; split=> // t ht; rewrite hr // inE.
case: (amp_mode N t \in l); first by rewrite orbT.
rewrite orbF /r1 !nth_set_nth /= nth_set_nth /=.
have -> : (amp_mode N t == i) = (t == i) || (t == i + N)%N.
  by rewrite /amp_mode; case: (ltnP t N) => h; apply/idP/idP; lia.
by case: (t == (i + N)%N); rewrite ?orbT //= orbF.
Qed.
(** C46: for every list of modes (repetitions are ignored by the code), the expectation is the normally ordered moment in which
    every listed mode occurs once *)
Theorem photon_number_expectation_correct modes : all (fun i => i < N)%N modes ->
  photon_number_expectation sched oracle N mu cov modes hbar = Ok (smom (once modes)).
Proof.
move=> hm; rewrite /photon_number_expectation.
have -> : has (fun i => 2 * N <= i + N)%N modes = false.
  by apply/negbTE; rewrite -all_predC; apply: sub_all hm => i /=; lia.
have [sr hr] := expect_loop (size_nseq (2 * N)%N 0%N) hm.
set r := for_ _ _ _ in sr hr *; have -> : r = once modes.
  apply: (@eq_from_nth _ 0%N); rewrite sr ?size_mkseq // => t ht.
  by rewrite hr // nth_mkseq // nth_nseq ht; case: (_ \in _).
by rewrite /normal_ordered_expectation normal_ok // size_mkseq.
Qed.
Theorem photon_number_expectation_range modes i : i \in modes -> (N <= i)%N ->
  photon_number_expectation sched oracle N mu cov modes hbar = Err IndexError.
Proof. by move=> im hi; rewrite /photon_number_expectation ifT //; apply/hasP; exists i => //; lia. Qed.

(** agreement with the Weyl-symbol moments for one mode, two modes *)
Lemma pairC (x y : C) : (x - 'i * y) * (x + 'i * y) = x * x + y * y.
Proof. have e : 'i * 'i = -1 :> C by rewrite -expr2 sqrCi. transitivity (x * x - 'i * 'i * y * y); [rring|rewrite e; rring]. Qed.
Lemma crossC (x y z w : C) : (x - 'i * y) * (z + 'i * w) + (x + 'i * y) * (z - 'i * w) = 2%:R * (x * z + y * w).
Proof. have e : 'i * 'i = -1 :> C by rewrite -expr2 sqrCi. transitivity (2%:R * (x * z - 'i * 'i * y * w)); [rring|rewrite e; rring]. Qed.

Section Vals.
Variables (j k : nat) (hj : (j < N)%N) (hk : (k < N)%N).
Let w := (sqrtC (2%:R * hbar))^-1.
Let ww : w * w = (2%:R * hbar)^-1.
Proof. by rewrite /w -invfM -expr2 sqrtCK. Qed.
Lemma m_lo : m j = w * (mu j - 'i * mu (N + j)%N).
Proof.
have l : (j < 2 * N)%N by move: hj; clear; lia.
by rewrite amp_meanE // /amp_mode /amp_sign hj -/w; rring.
Qed.
Lemma m_hi : m (N + j)%N = w * (mu j + 'i * mu (N + j)%N).
Proof.
have l : (N + j < 2 * N)%N by move: hj; clear; lia.
have e : (N + j < N)%N = false by clear; lia.
rewrite amp_meanE //.
by rewrite /amp_mode /amp_sign e addKn -/w; rring.
Qed.
Lemma sgn_lo i : (i < N)%N -> amp_mode N i = i /\ amp_sign C N i = -1.
Proof. by move=> h; rewrite /amp_mode /amp_sign h. Qed.
Lemma sgn_hi i : amp_mode N (N + i) = i /\ amp_sign C N (N + i) = 1.
Proof. by rewrite /amp_mode /amp_sign; have -> : (N + i < N)%N = false by [lia]; rewrite addKn. Qed.
Lemma Z_ll : Z j k = w * w * ((cov j k - cov (N + j)%N (N + k)%N) - 'i * (cov j (N + k)%N + cov (N + j)%N k)).
Proof.
rewrite /amp_cov_s amp_covE //; try lia; cbv zeta.
have [-> ->] := sgn_lo hj; have [-> ->] := sgn_lo hk; rewrite ww.
have -> : conj_pair N j k = false by rewrite /conj_pair; lia.
by rewrite mulr0 subr0; rring.
Qed.
Lemma Z_hh : Z (N + j)%N (N + k)%N = w * w * ((cov j k - cov (N + j)%N (N + k)%N) + 'i * (cov j (N + k)%N + cov (N + j)%N k)).
Proof.
rewrite /amp_cov_s amp_covE //; try lia; cbv zeta.
have [-> ->] := sgn_hi j; have [-> ->] := sgn_hi k; rewrite ww.
have -> : conj_pair N (N + j) (N + k) = false by rewrite /conj_pair; lia.
by rewrite mulr0 subr0; rring.
Qed.
Lemma Z_lh : Z j (N + k)%N = w * w * ((cov j k + cov (N + j)%N (N + k)%N) + 'i * (cov j (N + k)%N - cov (N + j)%N k)) - (j == k)%:R / 2%:R.
Proof.
rewrite /amp_cov_s amp_covE //; try lia; cbv zeta.
have [-> ->] := sgn_lo hj; have [-> ->] := sgn_hi k; rewrite ww.
have -> : conj_pair N j (N + k) = (j == k) by rewrite /conj_pair; lia.
by rring.
Qed.
Lemma Z_hl : Z (N + j)%N k = w * w * ((cov j k + cov (N + j)%N (N + k)%N) - 'i * (cov j (N + k)%N - cov (N + j)%N k)) - (j == k)%:R / 2%:R.
Proof.
rewrite /amp_cov_s amp_covE //; try lia; cbv zeta.
have [-> ->] := sgn_hi j; have [-> ->] := sgn_lo hk; rewrite ww.
have -> : conj_pair N (N + j) k = (j == k) by rewrite /conj_pair; lia.
by rring.
Qed.
Lemma ww_val : w * w = (2%:R * hbar)^-1. Proof. exact: ww. Qed.
End Vals.

Theorem smom_once1 j : (j < N)%N -> smom (once [:: j]) = E_n N mu cov hbar j.
Proof.
move=> hj; rewrite (@smom_lhq _ [:: j; N + j]%N) ?size_mkseq //; last first.
  move=> x; have [hx|hx] := ltnP x (2 * N)%N; last by rewrite nth_default ?size_mkseq //=; lia.
  rewrite nth_mkseq //= inE /amp_mode; case: (ltnP x N) => h; lia.
rewrite !(lhq_cons, lhq_nil, big_cons, big_nil) /= ?eqxx ?lhq_nil m_lo // m_hi // Z_lh // eqxx.
have s : cov (N + j)%N j = cov j (N + j)%N by apply: (proj2 (rc _ _)); lia.
rewrite /E_n /E_abs2 !qm2 s mulr1n.
set w := _^-1; have ww : w * w = (2%:R * hbar)^-1 by exact: ww_val.
transitivity (w * w * ((mu j - 'i * mu (N + j)%N) * (mu j + 'i * mu (N + j)%N)) + w * w * (cov j j + cov (N + j)%N (N + j)%N) - 1 / 2%:R).
  rring.
rewrite pairC ww; rring.
Qed.

Lemma once2_scalar (h t mj mk nj nk cjj ckk djj dkk cjk ejk fkj djk : C) :
  h * (mj * mj + nj * nj) * (h * (mk * mk + nk * nk)) + h * (mj * mj + nj * nj) * (h * (ckk + dkk) - t)
  + h * (mk * mk + nk * nk) * (h * (cjj + djj) - t) + (h * (cjj + djj) - t) * (h * (ckk + dkk) - t)
  + h * h * ((cjk - djk) * (cjk - djk) + (ejk + fkj) * (ejk + fkj))
  + h * h * ((cjk + djk) * (cjk + djk) + (ejk - fkj) * (ejk - fkj))
  + h * h * (2%:R * ((mj * mk - nj * nk) * (cjk - djk) + (mj * nk + nj * mk) * (ejk + fkj)))
  + h * h * (2%:R * ((mj * mk + nj * nk) * (cjk + djk) + (mj * nk - nj * mk) * (ejk - fkj)))
  = (mj * mj + nj * nj + cjj + djj) * (mk * mk + nk * nk + ckk + dkk) * (h * h)
    + (2%:R * (cjk * cjk + ejk * ejk + fkj * fkj + djk * djk)
      + 4%:R * (mj * mk * cjk + mj * nk * ejk + nj * mk * fkj + nj * nk * djk)) * (h * h)
    - ((mj * mj + cjj + (nj * nj + djj)) * h + (mk * mk + ckk + (nk * nk + dkk)) * h) * t + t * t.
Proof. by rring. Qed.

Lemma E_aa4 j k : (j < N)%N -> (k < N)%N -> E_abs2_abs2 N mu cov hbar j k =
  ((mu j * mu j + mu (N + j)%N * mu (N + j)%N + cov j j + cov (N + j)%N (N + j)%N)
    * (mu k * mu k + mu (N + k)%N * mu (N + k)%N + cov k k + cov (N + k)%N (N + k)%N)) * ((2%:R * hbar)^-1 * (2%:R * hbar)^-1)
  + (2%:R * (cov j k * cov j k + cov j (N + k)%N * cov j (N + k)%N + cov k (N + j)%N * cov k (N + j)%N + cov (N + j)%N (N + k)%N * cov (N + j)%N (N + k)%N)
    + 4%:R * (mu j * mu k * cov j k + mu j * mu (N + k)%N * cov j (N + k)%N + mu (N + j)%N * mu k * cov k (N + j)%N
      + mu (N + j)%N * mu (N + k)%N * cov (N + j)%N (N + k)%N)) * ((2%:R * hbar)^-1 * (2%:R * hbar)^-1).
Proof.
move=> hj hk; rewrite /E_abs2_abs2 !qm4.
have -> : cov (N + j)%N k = cov k (N + j)%N by apply: (proj2 (rc _ _)); lia.
rewrite expr2 invfM; move: ((2%:R * hbar)^-1) => h.
rring.
Qed.

Theorem smom_once2 j k : (j < N)%N -> (k < N)%N -> j != k -> smom (once [:: j; k]) = E_nn N mu cov hbar j k.
Proof.
move=> hj hk njk; rewrite (@smom_lhq _ [:: j; N + j; k; N + k]%N) ?size_mkseq //; last first.
  move=> x; have [hx|hx] := ltnP x (2 * N)%N; last by rewrite nth_default ?size_mkseq //=; lia.
  rewrite nth_mkseq //= !inE /amp_mode; case: (ltnP x N) => h; lia.
have n1 : (N + j == k)%N = false by lia. have n2 : (j == N + k)%N = false by lia.
have n3 : (N + j == N + k)%N = false by lia. have n4 : (k == N + k)%N = false by lia. have n5 : (N + j == j)%N = false by lia.
have s j' k' : (j' < N)%N -> (k' < N)%N -> cov (N + j')%N k' = cov k' (N + j')%N by move=> *; apply: (proj2 (rc _ _)); lia.
rewrite !(lhq_cons, lhq_nil, big_cons, big_nil) /= ?eqxx ?n1 ?n2 ?n3 ?n4 ?n5 ?(negPf njk).
rewrite !(lhq_cons, lhq_nil, big_cons, big_nil) /= ?eqxx ?n1 ?n2 ?n3 ?n4 ?n5 ?(negPf njk).
rewrite !lhq_nil.
set w := (sqrtC (2%:R * hbar))^-1; have ww : w * w = (2%:R * hbar)^-1 by exact: ww_val.
have mm i : (i < N)%N -> m i * m (N + i)%N = w * w * (mu i * mu i + mu (N + i)%N * mu (N + i)%N).
  by move=> hi; rewrite m_lo // m_hi // -pairC -/w; rring.
have ZZ i : (i < N)%N -> Z i (N + i)%N = w * w * (cov i i + cov (N + i)%N (N + i)%N) - 2%:R^-1.
  by move=> hi; rewrite Z_lh // eqxx s // mulr1n -/w; rring.
have ii : 'i * 'i = -1 :> C by rewrite -expr2 sqrCi.
have mll : m j * m k = w * w * ((mu j * mu k - mu (N + j)%N * mu (N + k)%N) - 'i * (mu j * mu (N + k)%N + mu (N + j)%N * mu k)).
  rewrite m_lo // m_lo // -/w; transitivity (w * w * (mu j * mu k + 'i * 'i * mu (N + j)%N * mu (N + k)%N - 'i * (mu j * mu (N + k)%N + mu (N + j)%N * mu k))); [rring|rewrite ii; rring].
have mhh : m (N + j)%N * m (N + k)%N = w * w * ((mu j * mu k - mu (N + j)%N * mu (N + k)%N) + 'i * (mu j * mu (N + k)%N + mu (N + j)%N * mu k)).
  rewrite m_hi // m_hi // -/w; transitivity (w * w * (mu j * mu k + 'i * 'i * mu (N + j)%N * mu (N + k)%N + 'i * (mu j * mu (N + k)%N + mu (N + j)%N * mu k))); [rring|rewrite ii; rring].
have mlh : m j * m (N + k)%N = w * w * ((mu j * mu k + mu (N + j)%N * mu (N + k)%N) + 'i * (mu j * mu (N + k)%N - mu (N + j)%N * mu k)).
  rewrite m_lo // m_hi // -/w; transitivity (w * w * (mu j * mu k - 'i * 'i * mu (N + j)%N * mu (N + k)%N + 'i * (mu j * mu (N + k)%N - mu (N + j)%N * mu k))); [rring|rewrite ii; rring].
have mhl : m (N + j)%N * m k = w * w * ((mu j * mu k + mu (N + j)%N * mu (N + k)%N) - 'i * (mu j * mu (N + k)%N - mu (N + j)%N * mu k)).
  rewrite m_hi // m_lo // -/w; transitivity (w * w * (mu j * mu k - 'i * 'i * mu (N + j)%N * mu (N + k)%N - 'i * (mu j * mu (N + k)%N - mu (N + j)%N * mu k))); [rring|rewrite ii; rring].
transitivity ((m j * m (N + j)%N) * (m k * m (N + k)%N) + (m j * m (N + j)%N) * Z k (N + k)%N + (m k * m (N + k)%N) * Z j (N + j)%N
   + Z j (N + j)%N * Z k (N + k)%N + Z j k * Z (N + j)%N (N + k)%N + Z (N + j)%N k * Z j (N + k)%N
   + ((m j * m k) * Z (N + j)%N (N + k)%N + (m (N + j)%N * m (N + k)%N) * Z j k)
   + ((m (N + j)%N * m k) * Z j (N + k)%N + (m j * m (N + k)%N) * Z (N + j)%N k)); first by rring.
rewrite !mm // !ZZ // mll mhh mlh mhl Z_ll // Z_hh // Z_lh // Z_hl // (negPf njk) mul0r !subr0 -/w.
set P := mu j * mu k - _; set Q := mu j * mu (N + k)%N + _; set P' := mu j * mu k + _; set Q' := mu j * mu (N + k)%N - _.
set A := cov j k - _; set B := cov j (N + k)%N + _; set A' := cov j k + _; set B' := cov j (N + k)%N - _.
transitivity (w * w * (mu j * mu j + mu (N + j)%N * mu (N + j)%N) * (w * w * (mu k * mu k + mu (N + k)%N * mu (N + k)%N)) +
  w * w * (mu j * mu j + mu (N + j)%N * mu (N + j)%N) * (w * w * (cov k k + cov (N + k)%N (N + k)%N) - 2%:R^-1) +
  w * w * (mu k * mu k + mu (N + k)%N * mu (N + k)%N) * (w * w * (cov j j + cov (N + j)%N (N + j)%N) - 2%:R^-1) +
  (w * w * (cov j j + cov (N + j)%N (N + j)%N) - 2%:R^-1) * (w * w * (cov k k + cov (N + k)%N (N + k)%N) - 2%:R^-1) +
  (w * w) * (w * w) * ((A - 'i * B) * (A + 'i * B)) + (w * w) * (w * w) * ((A' - 'i * B') * (A' + 'i * B')) +
  (w * w) * (w * w) * ((P - 'i * Q) * (A + 'i * B) + (P + 'i * Q) * (A - 'i * B)) +
  (w * w) * (w * w) * ((P' - 'i * Q') * (A' + 'i * B') + (P' + 'i * Q') * (A' - 'i * B'))); first by rring.
rewrite (pairC A B) (pairC A' B') (crossC P Q A B) (crossC P' Q' A' B') ww.
rewrite /E_nn (negPf njk) (E_aa4 hj hk) /E_abs2.
rewrite (qm2 _ _ j j) (qm2 _ _ k k) (qm2 _ _ (N + j) (N + j)) (qm2 _ _ (N + k) (N + k)).
have -> : 4%:R^-1 = 2%:R^-1 * 2%:R^-1 :> C by rewrite -invfM -natrM.
rewrite /P /Q /P' /Q' /A /B /A' /B' (s j k hj hk).
exact: once2_scalar.
Qed.
End Mom.
