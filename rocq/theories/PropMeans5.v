(** C46 (continued): squares of photon numbers, consistency of the different entry points, refutations, examples. *)
From mathcomp Require Import all_ssreflect all_algebra algC zify.
From Verif Require Import Prelude PyBase ArrLoop SpecHaf ThHaf MHafnian PropPowerHaf PropHafnian MHermite SpecSymp MSymplectic
  PropSymplectic PropSymp2 PropGates PropChannels PropConversions MPartition SpecGauss PropPartition MMeans PropMeans PropMeans2 PropMeans3 PropMeans4.
Set Implicit Arguments.
Unset Strict Implicit.
Unset Printing Implicit Defensive.
Import Order.Theory GRing.Theory Num.Theory.
Local Open Scope ring_scope.

Section Red.
Variable C : numClosedFieldType.
Notation mat := (nat -> nat -> C).
Notation vec := (nat -> C).
(** restriction of a state to any list of distinct modes *)
Section Restrict.
Variables (N : nat) (modes : seq nat).
Hypothesis hu : uniq modes.
Hypothesis hlt : all (fun k => k < N)%N modes.
Definition mind := modes ++ [seq (m + N)%N | m <- modes].
Let M := size modes.
Let f := nth 0%N mind.
Lemma modes_lt k : (k < M)%N -> (nth 0%N modes k < N)%N.
Proof. by move=> hk; apply: (allP hlt); exact: mem_nth. Qed.
Lemma size_mind : size mind = (2 * M)%N. Proof. by rewrite size_cat size_map -/M; lia. Qed.
Lemma mindE i : (i < 2 * M)%N -> f i = if (i < M)%N then nth 0%N modes i else (nth 0%N modes (i - M) + N)%N.
Proof. by move=> hi; rewrite /f nth_cat -/M; case: (ltnP i M) => h //; rewrite (nth_map 0%N) // -/M; lia. Qed.
Lemma mind_lt i : (i < 2 * M)%N -> (f i < 2 * N)%N.
Proof. 
move=> hi; rewrite mindE //; case: (ltnP i M) => h; first by have := modes_lt h; lia.
have h' : (i - M < M)%N by lia. by have := modes_lt h'; lia.
Qed.
Lemma mind_mode i : (i < 2 * M)%N -> amp_mode N (f i) = nth 0%N modes (amp_mode M i).
Proof.
move=> hi; rewrite mindE // /amp_mode; case: (ltnP i M) => h; first by rewrite modes_lt.
have -> : (nth 0%N modes (i - M) + N < N)%N = false by lia.
by rewrite addnK.
Qed.
Lemma mind_sign i : (i < 2 * M)%N -> amp_sign C N (f i) = amp_sign C M i.
Proof.
move=> hi; rewrite mindE // /amp_sign; case: (ltnP i M) => h; first by rewrite modes_lt.
by have -> : (nth 0%N modes (i - M) + N < N)%N = false by lia.
Qed.
Lemma mind_N i : (i < M)%N -> f (M + i)%N = (N + nth 0%N modes i)%N.
Proof. by move=> hi; rewrite mindE; [rewrite ltnNge leq_addr /= addKn addnC | lia]. Qed.
Lemma mind_pair i j : (i < 2 * M)%N -> (j < 2 * M)%N -> conj_pair N (f i) (f j) = conj_pair M i j.
Proof.
move=> hi hj; rewrite /conj_pair !mindE //.
have nu a b : (a < M)%N -> (b < M)%N -> (nth 0%N modes a == nth 0%N modes b) = (a == b).
  by move=> ha hb; rewrite nth_uniq // hu.
have hm a : (a < M)%N -> (nth 0%N modes a < N)%N by exact: modes_lt.
case: (ltnP i M) => h1; case: (ltnP j M) => h2.
- have := hm _ h1; have := hm _ h2 => a b; apply/idP/idP; lia.
- have h2' : (j - M < M)%N by lia.
  have := hm _ h1; have := hm _ h2' => a b; rewrite eqn_add2r nu //; apply/idP/idP; lia.
- have h1' : (i - M < M)%N by lia.
  have := hm _ h1'; have := hm _ h2 => a b; rewrite eqn_add2r nu //; apply/idP/idP; lia.
- have h1' : (i - M < M)%N by lia. have h2' : (j - M < M)%N by lia.
  have := hm _ h1'; have := hm _ h2' => a b; apply/idP/idP; lia.
Qed.
(** amplitudes of the reduced state *)
Variables (mu mu' : vec) (cov cov' : mat) (hbar s : C).
Hypothesis hb0 : hbar != 0.
Hypothesis emu : forall i, (i < 2 * M)%N -> mu' i = mu (f i).
Hypothesis ecov : forall i j, (i < 2 * M)%N -> (j < 2 * M)%N -> cov' i j = cov (f i) (f j).
Lemma fmode i : (i < 2 * M)%N -> f (amp_mode M i) = amp_mode N (f i) /\ f (M + amp_mode M i)%N = (N + amp_mode N (f i))%N.
Proof.
move=> hi; have h := amp_mode_lt hi; rewrite (mind_N h) (mind_mode hi); split=> //.
by rewrite mindE ?h //; lia.
Qed.
Lemma red_mean i : (i < 2 * M)%N -> amp_mean M mu' hbar i = amp_mean N mu hbar (f i).
Proof.
move=> hi; have h := amp_mode_lt hi; rewrite !amp_meanE ?mind_lt // mind_sign //.
by have [<- <-] := fmode hi; rewrite !emu //; lia.
Qed.
Lemma red_cov i j : (i < 2 * M)%N -> (j < 2 * M)%N -> amp_cov_s M cov' hbar s i j = amp_cov_s N cov hbar s (f i) (f j).
Proof.
move=> hi hj; have h := amp_mode_lt hi; have h' := amp_mode_lt hj.
rewrite /amp_cov_s mind_pair // !amp_covE ?mind_lt // !mind_sign //; cbv zeta.
by have [<- <-] := fmode hi; have [<- <-] := fmode hj; rewrite !ecov //; lia.
Qed.
End Restrict.

Lemma nth_setmany N ks item k : uniq ks -> all (fun k => k < N)%N ks -> size item = size ks ->
  nth 0%N (setmany ks item (nseq N 0%N)) k = if k \in ks then (nth 0%N item (index k ks)).+1 else 0%N.
Proof.
have gen acc : uniq ks -> size item = size ks ->
   nth 0%N (setmany ks item acc) k = if k \in ks then (nth 0%N item (index k ks)).+1 else nth 0%N acc k.
  rewrite /setmany; elim: ks item acc => [|k' ks IH] [|q item] acc //= /andP[nk u] [sz].
  rewrite IH // inE nth_set_nth /= [k' == k]eq_sym; case: (eqVneq k k') => [->|] //=.
  by rewrite (negPf nk).
by move=> u _ sz; rewrite gen // nth_nseq if_same.
Qed.
Section Sq.
Variables (N : nat) (mu : vec) (cov : mat) (hbar : C).
Hypothesis rc : real_sym (2 * N) cov.
Hypothesis rmu : forall a, (a < 2 * N)%N -> mu a \is Num.real.
Hypothesis hp : 0 < hbar.
Let h0 : hbar != 0. Proof. by rewrite gt_eqF. Qed.
Section One.
Variable modes : seq nat.
Hypothesis hu : uniq modes.
Hypothesis hlt : all (fun k => k < N)%N modes.
Variables (mu' : vec) (cov' : mat).
Notation M := (size modes).
Notation f := (nth 0%N (mind N modes)).
Hypothesis emu : forall i, (i < 2 * M)%N -> mu' i = mu (f i).
Hypothesis ecov : forall i j, (i < 2 * M)%N -> (j < 2 * M)%N -> cov' i j = cov (f i) (f j).
Lemma rc' : real_sym (2 * M) cov'.
Proof.
move=> i j hi hj; have [r e] := rc (mind_lt hu hlt hi) (mind_lt hu hlt hj).
by rewrite !ecov.
Qed.
Lemma rmu' a : (a < 2 * M)%N -> mu' a \is Num.real.
Proof. by move=> ha; rewrite emu // rmu // mind_lt. Qed.
Lemma rob' : robust N mu cov hbar -> robust M mu' cov' hbar.
Proof.
case=> r1 r2; split=> [a ha|t u ht hu'].
  by rewrite emu // => /r1; apply; exact: mind_lt.
by rewrite (red_cov hu hlt 1 h0 ecov) //; apply: r2; exact: mind_lt.
Qed.
Lemma red_smom (item : seq nat) : size item = M -> let R := setmany modes item (nseq N 0%N) in
  s_ordered_moment M mu' cov' hbar 1 (map succn item ++ map succn item) = s_ordered_moment N mu cov hbar 1 (R ++ R).
Proof.
move=> sz R; set q := map _ _ ++ _.
have sq : size q = (2 * M)%N by rewrite size_cat size_map sz; lia.
have sR : size R = N by rewrite (@size_setmany N) // size_nseq.
rewrite (smom_lhq mu' hbar rc' sq (fun x => count_rep_index q x)).
set L := rep_index q; have hL x : x \in L -> (x < 2 * M)%N by move=> /rep_index_pos[]; rewrite sq.
transitivity (lhq (fun x y => amp_cov_s N cov hbar 1 (f x) (f y)) (fun x => amp_mean N mu hbar (f x)) L).
  apply: eq_lhq => [x y /hL hx /hL hy|x /hL hx]; first exact: (red_cov hu hlt 1 h0 ecov).
  exact: (red_mean hu hlt h0 emu).
have finj i j : (i < 2 * M)%N -> (j < 2 * M)%N -> f i = f j -> i = j.
  have nu a b : (a < M)%N -> (b < M)%N -> (nth 0%N modes a == nth 0%N modes b) = (a == b) by move=> ha hb; rewrite nth_uniq.
  move=> hi hj; rewrite !mindE //; case: (ltnP i M) => h1; case: (ltnP j M) => h2.
  - by move/eqP; rewrite nu // => /eqP.
  - have := modes_lt hlt h1; lia.
  - have := modes_lt hlt h2; lia.
  - by move/eqP; rewrite eqn_add2r nu; [move/eqP|..]; lia.
rewrite -(lhq_map_inj (f := f)); last by move=> x y /hL hx /hL hy; exact: finj.
symmetry; apply: smom_lhq => //; first by rewrite size_cat sR; lia.
move=> x; rewrite count_map.
have val i : (i < 2 * M)%N -> nth 0%N (R ++ R) (f i) = nth 0%N q i.
  move=> hi; rewrite mindE // !nth_cat sR size_map sz.
  have ix k : (k < M)%N -> nth 0%N R (nth 0%N modes k) = (nth 0%N item k).+1.
    by move=> hk; rewrite nth_setmany // mem_nth // index_uniq.
  case: (ltnP i M) => h1; first by rewrite (modes_lt hlt) // ix // (nth_map 0%N) ?sz.
  have h2 : (i - M < M)%N by lia.
  by rewrite ltnNge leq_addl /= addnK ix // (nth_map 0%N) ?sz.
have [/(nthP 0%N)[i]|xn] := boolP (x \in mind N modes).
  rewrite (size_mind hu hlt) => hi <-; rewrite val // -count_rep_index -/L.
  by apply: eq_in_count => y /hL hy /=; apply/eqP/eqP => [/(finj _ _ hy hi)|->].
rewrite (eq_in_count (a2 := pred0)); last first.
  by move=> y /hL hy /=; apply: contraNF xn => /eqP <-; rewrite mem_nth // (size_mind hu hlt).
rewrite count_pred0 nth_cat sR; symmetry; move: xn; rewrite mem_cat negb_or => /andP[x1 x2].
case: ltnP => h; rewrite nth_setmany // ?(negPf x1) //.
case: ifP => // xm; case/negP: x2; apply/mapP; exists (x - N)%N => //; lia.
Qed.
Lemma product_12 n : product (nseq n [:: 1; 2]%N) = map (map succn) (product (nseq n (iota 0 2))).
Proof.
elim: n => [|n IH] //=; rewrite IH !cats0 map_cat -!map_comp; congr (_ ++ _); exact: eq_map.
Qed.
Lemma sq_sum : \sum_(item <- product (nseq M [:: 1; 2]%N)) s_ordered_moment M mu' cov' hbar 1 (item ++ item)
  = number_moment N mu cov hbar [seq (k, 2%N) | k <- modes].
Proof.
have e1 : [seq iota 0 kv.2 | kv <- [seq (k, 2%N) | k <- modes]] = nseq M (iota 0 2).
  by clear; elim: modes => [|k l IH] //=; rewrite -IH.
have e2 : [seq kv.1 | kv <- [seq (k, 2%N) | k <- modes]] = modes by rewrite -map_comp map_id.
rewrite /number_moment -moment_sum; last by rewrite all_map; apply/allP.
rewrite e1 e2 product_12 big_map big_seq [RHS]big_seq; apply: eq_bigr => item.
rewrite mem_product size_nseq => /andP[/eqP sz ai]; rewrite red_smom //.
rewrite big1_seq ?mul1r // => -[[k m] q] /= xz.
have : m = 2%N /\ (q < 2)%N.
  clear -xz ai; elim: modes item xz ai => [|y l IH] [|z item] //=; rewrite inE => /orP[/eqP[_ -> ->]|h] /andP[hz ai]; last exact: (IH item).
  by split=> //; clear -hz; move: hz; rewrite !inE; case: z => [|[|]].
by case=> ->; case: q {xz} => [|[|]].
Qed.
End One.

Variable sched : nat -> seq nat.
Variable oracle : nat -> (nat -> nat -> C) -> nat -> C.
Hypothesis sched_ok : forall n, perm_eq (sched n) (iota 0 n).
Hypothesis rob : robust N mu cov hbar.
(** C46: the expectation of the product of the squares, for every list of distinct modes in any order *)
Theorem photon_number_squared_expectation_correct modes : uniq modes -> all (fun k => k < N)%N modes ->
  photon_number_squared_expectation sched oracle N mu cov modes hbar = Ok (number_moment N mu cov hbar [seq (k, 2%N) | k <- modes]).
Proof.
move=> hu hlt; rewrite /photon_number_squared_expectation /reduced_gaussian.
have -> : has (fun m => (N < m)%N) modes = false.
  by apply/negbTE; rewrite -all_predC; apply: sub_all hlt => k /=; lia.
have fin mds mu' cov' : uniq mds -> all (fun k => k < N)%N mds -> size mds = size modes ->
   (forall i, (i < 2 * size mds)%N -> mu' i = mu (nth 0%N (mind N mds) i)) ->
   (forall i j, (i < 2 * size mds)%N -> (j < 2 * size mds)%N -> cov' i j = cov (nth 0%N (mind N mds) i) (nth 0%N (mind N mds) j)) ->
   foldM (fun result item => bind (normal_ordered_expectation sched oracle (size modes) mu' cov' (item ++ item) hbar)
      (fun term => Ok (result + term))) 0 (product (nseq (size modes) [:: 1; 2]%N))
   = Ok (number_moment N mu cov hbar [seq (k, 2%N) | k <- mds]).
  move=> u' l' sz emu ecov.
  rewrite (@foldM_sum _ _ _ _ _ (fun item => s_ordered_moment (size modes) mu' cov' hbar 1 (item ++ item))).
    by rewrite add0r -sz (sq_sum u' l' emu ecov).
  move=> x item; rewrite mem_product size_nseq => /andP[/eqP si _]; rewrite /normal_ordered_expectation -sz normal_ok //.
  - exact: (rc' u' l' ecov).
  - exact: (rmu' u' l' emu).
  - exact: (rob' u' l' emu ecov).
  - by rewrite size_cat si sz; lia.
case: eqP => [e|ne] /=.
  have hi0 : all (fun k => k < N)%N (iota 0 N) by apply/allP => k; rewrite mem_iota.
  have sid i : (i < 2 * size (iota 0 N))%N -> nth 0%N (mind N (iota 0 N)) i = i.
    move=> hi; rewrite mindE ?iota_uniq //; move: hi; rewrite size_iota => hi.
    case: (ltnP i N) => h; rewrite nth_iota ?add0n //; lia.
  have sub k : k \in modes -> k \in iota 0 N by move=> km; rewrite mem_iota /= add0n (allP hlt).
  rewrite (fin (iota 0 N) mu cov) ?iota_uniq ?size_iota //.
  - congr Ok; apply: E_npow_perm; first by rewrite -map_comp map_id iota_uniq.
    apply: perm_map; rewrite perm_sym; apply: uniq_perm => //; first exact: iota_uniq.
    have le : (size (iota 0 N) <= size modes)%N by rewrite size_iota e.
    by have [_ ee] := uniq_min_size hu sub le.
  - by rewrite -{1}(size_iota 0 N) => i hi; rewrite sid.
  - by rewrite -{1 2}(size_iota 0 N) => i j hi hj; rewrite !sid.
rewrite /take_modes -/(mind N modes); have -> : all (fun i => (i < 2 * N)%N) (mind N modes).
  by apply/(all_nthP 0%N) => i; rewrite (size_mind hu hlt) => hi; exact: mind_lt.
by apply: fin.
Qed.

(** ** The moments agree with the Wigner-function moments of the specification *)
Notation smom := (s_ordered_moment N mu cov hbar 1).
Let Z := amp_cov_s N cov hbar 1.
Let m := amp_mean N mu hbar.
Lemma sq_scalar0 (h t x y a b c : C) : 2%:R * t = 1 ->
  h * h * ((x * x + y * y) * (x * x + y * y)) + 4%:R * (h * (x * x + y * y)) * (h * (a + b) - t)
   + h * h * (2%:R * ((x * x - y * y) * (a - b) + (x * y + x * y) * (c + c))) + 2%:R * ((h * (a + b) - t) * (h * (a + b) - t))
   + h * h * ((a - b) * (a - b) + (c + c) * (c + c)) =
  (x * x + y * y + a + b) * (x * x + y * y + a + b) * (h * h) +
  (2%:R * (a * a + c * c + c * c + b * b) + 4%:R * (x * x * a + x * y * c + y * x * c + y * y * b)) * 
  (h * h) - 2%:R * ((x * x + a + (y * y + b)) * h) + t.
Proof.
move=> e.
transitivity ((x * x + y * y + a + b) * (x * x + y * y + a + b) * (h * h) +
  (2%:R * (a * a + c * c + c * c + b * b) + 4%:R * (x * x * a + x * y * c + y * x * c + y * y * b)) * 
  (h * h) - 2%:R * ((x * x + a + (y * y + b)) * h) * (2%:R * t) + t * (2%:R * t)); [rring|by rewrite e !mulr1].
Qed.
Lemma sq_scalar (w x y a b c : C) :
  w * (x - 'i * y) * (w * (x + 'i * y) * (w * (x - 'i * y) * (w * (x + 'i * y) * 1) + (w * w * (a + b) - 2%:R^-1) * 1) +
   ((w * w * (a + b) - 2%:R^-1) * (w * (x + 'i * y) * 1) + w * w * (a - b + 'i * (c + c)) * (w * (x - 'i * y) * 1))) +
  ((w * w * (a + b) - 2%:R^-1) * (w * (x - 'i * y) * (w * (x + 'i * y) * 1) + (w * w * (a + b) - 2%:R^-1) * 1) +
   (w * w * (a - b - 'i * (c + c)) * (w * (x + 'i * y) * (w * (x + 'i * y) * 1) + w * w * (a - b + 'i * (c + c)) * 1) +
    (w * w * (a + b) - 2%:R^-1) * (w * (x - 'i * y) * (w * (x + 'i * y) * 1) + (w * w * (a + b) - 2%:R^-1) * 1))) =
  (x * x + y * y + a + b) * (x * x + y * y + a + b) * (w * w * (w * w)) +
  (2%:R * (a * a + c * c + c * c + b * b) + 4%:R * (x * x * a + x * y * c + y * x * c + y * y * b)) * 
  (w * w * (w * w)) - 2%:R * ((x * x + a + (y * y + b)) * (w * w)) + 2%:R^-1.
Proof.
have ii : 'i * 'i = -1 :> C by rewrite -expr2 sqrCi.
have e1 := pairC x y; have e2 := pairC (a - b) (c + c).
have e3 : (x - 'i * y) * (x - 'i * y) = (x * x - y * y) - 'i * (x * y + x * y).
  by transitivity (x * x + 'i * 'i * (y * y) - 'i * (x * y + x * y)); [rring|rewrite ii; rring].
have e4 : (x + 'i * y) * (x + 'i * y) = (x * x - y * y) + 'i * (x * y + x * y).
  by transitivity (x * x + 'i * 'i * (y * y) + 'i * (x * y + x * y)); [rring|rewrite ii; rring].
have e5 := crossC (x * x - y * y) (x * y + x * y) (a - b) (c + c).
rewrite -(@sq_scalar0 (w * w) 2%:R^-1); last by rewrite mulfV // pnatr_eq0.
rewrite -e5 -e3 -e4 -e2 -e1.
by clear; move: ((x - 'i * y)) (x + 'i * y) (a - b + 'i * (c + c)) (a - b - 'i * (c + c)) => u v p q; rring.
Qed.
Lemma smom_sq j : (j < N)%N -> let r := set_nth 0%N (nseq N 0%N) j 2%N in
  smom (r ++ r) = E_abs2_abs2 N mu cov hbar j j - 2%:R * E_abs2 N mu cov hbar j + 2%:R^-1.
Proof.
move=> hj r; have sr : size r = N by rewrite size_set_nth size_nseq; lia.
rewrite (@smom_lhq _ N mu cov hbar rc (r ++ r) [:: j; N + j; j; N + j]%N); first last.
- move=> x /=; rewrite nth_cat sr /r !nth_set_nth /= !nth_nseq !if_same.
  by case: (ltnP x N) => h; case: ifP => h'; move: h'; clear -hj h; lia.
- by rewrite size_cat sr; lia.
have n1 : (N + j == j)%N = false by move: hj; clear; lia.
rewrite !(lhq_cons, lhq_nil, big_cons, big_nil) /= ?eqxx ?n1.
rewrite !(lhq_cons, lhq_nil, big_cons, big_nil) /= ?eqxx ?n1.
have n2 : (j == N + j)%N = false by rewrite eq_sym.
rewrite n2 !(lhq_cons, lhq_nil, big_cons, big_nil).
have sy : cov (N + j)%N j = cov j (N + j)%N by apply: (proj2 (rc _ _)); move: hj; clear; lia.
have zhl : amp_cov_s N cov hbar 1 (N + j) j = amp_cov_s N cov hbar 1 j (N + j).
  by apply: amp_cov_s_sym => //; move: hj; clear; lia.
rewrite zhl.
set w := (sqrtC (2%:R * hbar))^-1; have ww : w * w = (2%:R * hbar)^-1 by exact: ww_val.
rewrite (m_lo mu hp hj) (m_hi mu hp hj) (Z_ll cov hp hj hj) (Z_hh cov hp hj hj) (Z_lh cov hp hj hj) eqxx mulr1n sy -/w.
have rhs : E_abs2_abs2 N mu cov hbar j j = 
   (mu j * mu j + mu (N + j)%N * mu (N + j)%N + cov j j + cov (N + j)%N (N + j)%N)
    * (mu j * mu j + mu (N + j)%N * mu (N + j)%N + cov j j + cov (N + j)%N (N + j)%N) * ((2%:R * hbar)^-1 * (2%:R * hbar)^-1)
  + (2%:R * (cov j j * cov j j + cov j (N + j)%N * cov j (N + j)%N + cov j (N + j)%N * cov j (N + j)%N + cov (N + j)%N (N + j)%N * cov (N + j)%N (N + j)%N)
    + 4%:R * (mu j * mu j * cov j j + mu j * mu (N + j)%N * cov j (N + j)%N + mu (N + j)%N * mu j * cov j (N + j)%N
      + mu (N + j)%N * mu (N + j)%N * cov (N + j)%N (N + j)%N)) * ((2%:R * hbar)^-1 * (2%:R * hbar)^-1) by exact: E_aa4.
rewrite rhs /E_abs2 (qm2 _ _ j j) (qm2 _ _ (N + j)) -ww.
move: (mu j) (mu (N + j)%N) (cov j j) (cov (N + j)%N (N + j)%N) (cov j (N + j)%N) => x y a b c.
rewrite (subrr c) mulr0 !addr0 !mul1r; exact: sq_scalar.
Qed.
Lemma once1E j : (j < N)%N -> set_nth 0%N (nseq N 0%N) j 1%N ++ set_nth 0%N (nseq N 0%N) j 1%N = once N [:: j].
Proof.
move=> hj; have sr : size (set_nth 0%N (nseq N 0%N) j 1%N) = N by rewrite size_set_nth size_nseq; lia.
apply: (@eq_from_nth _ 0%N); rewrite size_cat sr ?size_mkseq; first by lia.
move=> t ht; have ht' : (t < 2 * N)%N by lia.
by rewrite nth_mkseq // nth_cat sr !nth_set_nth /= !nth_nseq !if_same inE /amp_mode; case: (ltnP t N) => h; case: eqP.
Qed.
Lemma once2E j k : (j < N)%N -> (k < N)%N -> 
  let r := set_nth 0%N (set_nth 0%N (nseq N 0%N) j 1%N) k 1%N in r ++ r = once N [:: j; k].
Proof.
move=> hj hk r; have sr : size r = N by rewrite !size_set_nth size_nseq; lia.
apply: (@eq_from_nth _ 0%N); rewrite size_cat sr ?size_mkseq; first by lia.
move=> t ht; have ht' : (t < 2 * N)%N by lia.
by rewrite nth_mkseq // nth_cat sr /r !nth_set_nth /= !nth_set_nth /= !nth_nseq !if_same !inE /amp_mode; case: (ltnP t N) => h; case: eqP => e1; case: eqP.
Qed.
Theorem number_moment_mean j : (j < N)%N -> number_moment N mu cov hbar [:: (j, 1%N)] = E_n N mu cov hbar j.
Proof.
move=> hj; rewrite -(smom_once1 mu rc hp hj) /number_moment /= !big_ord_recl big_ord0 /= mul0r add0r mul1r addr0.
by rewrite -once1E.
Qed.
Theorem number_moment_square j : (j < N)%N -> number_moment N mu cov hbar [:: (j, 2%N)] = E_nn N mu cov hbar j j.
Proof.
move=> hj; rewrite /number_moment /= !big_ord_recl big_ord0 /= mul0r add0r !mul1r addr0.
rewrite smom_sq // once1E // (smom_once1 mu rc hp hj) /E_nn eqxx /E_n; rring.
Qed.
Theorem number_moment_pair j k : (j < N)%N -> (k < N)%N -> j != k ->
  number_moment N mu cov hbar [:: (j, 1%N); (k, 1%N)] = E_nn N mu cov hbar j k.
Proof.
move=> hj hk njk; rewrite -(smom_once2 mu rc hp hj hk njk) /number_moment /= !big_ord_recl !big_ord0 /= !mul0r !add0r !mul1r !addr0.
by rewrite -once2E.
Qed.
(** hence the cumulant of two modes is the covariance computed by [photon_number_covar], etc. *)
Corollary photon_number_moment_mean j : (j < N)%N ->
  photon_number_moment sched oracle N mu cov [:: (j, 1%N)] hbar = photon_number_mean N mu cov j hbar.
Proof.
move=> hj; rewrite photon_number_moment_correct //= ?hj // number_moment_mean // photon_number_mean_correct //.
Qed.

End Sq.

(** ** Limits of validity: displacements below the absolute tolerance of np.allclose are dropped *)
Variable sched : nat -> seq nat.
Variable oracle : nat -> (nat -> nat -> C) -> nat -> C.
Hypothesis sched_ok : forall n, perm_eq (sched n) (iota 0 n).
Lemma s_ordered_tiny N (mu : vec) (cov : mat) rpt hbar s : (forall a, (a < 2 * N)%N -> `|mu a| <= atol0 C) ->
  s_ordered_expectation sched oracle N mu cov rpt hbar s = s_ordered_expectation sched oracle N (fun=> 0) cov rpt hbar s.
Proof.
move=> hmu; rewrite /s_ordered_expectation; case: ifP => // _; case: ifP => // _.
have [mu1 [cov1 [e1 [m1 c1]]]] := red_gauss N rpt mu cov.
have [mu2 [cov2 [e2 [m2 c2]]]] := red_gauss N rpt (fun=> 0) cov.
have ec : cov1 = cov2.
  by move: e1 e2; rewrite /reduced_gaussian /take_modes; case: (has _ _) => //; case: (_ == _) => /=; [congruence|case: (all _ _); congruence].
rewrite -/(omodes N rpt) e1 e2 /= ec.
rewrite ifT; last first.
  apply/allP => i; rewrite mem_iota add0n => /andP[_ hi]; rewrite close0 m1 // hmu //; exact: oind_lt.
rewrite ifT //; apply/allP => i; rewrite mem_iota add0n => /andP[_ hi]; rewrite close0 m2 // normr0; exact: atol_ge0.
Qed.
Theorem photon_number_expectation_tiny_refuted N (mu : vec) (cov : mat) hbar j : real_sym (2 * N) cov ->
  (forall a, (a < 2 * N)%N -> mu a \is Num.real) -> 0 < hbar ->
  robust N (fun=> 0) cov hbar -> (j < N)%N ->
  (forall a, (a < 2 * N)%N -> `|mu a| <= atol0 C) -> mu j != 0 ->
  exists x y, [/\ photon_number_expectation sched oracle N mu cov [:: j] hbar = Ok x, photon_number_mean N mu cov j hbar = Ok y & x != y].
Proof.
move=> rc rmu hp rob hj tiny nz.
have h0 : hbar != 0 by rewrite gt_eqF.
have r0 a : (a < 2 * N)%N -> (0 : C) \is Num.real by rewrite rpred0.
exists (E_n N (fun=> 0) cov hbar j), (E_n N mu cov hbar j); split.
- rewrite /photon_number_expectation /normal_ordered_expectation; case: ifP => [/hasP[i]|_]; first by rewrite inE => /eqP ->; lia.
  rewrite s_ordered_tiny //; have := photon_number_expectation_correct oracle sched_ok rc r0 hp rob (modes := [:: j]).
  rewrite /photon_number_expectation /= hj (smom_once1 _ rc hp hj) => /(_ isT).
  by have -> : (2 * N <= j + N)%N = false by lia.
- by rewrite photon_number_mean_correct.
rewrite -subr_eq0 /E_n /E_abs2 !qm2 -opprB oppr_eq0.
have -> : (mu j * mu j + cov j j + (mu (N + j)%N * mu (N + j)%N + cov (N + j)%N (N + j)%N)) / (2%:R * hbar) - 2%:R^-1
   - ((0 * 0 + cov j j + (0 * 0 + cov (N + j)%N (N + j)%N)) / (2%:R * hbar) - 2%:R^-1)
   = (mu j * mu j + mu (N + j)%N * mu (N + j)%N) / (2%:R * hbar) by rring.
rewrite mulf_neq0 ?invr_eq0 ?mulf_neq0 ?pnatr_eq0 // gt_eqF //.
have l1 : (j < 2 * N)%N by lia. have l2 : (N + j < 2 * N)%N by lia.
rewrite ltr_paddr // -?expr2 ?real_exprn_even_ge0 ?real_exprn_even_gt0 ?rmu //=.
Qed.

(** ** Non-vacuity: a thermal state of mean photon number 1 in every mode, displaced by 1 in every position (hbar = 2) *)
Definition ex_cov : mat := fun a b => 3%:R * (a == b)%:R.
Definition ex_mu : vec := fun=> 1.
Theorem ex_ok N : [/\ real_sym (2 * N) ex_cov, (forall a, (a < 2 * N)%N -> ex_mu a \is Num.real), 0 < (2%:R : C) & robust N ex_mu ex_cov 2%:R].
Proof.
have at1 : atol0 C < 1 by rewrite /atol0 exprn_ilt1 ?invr_ge0 ?ler0n // invf_lt1 ?ltr0n // ltr1n.
split.
- by move=> a b _ _; rewrite /ex_cov rpredM ?realn // eq_sym.
- by move=> *; rewrite rpred1.
- by rewrite ltr0n.
split=> [a _|t u ht hu]; first by rewrite normr1 => h; have := le_lt_trans h at1; rewrite ltxx.
have n2 : 2%:R != 0 :> C by rewrite pnatr_eq0.
have -> : amp_cov_s N ex_cov 2%:R 1 t u = (conj_pair N t u)%:R.
  rewrite /amp_cov_s amp_covE //; cbv zeta; rewrite /ex_cov.
  have := amp_mode_lt ht; have := amp_mode_lt hu; set x := amp_mode N t; set y := amp_mode N u => hx hy.
  have -> : (x == (N + y)%N) = false by lia. have -> : ((N + x)%N == y) = false by lia.
  have -> : ((N + x)%N == (N + y)%N) = (x == y) by lia.
  rewrite mulr0n !mulr0 !addr0.
  have -> : conj_pair N t u = (x == y) && ((t < N) != (u < N))%N.
    by rewrite /conj_pair /x /y /amp_mode; case: (ltnP t N) => h1; case: (ltnP u N) => h2; apply/idP/idP; lia.
  case: (x == y) => /=; rewrite ?mulr0n ?mulr1n /amp_sign.
    case: (ltnP t N) => h1; case: (ltnP u N) => h2; rewrite /= ?mulr0n ?mulr1n; ffield; rewrite ?mulf_neq0 // -mulr2n -?natrM.
  by rewrite !(mulr0, subr0, mul0r).
rewrite /tiny_or_zero; case: (conj_pair _ _ _) => //=; rewrite mulr1n normr1 mulr1 => h.
have : atol0 C + rtol0 C < 1.
  rewrite (@lt_le_trans _ _ (2%:R^-1 + 2%:R^-1)) //; last by rewrite -mulr2n -[_ *+ 2]mulr_natr mulVf.
  have e k : (0 < k)%N -> (10%:R^-1 : C) ^+ k < 2%:R^-1.
    case: k => // k _; rewrite exprS; apply: (@le_lt_trans _ _ (10%:R^-1 * 1)).
      by rewrite ler_wpmul2l ?invr_ge0 ?ler0n // exprn_ile1 ?invr_ge0 ?ler0n // invf_le1 ?ltr0n // ler1n.
    by rewrite mulr1 ltf_pinv ?posrE ?ltr0n // ltr_nat.
  by rewrite ltr_add // e.
by move=> h'; have := le_lt_trans h h'; rewrite ltxx.
Qed.
End Red.
