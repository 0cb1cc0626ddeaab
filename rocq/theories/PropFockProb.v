(** C27 (continued): fock_prob and fock_threshold_prob are probability distributions. *)
From mathcomp Require Import all_ssreflect all_fingroup all_algebra all_field zify.
From Verif Require Import Prelude PyBase ArrLoop SpecHaf ThHaf ThGray ThPerm ThPerm2 ThRec MPowerHaf PropKernels
  MHafnian MPermanent PropPowerHaf PropHafnian PropPermanent PropPerm2.
Set Implicit Arguments.
Unset Strict Implicit.
Unset Printing Implicit Defensive.
Import Order.Theory GRing.Theory Num.Theory.
Local Open Scope ring_scope.

Lemma mode_listE n : mode_list n = rep_index n.
Proof.
rewrite /mode_list -red_rowsE /red_rows.
elim: (zip _ _) => //= -[i j] l IH /=; case: ifP => /= [_|]; rewrite IH //.
by case: j.
Qed.

(** the permanent of the matrix delta(L_i, s_j) *)
Lemma pq_delta (R : comRingType) M (L s : seq nat) : all (fun i => i < M)%N s -> size L = size s ->
  pq (fun x z => (x == z)%:R : R) L s = if perm_eq L s then (\prod_(k < M) (count_mem (k : nat) s)`!)%:R else 0.
Proof.
elim: L s => [|x L IH] s sM sz.
  by case: s sz sM => // _ _; rewrite /= big1.
rewrite /= (eq_big_seq (fun z => (x == z)%:R * pq (fun x z => (x == z)%:R) L (rem x s))); last first.
  by move=> z zs; case: eqP => [->|]; rewrite ?mul0r.
rewrite -mulr_suml -natr_sum; have -> : (\sum_(i <- s) (x == i) = count_mem x s)%N.
  by rewrite -sum1_count [RHS]big_mkcond; apply: eq_bigr => i _ /=; rewrite eq_sym; case: (x == i).
case: (boolP (x \in s)) => xs; last first.
  rewrite (count_memPn xs) mul0r ifF //; apply/negP => /perm_mem/(_ x).
  by rewrite mem_head (negPf xs).
have sM' : all (fun i => i < M)%N (rem x s) by apply/allP => i /mem_rem; apply: (allP sM).
rewrite IH //; last by rewrite size_rem // -sz.
have -> : perm_eq (x :: L) s = perm_eq L (rem x s) by rewrite (permPr (perm_to_rem xs)) perm_cons.
case: ifP => _; last by rewrite mulr0.
rewrite -natrM; congr (_%:R); have xM := allP sM _ xs.
rewrite (bigD1 (Ordinal xM)) //= [RHS](bigD1 (Ordinal xM)) //= mulnA; congr (_ * _)%N.
  have : (0 < count_mem x s)%N by rewrite -has_count has_pred1.
  by rewrite count_mem_rem eqxx subn1; case: (count_mem x s) => [//|c _]; rewrite factS.
by apply: eq_bigr => i ix; rewrite count_mem_rem -[x]/(val (Ordinal xM)) val_eqE eq_sym (negPf ix) subn0.
Qed.

Section Fock.
Variable C : numClosedFieldType.
Notation mat := (nat -> nat -> C).

Lemma fac_prodE n : fac_prod C n = (\prod_(k <- n) k`!)%:R.
Proof. by rewrite /fac_prod for_prod mul1r natr_prod. Qed.
Lemma fac_prod_gt0 n : 0 < fac_prod C n.
Proof. by rewrite fac_prodE ltr0n prodn_gt0 // => i; apply: fact_gt0. Qed.

(** transition amplitude (unnormalised): permanent of the submatrix with rows [rep m] and columns [rep n] *)
Definition amp (U : mat) (n m : seq nat) : C :=
  perm_spec (sumn n) (fun i j => U (nth 0%N (rep_index m) i) (nth 0%N (rep_index n) j)).

Theorem fock_prob_correct n m M (U : mat) : sumn n = sumn m -> (size n <= M)%N -> (size m <= M)%N ->
  fock_prob n m M U = Ok (`|amp U n m| ^+ 2 / ((\prod_(k <- n) k`!)%:R * (\prod_(k <- m) k`!)%:R)).
Proof.
move=> e sn sm; rewrite /fock_prob e eqxx [~~ true]/= !mode_listE ifF; last first.
  apply/norP; split; rewrite negbK; apply/allP => i /rep_index_lt h; [apply: leq_trans h sn|apply: leq_trans h sm].
by rewrite !size_rep_index e perm_correct /= !fac_prodE /amp e.
Qed.
Theorem fock_prob_mismatch n m M (U : mat) : sumn n <> sumn m -> fock_prob n m M U = Err ValueError.
Proof. by rewrite /fock_prob; case: eqP. Qed.

(** the multiset of values of h *)
Definition hseq N M (h : {ffun 'I_N -> 'I_M}) : seq nat := [seq val (h i) | i <- enum 'I_N].
Lemma size_hseq N M (h : {ffun 'I_N -> 'I_M}) : size (hseq h) = N.
Proof. by rewrite size_map size_enum_ord. Qed.
Lemma nth_hseq N M (h : {ffun 'I_N -> 'I_M}) (i : 'I_N) : nth 0%N (hseq h) i = h i.
Proof. by rewrite (nth_map i) ?size_enum_ord // nth_ord_enum. Qed.
Lemma hseq_lt N M (h : {ffun 'I_N -> 'I_M}) : all (fun i => i < M)%N (hseq h).
Proof. by apply/allP => x /mapP[i _ ->]; apply: ltn_ord. Qed.

Definition occ M (s : seq nat) : seq nat := [seq count_mem k s | k <- iota 0 M].
Lemma occ_rep m : occ (size m) (rep_index m) = m.
Proof.
apply: (@eq_from_nth _ 0%N); rewrite size_map size_iota // => i hi.
by rewrite (nth_map 0%N) ?size_iota // nth_iota // count_rep_index.
Qed.
Lemma rep_occ M s : all (fun i => i < M)%N s -> perm_eq (rep_index (occ M s)) s.
Proof.
move=> sM; apply/allP => y _ /=; apply/eqP; rewrite count_rep_index; case: (ltnP y M) => yM.
  by rewrite (nth_map 0%N) ?size_iota // nth_iota.
by rewrite nth_default ?size_map ?size_iota //; apply/esym/count_memPn/negP => /(allP sM) /=; rewrite ltnNge yM.
Qed.
Lemma fact_occ m : (\prod_(k < size m) (count_mem (k : nat) (rep_index m))`! = \prod_(k <- m) k`!)%N.
Proof.
rewrite -[in RHS](occ_rep m) big_map -(big_mkord xpredT (fun k => (count_mem k (rep_index m))`!)).
by rewrite /index_iota subn0.
Qed.
Lemma sumn_occ M s : all (fun i => i < M)%N s -> sumn (occ M s) = size s.
Proof. by move=> /rep_occ/perm_size; rewrite size_rep_index. Qed.

(** [ms] lists every occupation vector of M modes with N photons exactly once *)
Definition all_occupations (M N : nat) (ms : seq (seq nat)) : Prop :=
  uniq ms /\ forall m, (m \in ms) = (size m == M) && (sumn m == N).

Lemma delta_perm N M (h : {ffun 'I_N -> 'I_M}) m : size m = M -> sumn m = N ->
  perm_spec N (fun i j => (nth 0%N (hseq h) i == nth 0%N (rep_index m) j)%:R : C) =
  if perm_eq (hseq h) (rep_index m) then (\prod_(k <- m) k`!)%:R else 0.
Proof.
move=> sm sN; have sz : size (hseq h) = size (rep_index m) by rewrite size_hseq size_rep_index.
have := perm_spec_nth (fun x z => (x == z)%:R : C) sz; rewrite size_hseq => ->.
rewrite (@pq_delta _ M) //; last by rewrite -sm; apply/allP => i /rep_index_lt.
by case: ifP => // _; rewrite -sm fact_occ.
Qed.

Lemma count_hseq N M m : size m = M -> sumn m = N ->
  (#|[set h : {ffun 'I_N -> 'I_M} | perm_eq (hseq h) (rep_index m)]| * \prod_(k <- m) k`!)%:R = (N`!)%:R :> C.
Proof.
move=> sm sN; transitivity (\sum_(h : {ffun 'I_N -> 'I_M}) perm_spec N (fun i j => (nth 0%N (hseq h) i == nth 0%N (rep_index m) j)%:R : C)).
  rewrite (eq_bigr _ (fun h _ => delta_perm h sm sN)) -big_mkcond /= sumr_const natrM mulr_natl; congr (_ *+ _).
  by rewrite cardsE.
rewrite exchange_big /= (eq_bigr (fun=> 1)) => [|s _]; first by rewrite sumr_const card_Sn.
rewrite (eq_bigr (fun h : {ffun 'I_N -> 'I_M} => \prod_(i < N) (val (h i) == nth 0%N (rep_index m) (s i))%:R)); last first.
  by move=> h _; apply: eq_bigr => i _; rewrite nth_hseq.
rewrite -(bigA_distr_bigA (fun (i : 'I_N) (k : 'I_M) => (val k == nth 0%N (rep_index m) (s i))%:R : C)) big1 // => i _.
have hk : (nth 0%N (rep_index m) (s i) < M)%N.
  by rewrite -sm; apply: rep_index_lt; apply: mem_nth; rewrite size_rep_index sN.
rewrite (bigD1 (Ordinal hk)) //= eqxx big1 ?addr0 // => k /negPf; rewrite -val_eqE /= => -> //.
Qed.

Lemma sum_hseq N M ms (F : seq nat -> C) : all_occupations M N ms -> (forall s t, perm_eq s t -> F s = F t) ->
  \sum_(h : {ffun 'I_N -> 'I_M}) F (hseq h) = \sum_(m <- ms) (N`!)%:R / (\prod_(k <- m) k`!)%:R * F (rep_index m).
Proof.
move=> [ums msE] Fp.
transitivity (\sum_(h : {ffun 'I_N -> 'I_M}) \sum_(m <- ms) (perm_eq (hseq h) (rep_index m))%:R * F (rep_index m)).
  apply: eq_bigr => h _; pose m0 := occ M (hseq h).
  have r0 := rep_occ (hseq_lt h).
  have m0s : m0 \in ms by rewrite msE size_map size_iota eqxx sumn_occ ?hseq_lt // size_hseq /=.
  rewrite (bigD1_seq m0) //= perm_sym r0 mul1r -(Fp _ _ r0) big1_seq ?addr0 // => m /andP[mm ms_].
  case: (boolP (perm_eq _ _)); rewrite ?mul0r // => p; case/negP: mm; apply/eqP.
  rewrite -(occ_rep m); move: ms_; rewrite msE => /andP[/eqP -> _].
  by apply/eq_map => k; apply/esym/(seq.permP p).
rewrite exchange_big /=; apply: eq_big_seq => m; rewrite msE => /andP[/eqP sm /eqP sN].
rewrite -mulr_suml -(count_hseq sm sN) natrM mulfK; last first.
  by rewrite pnatr_eq0 -lt0n prodn_gt0 // => i; apply: fact_gt0.
congr (_ * _); rewrite -natr_sum; congr (_%:R).
by rewrite -sum1_card [RHS]big_mkcond /=; apply: eq_bigr => h _; rewrite inE; case: (perm_eq _ _).
Qed.

Lemma pq_tr (X Z : eqType) (A : X -> Z -> C) (x0 : X) (z0 : Z) L s : size L = size s -> pq A L s = pq (fun z x => A x z) s L.
Proof.
move=> sz; have eL : L = [seq nth x0 L i | i <- iota 0 (size L)] by rewrite map_nth_iota0 // take_size.
have es : s = [seq nth z0 s i | i <- iota 0 (size L)] by rewrite map_nth_iota0 ?sz // take_size.
move: (nth x0 L) (nth z0 s) (size L) eL es => f g k -> ->.
by rewrite !pq_map -!perm_spec_pq -perm_spec_tr.
Qed.

(** C27, fock_prob: for every isometry (in particular every unitary) the probabilities over all output
    patterns with the same number of photons sum to one *)
Theorem fock_prob_normalised n M (U : mat) ms : (size n <= M)%N ->
  (forall a b, (a < M)%N -> (b < M)%N -> \sum_(k < M) (U k a)^* * U k b = (a == b)%:R) ->
  all_occupations M (sumn n) ms ->
  \sum_(m <- ms) (if fock_prob n m M U is Ok p then p else 0) = 1.
Proof.
move=> sn iso occ_ms; have [ums msE] := occ_ms; set N := sumn n.
have N0 : (N`!)%:R != 0 :> C by rewrite pnatr_eq0 -lt0n fact_gt0.
have n0 : (\prod_(k <- n) k`!)%:R != 0 :> C.
  by rewrite pnatr_eq0 -lt0n prodn_gt0 // => i; apply: fact_gt0.
pose L := rep_index n; have sL : size L = N by rewrite size_rep_index.
have Llt i : (i < N)%N -> (nth 0%N L i < M)%N.
  by move=> hi; apply: leq_trans sn; apply: rep_index_lt; apply: mem_nth; rewrite sL.
pose F s := `|pq U s L| ^+ 2.
have ampE m : sumn m = N -> amp U n m = pq U (rep_index m) L.
  by move=> sm; rewrite -perm_spec_nth ?sL size_rep_index sm.
pose G s := if size s == N then F s else 0.
have Gp s t : perm_eq s t -> G s = G t.
  move=> st; rewrite /G (perm_size st); case: eqP => // sN; rewrite /F; congr (`|_| ^+ 2).
  have sN' : size s = N by rewrite (perm_size st).
  by rewrite (pq_tr _ 0%N 0%N) ?sL // [RHS](pq_tr _ 0%N 0%N) ?sL //; apply: pq_perm.
have key := sum_hseq occ_ms Gp.
have alg (x a b c : C) : b != 0 -> x / (a * c) = b^-1 / a * (b / c * x).
  move=> b0; have -> : b^-1 / a * (b / c * x) = (b^-1 * b) * (x * (a^-1 * c^-1)) by rring.
  by rewrite mulVf // mul1r invfM.
transitivity ((N`!)%:R^-1 / (\prod_(k <- n) k`!)%:R * \sum_(h : {ffun 'I_N -> 'I_M}) G (hseq h)).
  rewrite key mulr_sumr; apply: eq_big_seq => m; rewrite msE => /andP[/eqP sm /eqP sN].
  rewrite fock_prob_correct ?sm // ampE // /G size_rep_index sN eqxx /F.
  exact: alg.
have -> : \sum_(h : {ffun 'I_N -> 'I_M}) G (hseq h) = (N`!)%:R * (\prod_(k <- n) k`!)%:R.
  rewrite (eq_bigr (fun h : {ffun 'I_N -> 'I_M} => \sum_(s : 'S_N) \sum_(t : 'S_N) \prod_(i < N) (U (h i) (nth 0%N L (s i)) * (U (h i) (nth 0%N L (t i)))^*))).
    rewrite exchange_big /=.
    rewrite (eq_bigr (fun=> (\prod_(k <- n) k`!)%:R)) => [|s _]; first by rewrite sumr_const card_Sn mulr_natl.
    rewrite exchange_big /=.
    rewrite (eq_bigr (fun t : 'S_N => \prod_(i < N) (nth 0%N L (t i) == nth 0%N L (s i))%:R)); last first.
      move=> t _; rewrite -(bigA_distr_bigA (fun (i : 'I_N) (k : 'I_M) => U k (nth 0%N L (s i)) * (U k (nth 0%N L (t i)))^*)).
      by apply: eq_bigr => i _; rewrite -iso ?Llt //; apply: eq_bigr => k _; rewrite mulrC.
    rewrite (reindex_inj (mulgI s)) /=.
    transitivity (perm_spec N (fun i j => (nth 0%N L i == nth 0%N L j)%:R : C)).
      apply: eq_bigr => t _; rewrite [RHS](reindex_inj (@perm_inj _ s)) /=.
      by apply: eq_bigr => i _; rewrite permM eq_sym.
    rewrite -sL (perm_spec_nth (fun x z => (x == z)%:R)) // (@pq_delta _ (size n)) ?perm_refl //; last first.
      by apply/allP => i /rep_index_lt.
    by rewrite fact_occ.
  move=> h _; rewrite /G size_hseq eqxx /F normCK -perm_spec_nth ?size_hseq ?sL // rmorph_sum mulr_suml.
  apply: eq_bigr => s _; rewrite mulr_sumr; apply: eq_bigr => t _.
  rewrite rmorph_prod -big_split /=; apply: eq_bigr => i _; by rewrite nth_hseq.
by rewrite mulrACA mulVf // mulVf // mulr1.
Qed.

(** such a list exists for all M and N *)
Fixpoint occupations (M N : nat) : seq (seq nat) :=
  if M is M'.+1 then flatten [seq [seq k :: m | m <- occupations M' (N - k)] | k <- iota 0 N.+1]
  else if N == 0%N then [:: [::]] else [::].
Theorem occupations_all M N : all_occupations M N (occupations M N).
Proof.
elim: M N => [|M IH] N.
  by rewrite /=; case: eqP => [->|N0]; split=> // -[|k m]; rewrite ?in_nil ?inE //=; apply/esym/eqP => e; case: N0.
split=> [|m].
  rewrite /occupations -/occupations; elim: (iota 0 N.+1) (iota_uniq 0 N.+1) => //= k l IHl /andP[kl /IHl u].
  rewrite cat_uniq u map_inj_uniq => [|a b []//]; rewrite (proj1 (IH _)) andbT /=.
  apply/hasPn => m /flattenP[s /mapP[j jl ->] /mapP[m1 _ ->]]; apply/negP => /mapP[m2 _ [e _]].
  by rewrite -e jl in kl.
rewrite /occupations -/occupations; apply/flattenP/idP => [[s /mapP[k]]|].
  rewrite mem_iota => hk -> /mapP[m1]; rewrite (proj2 (IH _)) => /andP[/eqP s1 /eqP s2] ->.
  by rewrite /= s1 s2 eqxx /= subnKC.
case: m => // k m /andP[/eqP [sm] /eqP sN]; rewrite /= in sN; exists [seq k :: m | m <- occupations M (N - k)].
  by apply: (map_f (fun k => [seq k :: m | m <- occupations M (N - k)])); rewrite mem_iota; lia.
by apply: map_f; rewrite (proj2 (IH _)) sm eqxx /=; apply/eqP; lia.
Qed.

(** *** Threshold detection *)
Variable sched : nat -> seq nat.
Hypothesis sched_ok : forall s, perm_eq (sched s) (iota 0 s).

(** the click pattern with clicks exactly in D, as a 0/1 list *)
Definition clicks M (D : {set 'I_M}) : seq nat := [seq nat_of_bool (i \in D) | i <- enum 'I_M].

(** permanent of T_Z^H T_Z + I - T^H T on the occupied input modes (no click outside Z) *)
Definition silent (n : seq nat) Mout (T : mat) (Z : {set 'I_Mout}) : C :=
  perm_spec (sumn n) (fun i j =>
    let a := nth 0%N (rep_index n) i in let b := nth 0%N (rep_index n) j in
    \sum_(r in Z) (T r a)^* * T r b + ((a == b)%:R - \sum_(r < Mout) (T r a)^* * T r b)).

Lemma clicksE M (D : {set 'I_M}) : [seq i <- iota 0 M | (0 < nth 0%N (clicks D) i)%N] = [seq val i | i <- enum D].
Proof.
rewrite -[iota 0 M]val_enum_ord filter_map; congr map.
rewrite -[RHS]/(filter _ _) -enumT; apply: eq_filter => i /=.
by rewrite /clicks (nth_map i) ?size_enum_ord // nth_ord_enum; case: (i \in D).
Qed.

(** inclusion-exclusion over the clicked detectors *)
Definition incl_excl (n : seq nat) Mout (T : mat) (D : {set 'I_Mout}) : C :=
  \sum_(Z : {set 'I_Mout} | Z \subset D) (-1) ^+ (#|D| - #|Z|) * silent n T Z.

Lemma brs_silent n Mout (T : mat) (D : {set 'I_Mout}) :
  subset_sum (perm_gram (m := #|D|) (sumn n) (fun i j => T (nth 0%N [seq val i | i <- enum D] i) (nth 0%N (rep_index n) j))
    (fun i j => (nth 0%N (rep_index n) i == nth 0%N (rep_index n) j)%:R
       - \sum_(r < Mout) (T r (nth 0%N (rep_index n) i))^* * T r (nth 0%N (rep_index n) j)))
  = incl_excl n T D.
Proof.
rewrite /subset_sum /incl_excl.
rewrite (reindex_onto (fun Y : {set 'I_#|D|} => [set enum_val y | y in Y]) (fun Z => [set y | enum_val y \in Z])) /=; last first.
  move=> Z ZD; apply/setP => x; apply/imsetP/idP => [[y]|xZ]; first by rewrite inE => h ->.
  have xD := subsetP ZD _ xZ; exists (enum_rank_in xD x); rewrite ?inE enum_rankK_in //.
apply: eq_big => [Y|Y _].
  apply/esym/andP; split; first by apply/subsetP => x /imsetP[y _ ->]; apply: enum_valP.
  by apply/eqP/setP => y; rewrite inE mem_imset //; apply: enum_val_inj.
rewrite card_imset; last exact: enum_val_inj.
congr (_ * _); apply: eq_perm_spec => i j _ _; congr (_ + _).
rewrite big_imset /=; last by move=> a b _ _; apply: enum_val_inj.
apply: eq_bigr => y _.
have -> // : nth 0%N [seq val i | i <- enum D] y = enum_val y.
by rewrite (nth_map (enum_val y)) -?cardE // -enum_val_nth.
Qed.

Theorem fock_threshold_prob_correct n Mout (T : mat) (D : {set 'I_Mout}) :
  let Min := size n in (Mout <= Min)%N ->
  let E := fun i j => (i == j)%:R - \sum_(r < Mout) (T r i)^* * T r j in
  (allclose (rtol0 C) (atol0 C) Min Min E (fun _ _ => 0) ->
     (0 < sumn n)%N /\ forall i j, (i < Min)%N -> (j < Min)%N -> E i j = 0) ->
  fock_threshold_prob sched n (clicks D) Mout Min T = Ok ('Re (incl_excl n T D) / (\prod_(k <- n) k`!)%:R).
Proof.
move=> Min hM E hE; rewrite /fock_threshold_prob eqxx size_map size_enum_ord eqxx ltnNge hM [~~ true]/=.
rewrite mode_listE clicksE size_map -cardE size_rep_index fac_prodE.
have gE i j : gram T (iota 0 Mout) i j = \sum_(r < Mout) (T r i)^* * T r j by rewrite /gram for_sum add0r sum_iota.
have acE : allclose (rtol0 C) (atol0 C) Min Min (fun i j => (i == j)%:R - gram T (iota 0 Mout) i j) (fun _ _ => 0)
  = allclose (rtol0 C) (atol0 C) Min Min E (fun _ _ => 0).
  by apply: eq_all => i; apply: eq_all => j; rewrite gE.
rewrite acE; case: ifP => [/hE[N0 E0]|_].
  rewrite ubrs_correct // brs_correct //= -brs_silent; congr (Ok ('Re _ / _)).
  apply: eq_bigr => Y _; congr (_ * _); apply: eq_perm_spec => i j hi hj; congr (_ + _).
  by apply/esym/E0; apply: rep_index_lt; apply: mem_nth; rewrite size_rep_index.
rewrite brs_correct //= -brs_silent; congr (Ok ('Re _ / _)).
by apply: eq_bigr => Y _; congr (_ * _); apply: eq_perm_spec => i j hi hj; rewrite gE.
Qed.

Lemma incl_excl_total n Mout (T : mat) : \sum_(D : {set 'I_Mout}) incl_excl n T D = silent n T [set: 'I_Mout].
Proof.
rewrite /incl_excl (exchange_big_dep xpredT) //= (bigD1 setT) //= [X in _ + X]big1 ?addr0 => [|Z ZT].
  rewrite (big_pred1 setT) ?subnn ?mul1r // => D; rewrite subTset //.
have [x xZ] : exists x, x \notin Z.
  apply/existsP; rewrite -negb_forall; apply: contraNN ZT => /forallP h; apply/eqP/setP => x; by rewrite inE h.
rewrite big_mkcond /= (toggle_sum (r := x)) // => D xD.
have -> : (Z \subset x |: D) = (Z \subset D).
  apply/subsetP/subsetP => h y yZ; have := h y yZ; rewrite in_setU1; last by move=> ->; rewrite orbT.
  by case: eqP => // e; rewrite -e yZ in xZ.
case: ifP => [/subset_leq_card ZD|_]; last by rewrite oppr0.
by rewrite cardsU1 xD /= subSn // exprS !mulN1r mulNr.
Qed.

(** For every T with at most as many outputs as inputs, the probabilities of all click patterns sum to 1 *)
Theorem fock_threshold_prob_normalised n Mout (T : mat) :
  let Min := size n in (Mout <= Min)%N ->
  let E := fun i j => (i == j)%:R - \sum_(r < Mout) (T r i)^* * T r j in
  (allclose (rtol0 C) (atol0 C) Min Min E (fun _ _ => 0) ->
     (0 < sumn n)%N /\ forall i j, (i < Min)%N -> (j < Min)%N -> E i j = 0) ->
  \sum_(D : {set 'I_Mout}) (if fock_threshold_prob sched n (clicks D) Mout Min T is Ok p then p else 0) = 1.
Proof.
move=> Min hM E hE; rewrite (eq_bigr _ (fun D _ => congr1 (fun r => if r is Ok p then p else 0) (fock_threshold_prob_correct D hM hE))).
rewrite -mulr_suml -raddf_sum incl_excl_total.
have -> : silent n T [set: 'I_Mout] = (\prod_(k <- n) k`!)%:R.
  rewrite /silent -(size_rep_index n).
  transitivity (perm_spec (size (rep_index n)) (fun i j => (nth 0%N (rep_index n) i == nth 0%N (rep_index n) j)%:R : C)).
    apply: eq_perm_spec => i j _ _ /=; rewrite addrC -[RHS](subrK (\sum_(r < Mout) (T r (nth 0%N (rep_index n) i))^* * T r (nth 0%N (rep_index n) j))).
    by congr (_ + _); apply: eq_bigl => r; rewrite inE.
  rewrite (perm_spec_nth (fun x z => (x == z)%:R)) // (@pq_delta _ (size n)) ?perm_refl ?fact_occ //.
  by apply/allP => i /rep_index_lt.
have n0 : (\prod_(k <- n) k`!)%:R != 0 :> C by rewrite pnatr_eq0 -lt0n prodn_gt0 // => i; apply: fact_gt0.
have r : 'Re ((\prod_(k <- n) k`!)%:R : C) = (\prod_(k <- n) k`!)%:R by apply/Creal_ReP; rewrite rpred_nat.
by apply: etrans (congr1 (fun x => x / _) r) _; rewrite divff.
Qed.

(** Without photons and for unitary T the code returns 0 for the (certain) no-click outcome: [ubrs] skips the
    empty set, whose term is the permanent of the empty matrix, 1. *)
Theorem fock_threshold_vacuum_refuted (M : nat) (T : mat) :
  (forall i j, (i < M)%N -> (j < M)%N -> \sum_(r < M) (T r i)^* * T r j = (i == j)%:R) ->
  fock_threshold_prob sched (nseq M 0%N) (nseq M 0%N) M M T = Ok 0
  /\ 'Re (incl_excl (nseq M 0%N) T (set0 : {set 'I_M})) / (\prod_(k <- nseq M 0%N) k`!)%:R = 1.
Proof.
move=> iso; split.
  rewrite /fock_threshold_prob size_nseq eqxx ltnn [~~ true]/= mode_listE.
  have -> : [seq i <- iota 0 M | (0 < nth 0%N (nseq M 0%N) i)%N] = [::].
    by apply/eqP; rewrite -[_ == _]negbK -has_filter; apply/hasPn => i _; rewrite nth_nseq; case: ifP.
  rewrite ifT; last first.
    apply/allP2 => i j hi hj; rewrite /close /gram for_sum add0r sum_iota iso // subrr subr0 normr0 mulr0 addr0.
    by rewrite exprn_ge0 // invr_ge0 ler0n.
  have s0 : sched 0 = [::] by have := sched_ok 0; rewrite /= => /perm_nilP.
  by rewrite /ubrs expn0 subnn s0 /= raddf0 mul0r.
rewrite /incl_excl (big_pred1 set0) => [|Z]; last by rewrite subset0.
rewrite subnn mul1r /silent sumn_nseq mul0n.
have -> : (\prod_(k <- nseq M 0%N) k`!)%N = 1%N by rewrite big_nseq; elim: M {T iso} => //= M ->.
rewrite /perm_spec (eq_bigr (fun=> 1)) => [|s _]; last by rewrite big_ord0.
rewrite sumr_const card_Sn fact0.
have r : 'Re (1 : C) = 1 by apply/Creal_ReP; rewrite rpred1.
by rewrite r divr1.
Qed.
End Fock.

(** Non-vacuity: the identity interferometer on three modes *)
Example fock_prob_ex : \sum_(m <- occupations 3 2) (if fock_prob [:: 1; 0; 1]%N m 3 (fun i j => (i == j)%:R : algC) is Ok p then p else 0) = 1.
Proof.
apply: (fock_prob_normalised (C := [numClosedFieldType of algC])) => // [a b ha hb|]; last exact: occupations_all.
rewrite (bigD1 (Ordinal ha)) //= eqxx rmorph1 mul1r big1 ?addr0 // => k /negPf; rewrite -val_eqE /= => ->.
by rewrite rmorph0 mul0r.
Qed.
