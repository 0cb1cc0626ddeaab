(** The samplers of samples.py: shapes and bounds of every possible outcome. *)
From mathcomp Require Import all_ssreflect all_algebra zify.
From Verif Require Import Prelude PyBase PyRand ArrLoop MHafnian MCharpoly MBatch MSymplectic MMeans MSamples PropRand SpecHaf PropBatch PropMeans.
Set Implicit Arguments.
Unset Strict Implicit.
Unset Printing Implicit Defensive.
Import GRing.Theory Num.Theory.
Local Open Scope ring_scope.

(** invert_permutation(p) is the inverse of the permutation p *)
Theorem invert_permutation_correct (p : seq nat) : perm_eq p (iota 0 (size p)) ->
  (forall k, (k < size p)%N -> invert_permutation p (nth 0%N p k) = k) /\
  (forall i, (i < size p)%N -> (invert_permutation p i < size p)%N /\ nth 0%N p (invert_permutation p i) = i).
Proof.
move=> hp; have up : uniq p by rewrite (perm_uniq hp) iota_uniq.
have inv k : (k < size p)%N -> invert_permutation p (nth 0%N p k) = k.
  rewrite /invert_permutation; have : (size p <= size p)%N by [].
  elim: {1 3 4}(size p) k => [//|n IH] k hn hk; rewrite for_iotaS add0n /upd1.
  case: eqP => [/eqP|ne]; first by rewrite nth_uniq // ?(leq_trans hk) // => /eqP.
  by apply: IH; [lia|case: (k =P n) ne => [->//|]; lia].
split=> // i hi; have ip : i \in p by rewrite (perm_mem hp) mem_iota.
have -> : invert_permutation p i = index i p by rewrite -[X in invert_permutation _ X](nth_index 0%N ip) inv ?index_mem.
by rewrite index_mem nth_index.
Qed.

Section Samples.
Variable C : numClosedFieldType.
Variable sched : nat -> seq nat.
Notation mat := (nat -> nat -> C).
Notation vec := (nat -> C).
Variable williamson : nat -> mat -> res (mat * mat).
Variable cholesky : nat -> mat -> res mat.
Variable eps : C.

Lemma photon_means_order_perm M (mu : vec) (cov : mat) order : photon_means_order M mu cov = Ok order ->
  (0 < M)%N /\ perm_eq order (iota 0 M).
Proof.
rewrite /photon_means_order /photon_number_mean_vector.
have : forall l acc, (forall j, j \in l -> j < M)%N -> exists ms, foldM (fun acc j => bind (photon_number_mean M mu cov j 2%:R) (fun x => Ok (rcons acc x))) acc l = Ok ms /\ size ms = (size acc + size l)%N.
  elim=> [|j l IH] acc hl /=; first by exists acc; rewrite addn0.
  rewrite {1}/photon_number_mean; have hj : (j < M)%N by apply: hl; rewrite mem_head.
  have -> : (2 * M <= j + M)%N = false by lia.
  rewrite /=; have [|ms [-> sz]] := IH (rcons acc ((mu j ^+ 2 + mu (j + M)%N ^+ 2 + cov j j + cov (j + M)%N (j + M)%N - 2%:R) / (2%:R * 2%:R))).
    by move=> i hi; apply: hl; rewrite inE hi orbT.
  by exists ms; rewrite sz size_rcons addSnnS.
case/(_ (iota 0 M) [::]) => [j|ms [-> sz]]; first by rewrite mem_iota.
rewrite /=; case: (posnP M) => // M0; move: sz; rewrite size_iota add0n => -> -[<-].
by split=> //; rewrite perm_sort.
Qed.

(** the shape of a photon-number pattern *)
Definition pattern_ok (M cutoff max_photons : nat) (p : seq nat) : Prop :=
  [/\ size p = M, forall i, (i < M)%N -> (nth 0%N p i <= cutoff)%N, (sumn p <= max_photons)%N & nth 0%N p M.-1 != cutoff].

(** C34: every outcome that generate_hafnian_sample can return, whatever the Gaussian draws and the picks, is -1 or a list of
    one photon number per mode, all at most cutoff, that of the last mode below the cutoff, and their sum at most max_photons. *)
Theorem generate_hafnian_sample_ok M cov mean hbar cutoff max_photons z1 z2 r :
  outcome (generate_hafnian_sample sched williamson cholesky eps M cov mean hbar cutoff max_photons z1 z2) (Ok (Some r)) ->
  pattern_ok M cutoff max_photons r.
Proof.
rewrite /generate_hafnian_sample !outcome_bindOk => -[order []]; rewrite outcome_of_res => -[/esym/photon_means_order_perm[M0 po]].
rewrite outcome_bindOk => -[[T W] [_]]; rewrite outcome_bindOk => -[ch [_]]; rewrite outcome_bindOk => -[B [_]].
rewrite outcome_bindOk => -[[ga det] [hdet]]; rewrite outcome_retE => -[].
have {hdet} hd i : (det i <= cutoff)%N.
  move: i; apply: (outcome_pfold (I := fun st : vec * (nat -> nat) => forall i, (st.2 i <= cutoff)%N) _ _ hdet) => // -[ga' d'] m [ga2 d2] /= hd.
  rewrite outcome_bindOk => -[lh [_]]; rewrite outcome_bindOk => -[o [/outcome_choice[ho _]]]; rewrite outcome_retE => -[_ ->] i.
  by rewrite /upd1; case: ifP.
case: ifPn => // hl; case: ltnP => // hs [->]; split=> //; first by rewrite size_mkseq.
by move=> i hi; rewrite nth_mkseq.
Qed.

(** The same for clicks: 0 or 1 per mode, at most max_photons clicks. *)
Definition clicks_ok (M max_photons : nat) (p : seq nat) : Prop :=
  [/\ size p = M, forall i, (i < M)%N -> (nth 0%N p i <= 1)%N & (sumn p <= max_photons)%N].
Theorem generate_torontonian_sample_ok w M cov mean hbar max_photons fanout cutoff z1 z2 zr zi r :
  outcome (generate_torontonian_sample sched williamson cholesky eps w M cov mean hbar max_photons fanout cutoff z1 z2 zr zi) (Ok (Some r)) ->
  clicks_ok M max_photons r.
Proof.
rewrite /generate_torontonian_sample !outcome_bindOk => -[order []]; rewrite outcome_of_res => -[/esym/photon_means_order_perm[M0 po]].
rewrite outcome_bindOk => -[[T W] [_]]; rewrite outcome_bindOk => -[ch [_]]; rewrite outcome_bindOk => -[B [_]].
rewrite outcome_bindOk => -[st [hst]]; rewrite outcome_retE.
pose J (c : nat -> nat) := (forall i, (c i <= 1)%N).
pose I (st : option (vec * (nat -> nat) * (nat -> nat))) := match st with None => True | Some (_, _, c) => J c /\
  (sumn (mkseq (fun i => c (invert_permutation order i)) M) <= max_photons)%N end.
suff hI : I st by case: st hst hI => // -[[g d] c] _ [h1 h2] [->]; split; rewrite ?size_mkseq // => i hi; rewrite nth_mkseq.
apply: (outcome_pfold _ _ hst).
  by split=> //; rewrite (_ : mkseq _ M = nseq M 0%N) ?sumn_nseq //; apply: (@eq_from_nth _ 0%N); rewrite ?size_mkseq ?size_nseq // => i hi; rewrite nth_mkseq // nth_nseq hi.
move=> -[[[g d] c]|] m st' //=; last by rewrite outcome_retE => _ -[->].
move=> [hc _]; rewrite outcome_bindOk => -[lh [_]]; rewrite outcome_bindOk => -[[[g2 d2] c2] [hfan]].
rewrite outcome_retE => -[->]; case: ltnP => //= hm; split=> // {hm st' hst}.
move: hfan; set gf := (X in fan_loop X); move: gf => gf hfan; elim: (iota 0 fanout) g d c hc hfan => [|k ks IH] g' d c hc; first by rewrite outcome_retE => -[_ _ ->].
rewrite [fan_loop _ _ _ _ _ _ _ _]/= outcome_bindOk => -[o [_]]; case: ifP => _; last exact: IH.
by rewrite outcome_retE => -[_ _ ->] i; rewrite /upd1; case: ifP.
Qed.

(** the rejection loop *)
Lemma sample_loop_ok (gen : nat -> prog C (option (seq nat))) (P : seq nat -> Prop) :
  (forall t r, outcome (gen t) (Ok (Some r)) -> P r) ->
  forall fuel t samples acc rows, (forall i, (i < size acc)%N -> P (nth [::] acc i)) ->
  outcome (sample_loop gen fuel t samples acc) (Ok (Some rows)) ->
  size rows = (size acc + samples)%N /\ (forall i, (i < size rows)%N -> P (nth [::] rows i)).
Proof.
move=> hg; elim=> [|f IH] t [|s] acc rows ha /=; rewrite ?outcome_retE //; try by case=> ->; rewrite addn0.
rewrite outcome_bindOk => -[[r|] [hr]]; last exact: IH.
rewrite addnS -addSn -(size_rcons acc r); apply: IH => i.
by rewrite size_rcons nth_rcons ltnS leq_eqVlt; case: ltnP => [h _|_ /orP[/eqP ->|//]]; [apply: ha|rewrite eqxx; apply: hg hr].
Qed.
Lemma vstack_ok rows r : outcome (vstack C r) (Ok (Some rows)) -> r = Some rows /\ rows <> [::].
Proof. by case: r => [[|x l]|] /=; rewrite ?outcome_raiseE ?outcome_retE // => -[->]. Qed.
Lemma stack_tasks_ok (task : nat -> prog C (option (seq (seq nat)))) (P : seq nat -> Prop) samples rows :
  (forall p r, outcome (task p) (Ok (Some r)) -> size r = 1%N /\ P (nth [::] r 0)) ->
  outcome (stack_tasks task samples) (Ok (Some rows)) ->
  [/\ size rows = samples, (0 < samples)%N & forall i, (i < size rows)%N -> P (nth [::] rows i)].
Proof.
move=> h; rewrite /stack_tasks outcome_bindOk => -[rs [hrs /vstack_ok[e ne]]].
have [sz hP] := outcome_pmap (P := fun o => forall r, o = Some r -> size r = 1%N /\ P (nth [::] r 0)) (fun x y hy r (e : y = Some r) => h x r (eq_ind y (fun z => outcome (task x) (Ok z)) hy _ e)) hrs.
suff [h1 h2] : size rows = size rs /\ forall i, (i < size rows)%N -> P (nth [::] rows i).
  by split=> //; [rewrite h1 sz size_iota|case: (posnP samples) sz h1 => // -> ->; case: rows ne {e h2}].
elim: rs rows e {hrs sz ne} hP => [|[r|] rs IH] rows /=; [by case=> <-| |by []].
case ea: foldr => [a|] // [<-] hP; have [//|i y0 hi|h1 h2] := IH a; first exact: (hP i.+1).
have [s1 p1] := hP 0%N None isT r erefl.
rewrite size_cat s1 h1; split=> // i hi; rewrite nth_cat s1; case: i hi => [//|i]; rewrite subSS subn0 => hi.
by apply: h2; rewrite h1; lia.
Qed.

(** C34 for the public functions (sequential or parallel): if hafnian_sample_state returns, it returns a non-empty array with
    exactly [samples] rows, all of them valid patterns. *)
Theorem hafnian_sample_state_ok darwin fuel cov samples mean hbar cutoff max_photons parallel z1 z2 rows :
  outcome (hafnian_sample_state sched williamson cholesky eps darwin fuel cov samples mean hbar cutoff max_photons parallel z1 z2) (Ok (Some rows)) ->
  exists n m, [/\ cov = PyArr (2 * n)%N (2 * n)%N false m, size rows = samples, (0 < samples)%N &
    forall i, (i < samples)%N -> pattern_ok n cutoff max_photons (nth [::] rows i)].
Proof.
have base s y1 y2 rs : outcome (hafnian_sample sched williamson cholesky eps fuel cov s mean hbar cutoff max_photons y1 y2) (Ok (Some rs)) ->
  exists n m, [/\ cov = PyArr (2 * n)%N (2 * n)%N false m, size rs = s, (0 < s)%N & forall i, (i < s)%N -> pattern_ok n cutoff max_photons (nth [::] rs i)].
  rewrite /hafnian_sample outcome_bindOk => -[[n m] [/outcome_of_res]].
  rewrite /check_cov; case: cov => // r c nan m' ; case: eqP => //= <-; case: nan => // -[<- <-].
  case: (boolP (odd n)) => on; first by rewrite outcome_raiseE.
  rewrite outcome_bindOk => -[o [ho /vstack_ok[eo ne]]]; subst o.
  have [] := sample_loop_ok (P := pattern_ok n./2 cutoff max_photons) _ _ ho => //; first by move=> t r'; apply: generate_hafnian_sample_ok.
  rewrite add0n => sz hP; exists n./2, m; have en : (2 * n./2 = n)%N by lia.
  rewrite en; split=> //; last by move=> i hi; apply: hP; rewrite sz.
  by rewrite lt0n; apply/eqP => s0; apply: ne; apply: size0nil; rewrite sz s0.
rewrite /hafnian_sample_state; case: parallel; last exact: base.
case: darwin; first by rewrite outcome_raiseE.
move=> h; case: cov base h => [base|r c nan m base] h.
  have [//|_ s0 _] := stack_tasks_ok (P := fun=> False) _ h; first by move=> p r /base[n [m []]].
  move: h; rewrite /stack_tasks; case: samples s0 => // s _.
  by rewrite outcome_bindOk => -[rs [+ _]] /=; rewrite outcome_bindOk => -[x []]; rewrite /hafnian_sample outcome_bindOk => -[? []]; rewrite outcome_of_res.
have [|h1 h2 h3] := stack_tasks_ok (P := fun p => exists n m', PyArr r c nan m = PyArr (2 * n)%N (2 * n)%N false m' /\ pattern_ok n cutoff max_photons p) _ h.
  by move=> p rs /base[n [m' [e1 e2 _ e3]]]; split=> //; exists n, m'; split=> //; apply: e3.
case: (h3 0%N) => [|n [m' [e _]]]; first by rewrite h1.
exists n, m'; split=> // i hi; case: (h3 i) => [|n2 [m2 [e2 hp]]]; first by rewrite h1.
by move: e2; rewrite e => -[en _ _]; have -> : n = n2 by lia.
Qed.

Theorem torontonian_sample_state_ok w darwin fuel cov samples mean hbar max_photons fanout cutoff parallel z1 z2 zr zi rows :
  outcome (torontonian_sample_state sched williamson cholesky eps w darwin fuel cov samples mean hbar max_photons fanout cutoff parallel z1 z2 zr zi) (Ok (Some rows)) ->
  exists n m, [/\ cov = PyArr (2 * n)%N (2 * n)%N false m, size rows = samples, (0 < samples)%N &
    forall i, (i < samples)%N -> clicks_ok n max_photons (nth [::] rows i)].
Proof.
have base s y1 y2 y3 y4 rs : outcome (torontonian_sample sched williamson cholesky eps w fuel cov s mean hbar max_photons fanout cutoff y1 y2 y3 y4) (Ok (Some rs)) ->
  exists n m, [/\ cov = PyArr (2 * n)%N (2 * n)%N false m, size rs = s, (0 < s)%N & forall i, (i < s)%N -> clicks_ok n max_photons (nth [::] rs i)].
  rewrite /torontonian_sample outcome_bindOk => -[[n m] [/outcome_of_res]].
  rewrite /check_cov; case: cov => // r c nan m' ; case: eqP => //= <-; case: nan => // -[<- <-].
  case: (boolP (odd n)) => on; first by rewrite outcome_raiseE.
  rewrite outcome_bindOk => -[o [ho /vstack_ok[eo ne]]]; subst o.
  have [] := sample_loop_ok (P := clicks_ok n./2 max_photons) _ _ ho => //; first by move=> t r'; apply: generate_torontonian_sample_ok.
  rewrite add0n => sz hP; exists n./2, m; have en : (2 * n./2 = n)%N by lia.
  rewrite en; split=> //; last by move=> i hi; apply: hP; rewrite sz.
  by rewrite lt0n; apply/eqP => s0; apply: ne; apply: size0nil; rewrite sz s0.
rewrite /torontonian_sample_state; case: cov base => [_|r c nan m base]; first by rewrite outcome_raiseE.
case: parallel; last exact: base.
case: darwin; first by rewrite outcome_raiseE.
move=> h.
have [|h1 h2 h3] := stack_tasks_ok (P := fun p => exists n m', PyArr r c nan m = PyArr (2 * n)%N (2 * n)%N false m' /\ clicks_ok n max_photons p) _ h.
  by move=> p rs /base[n [m' [e1 e2 _ e3]]]; split=> //; exists n, m'; split=> //; apply: e3.
case: (h3 0%N) => [|n [m' [e _]]]; first by rewrite h1.
exists n, m'; split=> // i hi; case: (h3 i) => [|n2 [m2 [e2 hp]]]; first by rewrite h1.
by move: e2; rewrite e => -[en _ _]; have -> : n = n2 by lia.
Qed.
End Samples.
