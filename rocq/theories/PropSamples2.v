(** The conditional law of the photon-number sampler. *)
From mathcomp Require Import all_ssreflect all_algebra zify.
From Verif Require Import Prelude PyBase PyRand ArrLoop MHafnian MCharpoly MBatch MSymplectic MMeans MSamples PropRand SpecHaf SpecSample PropPowerHaf PropBatch PropSymplectic PropConversions PropSamples.
Set Implicit Arguments.
Unset Strict Implicit.
Unset Printing Implicit Defensive.
Import GRing.Theory Num.Theory.
Local Open Scope ring_scope.

Section Law.
Variable C : numClosedFieldType.
Variable sched : nat -> seq nat.
Hypothesis sched_ok : forall s, perm_eq (sched s) (iota 0 s).
Notation mat := (nat -> nat -> C).
Notation vec := (nat -> C).

Lemma pw_ge0 B (g : vec) ns k : 0 <= photon_weight B g ns k.
Proof. by rewrite /photon_weight divr_ge0 ?exprn_ge0 ?normr_ge0 ?ler0n. Qed.

Lemma ex_pick_weights cutoff (f : nat -> C) g (h : forall k, 0 <= f k) :
  ex (np_choice cutoff.+1 [seq x / \sum_(x <- mkseq f cutoff.+1) x | x <- mkseq f cutoff.+1]) g
  = \sum_(k < cutoff.+1) f k / (\sum_(k' < cutoff.+1) f k') * g k.
Proof.
have sE : \sum_(x <- mkseq f cutoff.+1) x = \sum_(k' < cutoff.+1) f k' by rewrite big_map -val_enum_ord big_map big_enum.
rewrite sE; set s := \sum_(_ < _) _.
have s0 : 0 <= s by apply: sumr_ge0.
rewrite ex_choice !size_map size_iota eqxx andTb.
have -> : all (fun x => 0 <= x) [seq x / s | x <- mkseq f cutoff.+1].
  by apply/allP => _ /mapP[_ /mapP[k _ ->] ->]; rewrite divr_ge0.
have -> : \sum_(x <- [seq x / s | x <- mkseq f cutoff.+1]) x = s / s by rewrite big_map -mulr_suml sE.
have body : \sum_(i <- iota 0 cutoff.+1) nth 0 [seq x / s | x <- mkseq f cutoff.+1] i * g i = \sum_(k < cutoff.+1) f k / s * g k.
  rewrite -val_enum_ord big_map big_enum; apply: eq_bigr => k _.
  by rewrite (nth_map 0 0 (fun x => x / s)) ?size_mkseq ?nth_mkseq ?ltn_ord.
case: (s =P 0) => [e|/eqP e]; last by rewrite divff // eqxx body.
rewrite e mul0r eq_sym oner_eq0 /= big1 // => k _; by rewrite invr0 mulr0 mul0r.
Qed.

Variables (M cutoff : nat) (B : mat).
Hypothesis symB : forall i j, (i < M)%N -> (j < M)%N -> B i j = B j i.
Variables (alpha : vec) (gamma0 : vec).
Let gam (j : nat) : vec := fun i => gamma0 i - \sum_(l <- iota 0 j) alpha l * B i l.
Let step (st : vec * (nat -> nat)) mode := let: (gamma, det_pattern) := st in
    let m := mode.+1 in
    let gamma : vec := fun i => gamma i - alpha mode * B i mode in
    pbind (of_res C (loop_hafnian_batch (@powertrace C) sched m B gamma m (mkseq det_pattern mode) cutoff true)) (fun lhafs =>
    let probs := click_weights lhafs in
    let norm_probs := \sum_(x <- probs) x in
    let probs := [seq x / norm_probs | x <- probs] in
    pbind (np_choice cutoff.+1 probs) (fun det_outcome_i =>
    Ret (gamma, upd1 det_pattern mode det_outcome_i))).

Lemma click_weightsE (f : nat -> C) n : click_weights (mkseq f n) = mkseq (fun k => `|f k| ^+ 2 / (k`!)%:R) n.
Proof.
rewrite /click_weights size_mkseq; apply: (@eq_from_nth _ 0) => [|i]; rewrite !size_map ?size_iota // => hi.
rewrite (nth_map 0%N) ?size_iota // !nth_mkseq ?nth_iota // -normCK; congr (_ / _).
by apply/Creal_ReP; rewrite rpredX // normr_real.
Qed.

Lemma ex_ok T (x : T) (G : T -> C) : ex (of_res C (Ok x)) G = G x. Proof. by []. Qed.
Lemma ex_ret T (x : T) (G : T -> C) : ex (Ret x) G = G x. Proof. by []. Qed.
Lemma ex_step (g : vec) (d : nat -> nat) m (F : vec * (nat -> nat) -> C) : (m < M)%N -> (forall i, (i < m)%N -> d i <= cutoff)%N ->
  let g' : vec := fun i => g i - alpha m * B i m in
  ex (step (g, d) m) F = \sum_(k < cutoff.+1) photon_prob cutoff B g' (mkseq d m) k * F (g', upd1 d m k).
Proof.
move=> hm hd g'; rewrite /step ex_bind loop_hafnian_batch_correct //.
- rewrite ex_ok ex_bind click_weightsE (ex_pick_weights cutoff) => [|k]; last exact: pw_ge0.
  by [].
- by move=> i j hi hj; apply: symB; lia.
- by rewrite size_mkseq.
rewrite lt0n => ho; apply/eqP => c0; move: ho; rewrite (_ : mkseq d m = nseq m 0%N) ?sumn_nseq //.
apply: (@eq_from_nth _ 0%N); rewrite ?size_mkseq ?size_nseq // => i hi; rewrite nth_mkseq // nth_nseq hi.
by have := hd i hi; rewrite c0 leqn0 => /eqP.
Qed.

Lemma eq_prob g g' ns k : (forall i, (i <= size ns)%N -> g i = g' i) -> photon_prob cutoff B g ns k = photon_prob cutoff B g' ns k.
Proof.
move=> h; have e k' : photon_weight B g ns k' = photon_weight B g' ns k'.
  rewrite /photon_weight; congr (`|_| ^+ 2 / _); apply: lhaf_rep_spec_ext => // i.
  by rewrite size_rcons ltnS; apply: h.
by rewrite /photon_prob e; congr (_ / _); apply: eq_bigr => i _; rewrite e.
Qed.

Lemma law_pattern pat : size pat = M ->
  forall m d g, (m <= M)%N -> (forall i, (i < m)%N -> d i <= cutoff)%N -> (forall i, g i = gam m i) ->
  ex (pfold step (g, d) (iota m (M - m))) (fun st => (mkseq st.2 M == pat)%:R)
  = (mkseq d m == take m pat)%:R * \prod_(j <- iota m (M - m))
      (if (nth 0%N pat j <= cutoff)%N then photon_prob cutoff B (gam j.+1) (take j pat) (nth 0%N pat j) else 0).
Proof.
move=> sp m; move e: (M - m)%N => k; elim: k m e => [|k IH] m e d g hm hd hg.
  have {e hm} em : m = M by lia.
  by subst m; rewrite /= big_nil mulr1 -sp take_size.
have hm' : (m < M)%N by lia.
change (pfold step (g, d) (iota m k.+1)) with (pbind (step (g, d) m) (fun s' => pfold step s' (iota m.+1 k))).
change (iota m k.+1) with (m :: iota m.+1 k).
rewrite ex_bind ex_step //.
set g' := (fun i => g i - _); have hg' i : g' i = gam m.+1 i.
  by rewrite /g' hg /gam -(addn1 m) iotaD big_cat big_seq1 /= add0n opprD addrA.
rewrite big_cons.
have tk : take m.+1 pat = rcons (take m pat) (nth 0%N pat m) by rewrite -take_nth // sp.
have E (c : 'I_cutoff.+1) : ex (pfold step (g', upd1 d m c) (iota m.+1 k)) (fun st => (mkseq st.2 M == pat)%:R)
   = ((mkseq d m == take m pat) && (c == nth 0%N pat m :> nat))%:R * \prod_(j <- iota m.+1 k) (if (nth 0%N pat j <= cutoff)%N then photon_prob cutoff B (gam j.+1) (take j pat) (nth 0%N pat j) else 0).
  rewrite IH //; [|by lia|by move=> i hi; rewrite /upd1; case: eqP => [_|ne]; [rewrite -ltnS|apply: hd; lia]].
  rewrite tk (_ : mkseq _ m.+1 = rcons (mkseq d m) c) ?eqseq_rcons //.
  rewrite /mkseq -(addn1 m) iotaD map_cat /= cats1 /upd1 eqxx; congr rcons.
  by apply/eq_in_map => i; rewrite mem_iota => hi; case: eqP => //; lia.
set rest := \prod_(j <- iota m.+1 k) _ in E *.
transitivity (\sum_(c < cutoff.+1) photon_prob cutoff B g' (mkseq d m) c * (((mkseq d m == take m pat) && (c == nth 0%N pat m :> nat))%:R * rest)).
  by apply: eq_bigr => c _; rewrite -E.
case: (mkseq d m =P take m pat) => [ed|_] /=; last by rewrite [RHS]mul0r big1 // => c _; rewrite mul0r mulr0.
rewrite [RHS]mul1r; case: leqP => [hc|hc].
  rewrite (bigD1 (Ordinal (hc : nth 0%N pat m < cutoff.+1)%N)) //= eqxx mul1r big1 ?addr0 => [|c nc].
    congr (_ * _); rewrite ed; apply: eq_prob => i _; exact: hg'.
  by rewrite (_ : (c == _ :> nat) = false) ?mul0r ?mulr0 //; apply: contraNF nc => /eqP h; apply/eqP/val_inj.
rewrite mul0r big1 // => c _; rewrite (_ : (c == _ :> nat) = false) ?mul0r ?mulr0 //.
by apply/negbTE; rewrite neq_ltn (leq_trans (ltn_ord c)).
Qed.
End Law.

Section Main.
Variable C : numClosedFieldType.
Variable sched : nat -> seq nat.
Hypothesis sched_ok : forall s, perm_eq (sched s) (iota 0 s).
Notation mat := (nat -> nat -> C).
Notation vec := (nat -> C).
Variable williamson : nat -> mat -> res (mat * mat).
Variable cholesky : nat -> mat -> res mat.
Variable eps : C.
Variables (M : nat) (cov : mat) (mean : option vec) (hbar : C) (cutoff max_photons : nat) (z1 z2 : vec).
Variables (order : seq nat) (D Sm L B : mat).
Let mu : vec := match mean with Some m => m | None => fun=> 0 end.
(** the modes sorted by their mean photon number *)
Hypothesis orderE : photon_means_order M mu cov = Ok order.
Let oo i := if (i < M)%N then nth 0%N order i else (nth 0%N order (i - M) + M)%N.
Let cov_o : mat := fun i j => cov (oo i) (oo j).
(** the Williamson decomposition, Cholesky factor and A matrix that the code computes *)
Hypothesis willE : williamson (2 * M) cov_o = Ok (D, Sm).
Hypothesis Sreal : forall i j, Sm i j \is Num.real.
Hypothesis hbreal : hbar \is Num.real.
Let T : mat := mscale (hbar / 2%:R) (mmul (2 * M) Sm (trn Sm)).
Let sqrtW : mat := mmul (2 * M) Sm (fun i j => sqrtC (let x := D i j - hbar / 2%:R * eye C i j in if `|x| < eps then 0 else x)).
Hypothesis cholE : cholesky (2 * M) (madd T (eye C)) = Ok L.
Hypothesis BE : Amat M T 2%:R false = Ok B.
(** displacement of the sampled pure state and heterodyne outcomes *)
Let pure_mu : vec := fun i => mu (oo i) + mvmul (2 * M) sqrtW z1 i.
Let beta := mu_to_alpha M pure_mu hbar.
Let alpha := mu_to_alpha M (fun i => pure_mu i + mvmul (2 * M) L z2 i) hbar.

Lemma T_real_sym : real_sym (2 * M) T.
Proof.
move=> i j hi hj; rewrite /T /mscale /mmul /trn; split; last by congr (_ * _); apply: eq_bigr => t _; rewrite mulrC.
rewrite rpredM ?rpredM // ?rpredV ?realn //.
by apply: rpred_sum => t _; apply: rpredM.
Qed.
Lemma B_sym i j : (i < M)%N -> (j < M)%N -> B i j = B j i.
Proof.
move=> hi hj; have i2 : (i < 2 * M)%N by lia. have j2 : (j < 2 * M)%N by lia.
by case: (Amat_symmetric (b := false) (Qmat_husimi T_real_sym (realn _ 2)) BE i2 j2).
Qed.

(** C56: given the Gaussian draws, generate_hafnian_sample returns the pattern q (photon numbers in the order of the modes of the
    input) with probability the product over the modes, in increasing order of their mean photon number, of the probability of
    the photon number q of the mode given those of the previous ones and the heterodyne outcomes of the following ones -- except
    for the patterns that are rejected (returned as -1). *)
Theorem generate_hafnian_sample_law (q : seq nat) :
  law (generate_hafnian_sample sched williamson cholesky eps M cov mean hbar cutoff max_photons z1 z2) (Some q)
  = if [&& size q == M, all (fun k => k <= cutoff)%N q, nth 0%N q M.-1 != cutoff & (sumn q <= max_photons)%N]
    then \prod_(j < M) photon_prob cutoff B (het_gamma M B beta alpha j) (mkseq (fun k => nth 0%N q (nth 0%N order k)) j)
                         (nth 0%N q (nth 0%N order j))
    else 0.
Proof.
have [M0 po] := photon_means_order_perm orderE.
have so : size order = M by rewrite (perm_size po) size_iota.
have po' : perm_eq order (iota 0 (size order)) by rewrite so.
have [inv1 inv2] := invert_permutation_correct po'; rewrite so in inv1 inv2.
have ord_lt k : (k < M)%N -> (nth 0%N order k < M)%N.
  by move=> hk; have := mem_nth 0%N (_ : k < size order)%N; rewrite so => /(_ hk); rewrite (perm_mem po) mem_iota.
rewrite lawE /generate_hafnian_sample -/mu ex_bind orderE ex_ok ex_bind /decompose_cov -/oo -/cov_o willE.
rewrite -[bind _ _]/(Ok (T, sqrtW)) ex_ok ex_bind cholE ex_ok ex_bind BE ex_ok ex_bind.
set gamma0 : vec := fun i => (_)^* + _.
pose pat := mkseq (fun k => nth 0%N q (nth 0%N order k)) M.
case: (size q =P M) => [sq|sq]; last first.
  apply: ex0 => -[g d]; rewrite ex_ret /=.
  case: ifP => // _; case: ifP => // _; case: eqP => // -[e]; case: sq; by rewrite -e size_mkseq.
have patE (d : nat -> nat) : (mkseq (fun i => d (invert_permutation order i)) M == q) = (mkseq d M == pat).
  rewrite /pat; apply/eqP/eqP => e; apply: (@eq_from_nth _ 0%N); rewrite ?size_mkseq ?sq // => i hi.
    by rewrite nth_mkseq // [RHS]nth_mkseq // -e nth_mkseq ?ord_lt // inv1.
  have [h1 h2] := inv2 i hi; have := congr1 (fun s => nth 0%N s (invert_permutation order i)) e.
  by rewrite !nth_mkseq // h2.
transitivity (if (nth 0%N q M.-1 != cutoff) && (sumn q <= max_photons)%N
  then ex (pfold (fun (st : vec * (nat -> nat)) mode => let: (gamma, det_pattern) := st in
    let m := mode.+1 in
    let gamma : vec := fun i => gamma i - alpha mode * B i mode in
    pbind (of_res C (loop_hafnian_batch (@powertrace C) sched m B gamma m (mkseq det_pattern mode) cutoff true)) (fun lhafs =>
    let probs := click_weights lhafs in
    let norm_probs := \sum_(x <- probs) x in
    let probs := [seq x / norm_probs | x <- probs] in
    pbind (np_choice cutoff.+1 probs) (fun det_outcome_i =>
    Ret (gamma, upd1 det_pattern mode det_outcome_i)))) (gamma0, fun=> 0%N) (pyrange 0 M)) (fun st => (mkseq st.2 M == pat)%:R) else 0).
  case: ifPn => hr.
    apply: eq_ex => -[g d]; rewrite ex_ret -patE /snd; case: (mkseq (fun i => d (invert_permutation order i)) M =P q) => [->|ne].
      by case/andP: hr => /negPf -> hs; rewrite ltnNge hs /= eqxx.
    case: ifP => // _; case: ifP => // _; by case: eqP => // -[].
  apply: ex0 => -[g d]; rewrite ex_ret /snd; case: ifPn => // h1; case: ltnP => // h2; case: eqP => // -[e].
  by move: hr; rewrite -e h1 h2.
have sp : size pat = M by rewrite size_mkseq.
have g0E i : gamma0 i = gamma0 i - \sum_(l <- iota 0 0) alpha l * B i l by rewrite big_nil subr0.
rewrite /pyrange (@law_pattern _ _ sched_ok M cutoff B B_sym alpha gamma0 pat sp 0 _ gamma0 (leq0n M) _ g0E) //.
rewrite take0 eqxx mul1r subn0 [all _ _ && _]andbC -andbA andTb; case: ifPn => [/andP[h1 h2]|hr]; last first.
  by case: and3P => // -[h1 h2 _]; move: hr; rewrite h1 h2.
rewrite h1 h2 !andTb; case: (boolP (all _ q)) => [/allP ha|/allPn[x /(nthP 0%N)[i hi <-] hx]].
  rewrite -val_enum_ord big_map big_enum; apply: eq_bigr => j _ /=.
  rewrite {1}/pat nth_mkseq // ha; last by rewrite mem_nth // sq ord_lt.
  rewrite (_ : take j pat = mkseq (fun k => nth 0%N q (nth 0%N order k)) j); last first.
    by rewrite /pat /mkseq -map_take take_iota (minn_idPl _) // ltnW.
  apply: eq_prob => i' _; rewrite /gamma0 /het_gamma -/beta -/alpha.
  change (0%N :: iota 1 j) with (iota 0 j.+1).
  have -> : \sum_(l <- iota 0 j.+1) alpha l * B i' l = \sum_(l < M | (l <= j)%N) B i' l * alpha l.
    rewrite -[iota 0 j.+1]/(index_iota 0 j.+1) big_mkord (big_ord_widen M (fun l => alpha l * B i' l)) //.
    by apply: eq_bigr => l _; rewrite mulrC.
  have -> : mvmul M B (fun l => alpha l - beta l) i' = \sum_(l < M) B i' l * alpha l - \sum_(l < M) B i' l * beta l.
    rewrite /mvmul sum_iota -sumrB; apply: eq_bigr => l _; by rewrite mulrBr.
  have -> : \sum_(l < M) B i' l * alpha l = \sum_(l < M | (l <= j)%N) B i' l * alpha l + \sum_(l < M | (j < l)%N) B i' l * alpha l.
    rewrite (bigID (fun l : 'I_M => (l <= j)%N)) /=; congr (_ + _); by apply: eq_bigl => l; rewrite ltnNge.
  by rring.
have [h3 h4] := inv2 i (leq_trans hi (eq_leq sq)).
rewrite (bigD1_seq (invert_permutation order i)) ?mem_iota ?iota_uniq //= /pat nth_mkseq // h4.
by rewrite (negbTE hx) mul0r.
Qed.
End Main.
