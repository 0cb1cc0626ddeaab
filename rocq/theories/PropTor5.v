(** C31, C32: torontonian and loop torontonian equal the sums over subsets of modes, whichever algorithm is used. *)
From mathcomp Require Import all_ssreflect all_algebra zify fingroup perm.
From Verif Require Import Prelude PyBase ArrLoop MPowerHaf MHafnian MSymplectic PropChannels PropKernels ThMpoly ThPower PropBatch MPermanent PropPerm2 SpecTor MTor PropTor PropTor2 PropTor3 PropTor4 PropMeans4.
Set Implicit Arguments.
Unset Strict Implicit.
Unset Printing Implicit Defensive.
Import Order.Theory GRing.Theory Num.Theory.
Local Open Scope ring_scope.

(** the contract of np.linalg.cholesky *)
Definition chol_ok (C : numClosedFieldType) (cholesky : nat -> (nat -> nat -> C) -> res (nat -> nat -> C)) : Prop :=
  forall n M, hermitian n M -> posdef n M -> exists2 L, cholesky n M = Ok L & is_cholesky n M L.

Section Tor.
Variable C : numClosedFieldType.
Variable sched : nat -> seq nat.
Hypothesis sched_ok : forall n, perm_eq (sched n) (iota 0 n).
Notation mat := (nat -> nat -> C).
Notation vec := (nat -> C).
Variable cholesky : nat -> mat -> res mat.
Variable exp : C -> C.
Hypothesis ch_ok : chol_ok cholesky.

(** the incremental algorithm, started from nothing, is a Cholesky factorisation: the contract can be met *)
Theorem chol_ok_satisfiable : @chol_ok C (fun n M => Ok (quad_cholesky (fun _ _ => 0) (iota 0 n) 0 M)).
Proof.
move=> n M hM pM; exists (quad_cholesky (fun _ _ => 0) (iota 0 n) 0 M) => //.
by have := @quad_cholesky_correct C (fun _ _ => 0) M (iota 0 n) 0; rewrite size_iota => h; apply: h.
Qed.
Lemma posdef_det n (M : mat) : hermitian n M -> posdef n M -> mxof n n M \in unitmx /\ 0 < \det (mxof n n M).
Proof.
move=> hM pM; have [L _ ch] := chol_ok_satisfiable hM pM; split; first exact: chol_unit hM ch.
by rewrite -(diag_detE hM ch) /diag_det for_prod mul1r prod_iota exprn_gt0 // (prod_gt0 ch).
Qed.

Section Fixed.
Variables (n : nat) (O : mat) (g : vec).
Hypothesis hM : hermitian (2 * n) (one_minus O).
Hypothesis pM : posdef (2 * n) (one_minus O).

Lemma good_set (Z : {set 'I_n}) : good n (set_modes Z).
Proof.
have u : uniq (set_modes Z) by rewrite (map_inj_uniq val_inj) enum_uniq.
have a : all (fun i => i < n)%N (set_modes Z) by apply/allP => x /mapP[i _ ->]; exact: ltn_ord.
exact: (conj u a).
Qed.
Lemma size_set_rows (Z : {set 'I_n}) : size (set_rows Z) = (2 * #|Z|)%N.
Proof. by rewrite /set_rows size_cat size_map size_set_modes; lia. Qed.
Lemma det1mE (Z : {set 'I_n}) : det1m O Z = hdet n O (set_modes Z).
Proof.
rewrite /det1m submxE /hdet size_set_rows size_set_modes; apply/esym/det_ix_perm; first by rewrite size_inter size_set_modes.
- by rewrite size_set_rows.
- exact: perm_inter.
Qed.
Lemma unit_inter (Z : {set 'I_n}) : mxof (2 * #|Z|) (2 * #|Z|) (ix (one_minus O) (set_rows Z)) \in unitmx.
Proof.
have := posdef_det (hermitian_ix hM (inter_all (proj2 (good_set Z)))) (posdef_ix pM (inter_uniq (proj1 (good_set Z)) (proj2 (good_set Z))) (inter_all (proj2 (good_set Z)))).
rewrite size_inter size_set_modes !unitmxE => -[u _]; rewrite (_ : \det _ = \det (mxof (2 * #|Z|) (2 * #|Z|) (ix (one_minus O) (inter n (set_modes Z))))) //.
by apply/esym/det_ix_perm; rewrite ?size_inter ?size_set_modes ?size_set_rows //; exact: perm_inter.
Qed.
Lemma det1m_gt0 (Z : {set 'I_n}) : 0 < det1m O Z.
Proof.
have := posdef_det (hermitian_ix hM (inter_all (proj2 (good_set Z)))) (posdef_ix pM (inter_uniq (proj1 (good_set Z)) (proj2 (good_set Z))) (inter_all (proj2 (good_set Z)))).
by rewrite size_inter det1mE /hdet => -[].
Qed.
Lemma quad1mE (Z : {set 'I_n}) : quad1m O g Z = quad (one_minus O) g (2 * size (set_modes Z)) (inter n (set_modes Z)).
Proof.
rewrite (@quad_perm _ (one_minus O) g _ _ (set_rows Z)) ?size_inter ?size_set_rows ?size_set_modes //.
- by rewrite /quad1m /quad /subcol submxE size_set_rows.
- exact: perm_inter.
- exact: unit_inter.
Qed.

Lemma State_init L : is_cholesky (2 * n) (fun a b => eye C a b - ix O (interleave n) a b) L ->
  State n O ([::] ++ pyrange 0 n) (2 * n) (ix O (interleave n)) L.
Proof.
move=> ch; rewrite /pyrange subn0 cat0s; split=> //; last by rewrite size_iota.
by split; [exact: iota_uniq|apply/allP => x; rewrite mem_iota].
Qed.
Lemma init_mx : exists2 L, cholesky (2 * n) (fun a b => eye C a b - ix O (interleave n) a b) = Ok L &
  is_cholesky (2 * n) (fun a b => eye C a b - ix O (interleave n) a b) L.
Proof.
have gi : good n (iota 0 n) by split; [exact: iota_uniq|apply/allP => x; rewrite mem_iota].
have si : (2 * n = 2 * size (iota 0 n))%N by rewrite size_iota.
have e := @oneE C n O (iota 0 n) (ix O (interleave n)) (2 * n) gi si (fun _ _ _ _ => erefl).
by apply: ch_ok; [apply: hermitian_eq e _; rewrite si; exact: herm_l|apply: posdef_eq e _; rewrite si; exact: pos_l].
Qed.

(** C31 *)
Theorem rec_torontonian_correct : rec_torontonian cholesky n O = Ok (tor_spec n O).
Proof.
rewrite /rec_torontonian; have [L eL ch] := init_mx; rewrite eL /bind -/bind; have st := State_init ch.
rewrite (@recursiveTor_correct C n O hM pM n.+1 L [::] (2 * n) _ [::] 0 0) //; last by rewrite subn0.
rewrite (State_det hM st) /pyrange subn0 cat0s.
rewrite (@Trec_subsets C n (fun l => 1 / sqrtC (hdet n O l))) /tor_spec; congr Ok; apply: eq_bigr => Z _.
by rewrite det1mE mul1r.
Qed.
(** C32 *)
Theorem rec_ltorontonian_correct : rec_ltorontonian cholesky exp n O g = Ok (ltor_spec exp n O g).
Proof.
rewrite /rec_ltorontonian; have [L eL ch] := init_mx; rewrite eL /bind -/bind; have st := State_init ch.
have eg a : (a < 2 * n)%N -> g (nth 0%N (interleave n) a) = g (nth 0%N (inter n ([::] ++ pyrange 0 n)) a).
  by rewrite /pyrange subn0.
rewrite (@recursiveLTor_correct C n O g hM pM exp n.+1 L [::] (2 * n) _ _ [::] 0 0) //; last by rewrite subn0.
rewrite (State_det hM st) (State_quad hM st eg) /pyrange subn0 cat0s.
rewrite (@Trec_subsets C n (fun l => exp (2%:R^-1 * quad (one_minus O) g (2 * size l) (inter n l)) / sqrtC (hdet n O l))) /ltor_spec.
by congr Ok; apply: eq_bigr => Z _; rewrite det1mE quad1mE mulrA.
Qed.

Lemma fke_ones j : size (find_kept_edges j (nseq n 1%N)) = n /\ forall i, (nth 0%N (find_kept_edges j (nseq n 1%N)) i <= 1)%N.
Proof.
have := fke_in_box j (nseq n 1%N); rewrite boxP size_nseq => /andP[/eqP sz ab]; split=> // i.
case: (ltnP i n) => hi; last by rewrite nth_default // sz.
move: ab; rewrite all2E sz size_nseq eqxx /= => /(all_nthP (0%N, 0%N))/(_ i).
by rewrite size_zip sz size_nseq minnn nth_zip ?sz ?size_nseq //= nth_nseq hi; apply.
Qed.
Lemma kept_modesE j : kept_modes (find_kept_edges j (nseq n 1%N)) = set_modes (kset n j).
Proof.
have [sz _] := fke_ones j; rewrite /kept_modes /set_modes sz -[iota 0 n]val_enum_ord filter_map; congr map.
by rewrite {2}/enum_mem -enumT; apply: eq_filter => i /=; rewrite inE.
Qed.
Lemma lenXE j : sumn (find_kept_edges j (nseq n 1%N)) = #|kset n j|.
Proof.
have [sz le1] := fke_ones j; rewrite sumnE (big_nth 0%N) sz big_mkord -sum1_card [RHS]big_mkcond; apply: eq_bigr => i _.
by rewrite inE; have := le1 i; case: (nth _ _ _) => [|[|]].
Qed.
Lemma plusminusE (Z : {set 'I_n}) : plusminus C n #|Z| = (-1) ^+ (n - #|Z|).
Proof.
have le : (#|Z| <= n)%N by rewrite -[X in (_ <= X)%N]card_ord max_card.
rewrite /plusminus -signr_odd -[RHS]signr_odd oddB //; congr (_ ^+ nat_of_bool _).
by rewrite !modn2; case: (odd n); case: (odd #|Z|).
Qed.
Lemma set_rowsE (Z : {set 'I_n}) : set_modes Z ++ [seq (m + n)%N | m <- set_modes Z] = set_rows Z.
Proof. by rewrite /set_rows; congr (_ ++ _); apply: eq_map => x; rewrite addnC. Qed.
Lemma eye_ix (Z : {set 'I_n}) i j : (i < 2 * #|Z|)%N -> (j < 2 * #|Z|)%N ->
  eye C i j - ix O (set_rows Z) i j = ix (one_minus O) (set_rows Z) i j.
Proof.
move=> hi hj; rewrite /ix /one_minus /eye nth_uniq ?size_set_rows //.
by rewrite -(perm_uniq (perm_inter n (set_modes Z))) inter_uniq //; case: (good_set Z).
Qed.
(** C31: the direct sum, for any execution order of the parallel loop *)
Theorem numba_tor_correct : numba_tor sched n O = tor_spec n O.
Proof.
rewrite /numba_tor; cbv zeta; rewrite for_sum add0r (perm_big _ (sched_ok _)) /= sum_iota /tor_spec.
rewrite -(kset_sum (fun Z => (-1) ^+ (n - #|Z|) / sqrtC (det1m O Z))); apply: eq_bigr => j _.
rewrite kept_modesE lenXE set_rowsE plusminusE; congr (_ / sqrtC _).
rewrite (mxof_eq (@eye_ix (kset n j))).
have -> : \det (mxof (2 * #|kset n j|) (2 * #|kset n j|) (ix (one_minus O) (set_rows (kset n j)))) = det1m O (kset n j).
  by rewrite /det1m submxE size_set_rows.
by apply/Creal_ReP; rewrite gtr0_real // det1m_gt0.
Qed.
(** C32: the direct sum of the loop torontonian *)
Theorem numba_ltor_correct : numba_ltor sched exp n O g = Ok (ltor_spec exp n O g).
Proof.
rewrite /numba_ltor (@foldM_sum _ _ _ _ _ (fun j => (-1) ^+ (n - #|kset n j|) * exp (2%:R^-1 * quad1m O g (kset n j)) / sqrtC (det1m O (kset n j)))).
  rewrite add0r (perm_big _ (sched_ok _)) /= sum_iota /ltor_spec.
  by rewrite -(kset_sum (fun Z => (-1) ^+ (n - #|Z|) * exp (2%:R^-1 * quad1m O g Z) / sqrtC (det1m O Z))).
move=> t j _; cbv zeta; rewrite kept_modesE lenXE set_rowsE plusminusE; set Z := kset n j.
rewrite /np_inv (mxof_eq (@eye_ix Z)) unit_inter [bind _ _]/=.
have e1 : \det (mxof (2 * #|Z|) (2 * #|Z|) (ix (one_minus O) (set_rows Z))) = det1m O Z by rewrite /det1m submxE size_set_rows.
have e2 : 'Re (det1m O Z) = det1m O Z by apply/Creal_ReP; rewrite gtr0_real // det1m_gt0.
rewrite e1 e2; congr (Ok (_ + _ * exp (_ * _) / _)).
rewrite /quad1m submxE /subcol size_set_rows mxE; apply: eq_bigr => b _; rewrite !mxE; congr (_ * _).
by apply: eq_bigr => a _; rewrite !mxE -[in RHS](mxof_ofmx (invmx _)) !mxE.
Qed.
End Fixed.

(** C31: both algorithms, through the entry point *)
Theorem tor_correct n (O : mat) recursive : hermitian (2 * n) (one_minus O) -> posdef (2 * n) (one_minus O) ->
  tor sched cholesky (PyArr (arr_of (2 * n) (2 * n) O)) recursive = Ok (tor_spec n O).
Proof.
move=> hM pM; rewrite /tor /tor_input_checks /= eqxx /=.
have -> : (2 * n %% 2)%N = 0%N by lia.
rewrite /=; have -> : (2 * n %/ 2)%N = n by lia.
by case: recursive; rewrite ?rec_torontonian_correct ?numba_tor_correct.
Qed.
Theorem ltor_correct n (O : mat) (g : vec) recursive : hermitian (2 * n) (one_minus O) -> posdef (2 * n) (one_minus O) ->
  ltor sched cholesky exp (PyArr (arr_of (2 * n) (2 * n) O)) (Some (g, (2 * n)%N)) recursive = Ok (ltor_spec exp n O g).
Proof.
move=> hM pM; rewrite /ltor /tor_input_checks /= eqxx /=.
have -> : (2 * n %% 2)%N = 0%N by lia.
rewrite /=; have -> : (2 * n %/ 2)%N = n by lia.
by case: recursive; rewrite ?rec_ltorontonian_correct ?numba_ltor_correct.
Qed.
End Tor.

(** ** Input validation (C31, C32) *)
Section Checks.
Variable C : numClosedFieldType.
Variable sched : nat -> seq nat.
Variable cholesky : nat -> (nat -> nat -> C) -> res (nat -> nat -> C).
Variable exp : C -> C.
Theorem tor_rejects (A : pyobj C) recursive :
  match A with PyOther => True | PyArr A => nrows A != ncols A \/ odd (nrows A) end ->
  tor sched cholesky A recursive = Err (if A is PyOther then TypeError else ValueError).
Proof.
case: A => [A|_] //; rewrite /tor /tor_input_checks modn2; case: eqP => //= _ [] // -> //.
Qed.
Theorem ltor_rejects (A : pyobj C) (gamma : option ((nat -> C) * nat)) recursive :
  ltor sched cholesky exp A gamma recursive =
  match A, gamma with
  | PyOther, _ => Err TypeError
  | PyArr A', None => if (nrows A' != ncols A') || odd (nrows A') then Err ValueError else Err TypeError
  | PyArr A', Some (g, l) => if [|| nrows A' != ncols A', odd (nrows A') | nrows A' != l] then Err ValueError
     else if recursive then rec_ltorontonian cholesky exp (nrows A' %/ 2) (vals A') g else numba_ltor sched exp (nrows A' %/ 2) (vals A') g
  end.
Proof.
case: A => [A|] //; rewrite /ltor /tor_input_checks modn2; case: gamma => [[g l]|] /=; case: (nrows A =P ncols A) => //= _; case: (odd _) => //=.
by case: (nrows A =P l).
Qed.
End Checks.

(** ** The hypotheses are satisfiable: a one-mode thermal-like matrix *)
Section Example.
Variable C : numClosedFieldType.
Definition O_ex : nat -> nat -> C := fun i j => if i == j then 0 else 2%:R^-1.
Lemma O_ex_herm : hermitian (2 * 1) (one_minus O_ex).
Proof.
move=> i j _ _; rewrite /one_minus /O_ex rmorphB /= eq_sym rmorph_nat; congr (_ - _).
by case: eqP => _; rewrite ?conjC0 // fmorphV rmorph_nat.
Qed.
Lemma O_ex_pos : posdef (2 * 1) (one_minus O_ex).
Proof.
move=> v [i hi vi]; rewrite !big_ord_recl !big_ord0 /= /one_minus /O_ex /= !addr0 subr0 sub0r !mulr1.
set a := v _; set b := v _.
have -> : a^* * a + a^* * - 2%:R^-1 * b + (b^* * - 2%:R^-1 * a + b^* * b) =
  2%:R^-1 * (a * a^* + b * b^*) + 2%:R^-1 * ((a - b) * (a - b)^*).
  have t2 : 2%:R^-1 + 2%:R^-1 = 1 :> C by rewrite -mulr2n -[_ *+ 2]mulr_natr mulVf // pnatr_eq0.
  rewrite -[a^* * a]mul1r -[b^* * b]mul1r rmorphB /=; move: (2%:R^-1 : C) t2 a^* b^* => h <- x y; move: a b => a b; rring.
rewrite -!normCK; apply: ltr_paddr; first by rewrite mulr_ge0 ?invr_ge0 ?ler0n // exprn_ge0.
rewrite mulr_gt0 ?invr_gt0 ?ltr0n // lt_def addr_ge0 ?exprn_ge0 // andbT paddr_eq0 ?exprn_ge0 // !expf_eq0 /= !normr_eq0.
by move: i hi vi => [|[|]] // _; rewrite /a /b /=; [move=> /negbTE ->|move=> /negbTE ->; rewrite andbF].
Qed.
Example tor_ex : tor (fun n => iota 0 n) (fun n M => Ok (quad_cholesky (fun _ _ => 0) (iota 0 n) 0 M)) (PyArr (arr_of 2 2 O_ex)) true = Ok (tor_spec 1 O_ex).
Proof. exact: (tor_correct (fun n => perm_refl _) (@chol_ok_satisfiable C) true O_ex_herm O_ex_pos). Qed.
End Example.
