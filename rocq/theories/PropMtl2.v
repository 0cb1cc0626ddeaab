(** C33: the power-trace algorithm of the montrealer is the sum over cyclic orders of the modes. *)
From mathcomp Require Import all_ssreflect all_fingroup all_algebra zify.
From Verif Require Import Prelude PyBase ArrLoop SpecHaf ThPerm ThHess MCharpoly PropCharpoly MHafnian MSymplectic PropConversions MMisc PropMisc MPermanent PropPerm2 SpecTor MTor PropTor PropTor2 PropTor3 PropTor4 PropTor5 SpecMtl MMtl PropMtl.
Set Implicit Arguments.
Unset Strict Implicit.
Unset Printing Implicit Defensive.
Import GRing.Theory Num.Theory.
Local Open Scope ring_scope.

Section Size.
Variable C : numClosedFieldType.
Lemma size_powertrace_with (K : fieldType) cpoly m (H : nat -> nat -> K) n : (1 < m)%N -> (1 < n)%N -> size (powertrace_with cpoly m H n) = n.
Proof.
move=> hm hn; rewrite /powertrace_with.
have s1 k (st : (nat -> nat -> K) * seq K) : size (for_ (iota 0 k) st (fun st _ => let: (A, pt) := st in let A := fmul m A H in (A, rcons pt (ftrace m A)))).2 = (size st.2 + k)%N.
  elim: k => [|k IH]; first by rewrite /= addn0.
  by rewrite for_iotaS; move: IH; case: (for_ _ _ _) => A pt /= e; rewrite size_rcons e addnS.
have := s1 (minn n m - 2)%N (H, [:: m%:R; ftrace m H]); case: (for_ _ _ _) => A pt /= e.
case: ifP => nm; first by rewrite e; lia.
have s2 k j pt' : size (for_ (iota j k) pt' (fun pt _ => rcons pt (for_ (iota 0 m) 0 (fun s k => s - nth 0 (cpoly m H) k * nth 0 pt (size pt - k - 1)%N)))) = (size pt' + k)%N.
  elim: k j pt' => [|k IH] j pt' /=; first by rewrite addn0.
  by rewrite IH size_rcons addSnnS.
by rewrite /pyrange s2 e; lia.
Qed.
Lemma last_powertrace m (H : nat -> nat -> C) n : m != 1%N -> (0 < n)%N -> last 0 (powertrace m H n.+1) = \tr (mxpow (mx_of m H) n).
Proof.
move=> m1 n0; have [h1 h2] := powertrace_correct m H n.+1.
rewrite -nth_last; case: m m1 H h1 h2 => [|[//|m]] _ H h1 h2.
  rewrite h2; first by rewrite /mxtrace !big_ord0.
  by move: h1; case: (size _) => // k _; rewrite /= ltnSn.
have e : size (powertrace m.+2 H n.+1) = n.+1 by apply: size_powertrace_with.
by rewrite e h2 // e.
Qed.
End Size.

Section Bits.
Definition bset n (p : nat) : {set 'I_n} := [set i : 'I_n | odd (p %/ 2 ^ (n - 1 - i))].
Lemma dec2bin_bset n p : (p < 2 ^ n)%N -> dec2bin p n = Ok (set_modes (bset n p)).
Proof.
move=> hp; rewrite dec2bin_correct //; congr Ok; rewrite /set_modes -[iota 0 n]val_enum_ord filter_map; congr map.
rewrite -[RHS]/(filter _ _) -enumT; apply: eq_filter => i /=; by rewrite inE.
Qed.
Lemma bset_inj n : injective (fun p : 'I_(2 ^ n) => bset n p).
Proof.
move=> a b e; apply: val_inj; apply: (dec2bin_inj (ltn_ord a) (ltn_ord b)).
by rewrite !dec2bin_bset ?e.
Qed.
Lemma bset_sum (R : zmodType) n (h : {set 'I_n} -> R) : \sum_(p < 2 ^ n) h (bset n p) = \sum_(S : {set 'I_n}) h S.
Proof.
rewrite [RHS](reindex (fun k : 'I_(2 ^ n) => bset n k)) //; apply: onW_bij; apply: inj_card_bij (@bset_inj n) _.
by rewrite -[X in (X <= _)%N]cardsT -powersetT card_powerset cardsT !card_ord.
Qed.
End Bits.

Section Main.
Variable C : numClosedFieldType.
Notation mat := (nat -> nat -> C).
Notation vec := (nat -> C).
Lemma rows_nodes n (S : {set 'I_n}) (f : nat -> C) : \sum_(x <- set_rows S) f x = \sum_(t : 'I_n * bool | inS S t) f (node n t.1 t.2).
Proof.
rewrite /set_rows big_cat /= /set_modes !big_map !big_enum /=.
transitivity (\sum_(i in S) \sum_(c : bool) f (node n i c)); last first.
  by rewrite pair_big_dep /=; apply: eq_bigl => t; rewrite /inS andbT.
rewrite -big_split /=; apply: eq_bigr => i _.
by rewrite big_bool /= /node mul1n mul0n addn0 addrC addnC.
Qed.
Variable m : nat.
Let n := m.+1.
Variable M : mat.
(** first and last node weighted by Z *)
Definition W (Z : nat -> vec) (s : 'S_n) (b : {ffun 'I_n -> bool}) : C :=
  Z (node n (s ord0) (b ord0)) (node n (s ord_max) (b ord_max)) *
  \prod_(k < m) M (node n (s (inord k)) (b (inord k))) (node n (s (inord k.+1)) (b (inord k.+1))).
Lemma sets_walks (Z : nat -> vec) :
  \sum_(S : {set 'I_n}) (-1) ^+ (n - #|S|) * (\sum_(a <- set_rows S) V M (set_rows S) m (Z a) a) =
  \sum_(s : 'S_n) \sum_(b : {ffun 'I_n -> bool}) W Z s b.
Proof.
pose nd (t : 'I_n * bool) := node n t.1 t.2.
pose F (w : n.-tuple ('I_n * bool)) := if tval w is x :: w' then walk M nd (Z (nd x)) x w' else 0.
transitivity (\sum_(s : 'S_n) \sum_(b : {ffun 'I_n -> bool}) F (mkw s b)).
  rewrite -incl_excl; apply: eq_bigr => S _; congr (_ * _).
  have h := (@closed_walk C M _ nd (inS S) (set_rows S) (rows_nodes S) m Z). by rewrite h.
apply: eq_bigr => s _; apply: eq_bigr => b _; rewrite /F /W.
have wE (k : 'I_n) x0 : nth x0 (mkw s b) k = (s k, b k) by rewrite -tnth_nth tnth_mktuple.
have : size (mkw s b) = n by rewrite size_tuple.
case E : (tval (mkw s b)) => [//|x w] /= [sw].
have w0 : x = (s ord0, b ord0) by have := wE ord0 x; rewrite E.
rewrite walkE sw; congr (Z _ _ * _); first by rewrite w0.
  by rewrite (last_nth x) sw -E (wE ord_max).
apply: eq_bigr => k _; have hk := ltn_ord k; have kn : (k < m.+1)%N by apply: ltnW.
have e1 : nth x (x :: w) k = (s (inord k), b (inord k)) by have := wE (inord k) x; rewrite inordK // E.
have e2 : nth x w k = (s (inord k.+1), b (inord k.+1)) by have := wE (inord k.+1) x; rewrite inordK // E.
by rewrite e1 e2.
Qed.
End Main.

Section Top.
Variable C : numClosedFieldType.
Notation mat := (nat -> nat -> C).
Notation vec := (nat -> C).
Variable sched : nat -> seq nat.
Hypothesis sched_ok : forall n, perm_eq (sched n) (iota 0 n).
Variable m : nat.
Let n := m.+1.
Lemma node_lt (i : 'I_n) c : (node n i c < 2 * n)%N.
Proof. by have h := ltn_ord i; rewrite /node; case: c; rewrite ?mul1n ?mul0n; lia. Qed.
Lemma XA (A : mat) (i : 'I_n) c v : mmul (2 * n) (Xmat C n) A (node n i c) v = A (node n i (~~ c)) v.
Proof.
have h := ltn_ord i; rewrite Xmat_mul ?node_lt // /node; case: c; rewrite /= ?mul1n ?mul0n ?addn0 ?h; last by rewrite addnC.
by rewrite ltnNge leq_addl /= addnK.
Qed.
Lemma sum_sched (g : nat -> C) : \sum_(p <- sched (2 ^ n)) g p = \sum_(p < 2 ^ n) g p.
Proof. by rewrite (perm_big _ (sched_ok _)) /= sum_iota. Qed.
Definition tr_part (Sigma : mat) : C := \sum_(S : {set 'I_n}) (-1) ^+ (#|S| + 1) * \tr (mxpow (mx_of (size (set_rows S)) (ix Sigma (set_rows S))) n).
Lemma signs (F : {set 'I_n} -> C) : (-1) ^+ (n + 1) * (\sum_(S : {set 'I_n}) (-1) ^+ (#|S| + 1) * F S) = \sum_(S : {set 'I_n}) (-1) ^+ (n - #|S|) * F S.
Proof.
rewrite mulr_sumr; apply: eq_bigr => S _; rewrite mulrA; congr (_ * _).
have le : (#|S| <= n)%N by rewrite -[X in (_ <= X)%N]card_ord max_card.
rewrite -exprD -signr_odd -[RHS]signr_odd; congr (_ ^+ nat_of_bool _).
by rewrite oddB // !oddD [odd 1]/=; move: (odd n) (odd #|S|) => [] [].
Qed.
Lemma tr_partE (A : mat) : (-1) ^+ (n + 1) * tr_part (mmul (2 * n) (Xmat C n) A) / (2 * n)%:R = mtl_spec m A.
Proof.
rewrite /tr_part signs /mtl_spec; congr (_ / _).
set Sig := mmul _ _ _.
transitivity (\sum_(s : 'S_n) \sum_(b : {ffun 'I_n -> bool}) W Sig (fun a y => Sig y a) s b).
  rewrite -sets_walks; apply: eq_bigr => S _; congr (_ * _); exact: trace_V.
apply: eq_bigr => s _; apply: eq_bigr => b _; rewrite /W /cycle_weight big_ord_recr /= mulrC; congr (_ * _).
  apply: eq_bigr => k _; have hk := ltn_ord k; rewrite /Sig XA.
  have -> : widen_ord (leqnSn m) k = inord k by apply: val_inj; rewrite /= inordK //; apply: ltnW.
  have kn : (k < m.+1)%N by apply: ltnW.
  by have -> : @nextI m (inord k) = inord k.+1 by apply: val_inj; rewrite /= !inordK ?modn_small.
rewrite /Sig XA; by have -> : nextI ord_max = ord0 :> 'I_n by apply: val_inj; rewrite /= modnn.
Qed.
Lemma foldM_val (Sigma : mat) (l : seq nat) s : all (fun p => p < 2 ^ n)%N l ->
  foldM (fun val p =>
    bind (dec2bin p n) (fun pos =>
    let lenpos := size pos in
    let pos := pos ++ [seq (n + i)%N | i <- pos] in
    let submat := ix Sigma pos in
    let sign := (-1) ^+ (lenpos + 1) in
    Ok (val + sign * last 0 (powertrace (size pos) submat n.+1)))) s l =
  Ok (s + \sum_(p <- l) (-1) ^+ (#|bset n p| + 1) * \tr (mxpow (mx_of (size (set_rows (bset n p))) (ix Sigma (set_rows (bset n p)))) n)).
Proof.
elim: l s => [|p l IH] s; first by rewrite big_nil addr0.
move=> /= /andP[hp hl]; rewrite dec2bin_bset // [bind (Ok _) _]/= -/(set_rows (bset n p)) size_set_modes last_powertrace //; last by rewrite size_set_rows; lia.
by apply: etrans (IH _ hl) _; rewrite big_cons addrA.
Qed.
Lemma sched_lt : all (fun p => p < 2 ^ n)%N (sched (2 ^ n)).
Proof. by rewrite (perm_all _ (sched_ok _)); apply/allP => p; rewrite mem_iota. Qed.
(** C33: the montrealer *)
Theorem mtl_correct (A : mat) : mtl sched (PyArr (arr_of (2 * n) (2 * n) A)) = Ok (mtl_spec m A).
Proof.
rewrite /mtl /tor_input_checks /= eqxx; have -> : (2 * n %% 2)%N = 0%N by lia.
rewrite /=; have -> : (2 * n %/ 2)%N = n by lia.
rewrite /montrealer foldM_val ?sched_lt // [bind (Ok _) _]/= add0r.
rewrite (sum_sched (fun p => (-1) ^+ (#|bset n p| + 1) * \tr (mxpow (mx_of (size (set_rows (bset n p))) (ix _ (set_rows (bset n p)))) n))).
by rewrite (bset_sum (fun S => (-1) ^+ (#|S| + 1) * \tr (mxpow (mx_of (size (set_rows S)) (ix _ (set_rows S))) n))) -tr_partE.
Qed.

Lemma V_scale (M : mat) r k (z : vec) c a : V M r k (fun y => c * z y) a = c * V M r k z a.
Proof. by elim: k a => [|k IH] a //=; rewrite mulr_sumr; apply: eq_bigr => x _; rewrite IH mulrCA. Qed.
Lemma power_loopE (M : mat) (z : vec) (r : seq nat) : power_loop (size r) (ix M r) (fun i => z (nth 0%N r i)) n =
  \sum_(a <- r) V M r m (fun y => (z a)^* * z y) a.
Proof.
rewrite /power_loop subn1 [n.-1]/= (big_nth 0%N) big_mkord; apply: eq_bigr => i _; rewrite V_scale; congr (_ * _).
have: forall k (i : 'I_(size r)), for_ (iota 0 k) (fun i => z (nth 0%N r i)) (fun (vec : nat -> C) _ i => \sum_(j < size r) ix M r i j * vec j) i = V M r k z (nth 0%N r i).
  elim=> [//|k IH] {}i; rewrite for_iotaS [RHS]/= (big_nth 0%N) big_mkord; apply: eq_bigr => j _; by rewrite IH.
by apply.
Qed.
Definition loop_part (Sigma : mat) (z : vec) : C := \sum_(S : {set 'I_n}) (-1) ^+ (#|S| + 1) * power_loop (size (set_rows S)) (ix Sigma (set_rows S)) (fun i => z (nth 0%N (set_rows S) i)) n.
Lemma loop_partE (A : mat) z : (-1) ^+ (n + 1) * loop_part (mmul (2 * n) (Xmat C n) A) z =
  \sum_(s : 'S_n) \sum_(b : {ffun 'I_n -> bool}) path_weight (fun i => (z i)^*) z A s b.
Proof.
rewrite /loop_part signs; set Sig := mmul _ _ _.
transitivity (\sum_(s : 'S_n) \sum_(b : {ffun 'I_n -> bool}) W Sig (fun a y => (z a)^* * z y) s b).
  rewrite -sets_walks; apply: eq_bigr => S _; congr (_ * _); exact: power_loopE.
apply: eq_bigr => s _; apply: eq_bigr => b _; rewrite /W /path_weight; congr (_ * _).
by apply: eq_bigr => k _; rewrite /Sig XA.
Qed.
Lemma foldM_vals (Sigma : mat) (zeta : vec) (l : seq nat) s t : all (fun p => p < 2 ^ n)%N l ->
  foldM (fun vals p => let: (val, val_loops) := vals in
    bind (dec2bin p n) (fun pos =>
    let lenpos := size pos in
    let pos := pos ++ [seq (n + i)%N | i <- pos] in
    let subvec : vec := fun i => zeta (nth 0%N pos i) in
    let submat := ix Sigma pos in
    let sign := (-1) ^+ (lenpos + 1) in
    let val_loops := val_loops + sign * power_loop (size pos) submat subvec n in
    Ok (val + sign * last 0 (powertrace (size pos) submat n.+1), val_loops))) (s, t) l =
  Ok (s + \sum_(p <- l) (-1) ^+ (#|bset n p| + 1) * \tr (mxpow (mx_of (size (set_rows (bset n p))) (ix Sigma (set_rows (bset n p)))) n),
      t + \sum_(p <- l) (-1) ^+ (#|bset n p| + 1) * power_loop (size (set_rows (bset n p))) (ix Sigma (set_rows (bset n p))) (fun i => zeta (nth 0%N (set_rows (bset n p)) i)) n).
Proof.
elim: l s t => [|p l IH] s t; first by rewrite !big_nil !addr0.
move=> /= /andP[hp hl]; rewrite dec2bin_bset // [bind (Ok _) _]/= -/(set_rows (bset n p)) size_set_modes last_powertrace //; last by rewrite size_set_rows; lia.
by apply: etrans (IH _ _ hl) _; rewrite !big_cons !addrA.
Qed.
(** C33: the loop montrealer *)
Theorem lmtl_correct (A : mat) (zeta : vec) : lmtl sched (PyArr (arr_of (2 * n) (2 * n) A)) (Some (zeta, (2 * n)%N)) = Ok (lmtl_spec m (fun i => (zeta i)^*) zeta A).
Proof.
rewrite /lmtl /tor_input_checks /= eqxx; have -> : (2 * n %% 2)%N = 0%N by lia.
rewrite /=; have -> : (2 * n %/ 2)%N = n by lia.
rewrite /lmontrealer foldM_vals ?sched_lt // [bind (Ok _) _]/= !add0r.
rewrite (sum_sched (fun p => (-1) ^+ (#|bset n p| + 1) * \tr (mxpow (mx_of (size (set_rows (bset n p))) (ix _ (set_rows (bset n p)))) n))).
rewrite (bset_sum (fun S => (-1) ^+ (#|S| + 1) * \tr (mxpow (mx_of (size (set_rows S)) (ix _ (set_rows S))) n))).
rewrite (sum_sched (fun p => (-1) ^+ (#|bset n p| + 1) * power_loop (size (set_rows (bset n p))) (ix _ (set_rows (bset n p))) (fun i => zeta (nth 0%N (set_rows (bset n p)) i)) n)).
rewrite (bset_sum (fun S => (-1) ^+ (#|S| + 1) * power_loop (size (set_rows S)) (ix _ (set_rows S)) (fun i => zeta (nth 0%N (set_rows S) i)) n)).
by congr Ok; rewrite /lmtl_spec -tr_partE -loop_partE mulrDr !mulrA.
Qed.
End Top.
