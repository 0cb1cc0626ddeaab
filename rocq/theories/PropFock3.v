(** C54, part 3: density_matrix. *)
From mathcomp Require Import all_ssreflect all_algebra algC zify.
From Verif Require Import Prelude PyBase ArrLoop SpecHaf ThHaf MHafnian PropPowerHaf PropHafnian MHermite PropHermite PropHermite2 SpecSymp MSymplectic
  PropSymplectic PropSymp2 PropGates PropChannels PropConversions SpecGauss MMeans PropMeans SpecTor PropTor5 PropThr4 PropThr5 SpecFock MFock PropFock PropFock2.
Set Implicit Arguments.
Unset Strict Implicit.
Unset Printing Implicit Defensive.
Import Order.Theory GRing.Theory Num.Theory.

(** ** index bookkeeping *)
Definition pairs2 (f g : nat -> nat) n := flatten [seq [:: f i; g i] | i <- iota 0 n].
Lemma pairs2S f g n : pairs2 f g n.+1 = pairs2 f g n ++ [:: f n; g n].
Proof. by rewrite /pairs2 -addn1 iotaD map_cat flatten_cat add0n. Qed.
Lemma size_pairs2 f g n : size (pairs2 f g n) = 2 * n.
Proof. by elim: n => // n IH; rewrite pairs2S size_cat IH /=; lia. Qed.
Lemma nth_pairs2 f g n i : i < n -> nth 0 (pairs2 f g n) (2 * i) = f i /\ nth 0 (pairs2 f g n) (2 * i).+1 = g i.
Proof.
elim: n => // n IH hi; rewrite pairs2S !nth_cat size_pairs2.
case: (ltnP i n) => h.
  by have -> : 2 * i < 2 * n by [lia]; have -> : (2 * i).+1 < 2 * n by [lia]; exact: IH.
have e : i = n by lia.
by rewrite e ltnn subnn; have -> : (2 * n).+1 < 2 * n = false by [lia]; have -> : (2 * n).+1 - 2 * n = 1 by lia.
Qed.
Lemma zip2E k l n : size k = n -> size l = n -> zip2 k l = pairs2 (nth 0 k) (nth 0 l) n.
Proof.
move=> sk sl; rewrite /zip2 /pairs2; congr flatten; apply: (@eq_from_nth _ [::]).
  by rewrite !size_map size_zip size_iota sk sl minnn.
move=> i; rewrite size_map size_zip sk sl minnn => hi.
by rewrite (nth_map (0, 0)) ?size_zip ?sk ?sl ?minnn // nth_zip ?sk ?sl // (nth_map 0) ?size_iota // nth_iota.
Qed.
Lemma index_nth s i : uniq s -> i < size s -> forall x, nth 0 s i = x -> index x s = i.
Proof. by move=> us hi x <-; exact: index_uniq. Qed.
Lemma pairs2_uniq f g n : (forall i j, i < n -> j < n -> f i = f j -> i = j) -> (forall i j, i < n -> j < n -> g i = g j -> i = j) ->
  (forall i j, i < n -> j < n -> f i != g j) -> uniq (pairs2 f g n).
Proof.
move=> hf hg hfg; apply/(uniqP 0) => a b; rewrite !inE size_pairs2 => ha hb.
have [a' [la ea]] : exists a', a' < n /\ (a = 2 * a' \/ a = (2 * a').+1) by exists a./2; lia.
have [b' [lb eb]] : exists b', b' < n /\ (b = 2 * b' \/ b = (2 * b').+1) by exists b./2; lia.
have [a1 a2] := nth_pairs2 f g la; have [b1 b2] := nth_pairs2 f g lb.
case: ea => ->; case: eb => ->; rewrite ?a1 ?a2 ?b1 ?b2.
- by move=> e; rewrite (hf a' b').
- by move=> e; have := hfg a' b' la lb; rewrite e eqxx.
- by move=> e; have := hfg b' a' lb la; rewrite e eqxx.
- by move=> e; rewrite (hg a' b').
Qed.
Lemma sf_orderE N : sf_order N = pairs2 id (fun i => i + N) N. Proof. by []. Qed.
Lemma index_sf N i : i < N -> index i (sf_order N) = 2 * i /\ index (i + N) (sf_order N) = (2 * i).+1.
Proof.
move=> hi; rewrite sf_orderE.
have u : uniq (pairs2 id (fun i => i + N) N).
  by apply: pairs2_uniq => [//|a b _ _|a b ha hb]; [move/addIn | apply/eqP; lia].
have [e1 e2] := nth_pairs2 id (fun i => i + N) hi.
by split; apply: index_nth => //; rewrite size_pairs2; lia.
Qed.
Lemma sf_transpose N k l : size k = N -> size l = N ->
  [seq nth 0 (zip2 k l) (index j (sf_order N)) | j <- iota 0 (size (sf_order N))] = k ++ l.
Proof.
move=> sk sl; rewrite sf_orderE size_pairs2 -sf_orderE (zip2E sk sl).
apply: (@eq_from_nth _ 0); first by rewrite size_map size_iota size_cat sk sl; lia.
move=> i; rewrite size_map size_iota => hi; rewrite (nth_map 0) ?size_iota // nth_iota // add0n nth_cat sk.
case: (ltnP i N) => h; first by rewrite (proj1 (index_sf h)) (proj1 (nth_pairs2 _ _ h)).
have h' : i - N < N by lia.
by rewrite -{1}(subnK h) (proj2 (index_sf h')) (proj2 (nth_pairs2 _ _ h')).
Qed.
Lemma sf_shape N c : [seq nth 0 (nseq (2 * N) c) a | a <- sf_order N] = nseq (2 * N) c.
Proof.
apply: (@eq_from_nth _ 0); first by rewrite size_map sf_orderE size_pairs2 size_nseq.
move=> i; rewrite size_map sf_orderE size_pairs2 => hi; rewrite (nth_map 0) ?size_pairs2 // !nth_nseq hi.
have [a [la e]] : exists a', a' < N /\ (i = 2 * a' \/ i = (2 * a').+1) by exists i./2; lia.
have [e1 e2] := nth_pairs2 id (fun i => i + N) la.
by case: e => ->; rewrite ?e1 ?e2; case: ifP => //; lia.
Qed.
(** the transposition used for the trace *)
Lemma new_axE M : new_ax M = [seq 2 * i | i <- iota 0 M] ++ [seq (2 * i).+1 | i <- iota 0 M].
Proof. by rewrite /new_ax /= cats0; congr (_ ++ _); apply: eq_map => i; lia. Qed.
Lemma size_new_ax M : size (new_ax M) = 2 * M.
Proof. by rewrite new_axE size_cat !size_map !size_iota; lia. Qed.
Lemma nth_new_ax M i : i < M -> nth 0 (new_ax M) i = 2 * i /\ nth 0 (new_ax M) (M + i) = (2 * i).+1.
Proof.
move=> hi; rewrite new_axE !nth_cat !size_map !size_iota hi ltnNge leq_addr /= addKn.
by rewrite !(nth_map 0) ?size_iota // nth_iota.
Qed.
Lemma new_ax_uniq M : uniq (new_ax M).
Proof.
rewrite new_axE cat_uniq !map_inj_uniq ?iota_uniq ?andbT; try by move=> a b; lia.
by apply/hasP => -[x /mapP[a _ ->]] /mapP[b _]; lia.
Qed.
Lemma index_new_ax M i : i < M -> index (2 * i) (new_ax M) = i /\ index (2 * i).+1 (new_ax M) = M + i.
Proof.
by move=> hi; have [e1 e2] := nth_new_ax hi; split; apply: index_nth => //; rewrite ?new_ax_uniq ?size_new_ax //; lia.
Qed.
Lemma new_ax_transpose M k l : size k = M -> size l = M ->
  [seq nth 0 (k ++ l) (index j (new_ax M)) | j <- iota 0 (size (new_ax M))] = zip2 k l.
Proof.
move=> sk sl; rewrite size_new_ax (zip2E sk sl).
apply: (@eq_from_nth _ 0); first by rewrite size_map size_iota size_pairs2.
move=> i; rewrite size_map size_iota => hi; rewrite (nth_map 0) ?size_iota // nth_iota // add0n.
have [a [la e]] : exists a', a' < M /\ (i = 2 * a' \/ i = (2 * a').+1) by exists i./2; lia.
have [e1 e2] := nth_pairs2 (nth 0 k) (nth 0 l) la; have [i1 i2] := index_new_ax la.
by case: e => ->; rewrite ?e1 ?e2 ?i1 ?i2 nth_cat sk ?la // ltnNge leq_addr /= addKn.
Qed.
Lemma new_ax_shape M c : [seq nth 0 (nseq (2 * M) c) a | a <- new_ax M] = nseq (2 * M) c.
Proof.
apply: (@eq_from_nth _ 0); first by rewrite size_map size_new_ax size_nseq.
move=> i; rewrite size_map size_new_ax => hi; rewrite (nth_map 0) ?size_new_ax // !nth_nseq hi.
case: (ltnP i M) => h; first by rewrite (proj1 (nth_new_ax h)); case: ifP => //; lia.
have h' : i - M < M by lia.
by rewrite -(subnKC h) (proj2 (nth_new_ax h')); case: ifP => //; lia.
Qed.

Lemma itproductE c n : itproduct c n = ndindex (nseq n c).
Proof. by elim: n => // n IH; rewrite /itproduct /= -/(itproduct c n) IH. Qed.
Lemma nth_flatten_unif (T : Type) (ss : seq (seq T)) d x0 r s : all (fun t => size t == d) ss -> r < size ss -> s < d ->
  nth x0 (flatten ss) (r * d + s) = nth x0 (nth [::] ss r) s.
Proof.
elim: ss r => [//|t ss IH] r /= /andP[/eqP st ha] hr hs; rewrite nth_cat st.
case: r hr => [|r] hr; first by rewrite mul0n add0n hs.
have -> : r.+1 * d + s < d = false by lia.
by have -> : r.+1 * d + s - d = r * d + s by [lia]; exact: IH.
Qed.
Lemma size_ndindex_nseq n c : size (ndindex (nseq n c)) = c ^ n.
Proof.
by elim: n => // n IH; rewrite [LHS]size_allpairs size_iota IH expnS.
Qed.
Lemma ndindex_cat s1 s2 : ndindex (s1 ++ s2) = flatten [seq [seq a ++ b | b <- ndindex s2] | a <- ndindex s1].
Proof.
elim: s1 => [|c s1 IH] /=; first by rewrite cats0 map_id.
rewrite IH; elim: (iota 0 c) => //= x l IHl; rewrite IHl map_cat flatten_cat; congr (_ ++ _).
by rewrite map_flatten -!map_comp; congr flatten; apply: eq_map => a /=; rewrite -map_comp.
Qed.
Lemma nth_ndindex2 n c r s : r < c ^ n -> s < c ^ n ->
  nth [::] (ndindex (nseq (2 * n) c)) (r * c ^ n + s) = nth [::] (ndindex (nseq n c)) r ++ nth [::] (ndindex (nseq n c)) s.
Proof.
move=> hr hs; have -> : nseq (2 * n) c = nseq n c ++ nseq n c by rewrite -nseqD mul2n addnn.
rewrite ndindex_cat nth_flatten_unif ?size_map ?size_ndindex_nseq //; last first.
  by apply/allP => t /mapP[a _ ->]; rewrite size_map size_ndindex_nseq.
by rewrite (nth_map [::]) ?size_ndindex_nseq // (nth_map [::]) ?size_ndindex_nseq.
Qed.
Lemma ndindex_uniq sh : uniq (ndindex sh).
Proof.
elim: sh => //= c sh IH; elim: c 0 => //= c IHc m; rewrite cat_uniq IHc map_inj_uniq ?IH ?andbT /=; last by move=> a b [].
apply/hasP => -[x /flattenP[t /mapP[a]]]; rewrite mem_iota => ha -> /mapP[b _ ->] /mapP[b' _ [e _]]; lia.
Qed.

(** a loop that fills a dictionary-like array *)
Lemma foldM_upd (X : eqType) (V : Type) (key : X -> seq nat) (calc : X -> res V) (val : X -> V) (body : (seq nat -> V) -> X -> res (seq nat -> V)) L G0 :
  (forall G x, x \in L -> body G x = bind (calc x) (fun v => Ok (updG G (key x) v))) ->
  (forall x, x \in L -> calc x = Ok (val x)) -> uniq (map key L) ->
  exists G, foldM body G0 L = Ok G /\ (forall x, x \in L -> G (key x) = val x) /\ (forall k, k \notin map key L -> G k = G0 k).
Proof.
elim: L G0 => [|a L IH] G0 hb hc /=; first by move=> _; exists G0.
case/andP => na uL; rewrite hb ?mem_head // hc ?mem_head //=.
have [G [-> [h1 h2]]] := IH (updG G0 (key a) (val a)) (fun G x xL => hb G x (mem_behead (s := a :: L) xL))
   (fun x xL => hc x (mem_behead (s := a :: L) xL)) uL.
exists G; split=> //; split=> [x|k].
  by rewrite inE => /orP[/eqP ->|/h1 //]; rewrite h2 // /updG eqxx.
by rewrite inE negb_or => /andP[nk /h2 ->]; rewrite /updG (negPf nk).
Qed.

(** ** filling in the post-selected modes *)
Section Fill.
Variable sel : seq (nat * nat).
Definition unsel (modes : seq nat) : nat := count (fun m => m \notin map fst sel) modes.
Lemma sel_nil m : ([seq kv.2 | kv <- sel & kv.1 == m] == [::]) = (m \notin map fst sel).
Proof.
apply/eqP/negP => [e /mapP[kv kvs em]|h].
  by have : kv.2 \in [seq kv.2 | kv <- sel & kv.1 == m] by [apply: map_f; rewrite mem_filter -em eqxx]; rewrite e.
case E : [seq kv <- sel | kv.1 == m] => [//|kv t]; case: h.
have : kv \in [seq kv <- sel | kv.1 == m] by rewrite E mem_head.
by rewrite mem_filter => /andP[/eqP <- kvs]; apply: map_f.
Qed.
Lemma fill_cat ms1 ms2 k l : size k = unsel ms1 -> fill (ms1 ++ ms2) sel (k ++ l) = fill ms1 sel k ++ fill ms2 sel l.
Proof.
elim: ms1 k => [|m ms IH] k /=; first by case: k.
have := sel_nil m; case E : [seq kv.2 | kv <- sel & kv.1 == m] => [|v t] => /esym h; rewrite h /= ?add0n.
  by case: k => //= x k [sk]; rewrite IH.
by move=> sk; rewrite IH.
Qed.
Lemma size_fill ms k : size (fill ms sel k) = size ms.
Proof. by elim: ms k => //= m ms IH k; case: [seq _ | _ <- _ & _] => [|v t] /=; rewrite IH. Qed.
Lemma fill_modes_ok ms k : (unsel ms <= size k) -> fill_modes ms sel k = Ok (fill ms sel k).
Proof.
elim: ms k => [|m ms IH] k //=.
have := sel_nil m; case E : [seq kv.2 | kv <- sel & kv.1 == m] => [|v t] => /esym h; rewrite h /= ?add0n.
  by case: k => //= x k sk; rewrite IH.
by move=> sk; rewrite IH.
Qed.
Lemma unsel_iota N : uniq (map fst sel) -> all (fun m => m < N) (map fst sel) -> unsel (iota 0 N) = N - size sel.
Proof.
move=> u a; have := count_predC (mem (map fst sel)) (iota 0 N); rewrite size_iota.
have -> : count (mem (map fst sel)) (iota 0 N) = size sel.
  rewrite -size_filter -(size_map fst sel); apply/perm_size/uniq_perm; rewrite ?filter_uniq ?iota_uniq // => x.
  by rewrite mem_filter mem_iota /= andb_idr // => xs; exact: (allP a _ xs).
by move=> e; rewrite -{2}e addKn; apply: eq_count.
Qed.
End Fill.

Local Open Scope ring_scope.
Section Fock.
Variable C : numClosedFieldType.
Notation mat := (nat -> nat -> C).
Notation vec := (nat -> C).
Variable sched : nat -> seq nat.
Variable oracle : nat -> (nat -> nat -> C) -> nat -> C.
Hypothesis sched_ok : forall n, perm_eq (sched n) (iota 0 n).
Variable oob : nat -> C.
Variable trunc : C -> C.
Variable exp : C -> C.

Section State.
Variables (N : nat) (mu : vec) (cov : mat) (hbar : C).
Hypothesis N0 : (0 < N)%N.
Hypothesis rs : real_sym (2 * N) cov.
Hypothesis rmu : forall a, (a < 2 * N)%N -> mu a \is Num.real.
Hypothesis h0 : 0 < hbar.
Hypothesis ps : possemi (2 * N) cov.
Notation Q := (Qmat N cov hbar).
Notation beta := (complex_to_real_displacements N mu hbar).
Notation AQ := (AQ N cov hbar).
Notation gammaQ := (gammaQ N mu cov hbar).
Notation dm := (density_matrix sched oracle oob trunc exp N mu cov).

Lemma norm_of_fact k l : norm_of C true (k ++ l) = sqrtC (fact_prod k * fact_prod l)%:R :> C.
Proof.
have e s : \prod_(v <- s) sqrtC (v`!)%:R = sqrtC (fact_prod s)%:R :> C.
  rewrite /fact_prod; elim: s => [|v s IH]; first by rewrite !big_nil sqrtC1.
  by rewrite !big_cons IH natrM sqrtCM // qualifE /= ler0n.
by rewrite /norm_of big_cat /= !e natrM sqrtCM // qualifE /= ler0n.
Qed.
Lemma ric_ext1 n (y z : vec) : (forall i, (i < n)%N -> y i = z i) -> ric_exact1 n y -> ric_exact1 n z.
Proof.
by move=> e [h|[i [hi h]]]; [left=> i hi; rewrite -e // h | right; exists i; rewrite -e].
Qed.
Lemma ric_ext2 n (y z : mat) : (forall i j, (i < n)%N -> (j < n)%N -> y i j = z i j) -> ric_exact2 n y -> ric_exact2 n z.
Proof.
by move=> e [h|[i [j [hi hj h]]]]; [left=> i j hi hj; rewrite -e // h | right; exists i, j; rewrite -e].
Qed.
Lemma ric_opp2 n (y : mat) : ric_exact2 n y -> ric_exact2 n (fun i j => - y i j).
Proof.
move=> [h|[i [j [hi hj h]]]]; [left=> i j hi hj; rewrite realN h // | right; exists i, j; rewrite hi hj raddfN normrN; by split].
Qed.

(** C54 (density matrix, no post-selection): the entry (k_0, l_0, k_1, l_1, ...) is <k| rho |l> *)
Theorem density_matrix_correct normalize cutoff :
  (0 < cutoff <= 1000)%N -> means_ok N mu -> ric_ok N mu cov hbar ->
  exists t : tensor C, [/\ dm None normalize cutoff hbar = Ok t, tshape t = nseq (2 * N) cutoff &
    forall k l, size k = N -> size l = N -> all (fun x => x < cutoff)%N (k ++ l) ->
      tent t (zip2 k l) = fock_rho exp N mu cov hbar k l].
Proof.
case/andP=> c0 c1 mok [rq rl]; rewrite /density_matrix prefactorE // /bind Amat_ok //.
set R := fun i j => - _; set y : vec := fun t => _ - _.
have yE t : (t < 2 * N)%N -> y t = rho_lin N mu cov hbar t.
  move=> ht; rewrite rho_linE // gammaQ_conj // /PropFock.gammaQ rmorphB /= conjCK /y /mvmul rmorph_sum /=; congr (_ - _).
  by apply: eq_bigr => u _; rewrite rmorphM.
have RE i j : (i < 2 * N)%N -> (j < 2 * N)%N -> - R i j = rho_quad N cov hbar i j.
  by move=> hi hj; rewrite rho_quad_conj // /R opprK.
have sR i j : (i < 2 * N)%N -> (j < 2 * N)%N -> R i j = R j i by move=> hi hj; rewrite /R AQ_sym.
have ricR : ric_exact2 (2 * N) R.
  by apply: ric_ext2 (ric_opp2 rq) => i j hi hj; rewrite -RE // opprK.
have scs : size (cutoffs_of (2 * N) (CInt cutoff)) = (2 * N)%N by rewrite size_nseq.
have acs : all (fun v => 0 < v)%N (cutoffs_of (2 * N) (CInt cutoff)) by rewrite /= all_nseq c0 orbT.
have acs' : all (fun v => v <= 1000)%N (cutoffs_of (2 * N) (CInt cutoff)) by rewrite /= all_nseq c1 orbT.
have main y' : (forall t, (t < 2 * N)%N -> y' t = rho_lin N mu cov hbar t) ->
  exists t : tensor C, [/\ match hermite_multidimensional oob trunc (PyArr (arr_of (2 * N) (2 * N) R)) (CInt cutoff) (Some (2 * N, y')%N) 1 true true true (rtol0 C) (atol0 C) (cplx_types) with
     | Ok t => Ok (transpose (sf_order N) (Tensor (tshape t) (fun k => rho_vac exp N mu cov hbar * tent t k))) | Err e => Err e end = Ok t,
    tshape t = nseq (2 * N) cutoff & forall k l, size k = N -> size l = N -> all (fun x => x < cutoff)%N (k ++ l) ->
      tent t (zip2 k l) = fock_rho exp N mu cov hbar k l].
  move=> yE'.
  have ricy : ric_exact1 (2 * N) y' by apply: ric_ext1 rl => i hi; rewrite yE'.
  have [t [ts -> tE _]] := hermite_multidimensional_correct oob trunc (y := y') 1 (renorm := true) (modified := true) (it := cplx_types) (rtol_ge0 C) (atol_ge0 C) sR scs acs (fun _ => acs') (fun _ => isT) ricR ricy.
  eexists; split; first by reflexivity.
    by rewrite /= ts sf_shape.
  move=> k l sk sl kl; rewrite /= sf_transpose // tE; last first.
    rewrite /below /= size_cat sk sl size_nseq; apply/andP; split; first by lia.
    have e : (2 * N = size (k ++ l))%N by rewrite size_cat sk sl; lia.
    by rewrite e; elim: (k ++ l) kl => //= x s IH /andP[-> /IH].
  rewrite mul1r norm_of_fact mulrA; congr (_ * _ / _); apply: lhaf_rep_spec_ext; rewrite size_cat sk sl addnn -mul2n => i.
    by move=> j hi hj; apply: RE.
  by move=> hi; apply: yE'.
case: ifP => hz; last exact: main.
have z a : (a < 2 * N)%N -> mu a = 0.
  apply: mok => b hb; rewrite -close0; move/allP: hz; apply; by rewrite mem_iota add0n.
have := main (fun=> 0); rewrite /hermite_multidimensional input_validation_ok ?rtol_ge0 ?atol_ge0 // => m0; apply: m0 => t ht.
by rewrite mu0_lin.
Qed.

(** post-selection *)
Lemma unsel_modes : [seq (i %% N)%N | i <- iota 0 (2 * N)] = iota 0 N ++ iota 0 N.
Proof.
rewrite mul2n -addnn iotaD map_cat add0n; congr (_ ++ _).
  by rewrite -[RHS]map_id; apply/eq_in_map => i; rewrite mem_iota add0n => /andP[_ hi]; rewrite modn_small.
have -> : iota N N = [seq (N + x)%N | x <- iota 0 N] by rewrite -iotaDl addn0.
rewrite -map_comp -[RHS]map_id; apply/eq_in_map => i; rewrite mem_iota add0n => /andP[_ hi] /=.
by rewrite modnDl modn_small.
Qed.

Lemma sf_elE M a b : size a = M -> size b = M -> sf_el M (a ++ b) = zip2 b a.
Proof.
move=> sa sb; rewrite (zip2E sb sa) /sf_el /pairs2; congr flatten; apply/eq_in_map => c; rewrite mem_iota add0n => /andP[_ hc].
by rewrite !nth_cat sa hc ltnNge leq_addr /= addKn.
Qed.
Lemma sf_el_inj M x y : size x = (2 * M)%N -> size y = (2 * M)%N -> sf_el M x = sf_el M y -> x = y.
Proof.
move=> sx sy e; apply: (@eq_from_nth _ 0%N) => [|i]; first by rewrite sx sy.
pose f z c := nth 0%N z (M + c). pose g (z : seq nat) c := nth 0%N z c.
have nz z c : (c < M)%N -> _ := @nth_pairs2 (f z) (g z) M c.
rewrite sx => hi; case: (ltnP i M) => h.
  by have [_ e1] := nz x i h; have [_ e2] := nz y i h; rewrite -[LHS]e1 -[RHS]e2; congr nth.
have h' : (i - M < M)%N by lia.
have [e1 _] := nz x _ h'; have [e2 _] := nz y _ h'; rewrite /f (subnKC h) in e1 e2; rewrite -[LHS]e1 -[RHS]e2; congr nth.
exact: e.
Qed.
Lemma below_nseq k n c : below k (nseq n c) = (size k == n) && all (fun x => x < c)%N k.
Proof.
rewrite /below size_nseq; case: eqP => //= <-; by elim: k => //= x k ->.
Qed.

Variable sel : seq (nat * nat).
Hypothesis us : uniq (map fst sel).
Hypothesis ls : all (fun m => m < N)%N (map fst sel).
Let M := (N - size sel)%N.
Let sel_le : (size sel <= N)%N.
Proof.
rewrite -(size_map fst) -(size_iota 0 N); apply: uniq_leq_size => // x xs.
by rewrite mem_iota (allP ls _ xs).
Qed.
(** the unnormalised reduced operator on the remaining modes *)
Definition post_rho (k l : seq nat) : C := fock_rho exp N mu cov hbar (fill (iota 0 N) sel k) (fill (iota 0 N) sel l).
Definition post_trace (cutoff : nat) : C := \sum_(k <- ndindex (nseq M cutoff)) post_rho k k.

Hypothesis e_ok : exp_ok exp.
Theorem density_matrix_post_select normalize cutoff :
  quad_ok N cov hbar -> disp_ok N mu hbar (tol10 C) ->
  exists t : tensor C, [/\ dm (Some sel) normalize cutoff hbar = Ok t, tshape t = nseq (2 * M) cutoff &
    forall k l, size k = M -> size l = M -> all (fun x => x < cutoff)%N (k ++ l) ->
      tent t (zip2 k l) = post_rho k l / (if normalize then post_trace cutoff else 1)].
Proof.
move=> qo dok; rewrite /density_matrix prefactorE // {1}/bind ltnNge sel_le /= unsel_modes -/M itproductE.
set ms := iota 0 N ++ iota 0 N.
pose val idx := lhaf_rep_spec (fill (iota 0 N) sel (drop M idx) ++ fill (iota 0 N) sel (take M idx)) (rho_quad N cov hbar) (rho_lin N mu cov hbar)
  / sqrtC (fact_prod (fill (iota 0 N) sel (drop M idx)) * fact_prod (fill (iota 0 N) sel (take M idx)))%:R.
pose calc idx := bind (fill_modes ms sel idx) (fun el => density_matrix_element sched oracle exp N mu cov (take N el) (drop N el) false (tol10 C) hbar).
have inL idx : idx \in ndindex (nseq (2 * M) cutoff) -> size idx = (2 * M)%N.
  by rewrite mem_ndindex below_nseq => /andP[/eqP].
have uM : unsel sel (iota 0 N) = M by exact: unsel_iota.
match goal with |- context [foldM ?b _ _] => pose body := b end.
have := @foldM_upd _ _ (sf_el M) calc val body (ndindex (nseq (2 * M) cutoff)) (fun=> 0).
move=> /(_ _ _ _) []; rewrite -/body.
- by move=> G x _; rewrite /body /calc; case: (fill_modes ms sel x).
- move=> idx /inL si; rewrite /calc.
  have e : idx = take M idx ++ drop M idx by rewrite cat_take_drop.
  have st : size (take M idx) = M by rewrite size_take si; case: ifP; lia.
  rewrite fill_modes_ok; last by rewrite /unsel count_cat -/(unsel sel (iota 0 N)) uM si; lia.
  rewrite /bind {1 2}e fill_cat ?uM // take_cat drop_cat size_fill size_iota ltnn subnn take0 drop0 cats0.
  by rewrite (proj2 (density_matrix_element_correct _ _ _ _ _ _ _ _ _ _ _ _)) // size_fill size_iota.
- rewrite map_inj_in_uniq ?ndindex_uniq // => x y /inL sx /inL sy; exact: sf_el_inj.
- move=> G [-> [hG _]]; pose t := Tensor (nseq (2 * M) cutoff) (fun k => G k * rho_vac exp N mu cov hbar).
  have tE k l : size k = M -> size l = M -> all (fun x => x < cutoff)%N (k ++ l) -> tent t (zip2 k l) = post_rho k l.
    move=> sk sl kl; rewrite /= -(sf_elE sl sk) hG.
      rewrite /val take_size_cat // drop_size_cat // /post_rho /fock_rho; rring.
    rewrite mem_ndindex below_nseq size_cat sk sl addnn mul2n eqxx /= all_cat.
    by move: kl; rewrite all_cat andbC.
  rewrite /bind; eexists; split; first by reflexivity.
    by case: normalize.
  case: normalize; last by move=> k l sk sl kl; rewrite divr1 -tE.
  move=> k l sk sl kl; rewrite -/t /= -(tE k l) //; congr (_ / _).
  rewrite /trace_reshaped.
  have -> : \sum_(r <- iota 0 (cutoff ^ M)) tent (transpose (new_ax M) t) (nth [::] (ndindex (tshape (transpose (new_ax M) t))) (r * cutoff ^ M + r)) = post_trace cutoff.
    rewrite /post_trace [RHS](big_nth [::]) size_ndindex_nseq /index_iota subn0; apply: eq_big_seq => r; rewrite mem_iota add0n => /andP[_ hr].
    rewrite {2}/transpose /= new_ax_shape nth_ndindex2 //.
    set q := nth _ _ r; have : q \in ndindex (nseq M cutoff) by apply: mem_nth; rewrite size_ndindex_nseq.
    rewrite mem_ndindex below_nseq => /andP[/eqP sq aq].
    by rewrite new_ax_transpose // -[RHS]tE // all_cat aq.
  apply/Creal_ReP; rewrite /post_trace; apply: rpred_sum => q _; apply: fock_rho_real => //.
  by rewrite size_fill size_iota.
Qed.
(** after normalisation the trace is 1 *)
Theorem density_matrix_normalised cutoff :
  quad_ok N cov hbar -> disp_ok N mu hbar (tol10 C) -> post_trace cutoff != 0 ->
  exists2 t : tensor C, dm (Some sel) true cutoff hbar = Ok t &
    \sum_(k <- ndindex (nseq M cutoff)) tent t (zip2 k k) = 1.
Proof.
move=> qo dok nz; have [t [e _ tE]] := density_matrix_post_select true cutoff qo dok; exists t => //.
transitivity (\sum_(k <- ndindex (nseq M cutoff)) post_rho k k / post_trace cutoff).
  apply: eq_big_seq => k; rewrite mem_ndindex below_nseq => /andP[/eqP sk ak].
  by rewrite tE // all_cat ak.
by rewrite -mulr_suml divff.
Qed.
End State.
End Fock.
