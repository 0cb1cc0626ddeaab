(** C48: findings about n_body_marginals, and a concrete state *)
From mathcomp Require Import all_ssreflect all_algebra algC zify.
From Verif Require Import Prelude PyBase ArrLoop SpecHaf ThHaf MHafnian PropPowerHaf PropHafnian MHermite PropHermite PropHermite2 SpecSymp MSymplectic
  PropSymplectic PropSymp2 PropGates PropChannels PropConversions SpecGauss MMeans PropMeans MTor SpecTor PropTor PropTor5 PropThr4 PropThr5 SpecFock MFock PropFock PropFock2 PropFock3 PropFock4 PropFock5 PropFock6 PropFock7 MMarg PropMarg PropMarg2.
Set Implicit Arguments.
Unset Strict Implicit.
Unset Printing Implicit Defensive.
Import Order.Theory GRing.Theory Num.Theory.
Local Open Scope ring_scope.

Section Marg.
Variable C : numClosedFieldType.
Notation mat := (nat -> nat -> C).
Notation vec := (nat -> C).
Variable sched : nat -> seq nat.
Variable oracle : nat -> (nat -> nat -> C) -> nat -> C.
Hypothesis sched_ok : forall n, perm_eq (sched n) (iota 0 n).
Variable oob : nat -> C.
Variable trunc : C -> C.
Variable exp : C -> C.
Variable eigvalsh : nat -> mat -> seq C.
Hypothesis e_ok : cexp_ok exp.
Notation nbm so := (n_body_marginals sched oracle oob trunc exp eigvalsh so).
Notation vac2 := (vac_cov (2%:R : C)).

(** coherent states whose displacements are 0 or 1: mean vectors with entries 0 or 2, hbar = 2 *)
Section Coh.
Variables (N : nat) (mu : vec) (cov : mat).
Hypothesis N0 : (0 < N)%N.
Hypothesis ec : forall a b, (a < 2 * N)%N -> (b < 2 * N)%N -> vac2 a b = cov a b.
Hypothesis m2 : forall a, (a < N)%N -> mu a = 0 \/ mu a = 2%:R.
Hypothesis mp : forall a, (a < N)%N -> mu (N + a)%N = 0.
Lemma coh_real a : (a < 2 * N)%N -> mu a \is Num.real.
Proof.
move=> ha; case: (ltnP a N) => h; first by case: (m2 h) => ->; rewrite ?rpred0 ?realn.
have h' : (a - N < N)%N by lia.
by rewrite -(subnKC h) mp // rpred0.
Qed.
Lemma coh_beta t : (t < N)%N -> complex_to_real_displacements N mu 2%:R t = mu t / 2%:R.
Proof. by move=> ht; rewrite /complex_to_real_displacements ht mp // mulr0 addr0 sqrt4. Qed.
Lemma coh_displ t : (t < N)%N -> displ N mu 2%:R t = mu t / 2%:R.
Proof.
move=> ht; rewrite displE ?coh_beta //; first by move=> a; exact: coh_real.
exact: two_gt0.
Qed.
Lemma coh_quad t u : (t < 2 * N)%N -> (u < 2 * N)%N -> rho_quad N cov 2%:R t u = 0.
Proof. by move=> ht hu; rewrite -(rho_quad_ext 2%:R ec) (vac_quad N0 (two_gt0 C)). Qed.
Lemma coh_prob_ok : prob_ok eigvalsh N mu cov 2%:R.
Proof.
split.
- by move=> t u ht hu _; exact: coh_quad.
- case: (boolP [exists a : 'I_N, mu a == 2%:R]) => [/existsP[a /eqP ha]|/existsPn na] hn.
    suff h1 : 1 <= np_norm (2 * N) (complex_to_real_displacements N mu 2%:R).
      by have := le_lt_trans h1 (lt_trans hn (tol_lt1 C)); rewrite ltxx.
    rewrite /np_norm -[X in X <= _]sqrtC1 ler_sqrtC ?qualifE /= ?ler01 //; last by apply: sumr_ge0 => i _; rewrite exprn_ge0.
    have a2 : (a < 2 * N)%N by have := ltn_ord a; lia.
    rewrite sum_iota (bigD1 (Ordinal a2)) //= coh_beta // ha divff ?pnatr_eq0 // normr1 expr1n ler_paddr //.
    by apply: sumr_ge0 => i _; rewrite exprn_ge0.
  move=> a ha; case: (ltnP a N) => h.
    by case: (m2 h) => // e; have := na (Ordinal h); rewrite /= e eqxx.
  have h' : (a - N < N)%N by lia.
  by rewrite -(subnKC h) mp.
- split; left; first by move=> i j hi hj; rewrite coh_quad ?rpred0 //; lia.
  move=> i hi; rewrite /psi_lin coh_displ // big1 ?subr0.
    by case: (m2 hi) => ->; rewrite ?mul0r ?rpred0 // realM // ?realV ?realn.
  by move=> u _; rewrite coh_quad ?mul0r //; have := ltn_ord u; lia.
- move=> _ i j hi hj; rewrite -[RHS](vac_pure (two_gt0 C) hi hj).
  by apply: eq_bigr => k _; apply: eq_bigr => l _; rewrite !ec.
Qed.
End Coh.

(** a list of modes restricts such a state to such a state *)
Section Sub.
Variables (M : nat) (mu : vec).
Hypothesis m2 : forall a, (a < M)%N -> mu a = 0 \/ mu a = 2%:R.
Hypothesis mp : forall a, (a < M)%N -> mu (M + a)%N = 0.
Variable w : seq nat.
Hypothesis uw : uniq w.
Hypothesis aw : all (fun m => m < M)%N w.
Hypothesis w0 : (0 < size w)%N.
Lemma sub_vac a b : (a < 2 * size w)%N -> (b < 2 * size w)%N -> vac2 a b = sub_cov M w vac2 a b.
Proof.
rewrite -(size_quads M w) => ha hb; rewrite /sub_cov /ix /vac_cov nth_uniq //; exact: quads_uniq.
Qed.
Lemma sub_x a : (a < size w)%N -> sub_mu M w mu a = mu (nth 0%N w a).
Proof. by move=> h; rewrite /sub_mu /quads nth_cat h. Qed.
Lemma sub_p a : (a < size w)%N -> sub_mu M w mu (size w + a)%N = 0.
Proof.
move=> h; rewrite /sub_mu /quads nth_cat ltnNge leq_addr /= addKn (nth_map 0%N) // mp //.
by apply: (allP aw); exact: mem_nth.
Qed.
Lemma sub_prob_ok st : restricts M w mu vac2 st -> prob_ok eigvalsh (size w) st.1 st.2 2%:R.
Proof.
move=> re; have [em ecv] := restricts_sub re; apply: coh_prob_ok => //.
- by move=> a b ha hb; rewrite -ecv // sub_vac.
- move=> a ha; rewrite -em; last by lia.
  by rewrite sub_x //; apply: m2; apply: (allP aw); exact: mem_nth.
- by move=> a ha; rewrite -em; [exact: sub_p | lia].
Qed.
Lemma coh_mode_prob x : size x = size w -> mode_prob exp M mu vac2 2%:R w x =
  max0 (exp (- \sum_(t < size w) `|mu (nth 0%N w t) / 2%:R| ^+ 2) *
    (\prod_(t < size w) ((mu (nth 0%N w t) / 2%:R) ^+ nth 0%N x t * ((mu (nth 0%N w t) / 2%:R)^* ^+ nth 0%N x t))) / sqrtC (fact_prod x * fact_prod x)%:R).
Proof.
move=> sx; rewrite /mode_prob.
have s2 a : (a < size w)%N -> sub_mu M w mu a = 0 \/ sub_mu M w mu a = 2%:R.
  by move=> ha; rewrite sub_x //; apply: m2; apply: (allP aw); exact: mem_nth.
have rr a : (a < 2 * size w)%N -> sub_mu M w mu a \is Num.real by apply: coh_real => //; exact: sub_p.
have cd (t : 'I_(size w)) : displ (size w) (sub_mu M w mu) 2%:R t = mu (nth 0%N w t) / 2%:R by rewrite coh_displ ?sub_x // => a ha; exact: sub_p.
rewrite -(@fock_rho_ext _ exp (size w) (sub_mu M w mu) (sub_mu M w mu) vac2 (sub_cov M w vac2) 2%:R (fun _ _ => erefl) sub_vac).
rewrite coherent_rho //; last exact: two_gt0.
congr (max0 (exp (- _) * _ / _)); first by apply: eq_bigr => t _; rewrite cd.
by apply: eq_bigr => t _; rewrite cd.
Qed.
End Sub.

(** one photon on average in mode 0 of three *)
Definition mean3 : vec := fun a => if a == 0%N then 2%:R else 0.
Definition inc_order (ind : seq nat) : seq nat := sort leq (undup ind).
Lemma mean3_x a : (a < 3)%N -> mean3 a = 0 \/ mean3 a = 2%:R.
Proof. by rewrite /mean3; case: eqP; [right | left]. Qed.
Lemma mean3_p a : (a < 3)%N -> mean3 (3 + a)%N = 0.
Proof. by []. Qed.
Lemma exp_n0 a : exp a != 0.
Proof.
have [e0 eD _] := e_ok; apply/eqP => z; have := oner_neq0 C; rewrite -e0 -{1}(subrr a) eD z mul0r eqxx //.
Qed.
Lemma exp_real_gt0 a : a \is Num.real -> 0 < exp a.
Proof.
move=> ra; have [e0 eD eC] := e_ok.
have r2 : a / 2%:R \is Num.real by rewrite realM // realV realn.
have -> : a = a / 2%:R + a / 2%:R by rewrite -mulrDr -mulr2n -[2%:R^-1 *+ 2]mulr_natl divff ?mulr1 // pnatr_eq0.
rewrite eD lt_neqAle eq_sym mulf_neq0 ?exp_n0 //= -[X in _ * X](CrealP _) ?mul_conjC_ge0 //.
by apply/CrealP; rewrite -eC (CrealP r2).
Qed.
(** non-trivial example and refutation: the list (1, 2, 0) is filled with the wrong axes *)
Theorem n_body_marginals_cyclic_refuted : exists2 r, nbm inc_order 6%N mean3 (6, 6)%N vac2 2%N 3%N 2%:R = Ok r &
  r [:: 1; 2; 0]%N [:: 0; 0; 1]%N != mode_prob exp 3 mean3 vac2 2%:R (sort leq [:: 1; 2; 0]%N) (assign [:: 1; 2; 0] [:: 0; 0; 1])%N.
Proof.
have [rs ps] := vacuum_cov_ok 3 (two_gt0 C).
have pok w st : sorted ltn w -> (0 < size w <= 3)%N -> all (fun m => m < 3)%N w -> restricts 3 w mean3 vac2 st ->
    prob_ok eigvalsh (size w) st.1 st.2 2%:R.
  move=> sw /andP[w0 _] aw; apply: (sub_prob_ok mean3_x mean3_p) => //; exact: (sorted_uniq ltn_trans ltnn).
have rm := @coh_real 3 mean3 isT mean3_x mean3_p.
have [r er [_ _ h _]] := n_body_marginals_correct oracle sched_ok oob trunc e_ok (isT : (0 < 3 <= 3)%N) rs rm (two_gt0 C) ps (isT : (0 < 2 <= 1000)%N) pok
   (set_order := inc_order) (fun _ _ _ => erefl).
exists r => //; rewrite h //.
have -> : sort leq [:: 1; 2; 0]%N = [:: 0; 1; 2]%N by [].
have -> : transposed [:: 1; 2; 0]%N [:: 0; 0; 1]%N = [:: 0; 1; 0]%N by [].
have -> : assign [:: 1; 2; 0]%N [:: 0; 0; 1]%N = [:: 1; 0; 0]%N by [].
have o : 2%:R / 2%:R = 1 :> C by rewrite divff ?pnatr_eq0.
rewrite !(coh_mode_prob mean3_x mean3_p) // !big_ord_recl !big_ord0 /= /mean3 /= o !mul0r !normr0 !conjC1.
rewrite /fact_prod !big_cons !big_nil /= sqrtC1 !expr0 ?expr1n ?expr1 ?expr0n /= normr1 ?expr1n ?addr0 ?mul0r ?mulr0 ?mul1r ?mulr1 ?mul0r ?divr1 /max0 lexx.
have eg : 0 < exp (- 1) by apply: exp_real_gt0; rewrite realN real1.
by rewrite (ltW eg) lt_eqF.
Qed.

(** sets are not always listed in increasing order: if [1, 8] comes out as [8, 1], the entry of the pair (1, 8) is
    never written and stays zero, for every state *)
Section SetOrder.
Variable so : seq nat -> seq nat.
Hypothesis so_set : forall ind, perm_eq (so ind) (undup ind).
Hypothesis so18 : so [:: 1; 8]%N = [:: 8; 1]%N.
Theorem n_body_marginals_set_order M mean cov cutoff hbar r x :
  nbm so (2 * M)%N mean (2 * M, 2 * M)%N cov cutoff 2%N hbar = Ok r -> r [:: 1; 8]%N x = 0.
Proof.
rewrite /n_body_marginals eqxx /= mul2n odd_double doubleK; case: ifP => // _.
match goal with |- foldM ?b _ _ = _ -> _ => pose body := b end; rewrite -/body.
have aL : all (fun ind => size ind == 2%N) (itproduct M 2).
  by apply/allP => ind; rewrite itproductE mem_ndindex below_nseq => /andP[].
suff H L : forall G, all (fun ind => size ind == 2%N) L -> G [:: 1; 8]%N x = 0 -> foldM body G L = Ok r -> r [:: 1; 8]%N x = 0.
  exact: H aL _.
elim: L {aL} => [|ind L IH] G; first by move=> _ g0 [<-].
move=> /andP[/eqP si aL] g0 /=.
have stp G' : body G ind = Ok G' -> G' [:: 1; 8]%N x = 0.
  rewrite /body; case: eqP => es.
    case: (reduced_state _ _ _ _) => // st /=; case: (probabilities _ _ _ _ _ _ _ _ _ _ _ _ _ _) => // p /= [<-].
    case: eqP => // e; exfalso.
    have pu := so_set ind; rewrite -e in pu.
    have pi : perm_eq [:: 1; 8]%N ind.
      have szu : size (undup ind) = 2%N by rewrite -(perm_size pu).
      have : undup ind = ind by apply/undup_id; have := ltn_size_undup ind; rewrite szu si ltnn => /esym/negbFE.
      by move=> <-.
    have : ind = [:: 1; 8]%N.
      rewrite es; apply: (sorted_eq leq_trans anti_leq) => //; first by apply: sort_sorted; exact: leq_total.
      by rewrite perm_sort perm_sym.
    by move=> e2; move: e; rewrite e2 so18.
  move=> [<-]; case: eqP => // e; exfalso; apply: es.
  case: (ind) si e => [|a [|b []]] // _; rewrite /fromkeys /=.
  by rewrite inE; case: eqP => [->|] // _ [<- <-].
case eb : (body G ind) => [G'|] //= h; exact: IH aL (stp _ eb) h.
Qed.
(** although the vacuum has no photons in these modes with probability one *)
Theorem n_body_marginals_set_order_refuted M : (8 < M)%N ->
  exists2 r, nbm so (2 * M)%N (fun=> 0) (2 * M, 2 * M)%N vac2 2%N 2%N 2%:R = Ok r &
    r [:: 1; 8]%N [:: 0; 0]%N = 0 /\ mode_prob exp M (fun=> 0) vac2 2%:R [:: 1; 8]%N [:: 0; 0]%N = 1.
Proof.
move=> M8.
have [r h] : exists r, nbm so (2 * M)%N (fun=> 0) (2 * M, 2 * M)%N vac2 2%N 2%N 2%:R = Ok r.
  rewrite /n_body_marginals eqxx /= mul2n odd_double doubleK ltnNge (_ : (2 <= M)%N = true) /=; last by lia.
  match goal with |- context [foldM ?b _ _] => pose body := b end; rewrite -/body.
  have aL : all (fun ind => ((0 < size ind)%N && all (fun m => m < M)%N ind)) (itproduct M 2).
    by apply/allP => ind; rewrite itproductE mem_ndindex below_nseq => /andP[/eqP -> ->].
  move: (itproduct M 2) aL (fun _ _ => 0) => L; elim: L => [|ind L IH] /=; first by move=> _ G; exists G.
  move=> /andP[/andP[i0 ai] aL] G.
  suff [G' ->] : exists G', body G ind = Ok G' by exact: IH.
  rewrite /body; case: eqP => _; last by eexists.
  have pu := so_set ind; set w := so ind.
  have uw : uniq w by rewrite (perm_uniq pu) undup_uniq.
  have aw : all (fun m => m < M)%N w by apply/allP => m; rewrite (perm_mem pu) mem_undup => /(allP ai).
  have w0 : (0 < size w)%N.
    by rewrite (perm_size pu); case: (ind) i0 => // a s _; have : a \in undup (a :: s) by [rewrite mem_undup mem_head]; case: (undup _).
  pose z : nat -> C := fun=> 0.
  have z2 a : (a < M)%N -> z a = 0 \/ z a = 2%:R by left.
  have zp a : (a < M)%N -> z (M + a)%N = 0 by [].
  have [st est re] := reduced_state_correct z vac2 aw.
  have [q1 q2 q3 q4] := sub_prob_ok z2 zp uw aw w0 re.
  have [em ec] := restricts_sub re.
  have [rs ps] := vacuum_cov_ok (size w) (two_gt0 C).
  have rs' : real_sym (2 * size w) st.2.
    by move=> i j hi hj; rewrite -!ec // -!sub_vac //; exact: rs.
  have ps' : possemi (2 * size w) st.2 by apply: possemi_ext ps => i j hi hj; rewrite -ec // -sub_vac.
  have rm' a : (a < 2 * size w)%N -> st.1 a \is Num.real by move=> ha; rewrite -em // rpred0.
  have [p [ep _ _]] := probabilities_correct oracle sched_ok oob trunc e_ok w0 rs' rm' (two_gt0 C) ps' false (isT : (0 < 2 <= 1000)%N) q1 q2 q3 q4.
  by rewrite est /bind ep; eexists.
exists r => //; split; first exact: n_body_marginals_set_order h.
have [e0 _ _] := e_ok.
rewrite (coh_mode_prob (M := M)) //=; [|by move=> a _; left| by lia].
rewrite !big_ord_recl !big_ord0 /= !mul0r !expr0 !normr0 expr0n /= addr0 addr0 oppr0 e0 !mul1r /fact_prod !big_cons big_nil /= sqrtC1 ?mulr1 ?invr1 ?mulr1.
by rewrite /max0 ler01.
Qed.
End SetOrder.
End Marg.
