(** C62: adj_scaling and adj_to_qmat. *)
From mathcomp Require Import all_ssreflect all_algebra zify.
From Verif Require Import Prelude PyBase ArrLoop MHafnian MHermite MSymplectic MDecomp SpecHaf SpecSymp SpecTor SpecDecomp SpecGauss PropTor PropTor5 PropThr3 PropThr5 PropSpectral PropChannels PropConversions PropSymplectic PropSymp2 PropDecomp PropDecomp2 PropDecomp6 PropChecks PropPure PropMeans2 MClicks MAdj SpecAdj PropCts PropAdj PropAdj2.
Set Implicit Arguments.
Unset Strict Implicit.
Unset Printing Implicit Defensive.
Import Order.TTheory GRing.Theory Num.Theory.
Local Open Scope ring_scope.

Section Adj.
Variable C : numClosedFieldType.
Notation mat := (nat -> nat -> C).
Notation vec := (nat -> C).
Variable svd : nat -> mat -> mat * vec * mat.
Variable root_scalar : (C -> res C) -> C -> C -> res (bool * C).
Hypothesis rootP : root_ok root_scalar.

(** The state of a scaled matrix: the scaled matrix has norm < 1 *)
Theorem scaled_state n (A : mat) s : svd_at svd n A -> symm n A -> 0 <= s -> s * svdvals svd n A 0%N < 1 ->
  exists2 Q, np_inv (2 * n) (one_minus_XA n (fun i j => s * A i j)) = Ok Q &
  forall hbar, 0 < hbar ->
  [/\ real_sym (2 * n) (Covmat n Q hbar), possemi (2 * n) (uncertainty n (Covmat n Q hbar) hbar) /\ possemi (2 * n) (Covmat n Q hbar),
      eqm (2 * n) (Qmat n (Covmat n Q hbar) hbar) Q, encodes n (fun i j => s * A i j) (Covmat n Q hbar) hbar &
      \sum_(j < n) E_n n (fun _ => 0) (Covmat n Q hbar) hbar j = \sum_(i < n) (s * svdvals svd n A i) ^+ 2 / (1 - (s * svdvals svd n A i) ^+ 2)].
Proof.
move=> svdP sA s0 s1; eexists; first exact: (Q_inv svdP sA s0 s1).
move=> hbar h0; split.
- exact: (@cov_sym _ _ _ _ _ svdP sA s0 s1 _ h0).
- split; [exact: (@cov_unc _ _ _ _ _ svdP sA s0 s1 _ h0)|exact: (@cov_ps _ _ _ _ _ svdP sA s0 s1 _ h0)].
- exact: (@Qcov _ _ _ _ _ svdP sA s0 s1 _ h0).
- exact: (@cov_encodes _ _ _ _ _ svdP sA s0 s1 _ h0).
by have := @cov_photons _ _ _ _ _ svdP s0 s1 _ h0.
Qed.

Section Scale.
Variables (n : nat) (A : mat) (n_mean : C).
Hypothesis svdP : svd_at svd n A.
Hypothesis rm : n_mean \is Num.real.
Let sg := svdvals svd n A.
Let eps : C := 10%:R^-1 ^+ 10.
Let b : C := 1 / (eps + sg 0%N).
(** the photon number at scaling x *)
Definition photons (x : C) : C := \sum_(i < n) (x * sg i) ^+ 2 / (1 - (x * sg i) ^+ 2).
Let e0 : 0 < eps. Proof. by rewrite exprn_gt0 // invr_gt0 ltr0n. Qed.
Hypothesis n0 : (0 < n)%N.
Lemma sg0 i : (i < n)%N -> 0 <= sg i. Proof. by have [_ _ _ h _] := svdP; exact: h. Qed.
Lemma sgm i : (i < n)%N -> sg i <= sg 0%N. Proof. by have [_ _ _ _ h] := svdP => hi; exact: h. Qed.
Let bp : 0 < eps + sg 0%N. Proof. by rewrite ltr_paddr // sg0. Qed.
Let b0 : 0 <= b. Proof. by rewrite /b mul1r invr_ge0 ltW. Qed.
Lemma below x i : (i < n)%N -> x <= b -> x * sg i < 1.
Proof.
move=> hi xb; apply: (@le_lt_trans _ _ (b * sg 0%N)).
  apply: le_trans (ler_wpmul2r (sg0 hi) xb) _; exact: ler_wpmul2l b0 _ _ (sgm hi).
by rewrite /b mul1r mulrC ltr_pdivr_mulr // mul1r ltr_addr.
Qed.
Lemma below2 x i : (i < n)%N -> 0 <= x <= b -> 0 < 1 - (x * sg i) ^+ 2.
Proof. by move=> hi /andP[x0 xb]; rewrite subr_gt0 expr_lt1 // ?below // mulr_ge0 // sg0. Qed.
Lemma photons_real x : 0 <= x -> photons x \is Num.real.
Proof.
move=> x0; apply: rpred_sum => i _; have r : x * sg i \is Num.real by rewrite ger0_real // mulr_ge0 // sg0.
by rewrite rpredM ?rpredV ?rpredB ?rpred1 ?rpredX.
Qed.
Lemma photons0 : photons 0 = 0.
Proof. by rewrite /photons big1 // => i _; rewrite mul0r expr0n /= mul0r. Qed.
Lemma photons_cts x : 0 <= x <= b -> cts (fun y => 0 <= y <= b) (fun y => photons y - n_mean) x.
Proof.
move=> hx; have h c : cts (fun y => 0 <= y <= b) (fun y => y * c) x by apply: cts_mul => //; [exact: cts_id|exact: cts_const].
apply: cts_add; last exact: cts_const.
apply: cts_sum => // i.
have q : cts (fun y => 0 <= y <= b) (fun y => (y * sg i) ^+ 2) x.
  apply: (@cts_ext C _ x hx (fun y => (y * sg i) * (y * sg i))) => [y _|]; [by rewrite expr2 | exact: cts_mul (h _) (h _)].
apply: cts_mul => //; apply: cts_inv => //; first by rewrite gt_eqF ?below2.
by apply: cts_add; [exact: cts_const|exact: cts_opp].
Qed.

Lemma root_contract : if root_scalar (fun x => Ok (photons x - n_mean)) 0 b is Ok (conv, x) then
    - n_mean * (photons b - n_mean) <= 0 /\ (conv -> 0 <= x <= b /\ photons x = n_mean)
  else root_scalar (fun x => Ok (photons x - n_mean)) 0 b = Err ValueError /\ 0 < - n_mean * (photons b - n_mean).
Proof.
have r x : 0 <= x <= b -> photons x - n_mean \is Num.real by move=> /andP[x0 _]; rewrite rpredB // photons_real.
have := rootP b0 (fun t ht => conj (erefl (Ok (photons t - n_mean))) (r t ht)).
rewrite photons0 sub0r; case: root_scalar => [[conv x]|e] // [h1 h2]; split=> // /h2[hx [/eqP|jp]].
  by rewrite subr_eq0 => /eqP.
by case: (cts_nojump hx r (photons_cts hx) jp).
Qed.

(** C62: a scaling returned by adj_scaling is non-negative, keeps the singular values below one and attains the photon number *)
Theorem adj_scaling_correct s : adj_scaling svd root_scalar n A n_mean = Ok s ->
  [/\ 0 <= s, s * svdvals svd n A 0%N < 1 & \sum_(i < n) (s * svdvals svd n A i) ^+ 2 / (1 - (s * svdvals svd n A i) ^+ 2) = n_mean].
Proof.
rewrite /adj_scaling (gtn_eqF n0); case: ifP => // _; have := root_contract; rewrite /photons /b /sg.
case: root_scalar => [[conv x]|e] //= [_]; case: conv => //= /(_ isT)[/andP[x0 xb] e] [<-]; split=> //.
exact: below.
Qed.
(** the inputs for which it raises ValueError: singular values too small, photon number negative or not attainable; otherwise a
    scaling is returned unless the root finder does not converge *)
Theorem adj_scaling_small : svdvals svd n A 0%N <= 1000%:R * 10%:R^-1 ^+ 10 -> adj_scaling svd root_scalar n A n_mean = Err ValueError.
Proof. by move=> h; rewrite /adj_scaling (gtn_eqF n0) h. Qed.
Theorem adj_scaling_unattainable : n_mean < 0 \/ photons b < n_mean -> adj_scaling svd root_scalar n A n_mean = Err ValueError.
Proof.
move=> h; rewrite /adj_scaling (gtn_eqF n0); case: ifP => // _; have := root_contract; rewrite /photons /b /sg.
have pb : 0 <= photons b by apply: sumr_ge0 => i _; apply: divr_ge0; [by rewrite exprn_ge0 // mulr_ge0 // sg0|by apply/ltW/below2; rewrite ?b0 ?lexx].
suff lt : 0 < - n_mean * (photons b - n_mean).
  case: root_scalar => [[conv x]|e] /= [h1]; last by case: h1 => ->.
  by move: (lt_le_trans lt h1); rewrite ltxx.
case: h => h; first by rewrite mulr_gt0 ?oppr_gt0 // subr_gt0 (lt_le_trans h).
by rewrite nmulr_rgt0 ?subr_lt0 // oppr_lt0 (le_lt_trans pb).
Qed.
Theorem adj_scaling_attainable : (forall f c d r, root_scalar f c d = Ok r -> r.1) -> 1000%:R * 10%:R^-1 ^+ 10 < svdvals svd n A 0%N ->
  0 <= n_mean <= photons b -> exists s, adj_scaling svd root_scalar n A n_mean = Ok s.
Proof.
move=> conv big /andP[m0 mb]; rewrite /adj_scaling (gtn_eqF n0) (lt_geF big); have := root_contract; rewrite /photons /b /sg.
case E : root_scalar => [[c x]|e] /=; first by have /= -> := conv _ _ _ _ E => _; exists x.
move=> [_] h; suff : - n_mean * (photons b - n_mean) <= 0 by move=> /(lt_le_trans h); rewrite ltxx.
by rewrite mulNr oppr_le0 mulr_ge0 // subr_ge0.
Qed.
End Scale.

(** C62: adj_to_qmat returns the Husimi matrix of the pure Gaussian state encoding the matrix A scaled by a factor s, with total
    photon number n_mean *)
Theorem adj_to_qmat_correct n (A : mat) n_mean Q : (0 < n)%N -> svd_at svd n A -> symm n A -> n_mean \is Num.real ->
  adj_to_qmat svd root_scalar n n A n_mean = Ok Q ->
  exists2 s, 0 <= s & forall hbar, 0 < hbar -> exists cov,
    [/\ eqm (2 * n) (Qmat n cov hbar) Q, real_sym (2 * n) cov, possemi (2 * n) (uncertainty n cov hbar),
        encodes n (fun i j => s * A i j) cov hbar & \sum_(j < n) E_n n (fun _ => 0) cov hbar j = n_mean].
Proof.
move=> n0 svdP sA rm; rewrite /adj_to_qmat eqxx /=; case E : adj_scaling => [s|e] //= qE.
have [s0 s1 sp] := adj_scaling_correct svdP rm n0 E; exists s => // hbar h0; exists (Covmat n Q hbar).
have [Q' qE' h] := scaled_state svdP sA s0 s1; move: qE; rewrite qE' => -[<-].
by have [rs [u _] q e ph] := h _ h0; split; rewrite ?ph ?sp.
Qed.
Theorem adj_to_qmat_square n m (A : mat) n_mean : n != m -> adj_to_qmat svd root_scalar n m A n_mean = Err ValueError.
Proof. by rewrite /adj_to_qmat => ->. Qed.
(** it fails only if adj_scaling fails *)
Theorem adj_to_qmat_total n (A : mat) n_mean s : (0 < n)%N -> svd_at svd n A -> symm n A -> n_mean \is Num.real ->
  adj_scaling svd root_scalar n A n_mean = Ok s -> exists Q, adj_to_qmat svd root_scalar n n A n_mean = Ok Q.
Proof.
move=> n0 svdP sA rm E; have [s0 s1 sp] := adj_scaling_correct svdP rm n0 E.
by have [Q qE _] := scaled_state svdP sA s0 s1; exists Q; rewrite /adj_to_qmat eqxx E.
Qed.
End Adj.
