(** C62: adj_scaling_torontonian (main theorems). *)
From mathcomp Require Import all_ssreflect all_algebra zify.
From Verif Require Import Prelude PyBase ArrLoop MHafnian MHermite MSymplectic MDecomp SpecHaf SpecSymp SpecTor SpecThr SpecDecomp SpecGauss PropTor PropTor2 PropTor3 PropTor4 PropTor5 PropThr PropThr2 PropThr3 PropThr4 PropThr5 PropSpectral PropChannels PropConversions PropSymplectic PropSymp2 PropDecomp PropDecomp2 PropDecomp6 PropChecks PropPure PropMeans2 MTor MClicks PropClicks PropClicks2 MAdj SpecAdj PropCts PropAdj PropAdj2 PropAdj3 PropAdj4.
Set Implicit Arguments.
Unset Strict Implicit.
Unset Printing Implicit Defensive.
Import Order.TTheory GRing.Theory Num.Theory.
Local Open Scope ring_scope.

Section Tor.
Variable C : numClosedFieldType.
Notation mat := (nat -> nat -> C).
Notation vec := (nat -> C).
Notation mxo n A := (mxof n n A).
Variable svd : nat -> mat -> mat * vec * mat.
Variable root_scalar : (C -> res C) -> C -> C -> res (bool * C).
Hypothesis rootP : root_ok root_scalar.
Variables (n : nat) (A : mat).
Hypothesis n0 : (0 < n)%N.
Hypothesis svdP : svd_at svd n A.
Hypothesis sA : symm n A.

(** C62: mean_clicks_adj is the mean number of clicks of the state encoding the matrix *)
Theorem mean_clicks_adj_correct (sched : nat -> seq nat) (cholesky : nat -> mat -> res mat) (exp : C -> C) (atol rtol s : C) :
  (forall n, perm_eq (sched n) (iota 0 n)) -> chol_ok cholesky -> exp_ok exp -> 0 <= s -> s * svdvals svd n A 0%N < 1 ->
  exists m cov, exists p : {set 'I_n} -> C,
  [/\ mean_clicks_adj n (fun i j => s * A i j) = Ok m,
      real_sym (2 * n) cov /\ possemi (2 * n) (uncertainty n cov 2%:R), encodes n (fun i j => s * A i j) cov 2%:R,
      forall D, threshold_detection_prob sched cholesky exp n (fun _ => 0) cov (pattern D) 2%:R atol rtol = Ok (p D) &
      m = \sum_(D : {set 'I_n}) #|D|%:R * p D].
Proof.
move=> schedP chP eP s0 s1; have h2 : 0 < 2%:R :> C by rewrite ltr0n.
have [Q qE h] := scaled_state svdP sA s0 s1; have [rs [u ps] q e _] := h _ h2.
have [p [h1 h3 _]] := click_moments_correct schedP chP eP rs ps h2 atol rtol.
exists (mean_clicks n (Covmat n Q 2%:R) 2%:R), (Covmat n Q 2%:R), p; split=> //.
by rewrite /mean_clicks_adj qE.
Qed.

Hypothesis nz : exists i j, [/\ (i < n)%N, (j < n)%N & A i j != 0].
Let tau := svdvals svd n A 0%N.
Lemma tau_pos : 0 < tau.
Proof.
have [_ _ e h1 h2] := svdP; rewrite lt_def /tau /svdvals h1 // andbT; apply/eqP => t0.
have z i : (i < n)%N -> (svd n A).1.2 i = 0.
  by move=> hi; apply/eqP; rewrite eq_le h1 // -[X in _ <= X]t0 h2.
have [i [j [hi hj /eqP]]] := nz; apply; rewrite e // /mprod big1 // => k _; rewrite big1 ?mul0r // => l _.
by rewrite /diagm; case: eqP => _; rewrite ?z ?mulr0.
Qed.
Let tn : tau != 0. Proof. by rewrite gt_eqF ?tau_pos. Qed.
Variable c : C.
Hypothesis rc : c \is Num.real.
Let g (x : C) : C := if 1 <= x then c - n%:R else if x <= 0 then c else c - clicks svd n A (x / tau).
Let D (y : C) : Prop := 0 <= y < 1.
Lemma dom_of y : D y -> dom svd n A (y / tau).
Proof. by move=> /andP[y0 y1]; split; rewrite ?divr_ge0 ?(ltW tau_pos) // -/tau mulrVK ?unitfE. Qed.
Lemma gE y : D y -> g y = c - clicks svd n A (y / tau).
Proof.
move=> /andP[y0 y1]; rewrite /g (lt_geF y1); case: ifP => // yl.
have -> : y = 0 by apply/eqP; rewrite eq_le y0 yl.
by rewrite mul0r (clicks0 svdP n0) subr0.
Qed.
Lemma clicks_real y : D y -> clicks svd n A (y / tau) \is Num.real.
Proof.
move=> dy; rewrite /clicks rpredB ?realn //; apply: rpred_sum => i _; apply: gtr0_real.
by rewrite divr_gt0 ?ltr01 // sqrtC_gt0 (dv_pos svdP sA _ (dom_of dy)).
Qed.
Lemma g_real y : D y -> g y \is Num.real. Proof. by move=> dy; rewrite gE // rpredB // clicks_real. Qed.
Lemma g_cts x : D x -> cts D g x.
Proof.
move=> dx; apply: (@cts_ext C D x dx (fun y => c + - clicks svd n A (y / tau))) => [y dy|]; first by rewrite gE.
apply: cts_add; first exact: cts_const.
apply: cts_opp => e e0; have [d d0 q] := clicks_cts svdP sA (dom_of dx) e0.
exists (d * tau); first by rewrite mulr_gt0 // tau_pos.
move=> y dy yd; apply: q; first exact: dom_of.
by rewrite -mulrBl normrM normfV (gtr0_norm tau_pos) ltr_pdivr_mulr // tau_pos.
Qed.
Let cost (x : C) : res C := if 1 <= x then Ok (c - n%:R) else if x <= 0 then Ok c else
    bind (mean_clicks_adj n (fun i j => x * (A i j / svdvals svd n A 0%N))) (fun m => Ok (c - m)).
Lemma costE x : 0 <= x <= 1 -> cost x = Ok (g x) /\ g x \is Num.real.
Proof.
move=> /andP[x0 x1]; rewrite le_eqVlt in x1; case/orP: x1 => [/eqP->|x1].
  by rewrite /cost /g lexx rpredB ?realn.
have dx : D x by rewrite /D x0 x1.
split; last exact: g_real.
rewrite /cost /g (lt_geF x1); case: ifP => // _.
have -> : mean_clicks_adj n (fun i j => x * (A i j / svdvals svd n A 0%N)) = mean_clicks_adj n (fun i j => (x / tau) * A i j).
  by apply: mca_ext => i j; rewrite mulrAC mulrA.
by rewrite (mcaE svdP sA (dom_of dx)).
Qed.
Lemma root_tor : if root_scalar cost 0 1 is Ok (conv, x) then g 0 * g 1 <= 0 /\ (conv -> 0 <= x <= 1 /\ (g x = 0 \/ jump 0 1 g x))
  else root_scalar cost 0 1 = Err ValueError /\ 0 < g 0 * g 1.
Proof. have := rootP (@ler01 C) costE; exact. Qed.
Lemma nojump x : 0 <= x < 1 -> ~ jump 0 1 g x.
Proof.
move=> dx j; apply: (cts_nojump dx g_real (g_cts dx)) => d d0; have x1 : 0 < 1 - x by rewrite subr_gt0; case/andP: dx.
have [b b0 q] := pmin d0 x1; have [y /andP[y0 y1] [yb n1]] := j b b0; have [yd y2] := q _ yb; exists y; last by [].
rewrite /D y0 /=; have r : y - x \is Num.real by rewrite rpredB ?ger0_real //; case/andP: dx.
by move: y2; rewrite real_ltr_norml // => /andP[_]; rewrite ltr_add2r.
Qed.

(** C62: a scaling s returned by adj_scaling_torontonian makes the mean number of clicks equal to c; the exception is the boundary
    s = 1 / (largest singular value), for which there is no state: it is returned only if there are scalings arbitrarily close to
    it for which the mean number of clicks is smaller than c *)
Theorem adj_scaling_torontonian_correct s : adj_scaling_torontonian svd root_scalar n A c = Ok s ->
  [/\ 0 <= s, 0 <= c <= n%:R &
   (s * svdvals svd n A 0%N < 1 /\ mean_clicks_adj n (fun i j => s * A i j) = Ok c) \/
   (s * svdvals svd n A 0%N = 1 /\ forall d, 0 < d -> exists t m,
      [/\ 0 <= t, 1 - d < t * svdvals svd n A 0%N < 1, mean_clicks_adj n (fun i j => t * A i j) = Ok m & m < c])].
Proof.
rewrite /adj_scaling_torontonian; case: ifP => // /negbT; rewrite negb_or -!real_leNgt ?real0 ?realn // => /andP[c0 cn].
rewrite (gtn_eqF n0) -/tau -/cost; have := root_tor; case: root_scalar => [[conv x]|e] //= [_]; case: conv => //= /(_ isT)[/andP[x0 x1] h] [<-].
split; first by rewrite divr_ge0 // ltW ?tau_pos.
  by rewrite c0 cn.
rewrite mulrVK ?unitfE //; move: x1; rewrite le_eqVlt => /orP[/eqP e|x1]; last first.
  left; split=> //; have dx : D x by rewrite /D x0 x1.
  case: h => [/eqP|/(nojump dx)] //; rewrite gE // subr_eq0 => /eqP ->; exact: (mcaE svdP sA (dom_of dx)).
right; split=> // d d0; subst x; have g1 : g 1 = c - n%:R by rewrite /g lexx.
suff [y dy [yd yc]] : exists2 y, D y & 1 - d < y /\ clicks svd n A (y / tau) < c.
  exists (y / tau), (clicks svd n A (y / tau)); have [t0 t1] := dom_of dy; split=> //; last exact: (mcaE svdP sA (dom_of dy)).
  by rewrite -/tau t1 mulrVK ?unitfE // yd.
case: h => [/eqP|j].
  rewrite g1 subr_eq0 => /eqP ->; have [b b0 q] := pmin d0 (@ltr01 C).
  have /q[b1 b2] : b / 2%:R < b by rewrite ltr_pdivr_mulr ?ltr0n // ltr_pmulr // ltr1n.
  have p2 := half_pos b0.
  have dy : D (1 - b / 2%:R) by rewrite /D subr_ge0 (ltW b2) /= ltr_subl_addr ltr_addl.
  by exists (1 - b / 2%:R) => //; split; [rewrite ltr_add2l ltr_opp2|exact: (clicks_lt svdP sA n0 (dom_of dy))].
have [y /andP[y0 y1] [yd yg]] := j d d0.
have y2 : y < 1.
  rewrite lt_neqAle y1 andbT; apply/eqP => e; move: yg; rewrite e -expr2 => /lt_geF.
  by rewrite real_exprn_even_ge0 // g1 rpredB ?realn.
have dy : D y by rewrite /D y0 y2.
exists y => //; split.
  by move: yd; rewrite distrC real_ltr_norml ?rpredB ?rpred1 ?ger0_real // => /andP[_]; rewrite ltr_subl_addr ltr_subl_addl addrC.
have gn : g 1 < 0 by rewrite g1 lt_neqAle subr_le0 cn andbT; apply: contraTneq yg => e; rewrite g1 e mulr0 ltxx.
have gy : 0 < g y by move: yg; rewrite nmulr_llt0.
by move: gy; rewrite gE // subr_gt0.
Qed.
(** the error cases; with a converging root finder there are no others *)
Theorem adj_scaling_torontonian_range : c < 0 \/ n%:R < c -> adj_scaling_torontonian svd root_scalar n A c = Err ValueError.
Proof. by rewrite /adj_scaling_torontonian => -[]->; rewrite ?orbT. Qed.
Theorem adj_scaling_torontonian_total : (forall f a b r, root_scalar f a b = Ok r -> r.1) -> 0 <= c <= n%:R ->
  exists s, adj_scaling_torontonian svd root_scalar n A c = Ok s.
Proof.
move=> conv /andP[c0 cn]; rewrite /adj_scaling_torontonian (le_gtF c0) (le_gtF cn) (gtn_eqF n0) -/tau -/cost /=.
have := root_tor; case E : root_scalar => [[k x]|e] /=; first by have /= -> := conv _ _ _ _ E => _; exists (x / tau).
move=> [_ h]; exfalso; have : g 0 * g 1 <= 0 by rewrite /g !lexx (lt_geF (@ltr01 C)) mulr_ge0_le0 // subr_le0.
by move=> /(lt_le_trans h); rewrite ltxx.
Qed.
End Tor.
