(** The hafnian approximation is unbiased. *)
From mathcomp Require Import all_ssreflect all_fingroup all_algebra zify.
From SsrMultinomials Require Import mpoly.
From Verif Require Import Prelude PyBase ArrLoop SpecHaf SpecExpect MApprox ThHaf PropGateFock PropGateGrad.
Set Implicit Arguments.
Unset Strict Implicit.
Unset Printing Implicit Defensive.
Import GRing.Theory Num.Theory.
Local Open Scope ring_scope.

Section Expect.
Variables (R : comRingType) (N : nat) (mom : nat -> R).
Local Notation E := (@expect R N mom).
Let gm (m : 'X_{1..N}) : R := \prod_(i < N) mom (m i).
Lemma expect_supp p (s : seq 'X_{1..N}) : uniq s -> {subset msupp p <= s} -> E p = \sum_(m <- s) p@_m * gm m.
Proof.
move=> us hs; rewrite /expect -/gm.
have nz : \sum_(m <- s) p@_m * gm m = \sum_(m <- [seq m <- s | m \in msupp p]) p@_m * gm m.
  rewrite big_filter [RHS]big_mkcond; apply: eq_bigr => m _; case: ifPn => // /memN_msupp_eq0 ->; by rewrite mul0r.
rewrite nz; apply: perm_big; apply: uniq_perm; rewrite ?filter_uniq ?msupp_uniq // => m.
by rewrite mem_filter; case: (boolP (m \in msupp p)) => //= /hs ->.
Qed.
Lemma expectD p q : E (p + q) = E p + E q.
Proof.
pose s := undup (msupp p ++ msupp q).
have us : uniq s by apply: undup_uniq.
rewrite (@expect_supp p s) // ?(@expect_supp q s) // ?(@expect_supp (p + q) s) // -?big_split /=.
- by apply: eq_bigr => m _; rewrite mcoeffD mulrDl.
- by move=> m hm; rewrite mem_undup; apply: msuppD_le hm.
- by move=> m hm; rewrite mem_undup mem_cat hm orbT.
by move=> m hm; rewrite mem_undup mem_cat hm.
Qed.
Lemma expectZ c p : E (c *: p) = c * E p.
Proof.
rewrite (@expect_supp (c *: p) (msupp p)) ?msupp_uniq //; last exact: msuppZ_le.
by rewrite /expect mulr_sumr; apply: eq_bigr => m _; rewrite mcoeffZ mulrA.
Qed.
Lemma expect0 : E 0 = 0. Proof. by rewrite /expect msupp0 big_nil. Qed.
Lemma expect_sum I (s : seq I) P (F : I -> {mpoly R[N]}) : E (\sum_(i <- s | P i) F i) = \sum_(i <- s | P i) E (F i).
Proof. by elim: s => [|i s IH]; rewrite ?big_nil ?expect0 // !big_cons; case: (P i); rewrite ?expectD IH. Qed.
Lemma expectX m : E 'X_[m] = gm m.
Proof. by rewrite /expect msuppX big_seq1 mcoeffX eqxx mul1r. Qed.
End Expect.

(** the sign of a perfect matching *)
Lemma fpf_sign n (s : 'S_n) : [forall i, (s (s i) == i) && (s i != i)] -> odd_perm s = odd #|[set i : 'I_n | (i < s i)%N]|.
Proof.
move=> /forallP h; have ss i : s (s i) = i by have /andP[/eqP] := h i.
have sn i : s i != i by have /andP[] := h i.
pose U := [set i : 'I_n | (i < s i)%N].
have pw k i : (s ^+ k)%g i = i \/ (s ^+ k)%g i = s i.
  elim: k => [|k [e|e]]; first by left; rewrite expg0 perm1.
    by right; rewrite expgSr permM e.
  by left; rewrite expgSr permM e ss.
have U2 : #|[set: 'I_n]| = (#|U| + #|U|)%N.
  have -> : [set: 'I_n] = U :|: s @: U.
    apply/setP => i; rewrite !inE; apply/esym; case: (ltngtP i (s i)) => //= hi.
      by apply/imsetP; exists (s i); rewrite ?inE ?ss.
    by have := sn i; rewrite -(inj_eq val_inj) /= -hi eqxx.
  rewrite cardsU (_ : U :&: s @: U = set0) ?cards0 ?subn0.
    by congr (_ + _)%N; apply: card_imset; apply: perm_inj.
  apply/setP => i; rewrite !inE; apply/negP => /andP[hi /imsetP[j]]; rewrite inE => hj e.
  by move: hi; rewrite e ss ltnNge ltnW.
have pU : porbits s = porbit s @: U.
  apply/setP => B; apply/imsetP/imsetP => [[i _ ->]|[i _ ->]]; last by exists i.
  case: (ltngtP i (s i)) => hi; [by exists i; rewrite ?inE| |by have := sn i; rewrite -(inj_eq val_inj) /= -hi eqxx].
  exists (s i); first by rewrite inE ss.
  by apply/eqP; rewrite eq_porbit_mem; apply/porbitP; exists 1%N; rewrite expg1 ss.
have cU : #|porbits s| = #|U|.
  rewrite pU card_in_imset // => i j; rewrite !inE => hi hj e.
  have : j \in porbit s i by rewrite e porbit_id.
  case/porbitP => k; case: (pw k i) => -> // ej.
  by move: hi; rewrite ltnNge; case/negP; move: hj; rewrite ej ss => /ltnW.
by rewrite /odd_perm cU -cardsT U2 oddD addbb addFb.
Qed.

Lemma for_last S a b j (s : S) (body : S -> nat -> S) (R : S -> Prop) : (a <= j < b)%N ->
  (forall t, R (body t j)) -> (forall i t, (j < i < b)%N -> R t -> R (body t i)) -> R (for_ (pyrange a b) s body).
Proof.
move=> hj h0 hS; have e : pyrange a b = pyrange a j ++ j :: pyrange j.+1 b.
  rewrite /pyrange -[j :: _]/(iota j (b - j.+1).+1) (_ : (b - a) = (j - a) + (b - j.+1).+1)%N; last lia.
  rewrite iotaD; congr (_ ++ iota _ _); lia.
rewrite e for_cat for_cons.
apply: (for_range (Q := fun _ => R)) => [||i t hi]; [by lia|exact: h0|].
by apply: hS; lia.
Qed.

Section Mat.
Variables (R : comRingType) (init : nat -> nat -> R) (n : nat) (B g : nat -> nat -> R).
Let mat := for_ (pyrange 0 n) init (fun mat i => for_ (pyrange 0 n) mat (fun mat j =>
    let mat := upd2 mat i j (B i j * g i j) in upd2 mat j i (- mat i j))).
Lemma mat_at x y : (y < x < n)%N -> mat x y = B x y * g x y /\ mat y x = - (B x y * g x y).
Proof.
move=> h; pose Q (t : nat -> nat -> R) := t x y = B x y * g x y /\ t y x = - (B x y * g x y).
have xy : (x == y) = false by lia.
have yx : (y == x) = false by lia.
apply: (@for_last _ 0 n x _ _ Q) => [|t|i t hi ht]; first by lia.
  apply: (@for_last _ 0 n y _ _ Q) => [|t'|j t' hj [h1 h2]]; first by lia.
    by rewrite /Q /upd2 ?eqxx ?xy ?yx /= ?eqxx ?xy ?yx.
  have yj : (y == j) = false by lia.
  by rewrite /Q /upd2 ?eqxx ?xy ?yx ?yj /= ?andbF ?andFb.
apply: (@for_pres _ _ _ _ _ Q) => // j t' [h1 h2].
have ix : (x == i) = false by lia.
have iy : (y == i) = false by lia.
by rewrite /Q /upd2 ?ix ?iy /= ?andbF.
Qed.
Lemma mat_diag x : (x < n)%N -> mat x x = - (B x x * g x x).
Proof.
move=> h; pose Q (t : nat -> nat -> R) := t x x = - (B x x * g x x).
apply: (@for_last _ 0 n x _ _ Q) => [|t|i t hi ht]; first by lia.
  apply: (@for_last _ 0 n x _ _ Q) => [|t'|j t' hj h1]; first by lia.
    by rewrite /Q /upd2 !eqxx.
  have xj : (x == j) = false by lia.
  by rewrite /Q /upd2 ?eqxx ?xj /= ?andbF.
apply: (@for_pres _ _ _ _ _ Q) => // j t' h1.
have ix : (x == i) = false by lia.
by rewrite /Q /upd2 ?ix /= ?andbF.
Qed.
Lemma one_det_mx : one_det init n B g = \det (\matrix_(i < n, j < n)
  (if (i < j)%N then - (B j i * g j i) else if (j < i)%N then B i j * g i j else - (B i i * g i i))).
Proof.
rewrite /one_det; congr (\det _); apply/matrixP => i j; rewrite !mxE -/mat.
case: (ltngtP i j) => [ij|ij|/val_inj ->].
- have h : (i < j < n)%N by rewrite ij ltn_ord.
  by have [_ ->] := @mat_at j i h.
- have h : (j < i < n)%N by rewrite ij ltn_ord.
  by have [-> _] := @mat_at i j h.
by rewrite mat_diag.
Qed.
End Mat.

Section Unbiased.
Variables (C : comRingType) (N n : nat) (v : nat -> nat -> 'I_N) (b A : nat -> nat -> C) (mom : nat -> C).
Hypothesis vinj : forall i j i' j', (i < n)%N -> (j < n)%N -> (i' < n)%N -> (j' < n)%N -> v i j = v i' j' -> i = i' /\ j = j'.
Hypothesis symA : forall i j, (i < n)%N -> (j < n)%N -> A i j = A j i.
Hypothesis bA : forall i j, (i < n)%N -> (j < n)%N -> b i j ^+ 2 = A i j.
Hypotheses (m0 : mom 0%N = 1) (m1 : mom 1%N = 0) (m2 : mom 2%N = 1).
Let w (i j : 'I_n) := v (maxn i j) (minn i j).
Let c (i j : 'I_n) : C := if (i < j)%N then - b j i else if (j < i)%N then b i j else - b i i.
Let wE (i j i' j' : 'I_n) : w i j = w i' j' -> (i = i' /\ j = j') \/ (i = j' /\ j = i').
Proof.
have mx (x y : 'I_n) : (maxn x y < n)%N /\ (minn x y < n)%N by have := ltn_ord x; have := ltn_ord y; lia.
rewrite /w => /vinj[]; try by have := mx i j; have := mx i' j'; lia.
move=> e1 e2.
have : ((i : nat) = i' /\ (j : nat) = j') \/ ((i : nat) = j' /\ (j : nat) = i') by lia.
by case=> [[/val_inj -> /val_inj ->]|[/val_inj -> /val_inj ->]]; [left|right].
Qed.
Let wC i j : w i j = w j i. Proof. by rewrite /w maxnC minnC. Qed.

Lemma expect_one_det (init : nat -> nat -> {mpoly C[N]}) :
  expect mom (one_det init n (fun i j => (b i j)%:MP) (fun i j => 'X_(v i j))) = haf_spec n A.
Proof.
rewrite one_det_mx /determinant expect_sum /haf_spec [RHS]big_mkcond; apply: eq_bigr => s _ /=.
have -> : \prod_(i < n) (\matrix_(i < n, j < n)
  (if (i < j)%N then - ((b j i)%:MP * 'X_(v j i)) else if (j < i)%N then (b i j)%:MP * 'X_(v i j) else - ((b i i)%:MP * 'X_(v i i)))) i (s i)
  = (\prod_(i < n) c i (s i)) *: 'X_[(\sum_(i < n) U_(w i (s i)))%MM].
  have -> : 'X_[(\sum_(i < n) U_(w i (s i)))%MM] = \prod_(i < n) 'X_(w i (s i)) :> {mpoly C[N]}.
    by rewrite (big_morph (fun m => 'X_[m]) (@mpolyXD _ _) (@mpolyX0 _ _)).
  rewrite -scaler_prod; apply: eq_bigr => i _; rewrite mxE /c /w; case: ltngtP => [ij|ij|e]; rewrite !mul_mpolyC ?scaleNr //.
rewrite mulr_sign (_ : (if odd_perm s then _ else _) = ((-1) ^+ odd_perm s * \prod_(i < n) c i (s i)) *: 'X_[(\sum_(i < n) U_(w i (s i)))%MM]); last first.
  by rewrite mulr_sign; case: odd_perm; rewrite ?scaleNr.
rewrite expectZ expectX.
have cnt k : (\sum_(i < n) U_(w i (s i)))%MM k = #|[set i | w i (s i) == k]|.
  rewrite mnm_sumE -sum1dep_card [RHS]big_mkcond /=; apply: eq_bigr => i _; rewrite mnm1E; by case: eqP.
case: ifPn => [fp|/forallPn /= [i]].
  have /forallP h := fp; have ss i : s (s i) = i by have /andP[/eqP] := h i.
  have sn i : s i != i by have /andP[] := h i.
  rewrite [\prod_(i < N) _]big1 ?mulr1 => [|k _]; last first.
    rewrite cnt; case: (pickP (fun i => w i (s i) == k)) => [i /eqP e|none].
      rewrite (_ : [set i | _] = [set i; s i]); first by rewrite cards2 eq_sym sn m2.
      apply/setP => j; rewrite !inE -e; apply/eqP/orP => [/wE[[-> _]|[-> _]]|[/eqP ->|/eqP ->]]; rewrite ?eqxx; [by left|by right|by []|by rewrite ss wC].
    by rewrite (_ : [set i | _] = set0) ?cards0 ?m0 //; apply/setP => j; rewrite !inE none.
  rewrite (fpf_sign fp) signr_odd.
  have -> : \prod_(i < n) c i (s i) = \prod_(i < n | (i < s i)%N) (- A i (s i)).
    rewrite (bigID (fun i : 'I_n => (i < s i)%N)) /=.
    have -> : \prod_(i < n | ~~ (i < s i)%N) c i (s i) = \prod_(i < n | (i < s i)%N) c (s i) i.
      rewrite (reindex_onto s s) /=; last by move=> i _; rewrite ss.
      apply: eq_big => i; last by rewrite ss.
      rewrite ss eqxx andbT -leqNgt leq_eqVlt; case: eqP => // e; have := sn i.
      by case/eqP; apply: val_inj; rewrite /= e.
    rewrite -big_split; apply: eq_bigr => i hi /=; rewrite /c hi (ltnNge (s i)) (ltnW hi) /=.
    by rewrite mulNr -expr2 bA // symA.
  rewrite prodrN (_ : #|[set i : 'I_n | (i < s i)%N]| = #|[pred i : 'I_n | (i < s i)%N]|); last by rewrite cardsE.
  by rewrite mulrA -exprD -signr_odd oddD addbb mul1r.
rewrite negb_and negbK => hi.
rewrite (bigD1 (w i (s i))) //= cnt (_ : [set j | _] = [set i]) ?cards1 ?m1 ?mul0r ?mulr0 //.
apply/setP => j; rewrite !inE; apply/eqP/eqP => [/wE[[-> //]|[ej es]]|-> //].
by case/orP: hi => [|/eqP <- //]; rewrite -ej es eqxx.
Qed.
End Unbiased.

Lemma one_det_map (R S : comRingType) (f : {rmorphism R -> S}) init init' n B g B' g' :
  (forall i j, f (B i j) = B' i j) -> (forall i j, (i < n)%N -> (j < n)%N -> f (g i j) = g' i j) ->
  f (one_det init n B g) = one_det init' n B' g'.
Proof.
move=> hB hg; rewrite !one_det_mx -det_map_mx; congr (\det _); apply/matrixP => i j; rewrite !mxE.
by case: ltngtP => _; rewrite ?rmorphN !rmorphM !hB !hg.
Qed.

(** C17: averaging the determinants of num_samples matrices built from independent draws estimates the hafnian without bias.
    hafnian_approx is a polynomial P in the num_samples * n * n draws (so its expected value is determined by the moments of the
    draws), and for any distribution of the draws with mean 0 and variance 1 (such as the standard normal one) the expected value
    of P is the hafnian of A: the result of _one_det and of the average does not depend on what np.empty_like contains. *)
Theorem hafnian_approx_unbiased (C : numClosedFieldType) (init : nat -> nat -> C) n (A : nat -> nat -> C) num :
  (0 < num)%N -> (forall i j, (i < n)%N -> (j < n)%N -> A i j = A j i) ->
  exists P : {mpoly C[num * (n * n)]},
    (forall g : nat -> C, hafnian_approx init n A num g = P.@[fun k => g k]) /\
    (forall mom : nat -> C, mom 0%N = 1 -> mom 1%N = 0 -> mom 2%N = 1 -> expect mom P = haf_spec n A).
Proof.
move=> num0 symA; have numC : num%:R != 0 :> C by rewrite pnatr_eq0 -lt0n.
case: (posnP n) => [n0|n0].
  subst n; exists 1; split=> [g|mom m0 _ _].
    rewrite rmorph1 /hafnian_approx (eq_bigr (fun=> 1)) => [|s _]; last by rewrite one_det_mx det_mx00.
    by rewrite big_const_seq count_predT size_iota subn0 iter_addr_0 mulfV.
  by rewrite -mpolyX0 expectX haf_spec_lhq lhq_nil big1 // => i _; rewrite mnm0E.
have N0 : (0 < num * (n * n))%N by rewrite !muln_gt0 num0 n0.
pose v s i j : 'I_(num * (n * n)) := insubd (Ordinal N0) (s * (n * n) + (i * n + j))%N.
have vE s i j : (s < num)%N -> (i < n)%N -> (j < n)%N -> v s i j = (s * (n * n) + (i * n + j))%N :> nat.
  move=> hs hi hj; rewrite /v /insubd insubT //=.
  have h1 : (i * n + j < n * n)%N by have := leq_mul hi (leqnn n); rewrite mulSn; lia.
  by have := leq_mul hs (leqnn (n * n)); rewrite mulSn; lia.
exists (num%:R^-1 *: \sum_(s <- pyrange 0 num) one_det (fun i j => (init i j)%:MP) n (fun i j => (sqrtC (A i j))%:MP) (fun i j => 'X_(v s i j))).
split=> [g|mom m0 m1 m2].
  rewrite /hafnian_approx mevalZ mulrC raddf_sum; congr (_ * _).
  rewrite !big_seq; apply: eq_bigr => s; rewrite mem_iota add0n subn0 => hs.
  symmetry; apply: (@one_det_map _ _ (meval_rmorphism _)) => [i j|i j hi hj] /=; first by rewrite mevalC.
  by rewrite mevalXU vE.
rewrite expectZ expect_sum big_seq (eq_bigr (fun=> haf_spec n A)) => [|s].
  by rewrite -big_seq big_const_seq count_predT size_iota subn0 iter_addr_0 -[X in _ * X]mulr_natl mulKf.
rewrite mem_iota add0n subn0 => hs; apply: expect_one_det => // [i j i' j' hi hj hi' hj' /(congr1 val) /=|i j _ _]; last exact: sqrtCK.
rewrite !vE // => /addnI e.
have e1 : ((i * n + j) %/ n = (i' * n + j') %/ n)%N by rewrite e.
have e2 : ((i * n + j) %% n = (i' * n + j') %% n)%N by rewrite e.
by move: e1 e2; rewrite !divnMDl // !divn_small // !addn0 !modnMDl !modn_small.
Qed.
(** the diagonal of the matrix inside _one_det is not zero, so that it is not skew-symmetric; one draw of a 2 x 2 example *)
Example one_det_example : one_det (fun _ _ => 0) 2 (fun _ _ => 1) (fun i j => (1 + i + j)%:R) = (7 : int).
Proof. by rewrite one_det_mx (expand_det_row _ ord0) !big_ord_recl big_ord0 /cofactor !det_mx11 !mxE. Qed.
