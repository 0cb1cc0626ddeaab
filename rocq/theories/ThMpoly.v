(** Coefficients of the generating function are loop hafnians; finite-difference sieves. *)
From mathcomp Require Import all_ssreflect all_fingroup all_algebra zify.
From SsrMultinomials Require Import mpoly.
From Verif Require Import Prelude SpecHaf ThHaf ThTrace.
Set Implicit Arguments.
Unset Strict Implicit.
Unset Printing Implicit Defensive.
Import GRing.Theory.
Local Open Scope ring_scope.

(** ** Coefficients of [exp] of a power series *)
Section Es.
Variables (P : comRingType) (iv : nat -> P) (w : nat -> P).
Fixpoint esq n : seq P :=
  if n is n'.+1 then
    (iv n * \sum_(i < n) (w i.+1 * nth 0 (esq n') i *+ i.+1)) :: esq n'
  else [:: 1].
Definition es n : P := head 0 (esq n).

Lemma nth_esq n i : (i <= n)%N -> nth 0 (esq n) i = es (n - i).
Proof.
elim: n i => [|n IH] [|i] // h; first by rewrite /= IH.
Qed.

Lemma es0 : es 0 = 1. Proof. by []. Qed.
Lemma esS n : es n.+1 = iv n.+1 * \sum_(i < n.+1) (w i.+1 * es (n - i) *+ i.+1).
Proof.
rewrite {1}/es /=; congr (_ * _); apply: eq_bigr => i _.
by rewrite nth_esq // -ltnS.
Qed.

Hypothesis ivE : forall n, iv n.+1 *+ n.+1 = 1.

Lemma es_rec n : es n.+1 *+ n.+1 = \sum_(i < n.+1) (w i.+1 * es (n - i) *+ i.+1).
Proof. by rewrite esS -mulrnAl ivE mul1r. Qed.

Lemma natreg_iv k (x y : P) : x *+ k.+1 = y *+ k.+1 -> x = y.
Proof.
move=> h; have: iv k.+1 * (x *+ k.+1) = iv k.+1 * (y *+ k.+1) by rewrite h.
by rewrite !mulrnAr -!mulrnAl !ivE !mul1r.
Qed.

Lemma es_uniq (e : nat -> P) n :
  e 0%N = 1 ->
  (forall k, (k < n)%N -> e k.+1 *+ k.+1 = \sum_(i < k.+1) (w i.+1 * e (k - i)%N *+ i.+1)) ->
  forall k, (k <= n)%N -> e k = es k.
Proof.
move=> e0 er k; move: {2}k (leqnn k) => m; elim: m k => [|m IH] [|k] // km kn.
apply: (@natreg_iv k); rewrite es_rec er //; apply: eq_bigr => i _.
by rewrite IH //; lia.
Qed.
End Es.

Lemma eq_es (P : comRingType) (iv : nat -> P) (w w' : nat -> P) n :
  (forall k, (0 < k <= n)%N -> w k = w' k) -> es iv w n = es iv w' n.
Proof.
elim: n {-2}n (leqnn n) => [|m IH] [|n] // nm h.
rewrite !esS; congr (_ * _); apply: eq_bigr => i _.
rewrite h; last by have := ltn_ord i; lia.
rewrite IH //; first by lia.
by move=> k hk; apply: h; lia.
Qed.

Lemma es_hom (P Q : comRingType) (phi : {rmorphism P -> Q}) ivP ivQ wP wQ n :
  (forall k, phi (ivP k) = ivQ k) -> (forall k, (0 < k <= n)%N -> phi (wP k) = wQ k) ->
  phi (es ivP wP n) = es ivQ wQ n.
Proof.
move=> hi; elim: n {-2}n (leqnn n) => [|m IH] [|n] // nm hw; rewrite ?rmorph1 //.
rewrite !esS rmorphM hi rmorph_sum; congr (_ * _); apply: eq_bigr => i _.
rewrite rmorphMn rmorphM hw; last by have := ltn_ord i; lia.
rewrite IH //; first by lia.
by move=> k hk; apply: hw; lia.
Qed.

(** ** One-dimensional finite differences *)
Section FD.
Variable K : comRingType.
Lemma fdiff (a c : K) r j : (j <= r)%N ->
  \sum_(k < r.+1) (-1) ^+ (r - k) * (a + c *+ k) ^+ j *+ 'C(r, k)
   = if j == r then c ^+ r *+ r`! else 0.
Proof.
elim: j a r => [|j IH] a r jr.
  transitivity ((-1 + 1 : K) ^+ r).
    by rewrite exprDn; apply: eq_bigr => k _; rewrite expr0 expr1n.
  by rewrite addNr expr0n; case: r {jr}.
case: r jr => [|r] // jr.
have -> : \sum_(k < r.+2) (-1) ^+ (r.+1 - k) * (a + c *+ k) ^+ j.+1 *+ 'C(r.+1, k) =
  a * (\sum_(k < r.+2) (-1) ^+ (r.+1 - k) * (a + c *+ k) ^+ j *+ 'C(r.+1, k)) +
  (c * \sum_(k < r.+1) (-1) ^+ (r - k) * (a + c + c *+ k) ^+ j *+ 'C(r, k)) *+ r.+1.
  rewrite !mulr_sumr -sumrMnl.
  have -> : \sum_(k < r.+1) c * ((-1) ^+ (r - k) * (a + c + c *+ k) ^+ j *+ 'C(r, k)) *+ r.+1 =
    \sum_(k < r.+2) c * ((-1) ^+ (r.+1 - k) * (a + c *+ k) ^+ j *+ ('C(r.+1, k) * k)).
    rewrite [RHS]big_ord_recl /= muln0 mulr0n mulr0 add0r; apply: eq_bigr => k _.
    rewrite /bump leq0n add1n subSS [c *+ _.+1]mulrS addrA -mulrnAr -mulrnA.
    by congr (_ * (_ *+ _)); rewrite [RHS]mulnC -mul_bin_diag mulnC.
  rewrite -big_split /=; apply: eq_bigr => k _.
  rewrite exprS mulrnA -!mulrnAr; rewrite -[c *+ k]mulr_natr.
  rewrite -[_ *+ 'C(_, _) *+ k]mulr_natr; rring.
rewrite !IH //; last by rewrite ltnW.
rewrite (ltn_eqF jr) mulr0 add0r eqSS; case: eqP => _; last by rewrite mulr0 mul0rn.
by rewrite mulrnAr -exprS -mulrnA factS mulnC.
Qed.
End FD.

(** ** Boxes of multiplicities *)
Fixpoint box (rs : seq nat) : seq (seq nat) :=
  if rs is r :: rs' then [seq k :: ks | k <- iota 0 r.+1, ks <- box rs'] else [:: [::]].

Arguments box : simpl never.
Lemma box_cons r rs : box (r :: rs) = [seq k :: ks | k <- iota 0 r.+1, ks <- box rs].
Proof. by []. Qed.

Lemma boxP rs ks : (ks \in box rs) = (size ks == size rs) && all2 leq ks rs.
Proof.
elim: rs ks => [|r rs IH] [|k ks] //; rewrite box_cons.
  by apply/negbTE/negP => /allpairsP[[? ?] []].
rewrite [size _]/= [size (r :: _)]/= eqSS [all2 _ _ _]/=; apply/allpairsP/idP => [[[k' ks'] [h1 h2 [-> ->]]]|].
  by move: h1 h2; rewrite mem_iota /= add0n ltnS IH => -> /andP[-> ->].
case/and3P => sz h1 h2; exists (k, ks); split=> //; first by rewrite mem_iota.
by rewrite IH sz.
Qed.

Lemma box_uniq rs : uniq (box rs).
Proof.
elim: rs => [|r rs IH] //; rewrite box_cons; apply: allpairs_uniq => //; first exact: (iota_uniq 0 r.+1).
by move=> [a b] [c d] _ _ /= [-> ->].
Qed.

Lemma sum_box (K : comRingType) (rs : seq nat) (F : nat -> nat -> K) o :
  \sum_(ks <- box rs) \prod_(e < size rs) F (o + e)%N (nth 0%N ks e)
   = \prod_(e < size rs) (\sum_(k < (nth 0%N rs e).+1) F (o + e)%N k).
Proof.
elim: rs o => [|r rs IH] o; first by rewrite big_seq1 !big_ord0.
rewrite [size _]/= big_ord_recl [nth _ _ _]/= box_cons big_allpairs_dep.
rewrite (_ : iota 0 r.+1 = index_iota 0 r.+1); last by rewrite /index_iota subn0.
rewrite big_mkord mulr_suml; apply: eq_bigr => k _.
transitivity (F o k * \sum_(ks <- box rs) \prod_(e < size rs) F (o.+1 + e)%N (nth 0%N ks e)).
  rewrite mulr_sumr; apply: eq_bigr => ks _.
  rewrite big_ord_recl /= addn0; congr (_ * _); apply: eq_bigr => e _.
  by rewrite ?lift0 /bump /= ?add1n addnS addSn.
rewrite IH addn0; congr (_ * _); apply: eq_bigr => e _.
by rewrite ?lift0 /bump /= ?add1n addnS addSn.
Qed.

(** ** Sieves on multivariate polynomials *)
Section Sieve.
Variables (K : comRingType) (m : nat).
Implicit Types (G : {mpoly K[m]}) (r : 'X_{1..m}).

Definition mreps r : seq nat := [seq r i | i <- enum 'I_m].
Lemma size_mreps r : size (mreps r) = m. Proof. by rewrite size_map size_enum_ord. Qed.
Lemma nth_mreps r (i : 'I_m) : nth 0%N (mreps r) i = r i.
Proof. by rewrite (nth_map i) ?size_enum_ord // nth_ord_enum. Qed.

(** general sieve with offsets [a e] and step [c] *)
Definition sieve_pt (a : nat -> K) (c : K) (ks : seq nat) : 'I_m -> K :=
  fun e => a e + c *+ nth 0%N ks e.
Definition sieve_wt (rs ks : seq nat) : K :=
  \prod_(e < size rs) ((-1) ^+ (nth 0%N rs e - nth 0%N ks e) *+ 'C(nth 0%N rs e, nth 0%N ks e)).
Definition sieve (a : nat -> K) (c : K) (rs : seq nat) G : K :=
  \sum_(ks <- box rs) sieve_wt rs ks * G.@[sieve_pt a c ks].

Lemma sieve_mono a c r (mn : 'X_{1..m}) : (mdeg mn <= mdeg r)%N ->
  sieve a c (mreps r) 'X_[mn] = if mn == r then c ^+ mdeg r *+ (\prod_(e < m) (r e)`!) else 0.
Proof.
move=> hd.
pose F (e k : nat) : K := (-1) ^+ (nth 0%N (mreps r) e - k) * (a e + c *+ k) ^+ (nth 0%N (mreps mn) e) *+ 'C(nth 0%N (mreps r) e, k).
transitivity (\prod_(e < size (mreps r)) (\sum_(k < (nth 0%N (mreps r) e).+1) F e k)).
  rewrite -[RHS](sum_box _ F 0) /sieve; apply: eq_bigr => ks _.
  rewrite mevalX /sieve_wt.
  rewrite [X in _ * X](_ : _ = \prod_(e < size (mreps r)) (a e + c *+ nth 0%N ks e) ^+ (nth 0%N (mreps mn) e)).
    rewrite -big_split /=; apply: eq_bigr => e _.
    by rewrite /F add0n mulrnAl.
  rewrite size_mreps; apply: eq_bigr => e _; by rewrite nth_mreps.
rewrite size_mreps; case: eqP => [emr|/eqP nmr].
  have -> : \prod_(e < m) (\sum_(k < (nth 0%N (mreps r) e).+1) F e k) = \prod_(e < m) (c ^+ (r e) *+ (r e)`!).
    by apply: eq_bigr => e _; rewrite /F emr nth_mreps fdiff // eqxx.
  rewrite mdegE; elim/big_rec3: _ => [|i x y z _ ->]; first by rewrite expr0 mulr1n.
  by rewrite exprD mulrnAl mulrnAr -mulrnA mulnC.
have [e he] : exists e, (mn e < r e)%N.
  apply/existsP; apply: contraR nmr => /existsPn h.
  have h' e : (r e <= mn e)%N by rewrite leqNgt h.
  apply/eqP/mnmP => e; apply/eqP; rewrite eqn_leq h' andbT leqNgt.
  apply: contraTN hd => he; rewrite -ltnNge !mdegE (bigD1 e) //= [X in (_ < X)%N](bigD1 e) //= .
  by rewrite -addSn; apply: leq_add => //; apply: leq_sum => i _.
rewrite (bigD1 e) //= [X in X * _](_ : _ = 0) ?mul0r //.
by rewrite /F !nth_mreps fdiff ?(ltnW he) // (ltn_eqF he).
Qed.

Lemma sieveE a c r G : (forall mn, mn \in msupp G -> (mdeg mn <= mdeg r)%N) ->
  sieve a c (mreps r) G = G@_r * (c ^+ mdeg r *+ (\prod_(e < m) (r e)`!)).
Proof.
move=> hG.
transitivity (\sum_(mn <- msupp G) G@_mn * sieve a c (mreps r) 'X_[mn]).
  rewrite /sieve; under [RHS]eq_bigr => mn _ do rewrite mulr_sumr.
  rewrite exchange_big /=; apply: eq_bigr => ks _.
  rewrite [in LHS]mevalE mulr_sumr; apply: eq_bigr => mn _.
  by rewrite mevalX mulrCA.
have [rG|rG] := boolP (r \in msupp G).
  rewrite (bigD1_seq r) ?msupp_uniq //= sieve_mono // eqxx.
  rewrite [X in _ + X]big1_seq ?addr0 // => mn /andP[nmr mnG].
  by rewrite sieve_mono ?hG // (negPf nmr) mulr0.
rewrite (memN_msupp_eq0 rG) mul0r big1_seq // => mn /= mnG.
rewrite sieve_mono ?hG //; case: eqP => [e|_]; last by rewrite mulr0.
by rewrite -e mnG in rG.
Qed.
End Sieve.

(** ** The generating function in the edge multiplicities *)
Section Gen.
Variables (K : fieldType) (m : nat).
Hypothesis char0 : [char K] =i pred0.
(** vertices: the two ends of each of the m edges of a perfect matching, and one extra vertex [None] *)
Definition vert := option ('I_m * bool)%type.
Definition vpr (v : vert) : vert := omap (fun eb => (eb.1, ~~ eb.2)) v.
Lemma vprK : involutive vpr. Proof. by case=> [[e b]|] //=; rewrite negbK. Qed.

Variables (A : vert -> vert -> K) (D : vert -> K).
Hypothesis symA : forall u v, A u v = A v u.

Let P := {mpoly K[m]}.
Definition Ap (u v : vert) : P := (A u v)%:MP.
Definition Dp (u : vert) : P := (D u)%:MP.
Definition kapp (u : vert) : P := if u is Some eb then 'X_(eb.1) else 0.
Definition ivp (k : nat) : P := (k%:R^-1)%:MP.
Definition wp (k : nat) : P :=
  ((2 * k)%:R^-1)%:MP * tw vpr Ap kapp k + (2%:R^-1)%:MP * qw vpr Ap Dp kapp k.
Definition Ep (k : nat) : P := es ivp wp k.

Lemma natK k : (k.+1)%:R != 0 :> K.
Proof. by move/charf0P: char0 => ->. Qed.

Lemma ivpE k : ivp k.+1 *+ k.+1 = 1.
Proof. by rewrite /ivp -mpolyCMn -mulr_natr mulVf ?natK. Qed.

Lemma wpE k : wp k.+1 *+ (2 * k.+1) = tw vpr Ap kapp k.+1 + qw vpr Ap Dp kapp k.+1 *+ k.+1.
Proof.
have h2 : (2 * k.+1 = (2 * k + 1).+1)%N by lia.
rewrite /wp mulrnDl -!mulrnAl -!mpolyCMn; congr (_ + _).
  by rewrite -[_ *+ _]mulr_natr mulVf ?mul1r // h2 natK.
by rewrite mulrnA -[_ *+ 2]mulr_natr mulVf ?(natK 1) // mpolyCMn mulrnAl mul1r.
Qed.

Lemma kapp_pr v : kapp (vpr v) = kapp v. Proof. by case: v. Qed.
Lemma symAp u v : Ap u v = Ap v u. Proof. by rewrite /Ap symA. Qed.

Section Trunc.
Variable N : nat.
Definition Hp (s : seq vert) (k : nat) : P := (Hz vpr Ap Dp kapp Ep N s)`_k.

Lemma Hp_nil k : (k <= N)%N -> Hp [::] k = Ep k.
Proof. by move=> kN; rewrite /Hp /Hz /Lz lhq_nil mulr1 coefEz. Qed.

Lemma der_Hp (e : 'I_m) s k : (k < N)%N ->
  (Hp s k.+1)^`M(e) = Hp [:: Some (e, false), Some (e, true) & s] k.
Proof.
move=> kN; apply: (@der_Hz _ _ vpr Ap Dp kapp vprK symAp kapp_pr
  [additive of mderiv e] (mderivM e) (Some (e, false)) (Some (e, true)) _ _ _ _ _ wp wpE (natreg_iv ivpE) Ep) => //.
- by apply/eqP => -[].
- by move=> u v; rewrite /Ap /= mderivC.
- by move=> u; rewrite /Dp /= mderivC.
- case=> [[f b]|] /=; last by rewrite linear0.
  rewrite /kapp /= mderivX mnm1E !(inj_eq Some_inj) !xpair_eqE.
  case: eqP => [->|_]; last by rewrite scale0r.
  rewrite (_ : (U_(e) - U_(e))%MM = 0%MM) ?mpolyX0 ?scale1r; first by case: b.
  by apply/mnmP => i; rewrite mnmBE mnm0E subnn.
- by move=> k'; rewrite /Ep (es_rec _ ivpE).
Qed.

Definition mends (r : 'X_{1..m}) : seq vert :=
  flatten [seq flatten (nseq (r e) [:: Some (e, false); Some (e, true)]) | e <- enum 'I_m].

Lemma count_mends p r : count p (mends r) = (\sum_(e < m) r e * (p (Some (e, false)) + p (Some (e, true))))%N.
Proof.
rewrite /mends count_flatten -map_comp sumnE big_map enumT; apply: eq_bigr => e _ /=.
rewrite count_flatten map_nseq sumn_nseq /= mulnC; congr (_ * _)%N; lia.
Qed.

Lemma mends_U r e : perm_eq (mends (r + U_(e))%MM) [:: Some (e, false), Some (e, true) & mends r].
Proof.
apply/seq.permP => p /=; rewrite !count_mends.
rewrite (bigD1 e) //= [X in _ = (_ + (_ + X))%N](bigD1 e) //= mnmDE mnm1E eqxx.
rewrite (eq_bigr (fun i : 'I_m => r i * (p (Some (i, false)) + p (Some (i, true))))%N); first by lia.
by move=> i ie; rewrite mnmDE mnm1E eq_sym (negPf ie) addn0.
Qed.

Lemma Hp_coef r s : (mdeg r <= N)%N ->
  (Hp s (mdeg r))@_r *+ (\prod_(e < m) (r e)`!) = lhq A D (mends r ++ s).
Proof.
move: {2}(mdeg r) (erefl (mdeg r)) => n; elim: n r s => [|n IH] r s rn rN.
  have -> : r = 0%MM by apply/eqP; rewrite -mdeg_eq0 rn.
  rewrite big1 ?mulr1n; last by move=> e _; rewrite mnm0E.
  rewrite mdeg0 /Hp /Hz coefM big_ord1 sub0n coefEz // /Ep es0 mul1r.
  have -> : mends 0%MM = [::].
    rewrite /mends; elim: (enum _) => //= e l ->; by rewrite mnm0E.
  rewrite /Lz -horner_coef0 -horner_evalE lhq_hom -[LHS]/(mcoeff 0%MM _).
  rewrite [LHS](lhq_hom (mcoeff0_rmorphism _ _)); apply: eq_lhq => [u v _ _|u _] /=.
    by rewrite horner_evalE horner_coef0 coefMz //= mcoeffC eqxx mulr1.
  by rewrite horner_evalE horner_coef0 coefvz //= mcoeffC eqxx mulr1.
have [e re] : exists e, (0 < r e)%N.
  apply/existsP; apply: contra_eqT rn => /existsPn h.
  rewrite mdegE big1 // => i _; apply/eqP; rewrite -leqn0 leqNgt; exact: h.
pose r' := (r - U_(e))%MM.
have rE : r = (r' + U_(e))%MM.
  apply/mnmP => i; rewrite mnmDE mnmBE mnm1E; case: eqP => [<-|_]; lia.
have r'n : mdeg r' = n by move: rn; rewrite rE mdegD mdeg1; lia.
rewrite rn; have -> : lhq A D (mends r ++ s) = lhq A D (mends r' ++ [:: Some (e, false), Some (e, true) & s]).
  apply: lhq_perm => //; rewrite rE (perm_trans (perm_cat (mends_U r' e) (perm_refl s))) //.
  apply/seq.permP => p; rewrite /= !count_cat /=; lia.
rewrite -IH ?r'n //; last by lia.
rewrite -der_Hp; last by lia.
rewrite mcoeff_deriv -rE -mulrnA; congr (_ *+ _).
rewrite (bigD1 e) //= [X in _ = (_ * X)%N](bigD1 e) //= mulnA.
have -> : r e = (r' e).+1 by rewrite {1}rE mnmDE mnm1E eqxx addn1.
rewrite factS; congr (_ * _)%N; apply: eq_bigr => i ie.
by rewrite {1}rE mnmDE mnm1E eq_sym (negPf ie) addn0.
Qed.

(** homogeneity *)
Lemma kapp_homog v : kapp v \is 1.-homog.
Proof. by case: v => [eb|]; rewrite /kapp ?dhomogX /= ?mdeg1 ?rpred0. Qed.
Lemma C_homog c : (c%:MP : P) \is 0.-homog.
Proof. by rewrite -alg_mpolyC; apply: rpredZ; apply: dhomog1. Qed.
Lemma hM d d' (p q : P) n : p \is d.-homog -> q \is d'.-homog -> n = (d + d')%N -> p * q \is n.-homog.
Proof. by move=> hp hq ->; apply: dhomogM. Qed.
Lemma Mw_homog k u v : Mw vpr Ap kapp k u v \is k.-homog.
Proof.
elim: k u v => [|k IH] u v; first exact: C_homog.
rewrite MwS; apply: rpred_sum => j _.
by apply: (@hM 1 k) => //; apply: (@hM 1 0) => //; [exact: kapp_homog|exact: C_homog].
Qed.
Lemma vw_homog k u : vw vpr Ap Dp kapp k u \is k.-homog.
Proof.
elim: k u => [|k IH] u; first exact: C_homog.
rewrite vwS; apply: rpred_sum => j _.
by apply: (@hM 1 k) => //; apply: (@hM 1 0) => //; [exact: kapp_homog|exact: C_homog].
Qed.
Lemma wp_homog k : wp k.+1 \is k.+1.-homog.
Proof.
rewrite /wp; apply: rpredD; apply: (@hM 0 k.+1) => //; try exact: C_homog; apply: rpred_sum => u _.
  by apply: (@hM 1 k) => //; [exact: kapp_homog|exact: Mw_homog].
apply: (@hM 1 k) => //; last exact: vw_homog.
by apply: (@hM 1 0) => //; [exact: kapp_homog|exact: C_homog].
Qed.
Lemma Ep_homog k : Ep k \is k.-homog.
Proof.
rewrite /Ep; elim: k {-2}k (leqnn k) => [|n IH] [|k] // kn; rewrite ?es0 ?dhomog1 //.
rewrite esS; apply: (@hM 0 k.+1) => //; first exact: C_homog.
apply: rpred_sum => i _; apply: rpredMn.
apply: (@hM i.+1 (k - i)); [exact: wp_homog|by apply: IH; lia|have := ltn_ord i; lia].
Qed.
End Trunc.

(** The coefficient theorem. *)
Theorem Ep_coef r : (Ep (mdeg r))@_r *+ (\prod_(e < m) (r e)`!) = lhq A D (mends r).
Proof. by rewrite -(@Hp_nil (mdeg r)) // Hp_coef // cats0. Qed.

End Gen.
