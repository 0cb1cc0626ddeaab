(** C54, part 4: pure states. *)
From mathcomp Require Import all_ssreflect all_algebra algC zify.
From Verif Require Import Prelude PyBase ArrLoop SpecHaf ThHaf MHafnian PropPowerHaf PropHafnian MHermite PropHermite PropHermite2 SpecSymp MSymplectic
  PropSymplectic PropSymp2 PropGates PropChannels PropConversions SpecGauss MMeans PropMeans SpecTor PropTor5 PropThr4 PropThr5 SpecFock MFock PropFock PropFock2 PropFock3.
Set Implicit Arguments.
Unset Strict Implicit.
Unset Printing Implicit Defensive.
Import Order.Theory GRing.Theory Num.Theory.
Local Open Scope ring_scope.

Section Blocks.
Variable C : numClosedFieldType.
Variables (N : nat) (cov : nat -> nat -> C) (hbar : C).
Hypothesis h0 : 0 < hbar.
Hypothesis rs : real_sym (2 * N) cov.
Let hn : hbar != 0. Proof. by rewrite gt_eqF. Qed.
Notation n2 := (2 * N)%N.
Let w := (sqrtC (2%:R * hbar))^-1.
Let ww : w * w = (2%:R * hbar)^-1.
Proof. by rewrite /w -invfM -expr2 sqrtCK. Qed.
Let L := mxof n2 n2 (amp N hbar).
Let Om := mxof n2 n2 (Omega C N).
Let K := mxof n2 n2 (fun i j => if i == j then (if (i < N)%N then 1 else -1 : C) else 0).
Let X := mxof n2 n2 (fun i j => (conj_pair N i j)%:R : C).
Let V := mxof n2 n2 cov.

Let ampE t a : amp N hbar t a = w * (a == amp_mode N t)%:R + (amp_sign C N t * 'i * w) * (a == N + amp_mode N t)%N%:R.
Proof. by rewrite /amp -/w; rring. Qed.
Lemma amp_sum t (f : nat -> C) : (t < n2)%N ->
  \sum_(a < n2) amp N hbar t a * f a = w * f (amp_mode N t) + (amp_sign C N t * 'i * w) * f (N + amp_mode N t)%N.
Proof.
move=> ht; have hm := amp_mode_lt ht.
have l1 : (amp_mode N t < n2)%N by lia. have l2 : (N + amp_mode N t < n2)%N by lia.
by rewrite -(sum_two _ _ _ l1 l2); apply: eq_bigr => a _; rewrite ampE.
Qed.
Lemma L_Om : L *m Om *m L^T = ('i / hbar) *: (K *m X).
Proof.
apply/matrixP => t u; rewrite -mulmxA !mxE.
under eq_bigr => a _ do rewrite !mxE.
have ht := ltn_ord t; have hu := ltn_ord u; have hm := amp_mode_lt ht; have hm' := amp_mode_lt hu.
have inner a : \sum_(j < n2) Om a j * L^T j u = w * Omega C N a (amp_mode N u) + (amp_sign C N u * 'i * w) * Omega C N a (N + amp_mode N u)%N.
  by rewrite -(amp_sum (fun b => Omega C N a b)) //; apply: eq_bigr => b _; rewrite !mxE mulrC.
under eq_bigr => a _ do rewrite inner.
rewrite (amp_sum (fun a => w * Omega C N a (amp_mode N u) + (amp_sign C N u * 'i * w) * Omega C N a (N + amp_mode N u)%N)) //.
rewrite (bigD1 t) //= big1 ?addr0; last by move=> j; rewrite !mxE -val_eqE /= eq_sym => /negPf ->; rewrite mul0r.
rewrite !mxE eqxx /Omega.
have -> : (amp_mode N u == N + amp_mode N t)%N = false by lia.
have -> : (amp_mode N t == N + amp_mode N u)%N = false by lia.
have -> : (N + amp_mode N u == N + (N + amp_mode N t))%N = false by lia.
have -> : (N + amp_mode N t == N + (N + amp_mode N u))%N = false by lia.
have -> : (N + amp_mode N u == N + amp_mode N t)%N = (amp_mode N u == amp_mode N t) by lia.
have -> : (N + amp_mode N t == N + amp_mode N u)%N = (amp_mode N u == amp_mode N t) by lia.
have -> : (amp_mode N t == N + (N + amp_mode N u))%N = false by lia.
have -> : (amp_mode N u == N + (N + amp_mode N t))%N = false by lia.
have t0 : 1 + 1 != 0 :> C := two0 C.
transitivity (w * w * 'i * (amp_sign C N u - amp_sign C N t) * (amp_mode N u == amp_mode N t)%:R); first by rewrite /= ?mulr0n; rring.
rewrite ww /amp_sign /amp_mode /conj_pair.
case: (ltnP t N) => h1; case: (ltnP u N) => h2; rewrite ?subrr ?mulr0 ?mul0r.
- by rewrite (_ : (u == t + N :> nat)%N || (t == u + N :> nat)%N = false) ?mulr0 //; lia.
- rewrite (_ : (u == t + N :> nat)%N || (t == u + N :> nat)%N = (u - N == t)%N) ?mul1r; last by lia.
  by case: (_ == _); rewrite ?mulr0 // !mulr1; ffield; rewrite ?mulf_neq0 ?hn ?t0.
- rewrite (_ : (u == t + N :> nat)%N || (t == u + N :> nat)%N = (u == t - N :> nat)%N); last by lia.
  by case: (_ == _); rewrite ?mulr0 // !mulr1; ffield; rewrite ?mulf_neq0 ?hn ?t0.
- by rewrite (_ : (u == t + N :> nat)%N || (t == u + N :> nat)%N = false) ?mulr0 //; lia.
Qed.

Lemma K_mul (B : 'M[C]_n2) t u : (K *m B) t u = (if (t < N)%N then 1 else -1) * B t u.
Proof.
rewrite mxE (bigD1 t) //= big1 ?addr0; last by move=> j; rewrite !mxE -val_eqE /= eq_sym => /negPf ->; rewrite mul0r.
by rewrite mxE eqxx.
Qed.
Lemma mul_K (B : 'M[C]_n2) t u : (B *m K) t u = B t u * (if (u < N)%N then 1 else -1).
Proof.
rewrite mxE (bigD1 u) //= big1 ?addr0; last by move=> j; rewrite !mxE -val_eqE /= => /negPf ->; rewrite mulr0.
by rewrite mxE eqxx.
Qed.
Lemma KK : K *m K = 1%:M.
Proof.
apply/matrixP => t u; rewrite K_mul !mxE -val_eqE /=; case: eqP => _; rewrite ?mulr0 //.
by case: ifP; rewrite ?mulr1 ?mulrNN ?mulr1.
Qed.
Lemma XX : X *m X = 1%:M.
Proof.
have -> : X = mxof n2 n2 (Xmat C N).
  by apply/mxofP => i j hi hj; rewrite XmatE // /conj_pair ![(_ + N)%N]addnC.
by rewrite -mxof_mmul -mxof_eye; apply/mxofP; exact: Xmat_involution.
Qed.
Lemma XK : X *m K = - (K *m X).
Proof.
apply/matrixP => t u; rewrite mul_K [RHS]mxE K_mul !mxE mulrC -mulNr.
have ht := ltn_ord t; have hu := ltn_ord u.
case e : (conj_pair N t u); rewrite ?mulr0 // !mulr1.
move: e; rewrite /conj_pair => e; case: (ltnP t N) => h1; case: (ltnP u N) => h2; rewrite ?opprK //; exfalso; lia.
Qed.
Lemma OmE : Om = K *m X.
Proof.
apply/matrixP => t u; rewrite K_mul !mxE /Omega /conj_pair ![(_ + N)%N]addnC.
have ht := ltn_ord t; have hu := ltn_ord u.
case: (ltnP t N) => h.
  have -> : (t == N + u :> nat)%N = false by lia.
  by rewrite orbF subr0 mul1r.
have -> : (u == N + t :> nat)%N = false by lia.
by rewrite /= sub0r mulN1r.
Qed.
Lemma JJ : Om *m Om = - 1%:M.
Proof. by rewrite OmE mulmxA -[K *m X *m K]mulmxA XK mulmxN mulmxA KK mul1mx mulNmx XX. Qed.
Let c := 'i / hbar.
Let c0 : c != 0. Proof. by rewrite mulf_neq0 ?neq0Ci ?invr_eq0. Qed.
Lemma L_Om2 : L^T *m Om *m L = c *: Om.
Proof.
have e1 : L *m Om *m L^T = c *: Om by rewrite L_Om OmE.
have r : L *m (Om *m L^T *m (- c^-1 *: Om)) = 1%:M.
  by rewrite !mulmxA e1 -scalemxAr -scalemxAl JJ scalerA mulNr mulVf // scaleN1r opprK.
have l := mulmx1C r.
have -> : L^T *m Om *m L = (c *: Om) *m ((Om *m L^T *m (- c^-1 *: Om)) *m L).
  rewrite -scalemxAl !mulmxA JJ !mulNmx mul1mx -!scalemxAr -scalemxAl scalerN scalerA.
  by rewrite mulrN divff // scaleNr opprK scale1r.
by rewrite l mulmx1.
Qed.

Hypothesis pure : pure_cov N cov hbar.
Lemma VOmV : V *m Om *m V = (hbar / 2%:R) ^+ 2 *: Om.
Proof.
have t0 : 2%:R != 0 :> C := two0 C.
apply/matrixP => i j; rewrite -mulmxA mxE [RHS]mxE [Om i j]mxE -(pure (ltn_ord i) (ltn_ord j)) mulr_sumr; apply: eq_bigr => k _.
rewrite [X in _ * X]mxE mulr_sumr [RHS]mulr_sumr; apply: eq_bigr => l _; rewrite !mxE (proj2 (rs (ltn_ord i) (ltn_ord k))).
by ffield; rewrite ?hn ?t0.
Qed.
Let P := mxof n2 n2 (amp_cov N cov hbar).
Lemma PE : P = L *m V *m L^T.
Proof.
apply/matrixP => t u; rewrite -mulmxA !mxE /amp_cov; apply: eq_bigr => a _; rewrite [X in _ = _ * X]mxE mulr_sumr; apply: eq_bigr => b _.
by rewrite !mxE; rring.
Qed.
Lemma PJP : P *m Om *m P = - 4%:R^-1 *: Om.
Proof.
have -> : P *m Om *m P = L *m (V *m (L^T *m Om *m L) *m V) *m L^T by rewrite PE !mulmxA.
rewrite L_Om2 -scalemxAr -scalemxAl VOmV scalerA -scalemxAr -scalemxAl L_Om -OmE scalerA; congr (_ *: _).
have ii : 'i * 'i = -1 :> C by rewrite -expr2 sqrCi.
have t0 : 1 + 1 != 0 :> C := two0 C.
transitivity (('i * 'i) * (c * hbar / 'i) * (c * hbar / 'i) / 4%:R).
  by rewrite /c; ffield; rewrite ?mulf_neq0 ?hn ?t0 ?neq0Ci.
by rewrite ii /c; ffield; rewrite ?mulf_neq0 ?hn ?t0 ?neq0Ci.
Qed.
Let S := anti_cov N cov hbar.
Lemma SE : S = P + 2%:R^-1 *: X.
Proof. by apply/matrixP => t u; rewrite !mxE /amp_cov_s mulN1r mulNr opprK. Qed.
Lemma SJS : 2%:R *: (S *m Om *m S) = S *m K - K *m S.
Proof.
have t0 : 1 + 1 != 0 :> C := two0 C.
have JX : Om *m X = K by rewrite OmE -mulmxA XX mulmx1.
have XJ : X *m Om = - K by rewrite OmE mulmxA XK mulNmx -mulmxA XX mulmx1.
have XJX : X *m Om *m X = - Om by rewrite XJ mulNmx -OmE.
rewrite SE !mulmxDl !mulmxDr PJP -!scalemxAr -!scalemxAl XJX XJ -[P *m Om *m X]mulmxA JX XK -OmE mulNmx.
apply/matrixP => t u; rewrite !mxE; move: (\sum_j _) (\sum_j _) => a b.
by ffield; rewrite ?mulf_neq0 ?t0.
Qed.
Hypothesis uS : S \in unitmx.
(** the Taylor coefficients do not mix the two halves *)
Lemma pure_block t u : (t < N <= u)%N -> (u < n2)%N -> rho_quad N cov hbar t u = 0 /\ rho_quad N cov hbar u t = 0.
Proof.
move=> /andP[tN Nu] hu; have ht : (t < n2)%N by lia.
have e : 2%:R *: Om = K *m invmx S - invmx S *m K.
  transitivity (invmx S *m (2%:R *: (S *m Om *m S)) *m invmx S).
    by rewrite -scalemxAr -scalemxAl !mulmxA mulVmx // mul1mx -mulmxA mulmxV // mulmx1.
  by rewrite SJS mulmxBr mulmxBl !mulmxA mulVmx // mul1mx -[_ *m S *m invmx S]mulmxA mulmxV // mulmx1.
have t0 : 2%:R != 0 :> C := two0 C.
have uN : (u < N)%N = false by lia.
rewrite /rho_quad /anti_inv -[mentry _]/(ofmx _) !ofmxE.
split.
  have := congr1 (fun M : 'M[C]__ => M (Ordinal ht) (Ordinal hu)) e; rewrite /= [RHS]mxE K_mul [X in _ + X]mxE mul_K [LHS]mxE OmE K_mul !mxE /= tN uN mul1r mulrN1 opprK mul1r.
  by rewrite -mulr2n -[X in _ = X]mulr_natl => /(mulfI t0) ->; rewrite subrr.
have := congr1 (fun M : 'M[C]__ => M (Ordinal hu) (Ordinal ht)) e; rewrite /= [RHS]mxE K_mul [X in _ + X]mxE mul_K [LHS]mxE OmE K_mul !mxE /= tN uN mulr1 !mulN1r -opprD.
by rewrite -mulr2n mulrN -[X in _ = - X]mulr_natl => /oppr_inj /(mulfI t0) ->; rewrite subrr.
Qed.
End Blocks.
