(** C39: Gaussian channels. *)
From mathcomp Require Import all_ssreflect all_algebra algC zify.
From Verif Require Import Prelude PyBase ArrLoop MHafnian SpecSymp MSymplectic PropSymplectic PropSymp2 PropGates.
Set Implicit Arguments.
Unset Strict Implicit.
Unset Printing Implicit Defensive.
Import Order.Theory GRing.Theory Num.Theory.
Local Open Scope ring_scope.

Section Mx.
Variable C : numClosedFieldType.
Notation mat := (nat -> nat -> C).
Notation vec := (nat -> C).

Lemma mxof_mmul r k c (A B : mat) : mxof r c (mmul k A B) = mxof r k A *m mxof k c B.
Proof. by apply/matrixP => i j; rewrite !mxE /mmul sum_iota; apply: eq_bigr => t _; rewrite !mxE. Qed.
Lemma mxof_trn r c (A : mat) : mxof r c (trn A) = (mxof c r A)^T.
Proof. by apply/matrixP => i j; rewrite !mxE. Qed.
Lemma mxof_madd r c (A B : mat) : mxof r c (madd A B) = mxof r c A + mxof r c B.
Proof. by apply/matrixP => i j; rewrite !mxE. Qed.
Lemma mxof_msub r c (A B : mat) : mxof r c (msub A B) = mxof r c A - mxof r c B.
Proof. by apply/matrixP => i j; rewrite !mxE. Qed.
Lemma mxof_mscale r c a (A : mat) : mxof r c (mscale a A) = a *: mxof r c A.
Proof. by apply/matrixP => i j; rewrite !mxE. Qed.
Lemma mxof_eye n : mxof n n (eye C) = 1%:M.
Proof. by apply/matrixP => i j; rewrite !mxE /eye. Qed.
Lemma mxofP r c (A B : mat) : mxof r c A = mxof r c B <-> forall i j, (i < r)%N -> (j < c)%N -> A i j = B i j.
Proof.
split=> [e i j hi hj|e]; last by apply/matrixP => i j; rewrite !mxE e.
by have := congr1 (fun M : 'M[C]__ => M (Ordinal hi) (Ordinal hj)) e; rewrite /= !mxE.
Qed.
Definition colv (v : vec) : mat := fun i _ => v i.
Lemma mxof_mvmul r k (A : mat) (v : vec) : mxof r 1 (colv (mvmul k A v)) = mxof r k A *m mxof k 1 (colv v).
Proof. by apply/matrixP => i j; rewrite !mxE /colv /mvmul sum_iota; apply: eq_bigr => t _; rewrite !mxE. Qed.
Lemma ofmxE r c (A : 'M[C]_(r, c)) i j (hi : (i < r)%N) (hj : (j < c)%N) : ofmx A i j = A (Ordinal hi) (Ordinal hj).
Proof. by rewrite /ofmx !insubT. Qed.
Lemma mxof_ofmx r c (A : 'M[C]_(r, c)) : mxof r c (ofmx A) = A.
Proof. by apply/matrixP => i j; rewrite !mxE ofmxE; congr (A _ _); apply/val_inj. Qed.

Lemma mxof_interf r k c (U V : mat) :
  mxof (2 * r) (2 * c) (interferometer r c (fun i j => \sum_(t < k) U i t * V t j))
  = mxof (2 * r) (2 * k) (interferometer r k U) *m mxof (2 * k) (2 * c) (interferometer k c V).
Proof. by apply/matrixP => i j; rewrite !mxE interferometer_mul //; apply: eq_bigr => t _; rewrite !mxE. Qed.

Lemma passive_mx hbar M N (mu : vec) (cov T : mat) :
  let P := mxof (2 * M) (2 * N) (interferometer M N T) in
  mxof (2 * M) 1 (colv (passive_transformation hbar M N mu cov T).1) = P *m mxof (2 * N) 1 (colv mu) /\
  mxof (2 * M) (2 * M) (passive_transformation hbar M N mu cov T).2
   = P *m mxof (2 * N) (2 * N) cov *m P^T + (hbar / 2%:R) *: (1%:M - P *m P^T).
Proof.
rewrite /passive_transformation /passive_core; move: (interferometer M N T) => I; cbn zeta; cbn [fst snd].
split; first exact: mxof_mvmul.
rewrite mxof_madd mxof_mscale mxof_msub mxof_eye.
by rewrite (mxof_mmul _ _ _ (mmul _ I cov)) (mxof_mmul _ _ _ I cov) (mxof_mmul _ _ _ I (trn I)) !(mxof_trn _ _ I).
Qed.

(** passive_transformation(T2) after passive_transformation(T1) is passive_transformation(T2 @ T1) *)
Theorem passive_compose hbar K M N (mu : vec) (cov T1 T2 : mat) :
  let st1 := passive_transformation hbar M N mu cov T1 in
  let st2 := passive_transformation hbar K M st1.1 st1.2 T2 in
  let st12 := passive_transformation hbar K N mu cov (fun i j => \sum_(t < M) T2 i t * T1 t j) in
  eqv (2 * K) st2.1 st12.1 /\ eqm (2 * K) st2.2 st12.2.
Proof.
move=> st1 st2 st12.
have [m1 c1] := passive_mx hbar M N mu cov T1.
have [m2 c2] := passive_mx hbar K M st1.1 st1.2 T2.
have [m12 c12] := passive_mx hbar K N mu cov (fun i j => \sum_(t < M) T2 i t * T1 t j).
rewrite -/st1 in m1 c1; rewrite -/st2 m1 in m2; rewrite -/st2 c1 in c2; rewrite -/st12 mxof_interf in m12 c12.
move: m2 c2 m12 c12; set P2 := mxof _ _ (interferometer K M T2); set P1 := mxof _ _ (interferometer M N T1).
set V := mxof _ _ cov; set u := mxof _ 1 (colv mu) => m2 c2 m12 c12; split.
  have e : mxof (2 * K) 1 (colv st2.1) = mxof (2 * K) 1 (colv st12.1) by rewrite m2 m12 mulmxA.
  by move=> i hi; have /mxofP/(_ i 0%N hi isT) := e.
apply/mxofP; rewrite c2 c12 trmx_mul !mulmxDr !mulmxDl -!mulmxA -addrA; congr (_ + _).
rewrite -!scalemxAl -!scalemxAr -scalerDr; congr (_ *: _).
rewrite !mulmxBl !mulmxBr !mul1mx !mulmxA addrC -!addrA; congr (_ + _).
by rewrite addrA addNr add0r.
Qed.

(** the vacuum is invariant under every passive (lossy or not) transformation *)
Theorem passive_vacuum hbar M N (T : mat) :
  let st := passive_transformation hbar M N (vacuum_state hbar).1 (vacuum_state hbar).2 T in
  eqv (2 * M) st.1 (vacuum_state hbar).1 /\ eqm (2 * M) st.2 (vacuum_state hbar).2.
Proof.
move=> st; have [m c] := passive_mx hbar M N (vacuum_state hbar).1 (vacuum_state hbar).2 T.
have v n : mxof n n (vacuum_state hbar).2 = (hbar / 2%:R) *: 1%:M.
  by rewrite -mxof_eye -mxof_mscale; apply/mxofP => i j _ _; rewrite /vacuum_state /mscale /= -mulrA mulrC.
rewrite -/st in m c; split.
  have e : mxof (2 * M) 1 (colv st.1) = 0.
    by rewrite m (_ : mxof _ 1 (colv _) = 0) ?mulmx0 //; apply/matrixP => i j; rewrite !mxE.
  move=> i hi; have := congr1 (fun A : 'M[C]__ => A (Ordinal hi) (Ordinal (isT : 0 < 1)%N)) e.
  by rewrite /= !mxE.
apply/mxofP; rewrite c !v -scalemxAr mulmx1 -scalemxAl -scalerDr; congr (_ *: _).
by rewrite addrC subrK.
Qed.

(** a unitary T gives the congruence by the symplectic orthogonal matrix interferometer(T) *)
Theorem passive_unitary hbar N (mu : vec) (cov T : mat) : unitary N T ->
  let st := passive_transformation hbar N N mu cov T in
  let S := interferometer N N T in
  forall i j, (i < 2 * N)%N -> (j < 2 * N)%N ->
    st.2 i j = \sum_(k < 2 * N) \sum_(l < 2 * N) S i k * cov k l * S j l.
Proof.
move=> uT st S i j hi hj.
have [_ c] := passive_mx hbar N N mu cov T; rewrite -/st -/S in c.
have oS : mxof (2 * N) (2 * N) S *m (mxof (2 * N) (2 * N) S)^T = 1%:M.
  apply: mulmx1C; rewrite -mxof_trn -mxof_mmul -mxof_eye; apply/mxofP => a b ha hb.
  (* S^T S = 1 from unitarity *)
  pose Td : mat := fun i j => (T j i)^*.
  have Std a' b' : (a' < 2 * N)%N -> (b' < 2 * N)%N -> interferometer N N Td a' b' = trn S a' b'.
    move=> ha' hb'; rewrite /S /trn /interferometer.
    have [la|[a1 la ->]] := half_cases ha'; have [lb|[b1 lb ->]] := half_cases hb'.
    - by rewrite !npblock_ll // /Td Re_conj.
    - by rewrite npblock_lr // npblock_rl // /Td Im_conj opprK.
    - by rewrite npblock_lr // npblock_rl // /Td Im_conj.
    - by rewrite !npblock_rr /Td Re_conj.
  rewrite /mmul sum_iota (eq_bigr (fun t : 'I_(2 * N) => interferometer N N Td a t * S t b)); last first.
    by move=> t _; rewrite Std.
  rewrite -interferometer_mul // /eye.
  have un x y : (x < N)%N -> (y < N)%N -> \sum_(t < N) Td x t * T t y = (x == y)%:R by exact: uT.
  rewrite /interferometer; have [la|[a1 la ->]] := half_cases ha; have [lb|[b1 lb ->]] := half_cases hb.
  - by rewrite npblock_ll // un //; apply/Creal_ReP; rewrite realn.
  - have -> : (a == N + b1)%N = false by lia.
    by rewrite npblock_lr // un // (Creal_ImP _ (realn _ _)) oppr0.
  - have -> : (N + a1 == b)%N = false by lia.
    by rewrite npblock_rl // un // (Creal_ImP _ (realn _ _)).
  - by rewrite npblock_rr un // eqn_add2l; apply/Creal_ReP; rewrite realn.
have := congr1 (fun A : 'M[C]__ => A (Ordinal hi) (Ordinal hj)) c; rewrite oS subrr scaler0 addr0 !mxE => ->.
rewrite exchange_big; apply: eq_bigr => l _; rewrite !mxE big_distrl; apply: eq_bigr => k _ /=.
by rewrite !mxE.
Qed.

(** ** loss *)
Lemma for_row_scale n (A : mat) m s a b :
  for_ (iota 0 n) A (fun cov j => upd2 cov m j (cov m j * s)) a b
  = if (a == m) && (b < n)%N then A a b * s else A a b.
Proof.
elim: n a b => [|n IH] a b; first by rewrite ltn0 andbF.
have lt : (b < n.+1)%N = (b == n) || (b < n)%N by rewrite ltnS leq_eqVlt.
rewrite for_iotaS add0n /upd2 !IH eqxx ltnn /= lt.
by case: (a =P m) => [->|_] //=; case: (b =P n) => [->|_] //=; rewrite ?ltnn.
Qed.
Lemma for_col_scale n (A : mat) m s a b :
  for_ (iota 0 n) A (fun cov i => upd2 cov i m (cov i m * s)) a b
  = if (b == m) && (a < n)%N then A a b * s else A a b.
Proof.
elim: n a b => [|n IH] a b; first by rewrite ltn0 andbF.
have lt : (a < n.+1)%N = (a == n) || (a < n)%N by rewrite ltnS leq_eqVlt.
rewrite for_iotaS add0n /upd2 !IH eqxx ltnn /= lt.
by case: (b =P m) => [->|_] //=; case: (a =P n) => [->|_] //=; rewrite ?ltnn.
Qed.

(** scaling factor of a quadrature *)
Definition lossf (s : C) (N mode i : nat) : C := if (i == mode) || (i == mode + N)%N then s else 1.

Theorem loss_entries N (mu : vec) (cov : mat) T mode nbar hbar : (mode < N)%N -> 0 <= T ->
  exists2 st, loss N mu cov T mode nbar hbar = Ok st &
    (forall i, (i < 2 * N)%N -> st.1 i = lossf (sqrtC T) N mode i * mu i) /\
    (forall i j, (i < 2 * N)%N -> (j < 2 * N)%N ->
      st.2 i j = lossf (sqrtC T) N mode i * lossf (sqrtC T) N mode j * cov i j
        + (if (i == j) && ((i == mode) || (i == mode + N)%N) then (1 - T) * (2%:R * nbar + 1) * (hbar / 2%:R) else 0)).
Proof.
move=> hm T0; rewrite /loss /= /loss_step.
have -> : (mode < 2 * N)%N by lia.
have l2 : (mode + N < 2 * N)%N by lia.
have s2 : sqrtC T * sqrtC T = T by rewrite -expr2 sqrtCK.
rewrite /= l2 /=; eexists; first by reflexivity.
set s := sqrtC T in s2 *; split=> [i hi|i j hi hj] /=.
  rewrite /upd1 /lossf; case: (i =P (mode + N)%N) => [->|_]; last first.
    by case: eqP => [->|_]; rewrite /= ?mul1r // mulrC.
  by have -> : (mode + N == mode)%N = false by [lia]; rewrite mulrC.
set m := (mode + N)%N; set K := (1 - T) * _ * _.
have mm : (m == mode) = false by rewrite /m; lia.
have mm' : (mode == m) = false by rewrite /m; lia.
have lm : (mode < 2 * N)%N by lia.
rewrite /upd2 !for_col_scale !for_row_scale !for_col_scale !for_row_scale /lossf !eqxx -/m ?l2 ?lm ?hi ?hj /= ?mm ?mm' /=.
case: (i =P m) => [ei|ni] /=; case: (j =P m) => [ej|nj] /=; rewrite ?ei ?ej ?mm ?eqxx ?andbF ?andbT /= ?orbT ?orbF ?hi ?hj ?l2 ?lm /=.
all: rewrite ?mm ?mm' /= ?eqxx /=.
- rring.
- have -> : (m == j) = false by apply/eqP => e; apply: nj.
  case: (j =P mode) => [ej|_] /=; rewrite ?ej ?mm ?mm' ?lm /= ?l2; rring.
- have -> : (i == m) = false by apply/eqP.
  case: (i =P mode) => [ei|_] /=; rewrite ?ei ?mm ?mm' ?lm /= ?l2; rring.
- case: (i =P mode) => [ei|ni'] /=; case: (j =P mode) => [ej|nj'] /=; rewrite ?ei ?ej ?eqxx ?lm ?hi ?hj /= ?andbF ?andbT //=; try rring.
  by have -> : (mode == j) = false by [apply/eqP => e; apply: nj']; rring.
Qed.

Lemma lossfM s t N mode i : lossf s N mode i * lossf t N mode i = lossf (s * t) N mode i.
Proof. by rewrite /lossf; case: ifP => _; rewrite ?mulr1. Qed.

(** same outcome on all entries *)
Definition same_state (N : nat) (a b : vec * mat) := eqv (2 * N) a.1 b.1 /\ eqm (2 * N) a.2 b.2.

Theorem loss_compose N (mu : vec) (cov : mat) T1 T2 mode nbar hbar : (mode < N)%N -> 0 <= T1 -> 0 <= T2 ->
  exists st1 st2 st12, [/\ loss N mu cov T1 mode nbar hbar = Ok st1, loss N st1.1 st1.2 T2 mode nbar hbar = Ok st2,
    loss N mu cov (T1 * T2) mode nbar hbar = Ok st12 & same_state N st2 st12].
Proof.
move=> hm t1 t2; have [st1 E1 [m1 c1]] := loss_entries mu cov nbar hbar hm t1.
have [st2 E2 [m2 c2]] := loss_entries st1.1 st1.2 nbar hbar hm t2.
have [st12 E12 [m12 c12]] := loss_entries mu cov nbar hbar hm (mulr_ge0 t1 t2).
exists st1, st2, st12; split=> //.
have sM : sqrtC (T1 * T2) = sqrtC T1 * sqrtC T2 by rewrite sqrtCM ?qualifE.
have s2 : sqrtC T2 * sqrtC T2 = T2 by rewrite -expr2 sqrtCK.
split=> [i hi|i j hi hj]; first by rewrite m2 // m1 // m12 // sM -lossfM; rring.
rewrite c2 // c1 // c12 // sM -!lossfM.
case: (i =P j) => [<-|_] /=; last by rring.
case: ifP => h; last by rring.
by rewrite /lossf h; move: (sqrtC T2) s2 => s <-; rring.
Qed.

Theorem loss_one N (mu : vec) (cov : mat) mode nbar hbar : (mode < N)%N ->
  exists2 st, loss N mu cov 1 mode nbar hbar = Ok st & same_state N st (mu, cov).
Proof.
move=> hm; have [st E [m c]] := loss_entries mu cov nbar hbar hm ler01.
have f1 i : lossf (sqrtC 1) N mode i = 1 :> C by rewrite sqrtC1 /lossf; case: ifP.
exists st => //; split=> [i hi|i j hi hj] /=; first by rewrite m // f1 mul1r.
by rewrite c // !f1 subrr !mul0r !mul1r; case: ifP; rewrite addr0.
Qed.

Theorem loss_commute N (mu : vec) (cov : mat) T1 T2 mode1 mode2 nbar1 nbar2 hbar :
  (mode1 < N)%N -> (mode2 < N)%N -> mode1 <> mode2 -> 0 <= T1 -> 0 <= T2 ->
  exists a b c d, [/\ loss N mu cov T1 mode1 nbar1 hbar = Ok a, loss N a.1 a.2 T2 mode2 nbar2 hbar = Ok b,
    loss N mu cov T2 mode2 nbar2 hbar = Ok c, loss N c.1 c.2 T1 mode1 nbar1 hbar = Ok d & same_state N b d].
Proof.
move=> h1 h2 ne t1 t2.
have [a Ea [ma ca]] := loss_entries mu cov nbar1 hbar h1 t1.
have [b Eb [mb cb]] := loss_entries a.1 a.2 nbar2 hbar h2 t2.
have [c Ec [mc cc]] := loss_entries mu cov nbar2 hbar h2 t2.
have [d Ed [md cd]] := loss_entries c.1 c.2 nbar1 hbar h1 t1.
exists a, b, c, d; split=> //; split=> [i hi|i j hi hj].
  by rewrite mb // ma // md // mc //; rring.
rewrite cb // ca // cd // cc //.
case: (i =P j) => [<-|_] /=; last by rring.
case: (boolP ((i == mode1) || (i == mode1 + N)%N)) => i1; case: (boolP ((i == mode2) || (i == mode2 + N)%N)) => i2.
- by exfalso; lia.
- by rewrite /lossf i1 (negPf i2); rring.
- by rewrite /lossf (negPf i1) i2; rring.
- by rewrite /lossf (negPf i1) (negPf i2); rring.
Qed.

(** full loss replaces the mode by a thermal state with nbar photons, uncorrelated with the others *)
Theorem loss_zero N (mu : vec) (cov : mat) mode nbar hbar : (mode < N)%N ->
  exists2 st, loss N mu cov 0 mode nbar hbar = Ok st &
    forall i, (i < 2 * N)%N -> (i == mode) || (i == mode + N)%N ->
      st.1 i = 0 /\ forall j, (j < 2 * N)%N ->
        st.2 i j = (if i == j then (2%:R * nbar + 1) * hbar / 2%:R else 0) /\ st.2 j i = st.2 i j.
Proof.
move=> hm; have [st E [m c]] := loss_entries mu cov nbar hbar hm (lexx 0).
exists st => // i hi h; have f0 : lossf (sqrtC 0) N mode i = 0 :> C by rewrite sqrtC0 /lossf h.
split=> [|j hj]; first by rewrite m // f0 mul0r.
rewrite !c // f0 !mulr0 !mul0r !add0r h subr0 mul1r andbT mulrA; split=> //.
by rewrite eq_sym; case: eqP => //= <-; rewrite h.
Qed.

Theorem loss_errors N (mu : vec) (cov : mat) T mode nbar hbar : (N <= mode)%N ->
  loss N mu cov T mode nbar hbar = Err IndexError.
Proof.
move=> hm; rewrite /loss /= /loss_step; case: ifP => //= _.
by have -> : (mode + N < 2 * N)%N = false by [lia].
Qed.

(** zero-temperature loss is the passive transformation diag(1, .., sqrt T, .., 1) *)
Theorem loss_is_passive N (mu : vec) (cov : mat) T mode hbar : (mode < N)%N -> 0 <= T ->
  exists2 st, loss N mu cov T mode 0 hbar = Ok st &
    same_state N st (passive_transformation hbar N N mu cov (fun i j => if i == j then (if i == mode then sqrtC T else 1) else 0)).
Proof.
move=> hm T0; have [st E [m c]] := loss_entries mu cov 0 hbar hm T0; exists st => //.
have s2 : sqrtC T * sqrtC T = T by rewrite -expr2 sqrtCK.
set D : mat := (X in passive_transformation _ _ _ _ _ X).
have rs : sqrtC T \is Num.real by rewrite ger0_real // sqrtC_ge0.
have rD i j : D i j \is Num.real by rewrite /D; case: (i == j); rewrite ?real0 //; case: (i == mode); rewrite ?real1.
have P i j : (i < 2 * N)%N -> (j < 2 * N)%N ->
    interferometer N N D i j = if i == j then lossf (sqrtC T) N mode i else 0.
  move=> hi hj; rewrite /interferometer /lossf.
  have [li|[i' li ->]] := half_cases hi; have [lj|[j' lj ->]] := half_cases hj.
  - rewrite npblock_ll // (Creal_ReP _ (rD _ _)) /D.
    by have -> : (i == mode + N)%N = false by [lia]; rewrite orbF.
  - have -> : (i == N + j')%N = false by lia.
    by rewrite npblock_lr // (Creal_ImP _ (rD _ _)) oppr0.
  - have -> : (N + i' == j)%N = false by lia.
    by rewrite npblock_rl // (Creal_ImP _ (rD _ _)).
  - rewrite npblock_rr (Creal_ReP _ (rD _ _)) /D eqn_add2l.
    have -> : (N + i' == mode)%N = false by lia.
    by have -> : (N + i' == mode + N)%N = (i' == mode) by [lia].
have row (F : nat -> C) i : (i < 2 * N)%N -> \sum_(k < 2 * N) interferometer N N D i k * F k = lossf (sqrtC T) N mode i * F i.
  move=> hi; rewrite -(sum_delta_l (fun k => lossf (sqrtC T) N mode i * F k) hi); apply: eq_bigr => k _.
  by rewrite P //; case: eqP => _; rewrite ?mul1r ?mul0r.
split=> [i hi|i j hi hj] /=; first by rewrite m // /mvmul sum_iota row.
rewrite c // /madd /mscale /msub /mmul !sum_iota /trn /eye.
have r1 : \sum_(t < 2 * N) (\sum_(t0 <- iota 0 (2 * N)) interferometer N N D i t0 * cov t0 t) * interferometer N N D j t
    = lossf (sqrtC T) N mode i * lossf (sqrtC T) N mode j * cov i j.
  rewrite (eq_bigr (fun t : 'I_(2 * N) => interferometer N N D j t * (lossf (sqrtC T) N mode i * cov i t))).
    by rewrite (row (fun t => lossf (sqrtC T) N mode i * cov i t)) //; rring.
  by move=> t _; rewrite sum_iota (row (fun t0 => cov t0 t)) // mulrC.
rewrite r1 (row (fun t => interferometer N N D j t)) // P // eq_sym; congr (_ + _).
case: (j =P i) => [->|_] /=; last by rewrite mulr0 subr0 mulr0.
rewrite /lossf; case: ifP => _; rewrite ?s2 ?mulr0 ?add0r; last by rewrite mul1r subrr mulr0.
by rewrite mulr1 mulrC.
Qed.
End Mx.
