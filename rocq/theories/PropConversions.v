(** C41: Qmat / Covmat / Amat / displacement conversions. *)
From mathcomp Require Import all_ssreflect all_algebra algC zify.
From Verif Require Import Prelude PyBase ArrLoop MHafnian SpecSymp MSymplectic PropSymplectic PropSymp2 PropGates PropChannels.
Set Implicit Arguments.
Unset Strict Implicit.
Unset Printing Implicit Defensive.
Import Order.Theory GRing.Theory Num.Theory.
Local Open Scope ring_scope.

Section Conv.
Variable C : numClosedFieldType.
Notation mat := (nat -> nat -> C).
Notation vec := (nat -> C).

(** a real symmetric 2N x 2N matrix *)
Definition real_sym (n : nat) (A : mat) := forall i j, (i < n)%N -> (j < n)%N -> A i j \is Num.real /\ A i j = A j i.
(** the block structure [[N, M^*], [M, N^*]] with N Hermitian and M symmetric *)
Definition husimi_form (n : nat) (Q : mat) := forall i j, (i < n)%N -> (j < n)%N ->
  [/\ Q i j = (Q j i)^*, Q (n + i)%N j = Q (n + j)%N i, Q i (n + j)%N = (Q (n + i)%N j)^* & Q (n + i)%N (n + j)%N = (Q i j)^*].

Lemma two0 : 2%:R != 0 :> C. Proof. by rewrite pnatr_eq0. Qed.
Lemma four0 : 4%:R != 0 :> C. Proof. by rewrite pnatr_eq0. Qed.
Ltac ffn := ffield; rewrite ?mulf_neq0 //; try exact: two0.
Lemma conj_rect (a b : C) : a \is Num.real -> b \is Num.real -> (a + 'i * b)^* = a - 'i * b.
Proof. by move=> ra rb; rewrite rmorphD rmorphM /= conjCi (CrealP ra) (CrealP rb) mulNr. Qed.

(** entries of Qmat for a real cov: real and imaginary parts *)
Lemma Qmat_parts N (cov : mat) hbar i j : real_sym (2 * N) cov -> hbar \is Num.real -> (i < N)%N -> (j < N)%N ->
  let c a b := cov a b * 2%:R / hbar in
  [/\ [/\ (c i j + c (N + i)%N (N + j)%N - 2%:R * (i == j)%:R) / 4%:R \is Num.real,
          (c i (N + j)%N - c j (N + i)%N) / 4%:R \is Num.real,
          (c i j - c (N + i)%N (N + j)%N) / 4%:R \is Num.real & (c i (N + j)%N + c j (N + i)%N) / 4%:R \is Num.real],
   Qmat N cov hbar i j = (c i j + c (N + i)%N (N + j)%N - 2%:R * (i == j)%:R) / 4%:R
      + 'i * ((c i (N + j)%N - c j (N + i)%N) / 4%:R) + (i == j)%:R,
   Qmat N cov hbar (N + i)%N j = (c i j - c (N + i)%N (N + j)%N) / 4%:R + 'i * ((c i (N + j)%N + c j (N + i)%N) / 4%:R),
   Qmat N cov hbar i (N + j)%N = (c i j - c (N + i)%N (N + j)%N) / 4%:R - 'i * ((c i (N + j)%N + c j (N + i)%N) / 4%:R) &
   Qmat N cov hbar (N + i)%N (N + j)%N = (c i j + c (N + i)%N (N + j)%N - 2%:R * (i == j)%:R) / 4%:R
      - 'i * ((c i (N + j)%N - c j (N + i)%N) / 4%:R) + (i == j)%:R].
Proof.
move=> rc rh hi hj c.
have rcc a b : (a < 2 * N)%N -> (b < 2 * N)%N -> c a b \is Num.real.
  by move=> ha hb; rewrite /c rpredM ?rpredV // rpredM ?realn // (proj1 (rc a b ha hb)).
have i2 : (i < 2 * N)%N by lia. have j2 : (j < 2 * N)%N by lia.
have ni2 : (N + i < 2 * N)%N by lia. have nj2 : (N + j < 2 * N)%N by lia.
have rs : [/\ (c i j + c (N + i)%N (N + j)%N - 2%:R * (i == j)%:R) / 4%:R \is Num.real,
          (c i (N + j)%N - c j (N + i)%N) / 4%:R \is Num.real,
          (c i j - c (N + i)%N (N + j)%N) / 4%:R \is Num.real & (c i (N + j)%N + c j (N + i)%N) / 4%:R \is Num.real].
  by split; rewrite rpredM ?rpredV ?realn // ?rpredB ?rpredD ?rcc // rpredM ?realn.
case: (rs) => r1 r2 r3 r4; split=> //; rewrite /Qmat /madd.
- rewrite npblock_ll // /mshift /eye add0n -/(c i j) -/(c (N + i)%N (N + j)%N) -/(c i (N + j)%N) -/(c j (N + i)%N).
  by congr (_ + _); rring.
- rewrite npblock_rl // /mshift /eye add0n -/(c i j) -/(c (N + i)%N (N + j)%N) -/(c i (N + j)%N) -/(c j (N + i)%N).
  by have -> : (N + i == j)%N = false by [lia]; rewrite addr0; rring.
- rewrite npblock_lr // /mshift /eye add0n -/(c i j) -/(c (N + i)%N (N + j)%N) -/(c i (N + j)%N) -/(c j (N + i)%N).
  have -> : (i == N + j)%N = false by lia.
  rewrite -conj_rect // addr0; congr (_^*); rring.
- rewrite npblock_rr // /mshift /eye add0n -/(c i j) -/(c (N + i)%N (N + j)%N) -/(c i (N + j)%N) -/(c j (N + i)%N).
  rewrite -conj_rect // eqn_add2l; congr (_^* + _); rring.
Qed.

Theorem Qmat_husimi N (cov : mat) hbar : real_sym (2 * N) cov -> hbar \is Num.real -> husimi_form N (Qmat N cov hbar).
Proof.
move=> rc rh i j hi hj.
have [[r1 r2 r3 r4] q1 q2 q3 q4] := Qmat_parts rc rh hi hj.
have [[r1' r2' r3' r4'] q1' q2' q3' q4'] := Qmat_parts rc rh hj hi.
have i2 : (i < 2 * N)%N by lia. have j2 : (j < 2 * N)%N by lia.
have ni2 : (N + i < 2 * N)%N by lia. have nj2 : (N + j < 2 * N)%N by lia.
have s1 := proj2 (rc i j i2 j2); have s2 := proj2 (rc _ _ ni2 nj2).
have cn (b : bool) : (b%:R : C)^* = b%:R by rewrite conjC_nat.
split.
- rewrite q1 q1' rmorphD cn conj_rect // -s1 -s2 [j == i]eq_sym; rring.
- rewrite q2 q2' -s1 -s2; rring.
- by rewrite q3 q2 conj_rect.
- by rewrite q4 q1 rmorphD cn conj_rect.
Qed.

(** Covmat inverts Qmat on real symmetric covariance matrices *)
Theorem Covmat_Qmat N (cov : mat) hbar : real_sym (2 * N) cov -> hbar \is Num.real -> hbar != 0 ->
  eqm (2 * N) (Covmat N (Qmat N cov hbar) hbar) cov.
Proof.
move=> rc rh h0 i j hi hj.
have t0 := two0; have f0 := four0.
have P a b : (a < N)%N -> (b < N)%N ->
    [/\ 'Re (Qmat N cov hbar a b - (a == b)%:R) = (cov a b * 2%:R / hbar + cov (N + a)%N (N + b)%N * 2%:R / hbar - 2%:R * (a == b)%:R) / 4%:R,
        'Im (Qmat N cov hbar a b - (a == b)%:R) = (cov a (N + b)%N * 2%:R / hbar - cov b (N + a)%N * 2%:R / hbar) / 4%:R,
        'Re (Qmat N cov hbar (N + a)%N b) = (cov a b * 2%:R / hbar - cov (N + a)%N (N + b)%N * 2%:R / hbar) / 4%:R &
        'Im (Qmat N cov hbar (N + a)%N b) = (cov a (N + b)%N * 2%:R / hbar + cov b (N + a)%N * 2%:R / hbar) / 4%:R].
  move=> ha hb; have [[r1 r2 r3 r4] q1 q2 _ _] := Qmat_parts rc rh ha hb.
  by rewrite q1 q2 addrK !Re_rect // !Im_rect.
rewrite /Covmat /mscale; have [li|[i' li ei]] := half_cases hi; have [lj|[j' lj ej]] := half_cases hj.
- rewrite npblock_ll // /mshift /eye add0n; have [-> _ -> _] := P i j li lj; ffn.
- rewrite ej npblock_lr // /mshift /eye add0n; have [_ -> _ ->] := P i j' li lj; ffn.
- rewrite ei npblock_rl // /trn /mshift /eye add0n; have [_ -> _ ->] := P j i' lj li.
  have -> : cov (N + i')%N j = cov j (N + i')%N by rewrite -ei (proj2 (rc i j hi hj)).
  ffn.
- by rewrite ei ej npblock_rr // /mshift /eye add0n; have [-> _ -> _] := P i' j' li lj; ffn.
Qed.

Lemma Covmat_parts n (Q : mat) hbar i j : (i < n)%N -> (j < n)%N ->
  let re1 := 'Re (Q i j - (i == j)%:R) in let im1 := 'Im (Q i j - (i == j)%:R) in
  let re2 := 'Re (Q (n + i)%N j) in let im2 := 'Im (Q (n + i)%N j) in
  [/\ Covmat n Q hbar i j = hbar / 2%:R * (2%:R * (re1 + re2) + (i == j)%:R),
      Covmat n Q hbar i (n + j)%N = hbar / 2%:R * (2%:R * (im2 + im1)),
      Covmat n Q hbar (n + j)%N i = hbar / 2%:R * (2%:R * (im2 + im1)) &
      Covmat n Q hbar (n + i)%N (n + j)%N = hbar / 2%:R * (2%:R * (re1 - re2) + (i == j)%:R)].
Proof.
move=> hi hj; rewrite /Covmat /mscale npblock_rr npblock_ll // npblock_lr // npblock_rl //.
Qed.

(** Covmat of a Husimi matrix is real symmetric *)
Theorem Covmat_real_sym n (Q : mat) hbar : husimi_form n Q -> hbar \is Num.real -> real_sym (2 * n) (Covmat n Q hbar).
Proof.
move=> hQ rh i j hi hj.
have rr (a b : C) : a \is Num.real -> b \is Num.real -> hbar / 2%:R * (2%:R * (a + b)) \is Num.real.
  by move=> ra rb; rewrite !rpredM ?rpredV ?realn // rpredD.
have rr' (a b : C) (c : bool) : a \is Num.real -> b \is Num.real -> hbar / 2%:R * (2%:R * (a + b) + c%:R) \is Num.real.
  by move=> ra rb; rewrite rpredM ?rpredV ?realn // ?rpredM ?rpredV ?realn // rpredD ?realn // rpredM ?realn // rpredD.
have sy a b : (a < n)%N -> (b < n)%N ->
   [/\ 'Re (Q a b - (a == b)%:R) = 'Re (Q b a - (b == a)%:R), 'Im (Q a b - (a == b)%:R) = - 'Im (Q b a - (b == a)%:R) & Q (n + a)%N b = Q (n + b)%N a].
  move=> ha hb; have [h1 h2 _ _] := hQ a b ha hb; split=> //.
    by rewrite h1 [b == a]eq_sym !raddfB /= Re_conj.
  rewrite h1 [b == a]eq_sym !raddfB /= Im_conj !(Creal_ImP _ (realn _ _)) !(subr0, oppr0) //.
have [li|[i' li ->]] := half_cases hi; have [lj|[j' lj ->]] := half_cases hj.
- have [-> _ _ _] := Covmat_parts Q hbar li lj; have [-> _ _ _] := Covmat_parts Q hbar lj li.
  by split; [rewrite rr' // ?Creal_Re | have [-> _ ->] := sy i j li lj; rewrite [i == j]eq_sym].
- have [_ -> -> _] := Covmat_parts Q hbar li lj; split=> //; rewrite rr // Creal_Im.
- have [_ -> -> _] := Covmat_parts Q hbar lj li; split=> //; rewrite rr // Creal_Im.
- have [_ _ _ ->] := Covmat_parts Q hbar li lj; have [_ _ _ ->] := Covmat_parts Q hbar lj li.
  by split; [rewrite rr' ?rpredN // Creal_Re | have [-> _ ->] := sy _ _ li lj; rewrite [i' == j']eq_sym].
Qed.

(** and Qmat inverts Covmat on Husimi matrices *)
Theorem Qmat_Covmat n (Q : mat) hbar : husimi_form n Q -> hbar \is Num.real -> hbar != 0 ->
  eqm (2 * n) (Qmat n (Covmat n Q hbar) hbar) Q.
Proof.
move=> hQ rh h0; have rc := Covmat_real_sym hQ rh.
have hf := Qmat_husimi rc rh.
have t0 := two0; have f0 := four0.
have B a b : (a < n)%N -> (b < n)%N -> Qmat n (Covmat n Q hbar) hbar a b = Q a b /\
   Qmat n (Covmat n Q hbar) hbar (n + a)%N b = Q (n + a)%N b.
  move=> ha hb; have [_ -> -> _ _] := Qmat_parts rc rh ha hb.
  have [-> -> _ ->] := Covmat_parts Q hbar ha hb; have [_ -> _ _] := Covmat_parts Q hbar hb ha.
  have [h1 h2 _ _] := hQ b a hb ha.
  have e1 : 'Im (Q b a - (b == a)%:R) = - 'Im (Q a b - (a == b)%:R).
    by rewrite h1 [b == a]eq_sym !raddfB /= Im_conj !(Creal_ImP _ (realn _ _)) !(subr0, oppr0).
  rewrite e1 h2; split.
    transitivity ('Re (Q a b - (a == b)%:R) + 'i * 'Im (Q a b - (a == b)%:R) + (a == b)%:R); last by rewrite -Crect subrK.
    by move: ('Re _) ('Im _) ('Re _) ('Im _) => x1 x2 x3 x4; ffn.
  transitivity ('Re (Q (n + a)%N b) + 'i * 'Im (Q (n + a)%N b)); last by rewrite -Crect.
  by move: ('Re _) ('Im _) ('Re _) ('Im _) => x1 x2 x3 x4; ffn.
move=> i j hi hj; have [li|[i' li ->]] := half_cases hi; have [lj|[j' lj ->]] := half_cases hj.
- by have [] := B i j li lj.
- have [_ _ -> _] := hf i j' li lj; have [_ _ -> _] := hQ i j' li lj.
  by have [_ ->] := B i j' li lj.
- by have [] := B j i' lj li; have [_ ->] := B i' j li lj.
- have [_ _ _ ->] := hf i' j' li lj; have [_ _ _ ->] := hQ i' j' li lj.
  by have [-> _] := B i' j' li lj.
Qed.

(** the vacuum has Q = identity *)
Theorem Qmat_vacuum N (hbar : C) : hbar \is Num.real -> hbar != 0 -> eqm (2 * N) (Qmat N (vacuum_state hbar).2 hbar) (eye C).
Proof.
move=> rh h0; have t0 := two0; have f0 := four0.
have rc : real_sym (2 * N) (vacuum_state hbar).2.
  by move=> i j _ _ /=; rewrite /eye [j == i]eq_sym; split=> //; rewrite !rpredM ?rpredV ?realn.
move=> i j hi hj; rewrite /eye.
have [li|[i' li ->]] := half_cases hi; have [lj|[j' lj ->]] := half_cases hj.
- have [_ -> _ _ _] := Qmat_parts rc rh li lj; rewrite /= /eye eqn_add2l.
  have -> : (i == N + j)%N = false by lia.
  have -> : (j == N + i)%N = false by lia.
  by case: eqP => _; rewrite /=; ffn.
- have [_ _ _ -> _] := Qmat_parts rc rh li lj; rewrite /= /eye eqn_add2l.
  have -> : (i == N + j')%N = false by lia.
  have -> : (j' == N + i)%N = false by lia.
  by case: eqP => _; rewrite /=; ffn.
- have [_ _ -> _ _] := Qmat_parts rc rh li lj; rewrite /= /eye eqn_add2l.
  have -> : (N + i' == j)%N = false by lia.
  have -> : (i' == N + j)%N = false by lia.
  have -> : (j == N + i')%N = false by lia.
  by case: eqP => _; rewrite /=; ffn.
- have [_ _ _ _ ->] := Qmat_parts rc rh li lj; rewrite /= /eye !eqn_add2l.
  have -> : (i' == N + j')%N = false by lia.
  have -> : (j' == N + i')%N = false by lia.
  by case: eqP => _; rewrite /=; ffn.
Qed.

(** ** Xmat *)
Lemma XmatE N i j : (i < 2 * N)%N -> (j < 2 * N)%N -> Xmat C N i j = ((j == N + i)%N || (i == N + j)%N)%:R.
Proof.
move=> hi hj; rewrite /Xmat /eye; have [li|[i' li ->]] := half_cases hi; have [lj|[j' lj ->]] := half_cases hj.
- rewrite npblock_ll //; have -> : (j == N + i)%N = false by lia.
  by have -> : (i == N + j)%N = false by [lia].
- rewrite npblock_lr // eqn_add2l eq_sym.
  by have -> : (i == N + (N + j'))%N = false by [lia]; rewrite orbF.
- rewrite npblock_rl // eqn_add2l.
  by have -> : (j == N + (N + i'))%N = false by [lia].
- rewrite npblock_rr !eqn_add2l.
  have -> : (j' == N + i')%N = false by lia.
  by have -> : (i' == N + j')%N = false by [lia].
Qed.

Lemma Xmat_mul N (A : mat) i j : (i < 2 * N)%N ->
  mmul (2 * N) (Xmat C N) A i j = if (i < N)%N then A (N + i)%N j else A (i - N)%N j.
Proof.
move=> hi; rewrite /mmul sum_iota.
have hp : ((if i < N then N + i else i - N) < 2 * N)%N by case: ifP; lia.
rewrite (eq_bigr (fun t : 'I_(2 * N) => ((if i < N then N + i else i - N)%N == t)%:R * A t j)).
  by rewrite (sum_delta_l (fun t => A t j)) //; case: ifP.
move=> t _; have ht := ltn_ord t; rewrite XmatE //; congr (_%:R * _); congr nat_of_bool.
by case: (ltnP i N) => h; lia.
Qed.

Theorem Xmat_involution N : eqm (2 * N) (mmul (2 * N) (Xmat C N) (Xmat C N)) (eye C).
Proof.
move=> i j hi hj; rewrite Xmat_mul //; case: ltnP => h; rewrite XmatE //; try lia; rewrite /eye; congr (_%:R); congr nat_of_bool; lia.
Qed.

(** ** Amat *)
Notation cmx A := (map_mx (fun x : C => x^*) A).

Lemma cmxK r c (A : 'M[C]_(r, c)) : cmx (cmx A) = A.
Proof. by apply/matrixP => i j; rewrite !mxE conjCK. Qed.
Lemma cmx_mul r k c (A : 'M[C]_(r, k)) (B : 'M[C]_(k, c)) : cmx (A *m B) = cmx A *m cmx B.
Proof. exact: map_mxM. Qed.

Lemma mprodE n (A B : mat) i j : mprod n A B i j = mmul n A B i j.
Proof. by rewrite /mmul sum_iota. Qed.

(** Amat(cov): defined exactly when Q is invertible, and then Q^{-1} = I - X conj(A) *)
Theorem Amat_correct N (cov : mat) hbar b :
  let Q := if b then cov else Qmat N cov hbar in
  (mxof (2 * N) (2 * N) Q \in unitmx ->
     exists2 A, Amat N cov hbar b = Ok A &
       eqm (2 * N) (mprod (2 * N) Q (fun i j => (i == j)%:R - mprod (2 * N) (Xmat C N) (fun a b => (A a b)^*) i j)) (fun i j => (i == j)%:R)) /\
  (mxof (2 * N) (2 * N) Q \notin unitmx -> Amat N cov hbar b = Err RuntimeError).
Proof.
move=> Q; split=> [uQ|/negPf uQ]; last by rewrite /Amat /np_inv -/Q uQ.
rewrite /Amat /np_inv -/Q uQ /=; eexists; first by reflexivity.
move=> i j hi hj.
have e i' j' : (i' < 2 * N)%N -> (j' < 2 * N)%N ->
   (i' == j')%:R - mprod (2 * N) (Xmat C N) (fun a b => (mmul (2 * N) (Xmat C N) (fun i j : nat => (eye C i j - ofmx (invmx (mxof (2 * N) (2 * N) Q)) i j)^*) a b)^*) i' j'
   = ofmx (invmx (mxof (2 * N) (2 * N) Q)) i' j'.
  move=> hi' hj'; rewrite mprodE.
  rewrite Xmat_mul //; case: (ltnP i' N) => h; rewrite Xmat_mul; try lia.
    have -> : (N + i' < N)%N = false by lia.
    by rewrite addKn conjCK /eye opprB addrC subrK.
  have -> : (i' - N < N)%N by lia.
  have -> : (N + (i' - N) = i')%N by lia.
  by rewrite conjCK /eye opprB addrC subrK.
rewrite /mprod (eq_bigr (fun k : 'I_(2 * N) => Q i k * ofmx (invmx (mxof (2 * N) (2 * N) Q)) k j)); last first.
  by move=> k _; rewrite -e.
have := congr1 (fun M : 'M[C]__ => M (Ordinal hi) (Ordinal hj)) (mulmxV uQ).
by rewrite /= !mxE => <-; apply: eq_bigr => k _; rewrite !mxE ofmxE; congr (_ * _); congr (_ _ _); apply/val_inj.
Qed.

(** partner quadrature: x_i <-> p_i *)
Definition partner (N i : nat) : nat := if (i < N)%N then (N + i)%N else (i - N)%N.
Lemma partner_lt N i : (i < 2 * N)%N -> (partner N i < 2 * N)%N.
Proof. by rewrite /partner => h; case: ifP; lia. Qed.
Lemma Xmat_mulp N (A : mat) i j : (i < 2 * N)%N -> mmul (2 * N) (Xmat C N) A i j = A (partner N i) j.
Proof. by move=> hi; rewrite Xmat_mul // /partner; case: ifP. Qed.

(** Amat of a quantum covariance matrix is symmetric, A = A^T, and X A X = conj A *)
Theorem Amat_symmetric N (cov : mat) hbar b A :
  husimi_form N (if b then cov else Qmat N cov hbar) -> Amat N cov hbar b = Ok A ->
  forall i j, (i < 2 * N)%N -> (j < 2 * N)%N -> A i j = A j i /\
    A i j = (A (partner N i) (partner N j))^*.
Proof.
set Q := (if b then _ else _) => hQ; rewrite /Amat /np_inv -/Q; case: ifP => // uQ /= [<-] {A}.
set Qi := ofmx _.
set M := mxof (2 * N) (2 * N) Q in uQ Qi *; set X := mxof (2 * N) (2 * N) (Xmat C N).
have XX : X *m X = 1%:M by rewrite /X -mxof_mmul -mxof_eye; apply/mxofP; exact: Xmat_involution.
have Xt : X^T = X.
  by apply/matrixP => i j; rewrite !mxE !XmatE // orbC.
have Xc : cmx X = X by apply/matrixP => i j; rewrite !mxE XmatE // conjC_nat.
have Qe i j : (i < 2 * N)%N -> (j < 2 * N)%N -> Q i j = (Q j i)^* /\ Q (partner N i) (partner N j) = (Q i j)^*.
  rewrite /partner; move=> hi hj; have [li|[i' li ->]] := half_cases hi; have [lj|[j' lj ->]] := half_cases hj.
  - by rewrite li lj; have [h1 _ _ h4] := hQ i j li lj.
  - rewrite li ltnNge leq_addr /= addKn; have [_ h2 h3 _] := hQ i j' li lj; have [_ _ h3' _] := hQ j' i lj li.
    by split; [rewrite h3 h2 | rewrite h3 conjCK].
  - rewrite lj ltnNge leq_addr /= addKn; have [_ h2 h3 _] := hQ i' j li lj; have [_ h2' h3' _] := hQ j i' lj li.
    by split; [rewrite h3' conjCK h2 | exact: h3].
  - rewrite !ltnNge !leq_addr /= !addKn; have [h1 _ _ h4] := hQ i' j' li lj; have [h1' _ _ h4'] := hQ j' i' lj li.
    by split; [rewrite h4 h4' conjCK h1' | rewrite h4 conjCK].
have Mt : M^T = cmx M.
  by apply/matrixP => i j; rewrite !mxE (proj1 (Qe _ _ (ltn_ord j) (ltn_ord i))).
have MX : X *m M *m X = cmx M.
  have -> : X *m M *m X = (X *m (X *m M)^T)^T by rewrite !trmx_mul !trmxK Xt.
  rewrite /X /M -mxof_mmul -mxof_trn -mxof_mmul -mxof_trn; apply/matrixP => i j; rewrite !mxE.
  rewrite /trn !Xmat_mulp ?partner_lt //.
  by rewrite (proj2 (Qe _ _ (ltn_ord i) (ltn_ord j))).
pose I := invmx M.
have It : I^T = cmx I.
  by rewrite /I trmx_inv Mt map_invmx.
have uX : X \in unitmx by have [] := mulmx1_unit XX.
have Xi : invmx X = X by rewrite -[invmx X]mulmx1 -XX mulmxA mulVmx // mul1mx.
have IX : X *m I *m X = cmx I.
  rewrite /I map_invmx -MX; have uXM : X *m M \in unitmx by rewrite unitmx_mul uX.
  have invM2 (A B : 'M[C]_(2 * N)) : A \in unitmx -> B \in unitmx -> invmx (A *m B) = invmx B *m invmx A.
    move=> uA uB; have uAB : A *m B \in unitmx by rewrite unitmx_mul uA.
    apply: (can_inj (mulKmx uAB)); rewrite mulmxV // mulmxA -[A *m B *m _]mulmxA mulmxV // mulmx1 mulmxV //.
  by rewrite invM2 // invM2 // Xi mulmxA.
set A := mmul _ _ _.
have AE : mxof (2 * N) (2 * N) A = X *m (1%:M - cmx I).
  rewrite /A mxof_mmul; congr (_ *m _); apply/matrixP => i j; rewrite !mxE /eye rmorphB /= conjC_nat.
  by rewrite /Qi ofmxE; congr (_ - (I _ _)^*); apply/val_inj.
have AT : (mxof (2 * N) (2 * N) A)^T = mxof (2 * N) (2 * N) A.
  have It' : (cmx I)^T = I by rewrite map_trmx It cmxK.
  rewrite AE trmx_mul Xt raddfB /= trmx1 It' mulmxBl mul1mx mulmxBr mulmx1; congr (_ - _).
  by rewrite -IX !mulmxA XX mul1mx.
have AX : X *m mxof (2 * N) (2 * N) A *m X = cmx (mxof (2 * N) (2 * N) A).
  rewrite AE cmx_mul Xc map_mxB map_mx1 cmxK !mulmxA XX mul1mx mulmxBl mul1mx mulmxBr mulmx1; congr (_ - _).
  by rewrite -IX -!mulmxA XX mulmx1.
move=> i j hi hj; split.
  by have := congr1 (fun M : 'M[C]__ => M (Ordinal hj) (Ordinal hi)) AT; rewrite /= !mxE.
have := congr1 (fun M : 'M[C]__ => M (Ordinal hi) (Ordinal hj)) AX.
have -> : X *m mxof (2 * N) (2 * N) A *m X = (X *m (X *m mxof (2 * N) (2 * N) A)^T)^T by rewrite !trmx_mul !trmxK Xt.
rewrite /X -mxof_mmul -mxof_trn -mxof_mmul -mxof_trn /= !mxE /trn !Xmat_mulp ?partner_lt //= => e.
by rewrite -[LHS]conjCK -e.
Qed.

(** the A matrix of the vacuum vanishes *)
Theorem Amat_vacuum N (hbar : C) : hbar \is Num.real -> hbar != 0 ->
  exists2 A, Amat N (vacuum_state hbar).2 hbar false = Ok A & eqm (2 * N) A (fun _ _ => 0).
Proof.
move=> rh h0.
have E : mxof (2 * N) (2 * N) (Qmat N (vacuum_state hbar).2 hbar) = 1%:M.
  by rewrite -mxof_eye; apply/mxofP; exact: Qmat_vacuum.
rewrite /Amat /np_inv E unitmx1 [bind _ _]/=; eexists; first by reflexivity.
move=> i j hi hj; rewrite Xmat_mulp // (ofmxE _ (partner_lt hi) hj) invmx1 !mxE /eye.
by rewrite (_ : (Ordinal _ == Ordinal _) = (partner N i == j)) // subrr conjC0.
Qed.

(** ** displacements *)
Theorem displacements_roundtrip N (mu : vec) hbar : (forall i, (i < 2 * N)%N -> mu i \is Num.real) -> 0 < hbar ->
  eqv (2 * N) (real_to_complex_displacements N (complex_to_real_displacements N mu hbar) hbar) mu.
Proof.
move=> rm h0 i hi.
have s0 : 0 < sqrtC (2%:R * hbar) by rewrite sqrtC_gt0 mulr_gt0 // ltr0n.
have rs : (sqrtC (2%:R * hbar))^-1 \is Num.real by rewrite rpredV gtr0_real.
have P a : (a < N)%N -> 'Re ((mu a + 'i * mu (N + a)%N) / sqrtC (2%:R * hbar)) = mu a / sqrtC (2%:R * hbar) /\
    'Im ((mu a + 'i * mu (N + a)%N) / sqrtC (2%:R * hbar)) = mu (N + a)%N / sqrtC (2%:R * hbar).
  move=> ha; have ra : mu a \is Num.real by apply: rm; lia.
  have rb : mu (N + a)%N \is Num.real by apply: rm; lia.
  by rewrite mulrDl -mulrA; split; [rewrite Re_rect ?rpredM | rewrite Im_rect ?rpredM].
rewrite /real_to_complex_displacements /complex_to_real_displacements; case: (ltnP i N) => hN.
  by rewrite (proj1 (P i hN)) mulrCA mulfV ?mulr1 // gt_eqF.
have hN' : (i - N < N)%N by lia.
rewrite hN' (proj2 (P _ hN')) mulrCA mulfV ?mulr1 ?gt_eqF //; congr (mu _); lia.
Qed.

Theorem displacements_roundtrip2 N (beta : vec) hbar : (forall i, (i < N)%N -> beta (N + i)%N = (beta i)^*) -> 0 < hbar ->
  eqv (2 * N) (complex_to_real_displacements N (real_to_complex_displacements N beta hbar) hbar) beta.
Proof.
move=> hb h0 i hi.
have s0 : sqrtC (2%:R * hbar) != 0 by rewrite gt_eqF // sqrtC_gt0 mulr_gt0 // ltr0n.
have P a : (a < N)%N -> (real_to_complex_displacements N beta hbar a + 'i * real_to_complex_displacements N beta hbar (N + a)%N) / sqrtC (2%:R * hbar) = beta a.
  move=> ha; rewrite /real_to_complex_displacements ha ltnNge leq_addr /= addKn.
  rewrite [RHS]Crect; move: ('Re _) ('Im _) => x y; ffn.
rewrite /complex_to_real_displacements; case: (ltnP i N) => hN; first by rewrite P.
have hN' : (i - N < N)%N by lia.
by rewrite P // -hb //; congr (beta _); lia.
Qed.

(** C36: expand_vector places the displacement of one mode *)
Theorem expand_vector_correct alpha mode N (hbar : C) : (mode < N)%N ->
  exists2 r, expand_vector alpha mode N hbar = Ok r &
    forall i, (i < 2 * N)%N -> r i = if i == mode then sqrtC (2%:R * hbar) * 'Re alpha
                                else if i == (N + mode)%N then sqrtC (2%:R * hbar) * 'Im alpha else 0.
Proof.
move=> hm; rewrite /expand_vector (_ : (mode + N < 2 * N)%N); last by lia.
eexists; first by reflexivity.
move=> i hi; rewrite /upd1; case: (i =P mode) => [->|_] //.
by have -> : (mode == N + mode)%N = false by [lia].
Qed.
Theorem expand_vector_error alpha mode N (hbar : C) : (N <= mode)%N -> expand_vector alpha mode N hbar = Err IndexError.
Proof. by move=> hm; rewrite /expand_vector ifF //; lia. Qed.
End Conv.

(** ** concrete instances of the hypotheses used in this development *)
Section Inst.
Notation C := [numClosedFieldType of algC].
Definition hyp_ex : C * C := (5%:R / 4%:R, 3%:R / 4%:R).
Definition circ_ex : C * C := (3%:R / 5%:R, 4%:R / 5%:R).
Example hyp_ex_ok : hyp_ex.1 ^+ 2 - hyp_ex.2 ^+ 2 = 1.
Proof. have f0 : (1 + 1 : C) != 0 := two0 C. by rewrite /=; ffield; rewrite ?mulf_neq0. Qed.
Example circ_ex_ok : unitcircle circ_ex.
Proof.
split; rewrite /= ?rpredM ?rpredV ?realn //.
have f0 : (5%:R : C) != 0 by rewrite pnatr_eq0.
transitivity ((5%:R * 5%:R^-1) ^+ 2 : C); last by rewrite mulfV // expr1n.
by move: (5%:R^-1) => z; rring.
Qed.
Example expand_ex : exists2 S, expand 2 (two_mode_squeezing hyp_ex circ_ex) [:: 2%N; 0%N] 3 = Ok S & symplectic 3 S.
Proof.
apply: expand_symplectic => //; apply: two_mode_squeezing_symplectic; first exact: hyp_ex_ok.
by have [] := circ_ex_ok.
Qed.
Example unitary_ex : unitary 2 (fun i j => nth 0 (nth [::] [:: [:: circ_ex.1; - circ_ex.2]; [:: circ_ex.2; circ_ex.1]] i) j).
Proof.
have [] := circ_ex_ok; move: circ_ex.1 circ_ex.2 => a b ra rb e.
move=> i j hi hj; rewrite 2!big_ord_recl big_ord0 addr0 /=.
case: i hi => [|[|//]] _; case: j hj => [|[|//]] _; rewrite /= ?rmorphN /= ?(CrealP ra) ?(CrealP rb) -?e; rring.
Qed.
(** a squeezed covariance matrix is real symmetric *)
Example real_sym_ex : real_sym 2 (fun i j : nat => (i == j)%:R * (i.+1)%:R : C).
Proof. move=> i j _ _; split; first by rewrite rpredM ?realn. by rewrite [j == i]eq_sym; case: eqP => [->|_] //; rewrite !mul0r. Qed.
End Inst.
