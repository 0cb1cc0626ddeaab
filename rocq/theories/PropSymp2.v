(** C38, C40, C42: reorderings, symplectic checks, gates, reduced states. *)
From mathcomp Require Import all_ssreflect all_algebra algC zify.
From Verif Require Import Prelude PyBase ArrLoop MHafnian SpecSymp MSymplectic PropHafnian PropSymplectic.
Set Implicit Arguments.
Unset Strict Implicit.
Unset Printing Implicit Defensive.
Import Order.Theory GRing.Theory Num.Theory.
Local Open Scope ring_scope.

(** * C38 *)
Section Reorder.
Variable R : comRingType.
Notation mat := (nat -> nat -> R).
Notation vec := (nat -> R).

Lemma nth_flatten_uniform (f : nat -> seq nat) r (s : seq nat) j i :
  (forall x, size (f x) = r) -> (j < size s)%N -> (i < r)%N ->
  nth 0%N (flatten [seq f x | x <- s]) (j * r + i) = nth 0%N (f (nth 0%N s j)) i.
Proof.
move=> sf; elim: s j => [//|x s IH] [|j] /= hj hi; first by rewrite nth_cat sf mul0n add0n hi.
have o1 : (j.+1 * r + i < r)%N = false by lia.
have o2 : (j.+1 * r + i - r = j * r + i)%N by lia.
by rewrite nth_cat sf o1 o2 IH.
Qed.

Lemma nth_rtf r c i j : (i < r)%N -> (j < c)%N -> nth 0%N (reshape_T_flatten r c) (j * r + i) = (i * c + j)%N.
Proof.
move=> hi hj; rewrite /reshape_T_flatten nth_flatten_uniform ?size_iota //.
  by rewrite (nth_map 0%N) ?size_iota // !nth_iota.
by move=> x; rewrite size_map size_iota.
Qed.

Lemma half2 n : (2 * n)./2 = n. Proof. by rewrite mul2n doubleK. Qed.
Lemma odd2 n : odd (2 * n) = false. Proof. by rewrite mul2n odd_double. Qed.

(** xxpp -> xpxp: quadrature x (0) or p (1) of mode a moves from position x*n+a to 2a+x *)
Theorem xxpp_to_xpxp_correct n (v : vec) (S : mat) :
  exists2 v', xxpp_to_xpxp_vec (2 * n) v = Ok v' &
  exists2 S', xxpp_to_xpxp_mat (2 * n) (2 * n) S = Ok S' &
  forall a x, (a < n)%N -> (x < 2)%N ->
    v' (2 * a + x)%N = v (x * n + a)%N /\
    forall b y, (b < n)%N -> (y < 2)%N -> S' (2 * a + x)%N (2 * b + y)%N = S (x * n + a)%N (y * n + b)%N.
Proof.
rewrite /xxpp_to_xpxp_vec /xxpp_to_xpxp_mat /reorder_vec /reorder_mat odd2 half2 eqxx /=.
eexists; first by reflexivity. eexists; first by reflexivity.
move=> a x ha hx; split=> [|b y hb hy]; rewrite /ind_xxpp ![(2 * _)%N]mulnC !nth_rtf //.
Qed.

Theorem xpxp_to_xxpp_correct n (v : vec) (S : mat) :
  exists2 v', xpxp_to_xxpp_vec (2 * n) v = Ok v' &
  exists2 S', xpxp_to_xxpp_mat (2 * n) (2 * n) S = Ok S' &
  forall a x, (a < n)%N -> (x < 2)%N ->
    v' (x * n + a)%N = v (2 * a + x)%N /\
    forall b y, (b < n)%N -> (y < 2)%N -> S' (x * n + a)%N (y * n + b)%N = S (2 * a + x)%N (2 * b + y)%N.
Proof.
rewrite /xpxp_to_xxpp_vec /xpxp_to_xxpp_mat /reorder_vec /reorder_mat odd2 half2 eqxx /=.
eexists; first by reflexivity. eexists; first by reflexivity.
by move=> a x ha hx; split=> [|b y hb hy]; rewrite /ind_xpxp ![(2 * _)%N]mulnC !nth_rtf.
Qed.

Lemma pos_xp n i : (i < 2 * n)%N -> exists a x, [/\ (a < n)%N, (x < 2)%N & i = (2 * a + x)%N].
Proof.
move=> hi; exists (i %/ 2)%N, (i %% 2)%N; split; rewrite ?ltn_mod //; last by rewrite mulnC -divn_eq.
by rewrite ltn_divLR // mulnC.
Qed.
Lemma pos_xx n i : (i < 2 * n)%N -> exists a x, [/\ (a < n)%N, (x < 2)%N & i = (x * n + a)%N].
Proof.
move=> hi; have n0 : (0 < n)%N by lia.
exists (i %% n)%N, (i %/ n)%N; split; rewrite ?ltn_mod //; last by rewrite -divn_eq.
by rewrite ltn_divLR.
Qed.

(** the two reorderings are mutually inverse, on vectors and on matrices *)
Theorem xxpp_xpxp_inverse n (v : vec) (S : mat) :
  (exists v1 v2, [/\ xxpp_to_xpxp_vec (2 * n) v = Ok v1, xpxp_to_xxpp_vec (2 * n) v1 = Ok v2 & eqv (2 * n) v2 v]) /\
  (exists v1 v2, [/\ xpxp_to_xxpp_vec (2 * n) v = Ok v1, xxpp_to_xpxp_vec (2 * n) v1 = Ok v2 & eqv (2 * n) v2 v]) /\
  (exists S1 S2, [/\ xxpp_to_xpxp_mat (2 * n) (2 * n) S = Ok S1, xpxp_to_xxpp_mat (2 * n) (2 * n) S1 = Ok S2 & eqm (2 * n) S2 S]) /\
  (exists S1 S2, [/\ xpxp_to_xxpp_mat (2 * n) (2 * n) S = Ok S1, xxpp_to_xpxp_mat (2 * n) (2 * n) S1 = Ok S2 & eqm (2 * n) S2 S]).
Proof.
have [v1 E1 [S1 F1 H1]] := xxpp_to_xpxp_correct n v S.
have [v2 E2 [S2 F2 H2]] := xpxp_to_xxpp_correct n v1 S1.
have [v3 E3 [S3 F3 H3]] := xpxp_to_xxpp_correct n v S.
have [v4 E4 [S4 F4 H4]] := xxpp_to_xpxp_correct n v3 S3.
split; last split; last split.
- exists v1, v2; split=> //.
  move=> i /pos_xx[a [x [ha hx ->]]].
  by rewrite (proj1 (H2 _ _ ha hx)) (proj1 (H1 _ _ ha hx)).
- exists v3, v4; split=> //.
  move=> i /pos_xp[a [x [ha hx ->]]].
  by rewrite (proj1 (H4 _ _ ha hx)) (proj1 (H3 _ _ ha hx)).
- exists S1, S2; split=> //.
  move=> i j /pos_xx[a [x [ha hx ->]]] /pos_xx[b [y [hb hy ->]]].
  by rewrite (proj2 (H2 _ _ ha hx) b y) // (proj2 (H1 _ _ ha hx)).
- exists S3, S4; split=> //.
  move=> i j /pos_xp[a [x [ha hx ->]]] /pos_xp[b [y [hb hy ->]]].
  by rewrite (proj2 (H4 _ _ ha hx) b y) // (proj2 (H3 _ _ ha hx)).
Qed.

Theorem reorder_errors len r c (v : vec) (S : mat) :
  (odd len -> xxpp_to_xpxp_vec len v = Err ValueError /\ xpxp_to_xxpp_vec len v = Err ValueError) /\
  (odd r \/ r <> c -> xxpp_to_xpxp_mat r c S = Err ValueError /\ xpxp_to_xxpp_mat r c S = Err ValueError).
Proof.
rewrite /xxpp_to_xpxp_vec /xpxp_to_xxpp_vec /xxpp_to_xpxp_mat /xpxp_to_xxpp_mat /reorder_vec /reorder_mat.
by split=> [->//|[->//|/eqP ->]]; case: ifP.
Qed.
End Reorder.

(** * C42 *)
Section Reduced.
Variable R : comRingType.
Notation mat := (nat -> nat -> R).
Notation vec := (nat -> R).

(** the state (mu', cov') is the restriction of (mu, cov) to the listed modes, in the listed order *)
Definition restricts (N : nat) (modes : seq nat) (mu : vec) (cov : mat) (st : vec * mat) : Prop :=
  forall a x, (a < size modes)%N -> (x < 2)%N ->
    st.1 (x * size modes + a)%N = mu (x * N + nth 0%N modes a)%N /\
    forall b y, (b < size modes)%N -> (y < 2)%N ->
      st.2 (x * size modes + a)%N (y * size modes + b)%N = cov (x * N + nth 0%N modes a)%N (y * N + nth 0%N modes b)%N.

Lemma nth_quads2 N modes a x : (a < size modes)%N -> (x < 2)%N ->
  nth 0%N (modes ++ [seq (m + N)%N | m <- modes]) (x * size modes + a)%N = (x * N + nth 0%N modes a)%N.
Proof.
move=> ha; case: x => [|[|//]] _; rewrite nth_cat; first by rewrite mul0n add0n ha mul0n add0n.
by rewrite !mul1n ltnNge leq_addr /= addKn (nth_map 0%N) // addnC.
Qed.

Lemma take_modes_correct N mu cov modes : all (fun m => (m < N)%N) modes ->
  exists2 st, take_modes N mu cov modes = Ok st & restricts N modes mu cov st.
Proof.
move=> am; have am' : all (fun i => (i < 2 * N)%N) (modes ++ [seq (m + N)%N | m <- modes]).
  by rewrite quads_addC; exact: quads_lt.
rewrite /take_modes am' /=; eexists; first by reflexivity.
move=> a x ha hx; split=> [|b y hb hy] /=; rewrite !nth_quads2 //.
Qed.

Lemma no_big N modes : all (fun m => (m < N)%N) modes -> has (fun m => (N < m)%N) modes = false.
Proof. by move=> /allP am; apply/hasP => -[m /am]; lia. Qed.

Theorem reduced_state_correct N mu cov modes : all (fun m => (m < N)%N) modes ->
  exists2 st, reduced_state N mu cov modes = Ok st & restricts N modes mu cov st.
Proof.
move=> am; rewrite /reduced_state (no_big am); case: eqP => [->|_]; last exact: take_modes_correct.
exists (mu, cov) => // a x; rewrite size_iota => ha hx; rewrite nth_iota // add0n; split=> // b y hb hy.
by rewrite nth_iota.
Qed.

(** reduced_gaussian, except when as many modes are requested as there are *)
Theorem reduced_gaussian_correct N mu cov modes : all (fun m => (m < N)%N) modes -> size modes <> N ->
  exists2 st, reduced_gaussian N mu cov modes = Ok st & restricts N modes mu cov st.
Proof.
by move=> am /eqP/negPf sm; rewrite /reduced_gaussian (no_big am) sm; exact: take_modes_correct.
Qed.

Theorem reduced_gaussian_full N (mu : vec) (cov : mat) :
  exists2 st, reduced_gaussian N mu cov (iota 0 N) = Ok st & restricts N (iota 0 N) mu cov st.
Proof.
have am : all (fun m => (m < N)%N) (iota 0 N) by apply/allP => m; rewrite mem_iota.
rewrite /reduced_gaussian (no_big am) size_iota eqxx; exists (mu, cov) => // a x.
rewrite size_iota => ha hx; rewrite nth_iota // add0n; split=> // b y hb hy.
by rewrite nth_iota.
Qed.

(** out-of-range modes *)
Theorem reduced_errors N (mu : vec) (cov : mat) modes :
  (has (fun m => (N < m)%N) modes -> reduced_gaussian N mu cov modes = Err ValueError /\
     reduced_state N mu cov modes = Err ValueError) /\
  (has (fun m => (N <= m)%N) modes -> is_ok (reduced_state N mu cov modes) = false) /\
  (has (fun m => (N <= m)%N) modes -> size modes <> N -> is_ok (reduced_gaussian N mu cov modes) = false).
Proof.
have niota : has (fun m => (N <= m)%N) modes -> (modes == iota 0 N) = false.
  by move/hasP=> [m mm hm]; apply/eqP => e; move: mm; rewrite e mem_iota; lia.
have tk : has (fun m => (N <= m)%N) modes -> is_ok (take_modes N mu cov modes) = false.
  move/hasP=> [m mm hm]; rewrite /take_modes; case: allP => // h.
  have /h : (m + N)%N \in modes ++ [seq (m + N)%N | m <- modes] by rewrite mem_cat orbC (map_f (fun m => (m + N)%N)).
  by lia.
have imp : has (fun m => (N < m)%N) modes -> has (fun m => (N <= m)%N) modes.
  by move/hasP=> [m mm hm]; apply/hasP; exists m => //; lia.
split=> [h|].
  by rewrite /reduced_gaussian /reduced_state h niota // imp.
split=> [h|h /eqP/negPf sm]; rewrite /reduced_state /reduced_gaussian ?niota ?sm //; case: ifP => // _; exact: tk.
Qed.
End Reduced.

(** The unconditional property is false for reduced_gaussian: swapping the two modes of a two-mode
    state returns the state unchanged, and an out-of-range mode is accepted when len(modes) = N. *)
Theorem reduced_gaussian_refuted :
  exists (mu : nat -> int) (cov : nat -> nat -> int),
    ~ (exists2 st, reduced_gaussian 2 mu cov [:: 1%N; 0%N] = Ok st & restricts 2 [:: 1%N; 0%N] mu cov st) /\
    is_ok (reduced_gaussian 2 mu cov [:: 0%N; 2%N]).
Proof.
exists (fun i => i%:R), (fun _ _ => 0); split=> //.
by case=> st [<-] /(_ 0%N 0%N isT isT) [].
Qed.

(** * C40 *)
Section IsSymp.
Variable C : numClosedFieldType.
Notation mat := (nat -> nat -> C).

Lemma close_refl (rtol atol : C) a : 0 <= rtol -> 0 <= atol -> close rtol atol a a.
Proof. by move=> r0 a0; rewrite /close subrr normr0 addr_ge0 // mulr_ge0. Qed.
Lemma close00 (a b : C) : close 0 0 a b = (a == b).
Proof. by rewrite /close mul0r addr0 normr_le0 subr_eq0. Qed.

Lemma allclose_ext (rtol atol : C) n m (A B : mat) : 0 <= rtol -> 0 <= atol ->
  (forall i j, (i < n)%N -> (j < m)%N -> A i j = B i j) -> allclose rtol atol n m A B.
Proof.
move=> r0 a0 e; apply/allP => i; rewrite mem_iota => /andP[_ hi]; apply/allP => j; rewrite mem_iota => /andP[_ hj].
by rewrite e // close_refl.
Qed.
Lemma allclose00 n m (A B : mat) : reflect (forall i j, (i < n)%N -> (j < m)%N -> A i j = B i j) (allclose 0 0 n m A B).
Proof.
apply: (iffP idP) => [/allP h i j hi hj|e]; last exact: allclose_ext.
have /h/allP : i \in iota 0 n by rewrite mem_iota.
move/(_ j); rewrite mem_iota => /(_ hj); rewrite close00 => /eqP //.
Qed.

Lemma sympmatE n i j : (i < 2 * n)%N -> (j < 2 * n)%N -> sympmat C n i j = Omega C n i j.
Proof.
move=> hi hj; rewrite /sympmat /npblock /eye /Omega.
case: (ltnP i n) => hi'; case: (ltnP j n) => hj'.
- have -> : (j == n + i)%N = false by lia.
  have -> : (i == n + j)%N = false by lia.
  by rewrite subrr.
- have -> : (i == n + j)%N = false by lia.
  by rewrite subr0; congr (_%:R); congr nat_of_bool; lia.
- have -> : (j == n + i)%N = false by lia.
  by rewrite sub0r; congr (- _%:R); congr nat_of_bool; lia.
- have -> : (j == n + i)%N = false by lia.
  have -> : (i == n + j)%N = false by lia.
  by rewrite subrr.
Qed.

Lemma sandwichE n (S : mat) i j : mmul (2 * n) (mmul (2 * n) (trn S) (sympmat C n)) S i j
  = \sum_(k < 2 * n) \sum_(l < 2 * n) S k i * Omega C n k l * S l j.
Proof.
rewrite /mmul sum_iota exchange_big; apply: eq_bigr => l _; rewrite sum_iota big_distrl; apply: eq_bigr => k _ /=.
by rewrite /trn sympmatE.
Qed.

(** the check in symplectic.py: exact at zero tolerance, accepting at any tolerance *)
Theorem is_symplectic1_correct n m (S : mat) :
  is_symplectic1 0 0 n m S <-> exists k, [/\ n = (2 * k)%N, m = (2 * k)%N & symplectic k S].
Proof.
rewrite /is_symplectic1; split=> [|[k [-> -> sS]]].
  case: eqP => // <-; case: ifP => // /negbT on /=.
  have : n = (2 * n./2)%N by rewrite mul2n; rewrite -{1}(odd_double_half n) (negPf on).
  move: (n./2) => k -> /allclose00 h; exists k; split=> // i j hi hj.
  by have := h i j hi hj; rewrite sandwichE sympmatE.
rewrite eqxx odd2 half2 /=; apply/allclose00 => i j hi hj.
by rewrite sandwichE sympmatE // sS.
Qed.

Theorem is_symplectic1_accepts (rtol atol : C) n (S : mat) : 0 <= rtol -> 0 <= atol -> symplectic n S ->
  is_symplectic1 rtol atol (2 * n) (2 * n) S.
Proof.
move=> r0 a0 sS; rewrite /is_symplectic1 eqxx odd2 half2 /=; apply: allclose_ext => // i j hi hj.
by rewrite sandwichE sympmatE // sS.
Qed.

Lemma symp_blocks n (S : mat) : symplectic n S <-> forall i j, (i < n)%N -> (j < n)%N ->
  [/\ mmul n (trn S) (mshift n 0 S) i j = mmul n (trn (mshift n 0 S)) S i j,
      mmul n (trn (mshift 0 n S)) (mshift n n S) i j = mmul n (trn (mshift n n S)) (mshift 0 n S) i j &
      msub (mmul n (trn S) (mshift n n S)) (mmul n (trn (mshift n 0 S)) (mshift 0 n S)) i j = eye C i j].
Proof.
have E1 i j : mmul n (trn S) (mshift n 0 S) i j - mmul n (trn (mshift n 0 S)) S i j
   = \sum_(k < 2 * n) \sum_(l < 2 * n) S k i * Omega C n k l * S l j.
  by rewrite symp_pair /mmul !sum_iota -sumrB; apply: eq_bigr => k _; rewrite /trn /mshift.
have E2 i j : mmul n (trn (mshift 0 n S)) (mshift n n S) i j - mmul n (trn (mshift n n S)) (mshift 0 n S) i j
   = \sum_(k < 2 * n) \sum_(l < 2 * n) S k (n + i)%N * Omega C n k l * S l (n + j)%N.
  by rewrite symp_pair /mmul !sum_iota -sumrB; apply: eq_bigr => k _; rewrite /trn /mshift.
have E3 i j : msub (mmul n (trn S) (mshift n n S)) (mmul n (trn (mshift n 0 S)) (mshift 0 n S)) i j
   = \sum_(k < 2 * n) \sum_(l < 2 * n) S k i * Omega C n k l * S l (n + j)%N.
  by rewrite symp_pair /msub /mmul !sum_iota -sumrB; apply: eq_bigr => k _; rewrite /trn /mshift.
have O1 i j : (i < n)%N -> (j < n)%N -> Omega C n i j = 0.
  move=> hi hj; rewrite /Omega; have -> : (j == n + i)%N = false by lia.
  have -> : (i == n + j)%N = false by lia.
  by rewrite subrr.
have O2 i j : (i < n)%N -> (j < n)%N -> Omega C n (n + i) (n + j) = 0.
  move=> hi hj; rewrite /Omega; have -> : (n + j == n + (n + i))%N = false by lia.
  have -> : (n + i == n + (n + j))%N = false by lia.
  by rewrite subrr.
have O3 i j : (i < n)%N -> (j < n)%N -> Omega C n i (n + j) = eye C i j.
  move=> hi hj; rewrite /Omega /eye; have -> : (i == n + (n + j))%N = false by lia.
  by rewrite subr0 eqn_add2l eq_sym.
split=> [sS i j hi hj|h].
  split; last by rewrite E3 sS ?O3 //; lia.
    by apply/eqP; rewrite -subr_eq0 E1 sS ?O1 //; lia.
  by apply/eqP; rewrite -subr_eq0 E2 sS ?O2 //; lia.
have sp i : (i < 2 * n)%N -> (i < n)%N \/ exists2 i', (i' < n)%N & i = (n + i')%N.
  by move=> hi; case: (ltnP i n) => hi'; [left|right; exists (i - n)%N; lia].
move=> i j hi hj; have [li|[i' li ->]] := sp i hi; have [lj|[j' lj ->]] := sp j hj.
- by have [h1 _ _] := h i j li lj; rewrite -E1 h1 subrr O1.
- by have [_ _ h3] := h i j' li lj; rewrite -E3 h3 O3.
- have [_ _ h3] := h j i' lj li; rewrite Omega_anti O3 // -h3 E3 !symp_pair -sumrN.
  by apply: eq_bigr => k _; rewrite opprB mulrC [X in _ - X]mulrC.
- by have [_ h2 _] := h i' j' li lj; rewrite -E2 h2 subrr O2.
Qed.

(** the check in quantum/gaussian_checks.py *)
Theorem is_symplectic2_correct n m (S : mat) :
  is_symplectic2 0 0 n m S <-> exists k, [/\ n = (2 * k)%N, m = (2 * k)%N & symplectic k S].
Proof.
rewrite /is_symplectic2; split=> [|[k [-> -> /symp_blocks sS]]].
  case: eqP => // <-; case: ifP => // /negbT on /=.
  case: ifP => // /and3P[/allclose00 h1 /allclose00 h2 /allclose00 h3] _.
  have en : n = (2 * n./2)%N by rewrite mul2n; rewrite -{1}(odd_double_half n) (negPf on).
  exists n./2; split=> //; apply/symp_blocks => i j hi hj; split; [exact: h1 | exact: h2 | exact: h3].
rewrite eqxx odd2 half2 /=; case: ifP => //.
by move=> /negbT/negP; case; apply/and3P; split; apply/allclose00 => i j hi hj; have [] := sS i j hi hj.
Qed.

Theorem is_symplectic2_accepts (rtol atol : C) n (S : mat) : 0 <= rtol -> 0 <= atol -> symplectic n S ->
  is_symplectic2 rtol atol (2 * n) (2 * n) S.
Proof.
move=> r0 a0 /symp_blocks sS; rewrite /is_symplectic2 eqxx odd2 half2 /=; case: ifP => //.
by move=> /negbT/negP; case; apply/and3P; split; apply: allclose_ext => // i j hi hj; have [] := sS i j hi hj.
Qed.
End IsSymp.
