(** C65: photon-number distribution of lossy squeezed states. *)
From mathcomp Require Import all_ssreflect all_algebra zify.
From Verif Require Import Prelude PyBase PropPnd SpecPnd PropPnd3 SpecPndLoss MPndLoss.
Set Implicit Arguments.
Unset Strict Implicit.
Unset Printing Implicit Defensive.
Import Order.TTheory GRing.Theory Num.Theory.
Local Open Scope ring_scope.

Section P.
Variable C : numClosedFieldType.
Let n0 k : (0 < k)%N -> k%:R != 0 :> C. Proof. by move=> h; rewrite pnatr_eq0 -lt0n. Qed.
Let f0 k : k`!%:R != 0 :> C. Proof. by rewrite n0 // fact_gt0. Qed.
Let half : C := 1 / 2%:R.
Lemma tends_scale (f : nat -> C) l c : tends f l -> tends (fun J => c * f J) (c * l).
Proof.
move=> h e e0; have c1 : 0 < `|c| + 1 by rewrite ltr_paddl ?normr_ge0 ?ltr01.
have [J0 hJ] := h (e / (`|c| + 1)) (divr_gt0 e0 c1); exists J0 => J hj.
rewrite -mulrBr normrM; apply: le_lt_trans (_ : (`|c| + 1) * `|f J - l| < _); first by rewrite ler_wpmul2r ?normr_ge0 // ler_addl ler01.
by rewrite mulrC -ltr_pdivl_mulr // hJ.
Qed.
Lemma tends_sub (f g : nat -> C) l (i : nat -> nat) : tends f l -> (forall J, g J = f (i J)) -> (forall M, exists J0, forall J, (J0 <= J)%N -> (M <= i J)%N) -> tends g l.
Proof.
move=> h e hi x x0; have [M hM] := h x x0; have [J0 hJ] := hi M; exists J0 => J hj.
by rewrite e; apply: hM; exact: hJ.
Qed.
Lemma risingD (x : C) p j : rising x (p + j) = rising x p * rising (x + p%:R) j.
Proof. by rewrite /rising big_split_ord /=; congr (_ * _); apply: eq_bigr => i _; rewrite natrD addrA. Qed.
Lemma rising_half m : rising half m = (2 * m)`!%:R / (4%:R ^+ m * m`!%:R).
Proof.
apply: (mulIf (invr_neq0 (f0 m))); rewrite nbc_half -[RHS]mulrA -invfM; congr (_ / _).
by rewrite expr2 mulrA.
Qed.
Lemma rising_half0 m : rising half m != 0.
Proof. by rewrite rising_half mulf_neq0 ?invr_neq0 ?mulf_neq0 ?expf_neq0 ?f0 ?n0. Qed.
Lemma half_shift p j : rising (half + p%:R) j = rising half (p + j) / rising half p.
Proof. by rewrite risingD mulrAC divff ?mul1r // rising_half0. Qed.
Lemma rising_binom (binom : C -> C -> C) x p : binom_ok binom -> 0 < x -> binom (x + p%:R - 1) p%:R = rising x p / p`!%:R.
Proof.
move=> bP x0; rewrite bP; last by rewrite ltr_subr_addl subrr ltr_spaddl ?ler0n.
congr (_ / _); rewrite /rising [RHS](reindex_inj rev_ord_inj) /=; apply: eq_bigr => i _.
have hi := ltn_ord i; rewrite natrB // -addn1 natrD opprD !addrA; rring.
Qed.
Lemma bin_fact_half n m : (n <= m)%N -> 'C(m, n)%:R = m`!%:R / (n`!%:R * (m - n)`!%:R) :> C.
Proof.
move=> h; by rewrite -[m`!](bin_fact h) !natrM mulfK // mulf_neq0.
Qed.
(** the coefficient identities *)
Lemma even_coef (a : C) p j : rising a p / p`!%:R * (rising (half + p%:R) j * rising (a + p%:R) j / (rising half j * j`!%:R)) =
  'C(2 * (p + j), 2 * p)%:R * (rising a (p + j) / (p + j)`!%:R).
Proof.
rewrite bin_fact_half; last by lia.
have -> : (2 * (p + j) - 2 * p = 2 * j)%N by lia.
rewrite risingD half_shift !rising_half exprD.
have t4 m : 4%:R ^+ m != 0 :> C by rewrite expf_neq0 // n0.
move: (f0 (2 * p)) (f0 (2 * j)) (f0 (2 * (p + j))) (f0 p) (f0 j) (f0 (p + j)) (t4 p) (t4 j).
move: ((2 * p)`!%:R : C) ((2 * j)`!%:R : C) ((2 * (p + j))`!%:R : C) (p`!%:R : C) (j`!%:R : C) ((p + j)`!%:R : C) (4%:R ^+ p : C) (4%:R ^+ j : C).
move=> x1 x2 x3 x4 x5 x6 x7 x8 h1 h2 h3 h4 h5 h6 h7 h8; move: (rising a p) (rising _ j) => r1 r2.
by ffield; rewrite ?mulf_neq0 ?h1 ?h2 ?h3 ?h4 ?h5 ?h6 ?h7 ?h8.
Qed.
Lemma odd_coef (a : C) p j : (2 * p).+2%:R * (rising a p.+1 / p.+1`!%:R) * (rising (half + p.+1%:R) j * rising (a + p.+1%:R) j / (rising (half + 1) j * j`!%:R)) =
  'C(2 * (p.+1 + j), (2 * p).+1)%:R * (rising a (p.+1 + j) / (p.+1 + j)`!%:R).
Proof.
rewrite bin_fact_half; last by lia.
have -> : (2 * (p.+1 + j) - (2 * p).+1 = (2 * j).+1)%N by lia.
rewrite (risingD a) half_shift (half_shift 1) !rising_half exprD add1n [4%:R ^+ j.+1]exprS expr1.
have -> : (2 * j.+1)`!%:R = 2%:R * j.+1%:R * (2 * j).+1`!%:R :> C.
  by rewrite -natrM (_ : (2 * j.+1 = (2 * j).+2)%N) ?factS ?natrM; [rewrite -natrM; congr (_ %:R * _); lia|lia].
have -> : (2 * p.+1)`!%:R = (2 * p).+2%:R * (2 * p).+1`!%:R :> C.
  by rewrite (_ : (2 * p.+1 = (2 * p).+2)%N) ?factS ?natrM //; lia.
have -> : (2 * 1)`!%:R = 2%:R :> C by [].
have -> : 1`!%:R = 1 :> C by [].
have -> : j.+1`!%:R = j.+1%:R * j`!%:R :> C by rewrite factS natrM.
have e4 : 4%:R = 2%:R * 2%:R :> C by rewrite -natrM.
have t4 m : 4%:R ^+ m != 0 :> C by rewrite expf_neq0 // n0.
have := t4 p.+1; have := t4 j; set x7 := 4%:R ^+ p.+1; set x8 := 4%:R ^+ j; rewrite e4 => h8 h7.
move: (f0 (2 * p).+1) (f0 (2 * j).+1) (f0 (2 * (p.+1 + j))) (f0 p.+1) (f0 j) (f0 (p.+1 + j)) (n0 (ltn0Sn j)) (n0 (ltn0Sn (2 * p).+1)) (n0 (ltn0Sn 1)).
move: ((2 * p).+1`!%:R : C) ((2 * j).+1`!%:R : C) ((2 * (p.+1 + j))`!%:R : C) (p.+1`!%:R : C) (j`!%:R : C) ((p.+1 + j)`!%:R : C) (j.+1%:R : C) ((2 * p).+2%:R : C).
move: x7 x8 h7 h8 => x7 x8 h7 h8 {e4 t4}; move=> x1 x2 x3 x4 x5 x6 x9 x10; move: (2%:R : C) => x11 h1 h2 h3 h4 h5 h6 h9 h10 h11; move: (rising a p.+1) (rising _ j) => r1 r2.
rewrite mulr1; ffield; rewrite ?mulf_neq0 ?h1 ?h2 ?h3 ?h4 ?h5 ?h6 ?h7 ?h8 ?h9 ?h10 ?h11 ?oner_neq0 //.
Qed.
Lemma even_sum (T : nat -> C) n q J : (forall m, odd m -> T m = 0) -> (n <= 2 * q <= n.+1)%N ->
  \sum_(m < J | (n <= m)%N) T m = \sum_(j < uphalf J - q) T (2 * (q + j))%N.
Proof.
move=> od hq; elim: J => [|J IH]; first by rewrite !big_ord0.
rewrite [LHS]big_mkcond big_ord_recr /= -big_mkcond IH /=.
case o: (odd J).
  have -> : (J./2.+1 - q = uphalf J - q)%N by lia.
  by rewrite od // if_same addr0.
case: (leqP q J./2) => h.
  have -> : (J./2.+1 - q = (uphalf J - q).+1)%N by lia.
  rewrite [RHS]big_ord_recr /=; congr (_ + _).
  have -> : (n <= J)%N by lia.
  congr (T _); lia.
have -> : (n <= J)%N = false by lia.
have -> : (J./2.+1 - q = uphalf J - q)%N by lia.
by rewrite addr0.
Qed.

Lemma pw3 (a b c : C) n : (a * b * c) ^+ n = a ^+ n * b ^+ n * c ^+ n.
Proof. by rewrite !exprMn. Qed.
Lemma pw2 (a b : C) n : (a ^+ 2 * b ^+ 2) ^+ n = (a ^+ 2) ^+ n * (b ^+ 2) ^+ n.
Proof. by rewrite exprMn. Qed.

Section Main.
Variables cosh tanh : C -> C.
Variable binom : C -> C -> C.
Variable hyp2f1 : C -> C -> C -> C -> C.
Hypothesis bP : binom_ok binom.
Notation tpnd := (total_photon_number_distribution cosh tanh binom hyp2f1).
(** the value returned is the limit of pref^n times the probability of n photons after the loss *)
Theorem total_photon_number_distribution_correct n k (s eta pref : C) L : (0 < k)%N -> cosh_tanh_at cosh tanh s -> 0 <= eta <= 1 ->
  (forall m, patterns k m (L m)) ->
  hyp2f1_at hyp2f1 (1 / 2%:R + (uphalf n)%:R) (k%:R / 2%:R + (uphalf n)%:R) (1 / 2%:R + (odd n)%:R) ((1 - eta) ^+ 2 * tanh s ^+ 2) ->
  tends (fun J => pref ^+ n * lossy_upto (tanh s) eta n L J) (tpnd n k s eta pref).
Proof.
move=> k0 [ch tr ct] /andP[e0 e1] hL hP; set t := tanh s in tr ct hP *; set S := 1 / cosh s in ct.
have S0 : 0 < S by rewrite divr_gt0 ?ltr01.
have SE : sqrtC (1 - t ^+ 2) = S by rewrite -ct sqrCK // ltW.
have z1 : `|(1 - eta) ^+ 2 * t ^+ 2| < 1.
  have t2 : 0 <= t ^+ 2 by rewrite real_exprn_even_ge0.
  have t21 : t ^+ 2 < 1 by rewrite -subr_gt0 -ct exprn_gt0.
  have u0 : 0 <= 1 - eta by rewrite subr_ge0.
  have z0 : 0 <= (1 - eta) ^+ 2 * t ^+ 2 by rewrite mulr_ge0 // exprn_ge0.
  rewrite (ger0_norm z0); apply: (le_lt_trans _ t21); rewrite ler_pimull // exprn_ile1 //.
  by rewrite ler_subl_addr ler_addl.
pose T m := 'C(m, n)%:R * eta ^+ n * (1 - eta) ^+ (m - n) * sqw t k m.
have TE J : lossy_upto t eta n L J = \sum_(m < J | (n <= m)%N) T m.
  by apply: eq_bigr => m _; rewrite /T (sqw_patterns t (hL m)).
have T0 m : odd m -> T m = 0 by move=> o; rewrite /T sqw_odd // mulr0.
have k2 : 0 < k%:R / 2%:R :> C by rewrite divr_gt0 ?ltr0n.
have go (q : nat) (c a b d : C) : (n <= 2 * q <= n.+1)%N -> 0 < d -> hyp2f1_at hyp2f1 a b d ((1 - eta) ^+ 2 * t ^+ 2) ->
   tpnd n k s eta pref = c * hyp2f1 a b d ((1 - eta) ^+ 2 * t ^+ 2) ->
   (forall j, c * (rising a j * rising b j / (rising d j * j`!%:R) * ((1 - eta) ^+ 2 * t ^+ 2) ^+ j) = pref ^+ n * T (2 * (q + j))%N) ->
   tends (fun J => pref ^+ n * lossy_upto t eta n L J) (tpnd n k s eta pref).
  move=> hq d0 hP' -> cE; apply: (tends_sub (i := fun J => (uphalf J - q)%N) (tends_scale c (hP' d0 z1))) => [J|M].
    by rewrite TE (even_sum J T0 hq) !mulr_sumr; apply: eq_bigr => j _; rewrite cE.
  by exists (2 * (M + q))%N => J hJ; lia.
have TS q j : T (2 * (q + j))%N = 'C(2 * (q + j), n)%:R * eta ^+ n * (1 - eta) ^+ (2 * (q + j) - n) *
    (S ^+ k * (rising (k%:R / 2%:R) (q + j) / (q + j)`!%:R * t ^+ (2 * (q + j)))).
  rewrite /T /sqw SE /nbc.
  have -> : odd (2 * (q + j)) = false by lia.
  have -> : (2 * (q + j))./2 = (q + j)%N by lia.
  by rewrite -exprM.
have half0 : 0 < half by rewrite divr_gt0 ?ltr01 ?ltr0n.
case o: (odd n).
  pose p := n./2; have np : n = (2 * p).+1 by rewrite /p; lia.
  apply: (go p.+1 ((2 * p).+2%:R * (1 - eta) * (rising (k%:R / 2%:R) p.+1 / p.+1`!%:R) * S ^+ k * t * (pref * eta * t) ^+ n)
             (half + p.+1%:R) (k%:R / 2%:R + p.+1%:R) (half + 1)); [lia|by rewrite addr_gt0 ?ltr01|by move: hP; rewrite o (_ : uphalf n = p.+1) //; lia| |].
    rewrite /total_photon_number_distribution -/t -/S modn2 o /=.
    have -> : (-1 + k%:R + n%:R) / 2%:R = k%:R / 2%:R + p.+1%:R - 1 :> C.
      rewrite np; apply: (mulIf (n0 (ltn0Sn 1))); rewrite divfK ?n0 // !mulrDl divfK ?n0 // -natrM (_ : (p.+1 * 2 = (2 * p).+1.+1)%N); last by lia.
      by rewrite -[in RHS]addn1 natrD mulN1r; rring.
    have -> : (1 + n%:R) / 2%:R = p.+1%:R :> C.
      by apply: (mulIf (n0 (ltn0Sn 1))); rewrite divfK ?n0 // -natrM -[1]/(1%:R) -natrD np; congr _%:R; lia.
    have -> : (2%:R + n%:R) / 2%:R = half + p.+1%:R :> C.
      apply: (mulIf (n0 (ltn0Sn 1))); rewrite divfK ?n0 // mulrDl divfK ?n0 // -natrM -[1]/(1%:R) -!natrD np; congr _%:R; lia.
    have -> : (1 + k%:R + n%:R) / 2%:R = k%:R / 2%:R + p.+1%:R :> C.
      apply: (mulIf (n0 (ltn0Sn 1))); rewrite divfK ?n0 // mulrDl divfK ?n0 // -natrM -[1]/(1%:R) -!natrD np; congr _%:R; lia.
    have -> : 3%:R / 2%:R = half + 1 :> C.
      by apply: (mulIf (n0 (ltn0Sn 1))); rewrite divfK ?n0 // mulrDl divfK ?n0 // mul1r -[1]/(1%:R) -natrD.
    have -> : 1 + n%:R = (2 * p).+2%:R :> C by rewrite np [in RHS]mulrS.
    rewrite rising_binom //; move: (hyp2f1 _ _ _ _) (rising _ _ / _) (S ^+ k) ((pref * eta * t) ^+ n) => a b c d; rring.
  move=> j; rewrite TS.
  have -> : (2 * (p.+1 + j) - n = (2 * j).+1)%N by lia.
  have -> : 'C(2 * (p.+1 + j), n) = 'C(2 * (p.+1 + j), (2 * p).+1) by rewrite np.
  have := odd_coef (k%:R / 2%:R) p j; set r := rising _ p.+1 / _; set h := _ / (rising (half + 1) j * _); set R := rising _ (p.+1 + j) / _; set B := 'C(_, _)%:R => e.
  transitivity ((2 * p).+2%:R * r * h * ((1 - eta) * S ^+ k * t * (pref * eta * t) ^+ n * ((1 - eta) ^+ 2 * t ^+ 2) ^+ j)); first by rring.
  have -> : t ^+ (2 * (p.+1 + j)) = t ^+ n * t * (t ^+ 2) ^+ j by rewrite np -exprM -exprSr -exprD; congr (_ ^+ _); lia.
  rewrite e pw3 pw2 (exprS _ (2 * j)) (exprM (1 - eta) 2 j); clearbody S; move: ((1 - eta) ^+ 2 ^+ j) (t ^+ 2 ^+ j) (t ^+ n) (S ^+ k) (eta ^+ n) (pref ^+ n) => x1 x2 x3 x4 x5 x6.
  rring.
pose p := n./2; have np : n = (2 * p)%N by rewrite /p; lia.
apply: (go p ((rising (k%:R / 2%:R) p / p`!%:R) * S ^+ k * (pref * eta * t) ^+ n) (half + p%:R) (k%:R / 2%:R + p%:R) half); [lia|by []|by move: hP; rewrite o addr0 (_ : uphalf n = p) //; lia| |].
  rewrite /total_photon_number_distribution -/t -/S modn2 o /=.
  have -> : n%:R / 2%:R = p%:R :> C.
    by apply: (mulIf (n0 (ltn0Sn 1))); rewrite divfK ?n0 // -natrM np; congr _%:R; lia.
  have -> : -1 + k%:R / 2%:R + p%:R = k%:R / 2%:R + p%:R - 1 :> C by rring.
  rewrite rising_binom // -/half; move: (hyp2f1 _ _ _ _) (rising _ _ / _) (S ^+ k) ((pref * eta * t) ^+ n) => a b c d; rring.
move=> j; rewrite TS.
have -> : (2 * (p + j) - n = 2 * j)%N by lia.
have -> : 'C(2 * (p + j), n) = 'C(2 * (p + j), 2 * p) by rewrite -np.
have := even_coef (k%:R / 2%:R) p j; set r := rising _ p / _; set h := _ / (rising half j * _); set R := rising _ (p + j) / _; set B := 'C(_, _)%:R => e.
transitivity (r * h * (S ^+ k * (pref * eta * t) ^+ n * ((1 - eta) ^+ 2 * t ^+ 2) ^+ j)); first by rring.
have -> : t ^+ (2 * (p + j)) = t ^+ n * (t ^+ 2) ^+ j by rewrite np -exprM -exprD; congr (_ ^+ _); lia.
rewrite e pw3 pw2 (exprM (1 - eta) 2 j); clearbody S; move: ((1 - eta) ^+ 2 ^+ j) (t ^+ 2 ^+ j) (t ^+ n) (S ^+ k) (eta ^+ n) (pref ^+ n) => x1 x2 x3 x4 x5 x6; rring.
Qed.
End Main.
End P.
