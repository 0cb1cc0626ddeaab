(** C66: the characteristic function of the photon number of lossy squeezed states. *)
From mathcomp Require Import all_ssreflect all_algebra algC zify.
From Verif Require Import Prelude PyBase PropPnd SpecPnd PropPnd3 SpecPndLoss MPndLoss PropPndLoss MPndChar PropPndLossEx.
Set Implicit Arguments.
Unset Strict Implicit.
Unset Printing Implicit Defensive.
Import Order.TTheory GRing.Theory Num.Theory.
Local Open Scope ring_scope.

Section P.
Variable C : numClosedFieldType.
Variables cosh tanh exp : C -> C.
Variable binom : C -> C -> C.
Variable hyp2f1 : C -> C -> C -> C -> C.
Notation tpnd := (total_photon_number_distribution cosh tanh binom hyp2f1).
Notation cf := (characteristic_function cosh tanh exp binom hyp2f1).

Lemma tpnd_pref n k s eta pref : tpnd n k s eta pref = pref ^+ n * tpnd n k s eta 1.
Proof.
rewrite /total_photon_number_distribution !pw3 expr1n; move: (hyp2f1 _ _ _ _) (hyp2f1 _ _ _ _) (binom _ _) (binom _ _) => h1 h2 b1 b2.
by move: (pref ^+ n) (eta ^+ n) (tanh s ^+ n) ((_ / _) ^+ k) => x1 x2 x3 x4; case: ifP => _; rring.
Qed.

Lemma cf_loopE left f k s eta pref delta (T : nat -> C) i : (forall n, f n * tpnd n k s eta pref = T n) ->
  exists I, [/\ (i.+1 <= I <= i.+1 + left)%N,
   cf_loop cosh tanh binom hyp2f1 left f k s eta pref delta i.+1 (\sum_(n < i.+1) T n) (T i) = \sum_(n < I) T n &
   I = (i.+1 + left)%N \/ exists2 j, I = j.+2 & (\sum_(n < j.+1) T n) != 0 /\ (T j.+1 + T j) / (\sum_(n < j.+1) T n) < delta].
Proof.
move=> fT; elim: left i => [|l IH] i /=.
  by exists i.+1; rewrite addn0 leqnn; split=> //; left.
rewrite fT -(big_ord_recr i.+1 (fun n : 'I_i.+2 => T n)) /=.
have [I [h1 h2 h3]] := IH i.+1.
have go : exists I0 : nat, [/\ (i < I0 <= i.+1 + l.+1)%N,
   cf_loop cosh tanh binom hyp2f1 l f k s eta pref delta i.+2 (\sum_(n < i.+2) T n) (T i.+1) = \sum_(n < I0) T n &
   I0 = (i.+1 + l.+1)%N \/ exists2 j, I0 = j.+2 & (\sum_(n < j.+1) T n) != 0 /\ (T j.+1 + T j) / (\sum_(n < j.+1) T n) < delta].
  exists I; split=> //; first by lia.
  by case: h3 => [->|h3]; [left; lia|right].
case: eqP => // /eqP nz; case: ifP => // lt.
by exists i.+2; split=> //; [lia|right; exists i].
Qed.

(** the value returned is a truncation of the series sum_n n^m exp(mu n) p_n, where p_n is the probability of n photons after the
    loss: all the terms up to max_iter, or those before the point where the last two add less than delta times the rest *)
Theorem characteristic_function_correct k (s eta mu delta : C) max_iter poly_corr L :
  (0 < k)%N -> cosh_tanh_at cosh tanh s -> 0 <= eta <= 1 -> s != 0 -> eta != 0 -> binom_ok binom ->
  (exp 0 = 1 /\ forall x y, exp (x + y) = exp x * exp y) ->
  (forall m, patterns k m (L m)) ->
  (forall n : nat, hyp2f1_at hyp2f1 (1 / 2%:R + (uphalf n)%:R) (k%:R / 2%:R + (uphalf n)%:R) (1 / 2%:R + (odd n)%:R) ((1 - eta) ^+ 2 * tanh s ^+ 2)) ->
  exists (p : nat -> C) (I : nat),
    let T n := n%:R ^+ odflt 0%N poly_corr * exp (mu * n%:R) * p n in
    [/\ forall n, tends (lossy_upto (tanh s) eta n L) (p n),
        (0 < I <= maxn 1 max_iter)%N,
        cf k s eta mu max_iter delta poly_corr = \sum_(n < I) T n &
        I = maxn 1 max_iter \/ exists2 j, I = j.+2 & (\sum_(n < j.+1) T n) != 0 /\ (T j.+1 + T j) / (\sum_(n < j.+1) T n) < delta].
Proof.
move=> k0 ct e01 s0 e0 bP [x0 xD] hL hP; exists (fun n => tpnd n k s eta 1).
have xM n : exp (mu * n%:R) = exp mu ^+ n.
  by elim: n => [|n IH]; rewrite ?mulr0 ?expr0 // mulrS mulrDr mulr1 xD IH exprS.
pose T n := n%:R ^+ odflt 0%N poly_corr * exp (mu * n%:R) * tpnd n k s eta 1.
have fT n : cf_f C poly_corr n * tpnd n k s eta (exp mu) = T n.
  by rewrite tpnd_pref mulrA -xM /T; congr (_ * _ * _); case: poly_corr {T} => [[|m]|].
have [I [h1 h2 h3]] := @cf_loopE (max_iter - 1) _ k s eta (exp mu) delta T 0 fT.
have mE : (1 + (max_iter - 1))%N = maxn 1 max_iter by lia.
exists I; rewrite -/T; split=> //; [|by rewrite -mE| |by rewrite -mE].
- move=> n e ep; have [J0 hJ] := total_photon_number_distribution_correct bP 1 k0 ct e01 hL (hP n) ep.
  by exists J0 => J hj; move: (hJ J hj); rewrite expr1n mul1r.
- by rewrite -h2 /characteristic_function (negbTE s0) (negbTE e0) /= fT big_ord1.
Qed.

(** without squeezing there are no photons, and the value is 0^m = <n^m exp(mu n)> *)
Theorem characteristic_function_vacuum k (eta mu delta : C) max_iter poly_corr L :
  (0 < k)%N -> tanh 0 = 0 -> (forall m, patterns k m (L m)) ->
  (forall n, tends (lossy_upto (tanh 0) eta n L) ((n == 0)%N%:R)) /\
  cf k 0 eta mu max_iter delta poly_corr = 0 ^+ odflt 0%N poly_corr.
Proof.
move=> k0 t0 hL; split; last by rewrite /characteristic_function eqxx /=; case: poly_corr => [[|m]|].
move=> n e ep; exists 1%N => J hJ; rewrite /lossy_upto t0 big_mkcond; case: J hJ => // J _.
have sq m : sqw (0 : C) k m = (m == 0)%N%:R.
  rewrite /sqw /nbc expr2 mul0r subr0 sqrtC1 expr1n mul1r; case: ifP => o; first by case: m o.
  case: m o => [|[|m]] o //=; first by rewrite big_ord0 fact0 divr1 mul1r.
  by rewrite exprS mul0r mulr0.
rewrite (eq_bigr (fun m : 'I_J.+1 => ((m == 0 :> nat) && (n == 0))%N%:R)) => [|m _].
  rewrite big_ord_recl /= big1 ?addr0 ?subrr ?normr0 // => i _.
rewrite -(sqw_patterns 0 (hL m)) sq; case: (nat_of_ord m) => [|m'] /=; last by rewrite mulr0 if_same.
by case: (n) => [|n'] //=; rewrite bin0 !expr0 !mul1r.
Qed.
End P.

(** two squeezed vacua with tanh s = 3/5, no loss, mu = 0, poly_corr = 1, max_iter = 3: the value is 2 p_2 = 288/625; the
    hypotheses of the theorem hold (with functions that are only correct at the points used) *)
Example characteristic_function_example :
  exists (cosh tanh exp : K -> K) (binom : K -> K -> K) (hyp2f1 : K -> K -> K -> K -> K),
  [/\ [/\ @cosh_tanh_at K cosh tanh 1, tanh 1 = 3%:R / 5%:R & @binom_ok K binom],
      exp 0 = 1 /\ (forall x y, exp (x + y) = exp x * exp y),
      (forall n : nat, @hyp2f1_at K hyp2f1 (1 / 2%:R + (uphalf n)%:R) (2%:R / 2%:R + (uphalf n)%:R) (1 / 2%:R + (odd n)%:R) ((1 - 1) ^+ 2 * tanh 1 ^+ 2)) &
      @characteristic_function K cosh tanh exp binom hyp2f1 2 1 1 0 3 0 (Some 1%N) = 288%:R / 625%:R].
Proof.
pose cosh (_ : K) : K := 5%:R / 4%:R; pose tanh (_ : K) : K := 3%:R / 5%:R.
pose binom (y x : K) : K := (\prod_(i < truncC x) (y - i%:R)) / (truncC x)`!%:R.
exists cosh, tanh, (fun _ => 1), binom, (fun _ _ _ _ => 1); split.
- split=> //; last by move=> y p _; rewrite /binom natCK.
  split; [by rewrite divr_gt0 ?ltr0n|by rewrite rpredM ?rpredV ?realn|].
  by rewrite /cosh /tanh; ffield; nzp.
- by split=> // x y; rewrite mulr1.
- move=> n c0 _ e ep; exists 1%N => J hJ; case: J hJ => // J _.
  rewrite subrr expr0n mul0r big_ord_recl big1 => [|i _]; last by rewrite exprS mul0r mulr0.
  by rewrite addr0 /rising !big_ord0 (_ : (ord0 : 'I_J.+1)`!%:R = 1 :> K) // expr0 !(mulr1, divr1) subrr normr0.
rewrite /characteristic_function !oner_eq0 /= expr1 mul0r.
have -> : total_photon_number_distribution cosh tanh binom (fun _ _ _ _ => 1) 1 2 1 1 1 = 0.
  by rewrite /total_photon_number_distribution /= subrr mulr0 !mul0r.
rewrite mulr0 addr0 eqxx add0r /total_photon_number_distribution /= !mul1r divff ?pnatr_eq0 // addNr add0r /binom.
have -> : truncC (1 : K) = 1%N by exact: (natCK 1).
by rewrite big_ord1 !(add0r, eqxx) /cosh /tanh -[1`!]/1%N subr0 divr1 mulr1 expr1; ffield; nzp.
Qed.
