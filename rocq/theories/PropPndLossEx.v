(** C65: two squeezed vacua with tanh s = 3/5 and half of the light lost: the probability of no photons is 64/91. *)
From mathcomp Require Import all_ssreflect all_algebra algC zify.
From Verif Require Import Prelude PyBase PropPnd SpecPnd PropPnd3 SpecPndLoss MPndLoss PropPndLoss.
Set Implicit Arguments.
Unset Strict Implicit.
Unset Printing Implicit Defensive.
Import Order.TTheory GRing.Theory Num.Theory.
Local Open Scope ring_scope.

Notation K := [numClosedFieldType of algC].
Ltac nzp := rewrite ?natrD /=; apply/lt0r_neq0; do ?[exact: ltr01 | exact: ltr0Sn | apply: addr_gt0 | apply: mulr_gt0].
Lemma geom_tends (z : K) : 0 < z -> z < 1 -> tends (fun J => \sum_(j < J) z ^+ j) (1 / (1 - z)).
Proof.
move=> z0 z1 e e0; have u0 : 0 < 1 - z by rewrite subr_gt0.
have un : 1 - z != 0 by rewrite gt_eqF.
have iz : 0 < z^-1 - 1 by rewrite subr_gt0 invf_gt1.
have bern J : 1 + J%:R * (z^-1 - 1) <= z^-1 ^+ J.
  elim: J => [|J IH]; first by rewrite mul0r addr0 expr0.
  have -> : 1 + J.+1%:R * (z^-1 - 1) = (1 + J%:R * (z^-1 - 1)) + (z^-1 - 1) by rewrite mulrS mulrDl mul1r; rring.
  have -> : z^-1 ^+ J.+1 = z^-1 ^+ J + (z^-1 - 1) * z^-1 ^+ J by rewrite exprS; rring.
  rewrite ler_add // ler_pmulr // exprn_ege1 // ltW // invf_gt1 //.
pose M := (truncC (1 / ((1 - z) * e * (z^-1 - 1)))).+1; exists M => J hJ.
have D0 : 0 < (1 - z) * e * (z^-1 - 1) by rewrite !mulr_gt0.
have /andP[_ hM] := truncC_itv (ltW (divr_gt0 ltr01 D0)).
have -> : \sum_(j < J) z ^+ j - 1 / (1 - z) = - (z ^+ J / (1 - z)).
  apply: (mulIf un); rewrite mulrBl divfK // mulNr divfK //.
  have := subrX1 z J; set s := \sum_(i < J) _ => h; rewrite (_ : z ^+ J = 1 + (z - 1) * s); [by rring|by rewrite -h; rring].
rewrite normrN ger0_norm ?divr_ge0 ?exprn_ge0 ?ltW // ltr_pdivr_mulr //.
have q0 : 0 < z^-1 ^+ J by rewrite exprn_gt0 ?invr_gt0.
have -> : z ^+ J = 1 / z^-1 ^+ J by rewrite exprVn invrK mul1r.
rewrite ltr_pdivr_mulr //.
have h1 : 1 < M%:R * ((1 - z) * e * (z^-1 - 1)) by rewrite -ltr_pdivr_mulr.
apply: lt_le_trans h1 _.
have -> : M%:R * ((1 - z) * e * (z^-1 - 1)) = e * (1 - z) * (M%:R * (z^-1 - 1)) by move: (z^-1) => y; rring.
rewrite ler_wpmul2l ?mulr_ge0 ?(ltW e0) ?(ltW u0) //; apply: le_trans (bern J).
have hh : M%:R * (z^-1 - 1) <= J%:R * (z^-1 - 1) by rewrite ler_wpmul2r ?ler_nat // ltW.
by apply: le_trans hh _; rewrite ler_addr ler01.
Qed.

Example total_photon_number_distribution_example (L : nat -> seq (seq nat)) : (forall m, patterns 2 m (L m)) ->
  exists cosh tanh : K -> K, exists (binom : K -> K -> K) (hyp2f1 : K -> K -> K -> K -> K),
  [/\ @cosh_tanh_at K cosh tanh 1, tanh 1 = 3%:R / 5%:R, @binom_ok K binom,
      @total_photon_number_distribution K cosh tanh binom hyp2f1 0 2 1 (1 / 2%:R) 1 = 64%:R / 91%:R &
      @tends K (lossy_upto (3%:R / 5%:R) (1 / 2%:R) 0 L) (64%:R / 91%:R)].
Proof.
move=> hL.
have n0 k : (0 < k)%N -> k%:R != 0 :> K by move=> h; rewrite pnatr_eq0 -lt0n.
have nE (a b : nat) : a = b -> a%:R = b%:R :> K by move=> ->.
pose cosh (_ : K) : K := 5%:R / 4%:R; pose tanh (_ : K) : K := 3%:R / 5%:R.
pose binom (y x : K) : K := (\prod_(i < truncC x) (y - i%:R)) / (truncC x)`!%:R.
pose hyp (a b c z : K) : K := 1 / (1 - z).
have ch : @cosh_tanh_at K cosh tanh 1.
  split; [by rewrite divr_gt0 ?ltr0n|by rewrite rpredM ?rpredV ?realn|].
  rewrite /cosh /tanh; ffield; nzp.
have bO : @binom_ok K binom by move=> y p _; rewrite /binom natCK.
have zE : (1 - 1 / 2%:R) ^+ 2 * tanh 1 ^+ 2 = 9%:R / 100%:R :> K.
  by rewrite /tanh; ffield; nzp.
have val : @total_photon_number_distribution K cosh tanh binom hyp 0 2 1 (1 / 2%:R) 1 = 64%:R / 91%:R.
  rewrite /total_photon_number_distribution /= !expr0 zE /hyp /binom !mul0r /cosh.
  have -> : 1 - 9%:R / 100%:R = 91%:R / 100%:R :> K by ffield; nzp.
  have t0 : truncC (0 : K) = 0%N by exact: (natCK 0).
  rewrite t0 big_ord0 fact0; ffield; nzp.
exists cosh, tanh, binom, hyp; split=> //.
have e01 : 0 <= (1 / 2%:R : K) <= 1.
  by rewrite divr_ge0 ?ler01 ?ler0n //= ler_pdivr_mulr ?ltr0n // mul1r ler1n.
have := @total_photon_number_distribution_correct K cosh tanh binom hyp bO 0 2 1 (1 / 2%:R) 1 L isT ch e01 hL.
rewrite zE val /= => h.
have : tends (fun J => 1 ^+ 0 * lossy_upto (tanh 1) (1 / 2%:R) 0 L J) (64%:R / 91%:R).
  apply: h => _ _.
  have -> : hyp (1 / 2%:R + 0) (2%:R / 2%:R + 0) (1 / 2%:R + 0) (9%:R / 100%:R) = 1 / (1 - 9%:R / 100%:R) by [].
  have z0 : 0 < 9%:R / 100%:R :> K by rewrite divr_gt0 ?ltr0n.
  have z1 : 9%:R / 100%:R < 1 :> K by rewrite ltr_pdivr_mulr ?ltr0n // mul1r ltr_nat.
  move=> e e0; have [M hM] := geom_tends z0 z1 e0; exists M => J hJ; move: (hM J hJ).
  congr (`|_ - _| < e); apply: eq_bigr => j _; rewrite !addr0 divff ?n0 //.
  have -> : rising 1 j = j`!%:R :> K.
    by elim: (j : nat) => [|i IH]; rewrite /rising ?big_ord0 // big_ord_recr /= -/(rising 1 i) IH factS mulrC natrM -[1]/(1%:R) -natrD add1n.
  have r0 : rising (1 / 2%:R) j != 0 :> K by exact: rising_half0.
  have f0 : j`!%:R != 0 :> K by rewrite n0 // fact_gt0.
  by rewrite (divff (mulf_neq0 r0 f0)) mul1r.
by move=> H e e0; have [M hM] := H e e0; exists M => J hJ; move: (hM J hJ); rewrite expr0 mul1r.
Qed.
