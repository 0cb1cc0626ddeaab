(** Model of characteristic_function in thewalrus/quantum/photon_number_distributions.py *)
From mathcomp Require Import all_ssreflect all_algebra.
From Verif Require Import MPndLoss.
Set Implicit Arguments.
Unset Strict Implicit.
Unset Printing Implicit Defensive.
Import GRing.Theory Num.Theory.
Local Open Scope ring_scope.

Section Char.
Variable C : numClosedFieldType.
Variables cosh tanh exp : C -> C.                   (* np.cosh, np.tanh, np.exp *)
Variable binom : C -> C -> C.                       (* scipy.special.binom *)
Variable hyp2f1 : C -> C -> C -> C -> C.            (* scipy.special.hyp2f1 *)
Notation tpnd := (total_photon_number_distribution cosh tanh binom hyp2f1).

(** photon_number_distributions.py:157-160 [f]: the constant 1 if poly_corr is None or 0, else x**poly_corr (natural exponents) *)
Definition cf_f (poly_corr : option nat) (x : nat) : C :=
  match poly_corr with None => 1 | Some 0%N => 1 | Some m => x%:R ^+ m end.

(** photon_number_distributions.py:169-187 the while loop; the first argument is max_iter - i, a test that is true for
    i < max_iter; [converged] is returned from directly *)
Fixpoint cf_loop (left : nat) (f : nat -> C) (k : nat) (s eta pref delta : C) (i : nat) (tot_sum prev_addend : C) : C :=
  if left is left'.+1 then
    let old_tot_sum := tot_sum in
    let addend := f i * tpnd i k s eta pref in
    let tot_sum := tot_sum + addend in
    if old_tot_sum == 0 then cf_loop left' f k s eta pref delta i.+1 tot_sum addend
    else if (addend + prev_addend) / old_tot_sum < delta then tot_sum
    else cf_loop left' f k s eta pref delta i.+1 tot_sum addend
  else tot_sum.

(** photon_number_distributions.py:135-188 [characteristic_function(k, s, eta, mu, max_iter, delta, poly_corr)] *)
Definition characteristic_function (k : nat) (s eta mu : C) (max_iter : nat) (delta : C) (poly_corr : option nat) : C :=
  let f := cf_f poly_corr in
  if (s == 0) || (eta == 0) then f 0%N
  else
    let pref := exp mu in
    let tot_sum := f 0%N * tpnd 0%N k s eta pref in
    cf_loop (max_iter - 1) f k s eta pref delta 1 tot_sum tot_sum.
End Char.
