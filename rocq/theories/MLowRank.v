(** Model of thewalrus/_low_rank_haf.py.  sympy expressions in the symbols x0 .. x(r-1) are multivariate polynomials. *)
From mathcomp Require Import all_ssreflect all_algebra.
From SsrMultinomials Require Import mpoly.
From Verif Require Import Prelude PyBase ArrLoop.
Set Implicit Arguments.
Unset Strict Implicit.
Unset Printing Implicit Defensive.
Import GRing.Theory.
Local Open Scope ring_scope.

(** _low_rank_haf.py:26-49 [partitions(r, n)]; lru_cache only memoises.  partitions(0, n) recurses without end (RecursionError). *)
Fixpoint partitions (r n : nat) : res (seq (seq nat)) :=
  match r with
  | 0 => Err RecursionError
  | 1 => Ok [:: [:: n]]
  | r'.+1 => foldM (fun new_combos first_val =>
      bind (partitions r' (n - first_val)) (fun rest => Ok (new_combos ++ [seq first_val :: p | p <- rest])))
      [::] (pyrange 0 n.+1)
  end.

(** scipy.special.factorial2(m, extend="complex") at odd m = 2 k - 1 >= -1: (2 k - 1)!! = 1 * 3 * ... * (2 k - 1) *)
Definition factorial2_odd (k : nat) : nat := \prod_(i < k) (2 * i).+1.

Section LowRank.
Variable C : comRingType.

(** _low_rank_haf.py:52-92 [low_rank_hafnian(G)], G of shape (n, r).  For n = 0 and r >= 2, [poly] is still the Python integer 1,
    which has no [coeff].  [poly.coeff(monomial)] is the coefficient of the monomial (poly is homogeneous of the same degree). *)
Definition low_rank_hafnian (n r : nat) (G : nat -> nat -> C) : res C :=
  if odd n then Ok 0 else
  if r == 1%N then Ok ((factorial2_odd n./2)%:R * \prod_(k < n) G k 0%N) else
  let poly := for_ (pyrange 0 n) (1 : {mpoly C[r]}) (fun poly k =>
    poly * \sum_(j < r) G k j *: 'X_j) in
  bind (partitions r n./2) (fun comb =>
  foldM (fun haf_val c =>
    if n == 0%N then Err AttributeError else
    let monomial := [multinom (2 * nth 0 c i)%N | i < r] in
    let facts := \prod_(i < r) (factorial2_odd (nth 0%N c i))%:R in
    Ok (haf_val + poly@_monomial * facts)) 0 comb).
End LowRank.
