(** Expectation of a polynomial in N independent, identically distributed random variables, in terms of the moments
    mom k = E[g^k] of their common distribution.  (For N(0, 1): mom = 1, 0, 1, 0, 3, 0, 15, ...) *)
From mathcomp Require Import all_ssreflect all_algebra.
From SsrMultinomials Require Import mpoly.
Set Implicit Arguments.
Unset Strict Implicit.
Unset Printing Implicit Defensive.
Import GRing.Theory.
Local Open Scope ring_scope.
Definition expect (R : comRingType) (N : nat) (mom : nat -> R) (p : {mpoly R[N]}) : R :=
  \sum_(m <- msupp p) p@_m * \prod_(i < N) mom (m i).
