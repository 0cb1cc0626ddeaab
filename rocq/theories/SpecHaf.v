(** Specification of hafnian, loop hafnian and permanent.

    These definitions are the mathematical meaning used by all theorems about the
    hafnian code; they mention no model code.  A matching of [{0..n-1}] into pairs and
    singletons is the same thing as an involution of [{0..n-1}]: the pairs are the two-cycles
    and the singletons are the fixed points. *)
From mathcomp Require Import all_ssreflect all_fingroup all_algebra.
Set Implicit Arguments.
Unset Strict Implicit.
Unset Printing Implicit Defensive.
Import GRing.Theory.
Local Open Scope ring_scope.

Section Spec.
Variable R : comRingType.

(** Loop hafnian: sum over all partitions of [0..n-1] into pairs [{i,j}] (weight
    [A i j], [i < j]) and singletons [{i}] (weight [mu i]). *)
Definition lhaf_spec (n : nat) (A : nat -> nat -> R) (mu : nat -> R) : R :=
  \sum_(s : 'S_n | [forall i, s (s i) == i])
     (\prod_(i < n | (i < s i)%N) A i (s i)) * (\prod_(i < n | s i == i) mu i).

(** Hafnian: sum over all perfect matchings, i.e. involutions without fixed points. *)
Definition haf_spec (n : nat) (A : nat -> nat -> R) : R :=
  \sum_(s : 'S_n | [forall i, (s (s i) == i) && (s i != i)])
     \prod_(i < n | (i < s i)%N) A i (s i).

(** Permanent. *)
Definition perm_spec (n : nat) (A : nat -> nat -> R) : R :=
  \sum_(s : 'S_n) \prod_(i < n) A i (s i).

End Spec.

(** [rep_index r] lists each index [i] exactly [r_i] times, in increasing order:
    the row/column labels of the matrix "with row/column i repeated r_i times". *)
Definition rep_index (r : seq nat) : seq nat :=
  flatten [seq nseq (nth 0%N r i) i | i <- iota 0 (size r)].

(** Loop hafnian of the matrix in which row/column [i] is repeated [r_i] times. *)
Definition lhaf_rep_spec (R : comRingType) (r : seq nat) (A : nat -> nat -> R) (mu : nat -> R) : R :=
  let s := rep_index r in
  lhaf_spec (size s) (fun i j => A (nth 0%N s i) (nth 0%N s j)) (fun i => mu (nth 0%N s i)).

Definition haf_rep_spec (R : comRingType) (r : seq nat) (A : nat -> nat -> R) : R :=
  let s := rep_index r in
  haf_spec (size s) (fun i j => A (nth 0%N s i) (nth 0%N s j)).
