(** Specification: montrealer and loop montrealer of a 2n x 2n matrix, n = m + 1 modes.
    Mode i has the two nodes i and n + i; [node n i c] is the second one when c is true. *)
From mathcomp Require Import all_ssreflect all_fingroup all_algebra.
Set Implicit Arguments.
Unset Strict Implicit.
Unset Printing Implicit Defensive.
Import GRing.Theory.
Local Open Scope ring_scope.

Section Spec.
Variable R : fieldType.
Definition node (n i : nat) (c : bool) : nat := (i + c * n)%N.
(** cyclic successor of a position *)
Definition nextI m (k : 'I_m.+1) : 'I_m.+1 := inZp k.+1.
(** the modes in the cyclic order s, each entered through the node b and left through its partner *)
Definition cycle_weight m (A : nat -> nat -> R) (s : 'S_m.+1) (b : {ffun 'I_m.+1 -> bool}) : R :=
  \prod_(k < m.+1) A (node m.+1 (s k) (~~ b k)) (node m.+1 (s (nextI k)) (b (nextI k))).
(** every cyclic order is counted once for each of its m + 1 starting points and 2 directions *)
Definition mtl_spec m (A : nat -> nat -> R) : R :=
  (\sum_(s : 'S_m.+1) \sum_(b : {ffun 'I_m.+1 -> bool}) cycle_weight A s b) / (2 * m.+1)%:R.
(** the modes in the linear order s; the two ends have the weights u and v *)
Definition path_weight m (u v : nat -> R) (A : nat -> nat -> R) (s : 'S_m.+1) (b : {ffun 'I_m.+1 -> bool}) : R :=
  u (node m.+1 (s ord0) (b ord0)) * v (node m.+1 (s ord_max) (b ord_max)) *
  \prod_(k < m) A (node m.+1 (s (inord k)) (~~ b (inord k))) (node m.+1 (s (inord k.+1)) (b (inord k.+1))).
Definition lmtl_spec m (u v : nat -> R) (A : nat -> nat -> R) : R :=
  mtl_spec m A + (\sum_(s : 'S_m.+1) \sum_(b : {ffun 'I_m.+1 -> bool}) path_weight u v A s b) / 2%:R.
End Spec.
