(** Specification of thewalrus/random.py. *)
From mathcomp Require Import all_ssreflect all_algebra.
From Verif Require Import SpecSymp SpecTor SpecDecomp.
Set Implicit Arguments.
Unset Strict Implicit.
Unset Printing Implicit Defensive.
Import GRing.Theory Num.Theory.
Local Open Scope ring_scope.

Section S.
Variable C : numClosedFieldType.
Notation mat := (nat -> nat -> C).
(** an invertible n x n matrix *)
Definition nonsing n (A : mat) : Prop := exists T, eqm n (mprod n A T) (idm C).
(** scipy.linalg.qr: A = q r, q unitary, r upper triangular; real factors for a real matrix *)
Definition qrc_ok (qr : nat -> mat -> mat * mat) : Prop := forall n A,
  [/\ unitary n (qr n A).1, forall i j, (i < n)%N -> (j < i)%N -> (qr n A).2 i j = 0,
      eqm n A (mprod n (qr n A).1 (qr n A).2) &
      realm n A -> realm n (qr n A).1 /\ realm n (qr n A).2].
(** np.exp on real numbers *)
Definition exp_real_ok (exp : C -> C) : Prop := forall x, x \is Num.real -> exp x \is Num.real /\ exp (- x) * exp x = 1.
(** the complex matrix of a pair of draws *)
Definition draw (real : bool) (xy : mat * mat) : mat := fun i j => if real then xy.1 i j else xy.1 i j + 'i * xy.2 i j.
(** np.random.randn returns real numbers *)
Definition real_draw (xy : mat * mat) : Prop := forall i j, xy.1 i j \is Num.real /\ xy.2 i j \is Num.real.
(** zero at a distance of more than w from the diagonal *)
Definition banded n (w : nat) (U : mat) : Prop := forall i j, (i < n)%N -> (j < n)%N -> (i + w < j)%N || (j + w < i)%N -> U i j = 0.
(** zero outside of the blocks {a, a+1} with a of the given parity *)
Definition two_blocks n (p : bool) (U : mat) : Prop := forall i j, (i < n)%N -> (j < n)%N -> i != j ->
  ~~ ((odd i == p) && (j == i.+1) || (odd j == p) && (i == j.+1)) -> U i j = 0.
End S.
