(** Contract of scipy.optimize.root_scalar and the Gaussian state encoding a symmetric matrix. *)
From mathcomp Require Import all_ssreflect all_algebra.
From Verif Require Import PyBase SpecSymp SpecTor SpecDecomp MHafnian MSymplectic.
Set Implicit Arguments.
Unset Strict Implicit.
Unset Printing Implicit Defensive.
Import GRing.Theory Num.Theory.
Local Open Scope ring_scope.

Section S.
Variable C : numClosedFieldType.
Notation mat := (nat -> nat -> C).

(** the contract of np.linalg.svd (svd_ok of SpecDecomp.v) for one n x n matrix *)
Definition svd_at (svd : nat -> mat -> mat * (nat -> C) * mat) (n : nat) (A : mat) : Prop :=
  [/\ unitary n (svd n A).1.1, unitary n (svd n A).2,
      eqm n A (mprod n (mprod n (svd n A).1.1 (diagm (svd n A).1.2)) (svd n A).2),
      forall i, (i < n)%N -> 0 <= (svd n A).1.2 i &
      forall i j, (i <= j)%N -> (j < n)%N -> (svd n A).1.2 j <= (svd n A).1.2 i].

(** x is a discontinuity of f where the sign changes *)
Definition jump (a b : C) (f : C -> C) (x : C) : Prop :=
  forall d, 0 < d -> exists2 y, a <= y <= b & `|y - x| < d /\ f y * f x < 0.
(** scipy.optimize.root_scalar(f, bracket=(a, b)), which uses Brent's method: for a function that does not raise on [a, b] and has
    real values there, it raises ValueError exactly if the values at the end points have the same sign; the point returned
    together with converged = True is a root or, as bisection cannot tell the difference, a sign-changing discontinuity *)
Definition root_ok (root_scalar : (C -> res C) -> C -> C -> res (bool * C)) : Prop := forall (f : C -> res C) (g : C -> C) a b,
  a <= b -> (forall t, a <= t <= b -> f t = Ok (g t) /\ g t \is Num.real) ->
  if root_scalar f a b is Ok (conv, x) then g a * g b <= 0 /\ (conv -> a <= x <= b /\ (g x = 0 \/ jump a b g x))
  else root_scalar f a b = Err ValueError /\ 0 < g a * g b.

(** cov is the covariance matrix of the Gaussian state that encodes the symmetric matrix B: its Husimi covariance matrix is the
    inverse of 1 - X (B + conj B), X = [[0, 1], [1, 0]] *)
Definition encodes (n : nat) (B cov : mat) (hbar : C) : Prop :=
  eqm (2 * n) (mprod (2 * n) (Qmat n cov hbar) (blocks n (idm C) (fun i j => - (B i j)^*) (fun i j => - B i j) (idm C))) (idm C).
End S.
