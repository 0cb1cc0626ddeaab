(** Specification of the Fock tensors of the standard gates.  Up to the normalisation 1/sqrt(k_1! k_2! ...), the tensor is the
    array of Taylor coefficients of c exp(z^T A z / 2 + mu . z), i.e. c times loop hafnians with repetitions
    (lhaf_rep_taylor, PropFock4); the gate is given by its (c, A, mu).  The data are written over any commutative ring, so that they
    can be evaluated on complex numbers and on first-order expansions x + x' e (polynomials in e). *)
From mathcomp Require Import all_ssreflect all_algebra.
From Verif Require Import SpecHaf.
Set Implicit Arguments.
Unset Strict Implicit.
Unset Printing Implicit Defensive.
Import GRing.Theory.
Local Open Scope ring_scope.

Section Gates.
Variable R : comRingType.
(** a symmetric matrix given by its entries above the diagonal and its diagonal *)
Definition symm (E : nat -> nat -> R) : nat -> nat -> R := fun i j => if (i <= j)%N then E i j else E j i.

(** displacement: mu = (alpha, - conj alpha), A = [[0, 1], [1, 0]], c = exp(-|alpha|^2 / 2) *)
Definition disp_gate (c alpha alphac : R) (k : seq nat) : R :=
  c * lhaf_rep_spec k (fun i j => (i != j)%:R) (fun i => if i == 0%N then alpha else - alphac).
(** squeezing: A = [[- e^(i theta) tanh r, sech r], [sech r, e^(-i theta) tanh r]], c = sqrt(sech r) *)
Definition sq_gate (c ei eic th sc : R) (k : seq nat) : R :=
  c * lhaf_rep_spec k (symm (fun i j => if j == 0%N then - (ei * th) else if i == 0%N then sc else eic * th)) (fun=> 0).
(** two-mode squeezing on modes (out 0, out 1, in 0, in 1): c = sech r *)
Definition tms_gate (ei eic th sc : R) (k : seq nat) : R :=
  sc * lhaf_rep_spec k (symm (fun i j => match i, j with
     | 0%N, 1%N => ei * th | 0%N, 2%N => sc | 1%N, 3%N => sc | 2%N, 3%N => - (eic * th) | _, _ => 0 end)) (fun=> 0).
(** an interferometer [[U00, U01], [U10, U11]] on two modes: c = 1 *)
Definition passive_gate (U00 U01 U10 U11 : R) (k : seq nat) : R :=
  lhaf_rep_spec k (symm (fun i j => match i, j with
     | 0%N, 2%N => U00 | 0%N, 3%N => U01 | 1%N, 2%N => U10 | 1%N, 3%N => U11 | _, _ => 0 end)) (fun=> 0).
(** beamsplitter with transmission angle theta and phase phi *)
Definition bs_gate (ct st ei eic : R) : seq nat -> R := passive_gate ct (- (st * eic)) (st * ei) ct.
(** Mach-Zehnder interferometer, u = e^(i phi), v = e^(i theta); [half] = 1/2, [I] = imaginary unit *)
Definition mz_gate (half I u v : R) : seq nat -> R :=
  passive_gate (half * (u * (v - 1))) (half * (I * (1 + v))) (half * (I * u * (1 + v))) (half * (1 - v)).
End Gates.
