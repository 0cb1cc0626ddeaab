(** Specification: torontonian and loop torontonian.
    For a 2N x 2N matrix O (rows i and N+i belong to mode i) and a set Z of modes, O_Z is the submatrix of the rows and
    columns of the modes in Z. *)
From mathcomp Require Import all_ssreflect all_algebra.
Set Implicit Arguments.
Unset Strict Implicit.
Unset Printing Implicit Defensive.
Import GRing.Theory Num.Theory.
Local Open Scope ring_scope.

Section Spec.
Variable C : numClosedFieldType.
Notation mat := (nat -> nat -> C).
Notation vec := (nat -> C).
(** rows of the modes in [Z], modes in increasing order: z_1, ..., z_k, N + z_1, ..., N + z_k *)
Definition set_modes N (Z : {set 'I_N}) : seq nat := [seq val i | i <- enum Z].
Definition set_rows N (Z : {set 'I_N}) : seq nat := set_modes Z ++ [seq (N + z)%N | z <- set_modes Z].
(** submatrix and subvector given by a list of rows *)
Definition submx (M : mat) (r : seq nat) : 'M[C]_(size r) := \matrix_(i, j) M (nth 0%N r i) (nth 0%N r j).
Definition subcol (v : vec) (r : seq nat) : 'cV[C]_(size r) := \col_i v (nth 0%N r i).
Definition one_minus (O : mat) : mat := fun i j => (i == j)%:R - O i j.
(** det (1 - O_Z) *)
Definition det1m N (O : mat) (Z : {set 'I_N}) : C := \det (submx (one_minus O) (set_rows Z)).
(** tor(O) = sum over Z of (-1)^(N - |Z|) / sqrt det (1 - O_Z) *)
Definition tor_spec N (O : mat) : C := \sum_(Z : {set 'I_N}) (-1) ^+ (N - #|Z|) / sqrtC (det1m O Z).

(** gamma_Z^T (1 - O_Z)^-1 gamma_Z^* *)
Definition quad1m N (O : mat) (gamma : vec) (Z : {set 'I_N}) : C :=
  ((subcol gamma (set_rows Z))^T *m invmx (submx (one_minus O) (set_rows Z)) *m subcol (fun i => (gamma i)^*) (set_rows Z)) 0 0.
(** [exp] is the exponential function of the number system *)
Definition ltor_spec (exp : C -> C) N (O : mat) (gamma : vec) : C :=
  \sum_(Z : {set 'I_N}) (-1) ^+ (N - #|Z|) * exp (2%:R^-1 * quad1m O gamma Z) / sqrtC (det1m O Z).

(** Hermitian and positive definite n x n matrices *)
Definition hermitian n (M : mat) : Prop := forall i j, (i < n)%N -> (j < n)%N -> M j i = (M i j)^*.
Definition posdef n (M : mat) : Prop := forall v : vec, (exists2 i, (i < n)%N & v i != 0) ->
  0 < \sum_(i < n) \sum_(j < n) (v i)^* * M i j * v j.
(** the contract of a Cholesky factorisation: M = L L^*, L lower triangular with a positive diagonal *)
Definition is_cholesky n (M L : mat) : Prop :=
  (forall i j, (i < n)%N -> (j <= i)%N -> M i j = \sum_(k < j.+1) L i k * (L j k)^*) /\ (forall i, (i < n)%N -> 0 < L i i).
End Spec.
