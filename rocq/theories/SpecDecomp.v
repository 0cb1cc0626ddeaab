(** Contracts of the numerical linear-algebra routines, and the types of the factors promised by decompositions.py. *)
From mathcomp Require Import all_ssreflect all_algebra.
From Verif Require Import SpecSymp SpecTor.
Set Implicit Arguments.
Unset Strict Implicit.
Unset Printing Implicit Defensive.
Import GRing.Theory Num.Theory.
Local Open Scope ring_scope.

Section S.
Variable C : numClosedFieldType.
Notation mat := (nat -> nat -> C).
Notation vec := (nat -> C).

Definition idm : mat := fun i j => (i == j)%:R.
Definition tr (A : mat) : mat := fun i j => A j i.
Definition diagm (d : vec) : mat := fun i j => if i == j then d i else 0.
Definition mpow (n : nat) (A : mat) (k : nat) : mat := iter k (mprod n A) idm.
(** an n x n matrix with real entries; symmetric; real orthogonal *)
Definition realm n (A : mat) : Prop := forall i j, (i < n)%N -> (j < n)%N -> A i j \is Num.real.
Definition symm n (A : mat) : Prop := eqm n A (tr A).
Definition orth n (O : mat) : Prop := realm n O /\ eqm n (mprod n (tr O) O) idm.
(** Hermitian positive definite *)
Definition posd n (A : mat) : Prop := hermitian n A /\ posdef n A.

(** diag(x_0, ..., x_{N-1}, y_0, ..., y_{N-1}) and [[A, B], [C, D]] with N x N blocks *)
Definition diag2 (N : nat) (x y : vec) : mat := diagm (fun i => if (i < N)%N then x i else y (i - N)%N).
Definition blocks (N : nat) (A B D E : mat) : mat := fun i j =>
  if (i < N)%N then (if (j < N)%N then A i j else B i (j - N)%N)
  else (if (j < N)%N then D (i - N)%N j else E (i - N)%N (j - N)%N).

(** scipy.linalg.sqrtm: a square root which is a polynomial in the matrix (a primary matrix function), and the positive definite
    one of a positive definite matrix *)
Definition sqrtm_ok (sqrtm : nat -> mat -> mat) : Prop := forall n A, posd n A \/ unitary n A ->
  [/\ eqm n (mprod n (sqrtm n A) (sqrtm n A)) A,
      exists p : seq C, eqm n (sqrtm n A) (fun i j => \sum_(k < size p) p`_k * mpow n A k i j) &
      posd n A -> posd n (sqrtm n A)].

(** scipy.linalg.schur of a real matrix: A = Z T Z^T, Z orthogonal, T real and quasi-upper triangular (diagonal blocks of size
    1 or 2) *)
Definition schur_ok (schur : nat -> mat -> mat * mat) : Prop := forall n A, realm n A ->
  [/\ realm n (schur n A).1, orth n (schur n A).2,
      eqm n A (mprod n (mprod n (schur n A).2 (schur n A).1) (tr (schur n A).2)),
      forall i j, (i < n)%N -> (j.+1 < i)%N -> (schur n A).1 i j = 0 &
      forall i, (i.+2 < n)%N -> (schur n A).1 i.+1 i = 0 \/ (schur n A).1 i.+2 i.+1 = 0].

(** np.linalg.eigh of a real symmetric matrix: A = U diag(ls) U^T, U orthogonal *)
Definition eigh_ok (eigh : nat -> mat -> vec * mat) : Prop := forall n A, realm n A -> symm n A ->
  [/\ forall i, (i < n)%N -> (eigh n A).1 i \is Num.real, orth n (eigh n A).2 &
      eqm n A (mprod n (mprod n (eigh n A).2 (diagm (eigh n A).1)) (tr (eigh n A).2))].

(** np.linalg.svd: A = u diag(d) v, u and v unitary, d non-negative and descending *)
Definition svd_ok (svd : nat -> mat -> mat * vec * mat) : Prop := forall n A,
  [/\ unitary n (svd n A).1.1, unitary n (svd n A).2,
      eqm n A (mprod n (mprod n (svd n A).1.1 (diagm (svd n A).1.2)) (svd n A).2),
      forall i, (i < n)%N -> 0 <= (svd n A).1.2 i &
      forall i j, (i <= j)%N -> (j < n)%N -> (svd n A).1.2 j <= (svd n A).1.2 i].

(** scipy.linalg.polar(S, side="left"): S = p u, p positive definite, u orthogonal, for a real invertible S *)
Definition polar_ok (polar : nat -> mat -> mat * mat) : Prop := forall n S, realm n S ->
  (exists T, eqm n (mprod n S T) idm) ->
  [/\ orth n (polar n S).1, realm n (polar n S).2, posd n (polar n S).2 &
      eqm n S (mprod n (polar n S).2 (polar n S).1)].

(** scipy.linalg.qr of a real matrix: A = q r, q orthogonal, r real upper triangular *)
Definition qr_ok (qr : nat -> mat -> mat * mat) : Prop := forall n A, realm n A ->
  [/\ orth n (qr n A).1, realm n (qr n A).2, forall i j, (i < n)%N -> (j < i)%N -> (qr n A).2 i j = 0 &
      eqm n A (mprod n (qr n A).1 (qr n A).2)].

(** np.argsort: a permutation of the indices that sorts real numbers in ascending order *)
Definition argsort_ok (argsort : nat -> vec -> seq nat) : Prop := forall n v, (forall i, (i < n)%N -> v i \is Num.real) ->
  perm_eq (argsort n v) (iota 0 n) /\
  forall i j, (i <= j)%N -> (j < n)%N -> v (nth 0%N (argsort n v) i) <= v (nth 0%N (argsort n v) j).

(** np.angle and x |-> np.exp(1j x): z = |z| e^{i angle z} (np.angle(0) = 0), |e^{ix}| = 1, e^{-ix} e^{ix} = 1 and
    (e^{ix/2})^2 = e^{ix} for the angles x *)
Definition angle_ok (angle expi : C -> C) : Prop := forall z,
  [/\ z = `|z| * expi (angle z), `|expi (angle z)| = 1, expi (- angle z) * expi (angle z) = 1 &
      expi (angle z / 2%:R) ^+ 2 = expi (angle z)].

(** np.linalg.eigvals of a real matrix (LAPACK geev): the roots of the characteristic polynomial with multiplicity, complex
    conjugate pairs being adjacent with the positive imaginary part first: if all the eigenvalues are non-real, the list is a
    sequence of such pairs *)
Definition eigvals_ok (eigvals : nat -> mat -> seq C) : Prop := forall n A, realm n A ->
  char_poly (\matrix_(i < n, j < n) A i j) = \prod_(x <- eigvals n A) ('X - x%:P) /\
  (all (fun x => x \isn't Num.real) (eigvals n A) -> forall i, (2 * i < n)%N ->
     0 < 'Im (nth 0 (eigvals n A) (2 * i)) /\ nth 0 (eigvals n A) (2 * i).+1 = (nth 0 (eigvals n A) (2 * i))^*).
End S.

Section T.
Variable C : numClosedFieldType.
Notation mat := (nat -> nat -> C).
Notation vec := (nat -> C).
(** a Takagi factorisation A = U diag(r) U^T, r non-negative, U unitary *)
Definition takagi_fact n (A : mat) (r : vec) (U : mat) : Prop :=
  [/\ forall i, (i < n)%N -> 0 <= r i, unitary n U & eqm n A (mprod n (mprod n U (diagm r)) (tr U))].
(** r_0, ..., r_{n-1} is descending (ascending if not desc) *)
Definition ordered n (desc : bool) (r : vec) : Prop := forall i j, (i <= j)%N -> (j < n)%N ->
  if desc then r j <= r i else r i <= r j.
(** The thresholds of np.allclose (1e-8) and np.real_if_close (100 eps, eps = 2^-52) separate exact from approximate: entries below the
    threshold are exactly zero, imaginary parts below it are exactly zero, both for A and for A divided by the phase of an entry of
    largest modulus. *)
Definition tiny : C := 10%:R^-1 ^+ 8.
Definition tiny_im : C := 100%:R * (2%:R ^+ 52)^-1.
Definition zero_exact n (A : mat) : Prop :=
  (forall i j, (i < n)%N -> (j < n)%N -> `|A i j| <= tiny) -> forall i j, (i < n)%N -> (j < n)%N -> A i j = 0.
Definition real_exact n (A : mat) : Prop :=
  (forall i j, (i < n)%N -> (j < n)%N -> `|'Im (A i j)| < tiny_im) -> realm n A.
Definition phase_exact n (A : mat) : Prop := forall p q, (p < n)%N -> (q < n)%N ->
  (forall i j, (i < n)%N -> (j < n)%N -> `|A i j| <= `|A p q|) -> real_exact n (fun i j => (A p q)^* / `|A p q| * A i j).
(** a matrix whose off-diagonal entries are below the threshold is exactly diagonal, with diagonal entries of strictly
    decreasing modulus *)
Definition diag_exact n (A : mat) : Prop :=
  (forall i j, (i < n)%N -> (j < n)%N -> i != j -> `|A i j| <= tiny) ->
  (forall i j, (i < n)%N -> (j < n)%N -> i != j -> A i j = 0) /\
  (forall i j, (i < j)%N -> (j < n)%N -> `|A j j| < `|A i i|).
End T.

Section B.
Variable C : numClosedFieldType.
Notation mat := (nat -> nat -> C).
(** the N x N symmetric matrix A - C + i (B + B^T) of P = [[A, B], [B^T, C]] *)
Definition bm_matrix (N : nat) (P : mat) : mat := fun i j =>
  P i j - P (N + i)%N (N + j)%N + 'i * (P i (N + j)%N + P j (N + i)%N).
(** no entry of the matrix above falls between zero and the thresholds of np.allclose and np.real_if_close, P being the positive
    definite square root of S S^T *)
Definition bm_exact (N : nat) (S : mat) : Prop := forall P : mat, posd (2 * N) P ->
  eqm (2 * N) (mprod (2 * N) P P) (mprod (2 * N) S (tr S)) ->
  [/\ zero_exact N (bm_matrix N P), real_exact N (bm_matrix N P), phase_exact N (bm_matrix N P) & diag_exact N (bm_matrix N P)].
End B.
