(** Model of thewalrus/quantum/adjacency_matrices.py *)
From mathcomp Require Import all_ssreflect all_algebra.
From Verif Require Import PyBase ArrLoop MHafnian MSymplectic MClicks.
Set Implicit Arguments.
Unset Strict Implicit.
Unset Printing Implicit Defensive.
Import GRing.Theory Num.Theory.
Local Open Scope ring_scope.

Section Adj.
Variable C : numClosedFieldType.
Notation mat := (nat -> nat -> C).
Notation vec := (nat -> C).
Variable svd : nat -> mat -> mat * vec * mat.   (* np.linalg.svd *)
(** scipy.optimize.root_scalar(f, bracket=(a, b)): (converged, root).  The arguments x0 and fprime are not used by the method
    (Brent's) that root_scalar selects when a bracket is given. *)
Variable root_scalar : (C -> res C) -> C -> C -> res (bool * C).

(** np.linalg.svd(A, compute_uv=False) *)
Definition svdvals (n : nat) (A : mat) : vec := (svd n A).1.2.
Definition conjm (A : mat) : mat := fun i j => (A i j)^*.
Definition zerom (A : mat) : mat := fun i j => 0 * A i j.
(** np.identity(2n) - X @ block([[A, 0A], [0A, conj A]]), adjacency_matrices.py:82-86 and 173-177 *)
Definition one_minus_XA (n : nat) (A : mat) : mat :=
  let B := npblock n n A (zerom A) (zerom A) (conjm A) in
  fun i j => eye C i j - mmul (2 * n) (Xmat C n) B i j.

(** adjacency_matrices.py:70-87 [_mean_clicks_adj(A)], A of size n x n; hbar = 2 is the default of Covmat and mean_clicks *)
Definition mean_clicks_adj (n : nat) (A : mat) : res C :=
  bind (np_inv (2 * n) (one_minus_XA n A)) (fun Q => Ok (mean_clicks n (Covmat n Q 2%:R) 2%:R)).

(** adjacency_matrices.py:26-67 [adj_scaling_torontonian(A, c_mean)], A of size n x n.  A / vals[0] is NaN in the code if A = 0 *)
Definition adj_scaling_torontonian (n : nat) (A : mat) (c_mean : C) : res C :=
  if (c_mean < 0) || (n%:R < c_mean) then Err ValueError else
  if n == 0%N then Err IndexError else
  let vals := svdvals n A in
  let localA : mat := fun i j => A i j / vals 0%N in
  let cost x :=
    if 1 <= x then Ok (c_mean - n%:R) else
    if x <= 0 then Ok c_mean else
    bind (mean_clicks_adj n (fun i j => x * localA i j)) (fun m => Ok (c_mean - m)) in
  bind (root_scalar cost 0 1) (fun cr => let: (converged, root) := cr in
  if ~~ converged then Err ValueError else Ok (root / vals 0%N)).

(** adjacency_matrices.py:90-152 [adj_scaling(A, n_mean)], A of size n x n *)
Definition adj_scaling (n : nat) (A : mat) (n_mean : C) : res C :=
  let eps : C := 10%:R^-1 ^+ 10 in
  let ls := svdvals n A in
  if n == 0%N then Err IndexError else
  let max_sv := ls 0%N in
  let a_lim := 0 in
  let b_lim := 1 / (eps + max_sv) in
  if max_sv <= 1000%:R * eps then Err ValueError else
  let mean_photon_number x (vals : vec) := \sum_(i < n) (x * vals i) ^+ 2 / (1 - (x * vals i) ^+ 2) in
  let f x := mean_photon_number x ls - n_mean in
  bind (root_scalar (fun x => Ok (f x)) a_lim b_lim) (fun cr => let: (converged, root) := cr in
  if ~~ converged then Err ValueError else Ok root).

(** adjacency_matrices.py:155-177 [adj_to_qmat(A, n_mean)], A of size n x m *)
Definition adj_to_qmat (n m : nat) (A : mat) (n_mean : C) : res mat :=
  if n != m then Err ValueError else
  bind (adj_scaling n A n_mean) (fun sc =>
  let Asc : mat := fun i j => sc * A i j in
  np_inv (2 * n) (one_minus_XA n Asc)).
End Adj.
