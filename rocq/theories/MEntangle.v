(** Model of thewalrus/quantum/entanglement.py: entropies and negativity ([get_partition] is in MMisc.v). *)
From mathcomp Require Import all_ssreflect all_algebra.
From Verif Require Import PyBase ArrLoop MHafnian MSymplectic MHermite MFock MDecomp MMisc.
Set Implicit Arguments.
Unset Strict Implicit.
Unset Printing Implicit Defensive.
Import GRing.Theory Num.Theory.
Local Open Scope ring_scope.

Section Entangle.
Variable C : numClosedFieldType.
Notation mat := (nat -> nat -> C).
Notation vec := (nat -> C).
Variable eigvalsh : nat -> mat -> seq C.     (* np.linalg.eigvalsh *)
Variable eigvals : nat -> mat -> seq C.      (* np.linalg.eigvals *)
Variable log : C -> C.                       (* np.log *)
Variables rtol atol : C.                     (* 1e-05, 1e-08: the defaults of is_valid_cov, is_pure_cov and np.isclose *)

(** entanglement.py:77-81, the contribution of one symplectic eigenvalue *)
Definition entropy_term (nu : C) : C :=
  (nu + 1) / 2%:R * log ((nu + 1) / 2%:R) - (nu - 1) / 2%:R * log ((nu - 1) / 2%:R).
(** entanglement.py:59-83 [vonneumann_entropy(cov, hbar)], cov of size n x n *)
Definition vonneumann_entropy (n : nat) (cov : mat) (hbar : C) : res C :=
  if ~~ is_valid_cov eigvalsh n n cov hbar rtol atol then Err ValueError else
  let cov : mat := fun i j => cov i j / (hbar / 2%:R) in
  let nus := symplectic_eigenvals eigvals n cov in
  Ok (for_ nus 0 (fun S nu => if ~~ close rtol atol nu 1 then S + entropy_term nu else S)).

(** the integers of the list returned by get_partition, used as indices.  A list consisting of Python bools only would be a
    mask in [P[modes_A] = -1]; not modelled. *)
Definition index_of (x : pyelt) : nat := if as_int x is Some (Posz k) then k else 0%N.

(** entanglement.py:86-113 [entanglement_entropy(cov, modes_A, split, hbar)] *)
Definition entanglement_entropy (n : nat) (cov : mat) (modes_A : pymodes) (split : option pyelt) (hbar : C) : res C :=
  if ~~ is_pure_cov eigvalsh n n cov hbar rtol atol then Err ValueError else
  let cov : mat := fun i j => cov i j / (hbar / 2%:R) in
  let M := n./2 in
  bind (get_partition modes_A split M) (fun modes =>
  let modes_A := [seq index_of x | x <- modes] in
  bind (reduced_gaussian M (fun _ => 0) cov modes_A) (fun mc =>
  vonneumann_entropy (2 * size modes_A) mc.2 2%:R)).

(** entanglement.py:116-149 [log_negativity(cov, modes_A, split, hbar)] *)
Definition log_negativity (n : nat) (cov : mat) (modes_A : pymodes) (split : option pyelt) (hbar : C) : res C :=
  if ~~ is_valid_cov eigvalsh n n cov hbar rtol atol then Err ValueError else
  let cov : mat := fun i j => cov i j / (hbar / 2%:R) in
  let M := n./2 in
  bind (get_partition modes_A split M) (fun modes =>
  let modes_A := [seq index_of x | x <- modes] in
  let P : vec := fun i => if i \in modes_A then -1 else 1 in
  let S := np_diag (fun i => if (i < M)%N then 1 else P (i - M)%N) in
  let cov_tilde := mmul n (mmul n S cov) S in
  let nus := symplectic_eigenvals eigvals n cov_tilde in
  Ok (\sum_(nu <- nus | nu < 1) - log nu)).
End Entangle.
