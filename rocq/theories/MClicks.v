(** Model of the click statistics of thewalrus/quantum/means_and_variances.py. *)
From mathcomp Require Import all_ssreflect all_algebra.
From Verif Require Import PyBase ArrLoop MHafnian MSymplectic MPartition MTor.
Set Implicit Arguments.
Unset Strict Implicit.
Unset Printing Implicit Defensive.
Import GRing.Theory Num.Theory.
Local Open Scope ring_scope.

Section Clicks.
Variable C : numClosedFieldType.
Notation mat := (nat -> nat -> C).
Notation vec := (nat -> C).
Variable sched : nat -> seq nat.              (* execution order of numba.prange *)
Variable cholesky : nat -> mat -> res mat.    (* np.linalg.cholesky *)
Variable exp : C -> C.                        (* np.exp *)

(** the 2 x 2 determinant of means_and_variances.py:270 and 292-294 *)
Definition det_val (nmodes : nat) (Q : mat) (i : nat) : C :=
  'Re (Q i i * Q (i + nmodes)%N (i + nmodes)%N - Q (i + nmodes)%N i * Q i (i + nmodes)%N).

(** means_and_variances.py:252-272 [mean_clicks(cov, hbar)], cov of size 2 nmodes x 2 nmodes *)
Definition mean_clicks (nmodes : nat) (cov : mat) (hbar : C) : C :=
  let Q := Qmat nmodes cov hbar in
  for_ (iota 0 nmodes) nmodes%:R (fun meanc i => meanc - 1 / sqrtC (det_val nmodes Q i)).

(** means_and_variances.py:275-308 [variance_clicks(cov, hbar)] *)
Definition variance_clicks (nmodes : nat) (cov : mat) (hbar : C) : res C :=
  let means : vec := fun _ => 0 in
  let Q := Qmat nmodes cov hbar in
  let vac_probs : vec := fun i => 1 / sqrtC (det_val nmodes Q i) in
  let term1 := \sum_(i < nmodes) vac_probs i * (1 - vac_probs i) in
  bind (foldM (fun term2 i => foldM (fun term2 j =>
      bind (reduced_gaussian nmodes means Q [:: i; j]) (fun mc =>
      let prob_vac_ij := 'Re (\det (mxof 4 4 mc.2)) in
      let prob_vac_ij := 1 / sqrtC prob_vac_ij in
      Ok (term2 + (prob_vac_ij - vac_probs i * vac_probs j)))) term2 (iota 0 i)) 0 (iota 0 nmodes))
  (fun term2 => Ok (term1 + 2%:R * term2)).

(** means_and_variances.py:434-460 [click_cumulant(mu, cov, modes, hbar)]; [order B] is list(set(B)).  atol and rtol are the
    tolerances of np.allclose in threshold_detection_prob. *)
Definition click_cumulant (order : seq nat -> seq nat) (N : nat) (mu : vec) (cov : mat) (modes : seq nat) (hbar atol rtol : C) : res C :=
  bind (partition modes) (fun pis =>
  foldM (fun kappa pi =>
     let size_ := size pi in
     let term := ((size_ - 1)`!)%:R * (-1) ^+ (size_ - 1) in
     bind (foldM (fun term B =>
        let B := order B in
        let pattern := nseq (size B) 1%N in
        bind (reduced_gaussian N mu cov B) (fun mc => let: (mu_red, cov_red) := mc in
        bind (threshold_detection_prob sched cholesky exp (size B) mu_red cov_red pattern hbar atol rtol) (fun summand =>
        Ok (term * summand)))) term pi)
     (fun term => Ok (kappa + term))) 0 pis).
End Clicks.
