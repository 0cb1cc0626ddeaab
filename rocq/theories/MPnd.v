(** Model of thewalrus/quantum/photon_number_distributions.py *)
From mathcomp Require Import all_ssreflect all_algebra.
From Verif Require Import PyBase ArrLoop MHafnian MSymplectic MFock.
Set Implicit Arguments.
Unset Strict Implicit.
Unset Printing Implicit Defensive.
Import GRing.Theory Num.Theory.
Local Open Scope ring_scope.

Section Pnd.
Variable C : numClosedFieldType.
Notation mat := (nat -> nat -> C).
Notation vec := (nat -> C).
Variable eigvalsh : nat -> mat -> seq C.          (* np.linalg.eigvalsh *)
Variable svd : nat -> mat -> mat * vec * mat.     (* np.linalg.svd *)
Variables tanh arctanh : C -> C.                  (* np.tanh, np.arctanh *)
Variable nbinom_pmf : nat -> C -> C -> C.         (* scipy.stats.nbinom.pmf(k, n=r, p=q) *)

(** a[0:len][0::2] = vals, numpy assignment to a strided slice; a single value would be broadcast in numpy (len is then 1 or 2
    in the two calls below, and the assignment is the same) *)
Definition assign2 (len : nat) (vals a : seq C) : res (seq C) :=
  if size vals != (uphalf (minn len (size a))) then Err ValueError else
  Ok (mkseq (fun i => if (i < len)%N && ~~ odd i then nth 0 vals i./2 else nth 0 a i) (size a)).

(** photon_number_distributions.py:52-75 [_squeezed_state_distribution(s, cutoff, N)] *)
Definition squeezed_state_distribution (s : C) (cutoff N : nat) : res (seq C) :=
  let r := 2%:R^-1 * N%:R in
  let q := 1 - tanh s ^+ 2 in
  let M := cutoff./2 in
  let ps_tot := nseq cutoff 0 in
  if ~~ odd cutoff then
    let ps := mkseq (fun k => nbinom_pmf k r q) M in
    assign2 cutoff ps ps_tot
  else
    let ps := mkseq (fun k => nbinom_pmf k r q) M.+1 in
    bind (assign2 cutoff.-1 (take (size ps).-1 ps) ps_tot) (fun a =>
    Ok (set_nth 0 a (size a).-1 (last 0 ps))).

(** np.convolve(a, v) *)
Definition np_convolve (a v : seq C) : res (seq C) :=
  if (size a == 0%N) || (size v == 0%N) then Err ValueError else
  Ok (mkseq (fun n => \sum_(0 <= j < n.+1) nth 0 a j * nth 0 v (n - j)) (size a + size v).-1).

(** photon_number_distributions.py:78-94 [_convolve_squeezed_state_distribution(s, cutoff, padding_factor)], s a list;
    squeezed_state_distribution is called with its default N = 1 *)
Definition convolve_squeezed_state_distribution (s : seq C) (cutoff padding_factor : nat) : res (seq C) :=
  let cutoff_sc := (padding_factor * cutoff)%N in
  if cutoff_sc == 0%N then Err IndexError else
  let ps := set_nth 0 (nseq cutoff_sc 0) 0 1 in
  foldM (fun ps s_val =>
    bind (squeezed_state_distribution s_val cutoff_sc 1) (fun d =>
    bind (np_convolve ps d) (fun c => Ok (take cutoff_sc c)))) ps s.

(** photon_number_distributions.py:26-49 [pure_state_distribution(cov, cutoff, hbar, padding_factor)], cov of shape (2N, 2N).
    is_pure_cov is called without hbar, that is with its default hbar = 2. *)
Definition pure_state_distribution (N : nat) (cov : mat) (cutoff : nat) (hbar : C) (padding_factor : nat) : res (seq C) :=
  if is_pure_cov eigvalsh (2 * N) (2 * N) cov 2%:R (rtol0 C) (atol0 C) then
    bind (Amat N cov hbar false) (fun A =>
    let rs := [seq arctanh ((svd N A).1.2 i) | i <- iota 0 N] in
    bind (convolve_squeezed_state_distribution rs cutoff padding_factor) (fun ps =>
    Ok (take cutoff ps)))
  else Err ValueError.
End Pnd.
