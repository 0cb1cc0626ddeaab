(** Model of thewalrus/quantum/means_and_variances.py (moments of the photon number; exact complex arithmetic). *)
From mathcomp Require Import all_ssreflect all_algebra.
From Verif Require Import PyBase ArrLoop MHafnian MHermite MSymplectic MPartition.
Set Implicit Arguments.
Unset Strict Implicit.
Unset Printing Implicit Defensive.
Import GRing.Theory Num.Theory.
Local Open Scope ring_scope.

Section Model.
Variable C : numClosedFieldType.
Variable sched : nat -> seq nat.              (* order of numba.prange in hafnian *)
Variable oracle : nat -> (nat -> nat -> C) -> nat -> C.   (* hafnian_approx, not used here *)
Notation mat := (nat -> nat -> C).
Notation vec := (nat -> C).
Local Notation "A @[ i , j ]" := (A i%N j%N) (at level 2, left associativity, format "A @[ i ,  j ]").

(** means_and_variances.py:28-45 [photon_number_mean(mu, cov, j, hbar)], mu of length 2N; modes are natural numbers
    (negative Python indices are not modelled) *)
Definition photon_number_mean (N : nat) (mu : vec) (cov : mat) (j : nat) (hbar : C) : res C :=
  if (2 * N <= j + N)%N then Err IndexError else
  Ok ((mu j ^+ 2 + mu (j + N)%N ^+ 2 + cov j j + cov (j + N)%N (j + N)%N - hbar) / (2%:R * hbar)).

(** means_and_variances.py:48-63 [photon_number_mean_vector] *)
Definition photon_number_mean_vector (N : nat) (mu : vec) (cov : mat) (hbar : C) : res (seq C) :=
  foldM (fun acc j => bind (photon_number_mean N mu cov j hbar) (fun x => Ok (rcons acc x))) [::] (iota 0 N).

(** means_and_variances.py:66-120 [photon_number_covar(mu, cov, j, k, hbar)] *)
Definition photon_number_covar (N : nat) (mu : vec) (cov : mat) (j k : nat) (hbar : C) : res C :=
  if j == k then
    bind (reduced_gaussian N mu cov [:: j]) (fun mc => let: (mu, cov) := mc in
    let term_1 := 2%:R^-1 * (mtrace 2 cov) ^+ 2 - \det (mxof 2 2 cov) in
    let term_2 := vdot 2 mu (mvmul 2 cov mu) in
    Ok (((term_1 + term_2) / hbar ^+ 2) - 4%:R^-1))
  else
    bind (reduced_gaussian N mu cov [:: j; k]) (fun mc => let: (mu, cov) := mc in
    let term_1 := cov@[0, 1] ^+ 2 + cov@[0, 3] ^+ 2 + cov@[2, 1] ^+ 2 + cov@[2, 3] ^+ 2 in
    let term_2 := cov@[0, 1] * mu 0%N * mu 1%N + cov@[2, 1] * mu 1%N * mu 2%N + cov@[0, 3] * mu 0%N * mu 3%N
                  + cov@[2, 3] * mu 2%N * mu 3%N in
    Ok ((term_1 + 2%:R * term_2) / (2%:R * hbar ^+ 2))).

(** means_and_variances.py:123-143 [photon_number_covmat] *)
Definition photon_number_covmat (N : nat) (mu : vec) (cov : mat) (hbar : C) : res mat :=
  foldM (fun pnd i => foldM (fun pnd j =>
      bind (photon_number_covar N mu cov i j hbar) (fun x =>
      let pnd := upd2 pnd i j x in Ok (upd2 pnd j i (pnd i j)))) pnd (iota 0 i.+1))
    (fun _ _ => 0) (iota 0 N).

(** means_and_variances.py:211-252 [s_ordered_expectation(mu, cov, rpt, hbar, s)].  [rpt] is a list of natural
    numbers; a length other than 2N is rendered as a ValueError (NumPy fails for most such lengths). *)
Definition s_ordered_expectation (N : nat) (mu : vec) (cov : mat) (rpt : seq nat) (hbar s : C) : res C :=
  if all (fun k => k == 0%N) rpt then Ok 1
  else if size rpt != (2 * N)%N then Err ValueError else
  let modes := [seq k <- iota 0 N | (nth 0%N rpt k + nth 0%N rpt (N + k) != 0)%N] in
  bind (reduced_gaussian N mu cov modes) (fun mc => let: (mu, cov) := mc in
  let ind := modes ++ [seq (m + N)%N | m <- modes] in
  let rpt := [seq nth 0%N rpt i | i <- ind] in
  let M := size modes in
  let alpha := complex_to_real_displacements M mu hbar in
  let V := mmul (2 * M) (msub (Qmat M cov hbar) (mscale (2%:R^-1 * (s + 1)) (eye C))) (Xmat C M) in
  let A := reduction (arr_of (2 * M) (2 * M) V) rpt in
  if all (fun i => close (rtol0 C) (atol0 C) (mu i) 0) (iota 0 (2 * M)) then
    hafnian sched oracle (PyArr A) false (rtol0 C) (atol0 C) false 0 Glynn
  else
    let d := (reduction1 (fun i => (alpha i)^*) rpt).1 in
    let A := NdArr (nrows A) (ncols A) (fun i j => Some (if i == j then d i else vals A i j)) in  (* no entry of A is NaN *)
    hafnian sched oracle (PyArr A) true (rtol0 C) (atol0 C) false 0 Glynn).

(** means_and_variances.py:192-208 [normal_ordered_expectation] *)
Definition normal_ordered_expectation (N : nat) (mu : vec) (cov : mat) (rpt : seq nat) (hbar : C) : res C :=
  s_ordered_expectation N mu cov rpt hbar 1.

(** means_and_variances.py:146-165 [photon_number_expectation(mu, cov, modes, hbar)] *)
Definition photon_number_expectation (N : nat) (mu : vec) (cov : mat) (modes : seq nat) (hbar : C) : res C :=
  if has (fun i => 2 * N <= i + N)%N modes then Err IndexError else
  let rpt := for_ modes (nseq (2 * N) 0%N) (fun rpt i => set_nth 0%N (set_nth 0%N rpt i 1%N) (i + N) 1%N) in
  normal_ordered_expectation N mu cov rpt hbar.

(** itertools.product of a list of lists: the last position varies fastest *)
Fixpoint product (T : Type) (ls : seq (seq T)) : seq (seq T) :=
  match ls with
  | [::] => [:: [::]]
  | l :: ls' => flatten [seq [seq x :: t | t <- product ls'] | x <- l]
  end.

(** means_and_variances.py:168-189 [photon_number_squared_expectation] *)
Definition photon_number_squared_expectation (N : nat) (mu : vec) (cov : mat) (modes : seq nat) (hbar : C) : res C :=
  bind (reduced_gaussian N mu cov modes) (fun mc => let: (mu, cov) := mc in
  foldM (fun result item =>
      bind (normal_ordered_expectation (size modes) mu cov (item ++ item) hbar) (fun term => Ok (result + term)))
    0 (product (nseq (size modes) [:: 1; 2]%N))).

(** np.real_if_close on a scalar *)
Definition real_if_close (x : C) : C := if `|'Im x| < ric_tol C then 'Re x else x.

(** means_and_variances.py:321-367 [photon_number_moment(mu, cov, indices, hbar)]; the dictionary is the list of its
    (key, value) pairs in insertion order *)
Definition photon_number_moment (N : nat) (mu : vec) (cov : mat) (indices : seq (nat * nat)) (hbar : C) : res C :=
  let list_indices := [seq kv.2 | kv <- indices] in
  let modes := [seq kv.1 | kv <- indices] in
  let expansion_coeff := [seq [seq coeff_normal_ordered C kv.2 i | i <- iota 1 kv.2] | kv <- indices] in
  let values := [seq iota 0 i | i <- list_indices] in
  bind (foldM (fun net_sum item =>
      if has (fun key => N <= key)%N modes then Err IndexError else
      let rpt := for_ (zip (iota 0 (size modes)) modes) (nseq N 0%N) (fun rpt ik => set_nth 0%N rpt ik.2 (nth 0%N item ik.1).+1) in
      let rpt := rpt ++ rpt in
      let prod_coeff := \prod_(ic <- zip (iota 0 (size item)) item) nth 0 (nth [::] expansion_coeff ic.1) ic.2 in
      bind (s_ordered_expectation N mu cov rpt hbar 1) (fun x => Ok (net_sum + prod_coeff * x)))
    0 (product values)) (fun net_sum => Ok (real_if_close net_sum)).

(** means_and_variances.py:404-431 [photon_number_cumulant(mu, cov, modes, hbar)]; [order] is the iteration order of
    Python sets *)
Definition photon_number_cumulant (order : seq nat -> seq nat) (N : nat) (mu : vec) (cov : mat) (modes : seq nat) (hbar : C) : res C :=
  bind (partition modes) (fun pis =>
  foldM (fun kappa pi =>
     let size_ := size pi in
     let term := ((size_ - 1)`!)%:R * (-1) ^+ (size_ - 1) in
     bind (foldM (fun term B =>
        bind (photon_number_moment N mu cov (list_to_freq_dict order B) hbar) (fun x => Ok (term * x))) term pi)
     (fun term => Ok (kappa + term))) 0 pis).
End Model.
