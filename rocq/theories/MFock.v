(** Model of the Fock-basis representations of Gaussian states: thewalrus/quantum/fock_tensors.py (45-311, 392-431,
    566-583) and the covariance-matrix checks of thewalrus/quantum/gaussian_checks.py. *)
From mathcomp Require Import all_ssreflect all_algebra.
From Verif Require Import Prelude PyBase ArrLoop MHafnian MSymplectic MHermite MMeans.
Set Implicit Arguments.
Unset Strict Implicit.
Unset Printing Implicit Defensive.
Import Order.Theory GRing.Theory Num.Theory.
Local Open Scope ring_scope.

Section Fock.
Variable C : numClosedFieldType.
Variable sched : nat -> seq nat.              (* order of numba.prange in hafnian *)
Variable oracle : nat -> (nat -> nat -> C) -> nat -> C.   (* hafnian_approx, not used here *)
Variable oob : nat -> C.                      (* reads past the end of the SQRT table, see MHermite *)
Variable trunc : C -> C.                      (* integer conversion, see MHermite *)
Variable exp : C -> C.                        (* np.exp *)
Variable eigvalsh : nat -> (nat -> nat -> C) -> seq C.    (* np.linalg.eigvalsh of an n x n matrix *)
Notation mat := (nat -> nat -> C).
Notation vec := (nat -> C).

(** gaussian_checks.py:30-59 [is_valid_cov(cov, hbar, rtol, atol)], cov of shape (n, m) *)
Definition clean (atol : C) (vals : seq C) : seq C := [seq if `|v| < atol then 0 else v | v <- vals].
Definition is_valid_cov (n m : nat) (cov : mat) (hbar rtol atol : C) : bool :=
  if n != m then false
  else if ~~ allclose rtol atol n n cov (trn cov) then false
  else if odd n then false
  else all (fun v => 0 <= v) (clean atol (eigvalsh n (fun i j => cov i j + (2%:R^-1 * 'i) * hbar * sympmat C n./2 i j))).

(** gaussian_checks.py:62-81 [is_pure_cov] *)
Definition is_pure_cov (n m : nat) (cov : mat) (hbar rtol atol : C) : bool :=
  is_valid_cov n m cov hbar rtol atol &&
  close rtol atol (1 / sqrtC (\det (mxof n n (fun i j => 2%:R * cov i j / hbar)))) 1.

(** gaussian_checks.py:84-103 [is_classical_cov]; is_valid_cov is called with its default rtol *)
Definition is_classical_cov (n m : nat) (cov : mat) (hbar atol : C) : bool :=
  is_valid_cov n m cov hbar (rtol0 C) atol &&
  all (fun v => 0 <= v) (clean atol (eigvalsh n (fun i j => cov i j - 2%:R^-1 * hbar * eye C i j))).

(** np.linalg.norm of a vector of length n *)
Definition np_norm (n : nat) (v : vec) : C := sqrtC (\sum_(i <- iota 0 n) `|v i| ^+ 2).

(** fock_tensors.py:76-93 and 213-227: the branches shared (textually) by [pure_state_amplitude] and
    [density_matrix_element]; [A] is n x n and [small] is the test norm(displacement) < tol.  The test
    prod(k+1) ** (1/len(rpt)) < 3 is taken as prod(k+1) < 3 ** len(rpt) (len(rpt) = 0: ZeroDivisionError).
    A pattern of length other than n is rendered as a ValueError (NumPy/hafnian fail on most of them). *)
Definition rpt_hafnian (small : bool) (n : nat) (A : mat) (gamma : vec) (rpt : seq nat) : res C :=
  if size rpt == 0%N then Err ZeroDivisionError
  else if size rpt != n then Err ValueError
  else
  let few := ((\prod_(k <- rpt) k.+1) < 3 ^ size rpt)%N in
  if small then
    if few then
      hafnian sched oracle (PyArr (reduction (arr_of n n A) rpt)) false (rtol0 C) (atol0 C) false 0 Glynn
    else
      hafnian_repeated sched (PyArr (arr_of n n A)) [seq k%:R | k <- rpt] None false (rtol0 C) (atol0 C) true
  else
    if few then
      let A_rpt := reduction (arr_of n n A) rpt in
      let d := (reduction1 gamma rpt).1 in
      let A_rpt := NdArr (nrows A_rpt) (ncols A_rpt) (fun i j => Some (if i == j then d i else vals A_rpt i j)) in  (* no NaN *)
      hafnian sched oracle (PyArr A_rpt) true (rtol0 C) (atol0 C) false 0 Glynn
    else
      hafnian_repeated sched (PyArr (arr_of n n A)) [seq k%:R | k <- rpt] (Some (gamma, n)) true (rtol0 C) (atol0 C) true.

(** fock_tensors.py:566-583 [_prefactor(mu, cov, hbar)] *)
Definition prefactor (N : nat) (mu : vec) (cov : mat) (hbar : C) : res C :=
  let Q := Qmat N cov hbar in
  let beta := complex_to_real_displacements N mu hbar in
  bind (np_inv (2 * N) Q) (fun Qinv =>
  Ok (exp (- 2%:R^-1 * vdot (2 * N) (fun j => \sum_(i <- iota 0 (2 * N)) beta i * Qinv i j) (fun j => (beta j)^*))
      / sqrtC (\det (mxof (2 * N) (2 * N) Q)))).

(** np.prod(fac(rpt)) *)
Definition prod_fac (rpt : seq nat) : C := \prod_(k <- rpt) (k`!)%:R.

(** fock_tensors.py:191-232 [density_matrix_element(mu, cov, i, j, include_prefactor, tol, hbar)] *)
Definition density_matrix_element (N : nat) (mu : vec) (cov : mat) (i j : seq nat) (include_prefactor : bool) (tol hbar : C) : res C :=
  let rpt := i ++ j in
  let beta := complex_to_real_displacements N mu hbar in
  bind (Amat N cov hbar false) (fun A =>
  let gamma : vec := fun t => (beta t)^* - mvmul (2 * N) A beta t in
  bind (rpt_hafnian (np_norm (2 * N) beta < tol) (2 * N) A gamma rpt) (fun haf =>
  bind (if include_prefactor then bind (prefactor N mu cov hbar) (fun p => Ok (haf * p)) else Ok haf) (fun haf =>
  Ok (haf / sqrtC (prod_fac rpt))))).

(** fock_tensors.py:45-98 [pure_state_amplitude(mu, cov, i, include_prefactor, tol, hbar, check_purity)] *)
Definition pure_state_amplitude (N : nat) (mu : vec) (cov : mat) (i : seq nat) (include_prefactor : bool) (tol hbar : C)
    (check_purity : bool) : res C :=
  if check_purity && ~~ is_pure_cov (2 * N) (2 * N) cov hbar (rtol0 C) (atol0 C) then Err ValueError else
  let rpt := i in
  let beta := complex_to_real_displacements N mu hbar in
  let Q := Qmat N cov hbar in
  bind (Amat N cov hbar false) (fun A =>
  let B : mat := fun s t => (A s t)^* in
  let alpha := beta in
  let gamma : vec := fun t => alpha t - mvmul N B (fun u => (alpha u)^*) t in
  bind (rpt_hafnian (np_norm N alpha < tol) N B gamma rpt) (fun haf =>
  let haf := if include_prefactor then
      let pref := exp (- 2%:R^-1 * (np_norm N alpha ^+ 2
                       - vdot N (fun t => \sum_(s <- iota 0 N) (alpha s)^* * B s t) (fun t => (alpha t)^*))) in
      haf * pref else haf in
  Ok (haf / sqrtC (prod_fac rpt * sqrtC (\det (mxof (2 * N) (2 * N) Q)))))).

(** dictionaries {mode: value} as lists of pairs with distinct keys; [post_select[i] if i in post_select else
    idx[next(counter)]] for i in modes: IndexError when idx is exhausted *)
Fixpoint fill_modes (modes : seq nat) (post_select : seq (nat * nat)) (idx : seq nat) : res (seq nat) :=
  match modes with
  | [::] => Ok [::]
  | i :: modes' =>
      match [seq kv.2 | kv <- post_select & kv.1 == i] with
      | v :: _ => bind (fill_modes modes' post_select idx) (fun el => Ok (v :: el))
      | [::] => if idx is x :: idx' then bind (fill_modes modes' post_select idx') (fun el => Ok (x :: el)) else Err IndexError
      end
  end.

(** ndarray.transpose(axes): axis j of the argument becomes the axis at which j stands in [axes] *)
Definition transpose (axes : seq nat) (t : tensor C) : tensor C :=
  Tensor [seq nth 0%N (tshape t) a | a <- axes]
    (fun x => tent t [seq nth 0%N x (index j axes) | j <- iota 0 (size axes)]).

(** fock_tensors.py:271 [sf_order] *)
Definition sf_order (N : nat) : seq nat := flatten [seq [:: i; (i + N)%N] | i <- iota 0 N].
(** fock_tensors.py:296-297: sf_idx = np.array(idx).reshape(2, -1); tuple(sf_idx[::-1].T.flatten()) *)
Definition sf_el (M : nat) (idx : seq nat) : seq nat := flatten [seq [:: nth 0%N idx (M + c); nth 0%N idx c] | c <- iota 0 M].
(** fock_tensors.py:305: np.arange(2*M).reshape([M, 2]).T.flatten() *)
Definition new_ax (M : nat) : seq nat := flatten [seq [seq (2 * i + r)%N | i <- iota 0 M] | r <- iota 0 2].
(** np.trace(t.reshape([d, d])): entry (r, r) is the entry number r * d + r in row-major order *)
Definition trace_reshaped (d : nat) (t : tensor C) : C :=
  \sum_(r <- iota 0 d) tent t (nth [::] (ndindex (tshape t)) (r * d + r)).

Definition itproduct (cutoff M : nat) : seq (seq nat) := product (nseq M (iota 0 cutoff)).

(** fock_tensors.py:235-311 [density_matrix(mu, cov, post_select, normalize, cutoff, hbar)]; len(mu) = 2N.
    density_matrix_element is called with its default tolerance 1e-10. *)
Definition tol10 : C := 10%:R^-1 ^+ 10.
Definition cplx_types : int_types := IntTypes false false true.
Definition density_matrix (N : nat) (mu : vec) (cov : mat) (post_select : option (seq (nat * nat))) (normalize : bool)
    (cutoff : nat) (hbar : C) : res (tensor C) :=
  bind (prefactor N mu cov hbar) (fun pref =>
  match post_select with
  | None =>
      bind (Amat N cov hbar false) (fun A0 =>
      let A : mat := fun i j => (A0 i j)^* in
      let R := PyArr (arr_of (2 * N) (2 * N) (fun i j => - A i j)) in
      if all (fun i => close (rtol0 C) (atol0 C) (mu i) 0) (iota 0 (2 * N)) then
        bind (hermite_multidimensional oob trunc R (CInt cutoff) None 1 true true true (rtol0 C) (atol0 C) cplx_types)
          (fun t => Ok (transpose (sf_order N) (Tensor (tshape t) (fun k => pref * tent t k))))
      else
        let beta := complex_to_real_displacements N mu hbar in
        let y : vec := fun t => beta t - mvmul (2 * N) A (fun u => (beta u)^*) t in
        bind (hermite_multidimensional oob trunc R (CInt cutoff) (Some (2 * N, y)%N) 1 true true true (rtol0 C) (atol0 C) cplx_types)
          (fun t => Ok (transpose (sf_order N) (Tensor (tshape t) (fun k => pref * tent t k)))))
  | Some sel =>
      if (N < size sel)%N then Err ValueError else
      let M := (N - size sel)%N in
      let modes := [seq (i %% N)%N | i <- iota 0 (2 * N)] in
      bind (foldM (fun rho idx =>
          bind (fill_modes modes sel idx) (fun el =>
          let el0 := take N el in let el1 := drop N el in
          bind (density_matrix_element N mu cov el0 el1 false tol10 hbar) (fun x =>
          Ok (updG rho (sf_el M idx) x))))
        (fun=> 0) (itproduct cutoff (2 * M))) (fun rho =>
      let t := Tensor (nseq (2 * M) cutoff) (fun k => rho k * pref) in
      Ok (if normalize then
            let tr := 'Re (trace_reshaped (cutoff ^ M) (transpose (new_ax M) t)) in
            Tensor (tshape t) (fun k => tent t k / tr)
          else t))
  end).

(** fock_tensors.py:101-188 [state_vector(mu, cov, post_select, normalize, cutoff, hbar, check_purity)] without the
    keyword choi_r (used by fock_tensor only) *)
Definition state_vector (N : nat) (mu : vec) (cov : mat) (post_select : option (seq (nat * nat))) (normalize : bool)
    (cutoff : nat) (hbar : C) (check_purity : bool) : res (tensor C) :=
  if check_purity && ~~ is_pure_cov (2 * N) (2 * N) cov hbar (rtol0 C) (atol0 C) then Err ValueError else
  let beta := complex_to_real_displacements N mu hbar in
  bind (Amat N cov hbar false) (fun A =>
  let Q := Qmat N cov hbar in
  let B := A in
  let alpha := beta in
  let gamma : vec := fun t => (alpha t)^* - mvmul N B alpha t in
  let prefexp := - 2%:R^-1 * (np_norm N alpha ^+ 2 - vdot N (fun t => \sum_(s <- iota 0 N) alpha s * B s t) alpha) in
  let pref := exp prefexp^* in
  bind (match post_select with
    | None =>
        let denom := sqrtC (sqrtC ('Re (\det (mxof (2 * N) (2 * N) Q)))) in
        bind (hafnian_batched oob trunc (PyArr (arr_of N N (fun i j => (B i j)^*))) (CInt cutoff)
                (Some (N, fun t => (gamma t)^*)) (rtol0 C) (atol0 C) true true cplx_types) (fun t =>
        Ok (Tensor (tshape t) (fun k => pref * tent t k / denom)))
    | Some sel =>
        if (N < size sel)%N then Err ValueError else
        let M := (N - size sel)%N in
        bind (foldM (fun psi idx =>
            bind (fill_modes (iota 0 N) sel idx) (fun el =>
            bind (pure_state_amplitude N mu cov el false tol10 hbar false) (fun x =>
            Ok (updG psi idx x))))
          (fun=> 0) (itproduct cutoff M)) (fun psi =>
        Ok (Tensor (nseq M cutoff) (fun k => psi k * pref)))
    end) (fun psi =>
  Ok (if normalize then
        let norm := sqrtC (\sum_(k <- ndindex (tshape psi)) `|tent psi k| ^+ 2) in
        Tensor (tshape psi) (fun k => tent psi k / norm)
      else psi))).

(** np.maximum(0.0, x) (lexicographic order on complex numbers), stored in an array of floats *)
Definition maximum0 (x : C) : C := if ('Re x < 0) || (('Re x == 0) && ('Im x < 0)) then 0 else 'Re x.

(** fock_tensors.py:392-431 [probabilities(mu, cov, cutoff, parallel, hbar, rtol, atol)]; with parallel=True the same
    calls are made by dask and the list of results is reshaped (real_if_close is then applied to the whole list: this
    path is modelled with the list of exact results) *)
Definition probabilities (N : nat) (mu : vec) (cov : mat) (cutoff : nat) (parallel : bool) (hbar rtol atol : C) : res (tensor C) :=
  if is_pure_cov (2 * N) (2 * N) cov hbar rtol atol then
    bind (state_vector N mu cov None false cutoff hbar false) (fun t => Ok (Tensor (tshape t) (fun k => `|tent t k| ^+ 2)))
  else if parallel then
    bind (foldM (fun l i => bind (density_matrix_element N mu cov i i true tol10 hbar) (fun x => Ok (rcons l x)))
            [::] (itproduct cutoff N)) (fun l =>
    let l := if all (fun x => `|'Im x| < ric_tol C) l then [seq 'Re x | x <- l] else l in
    let l := [seq maximum0 x | x <- l] in
    Ok (Tensor (nseq N cutoff) (fun k => nth 0 l (index k (ndindex (nseq N cutoff))))))
  else
    bind (foldM (fun probs i => bind (density_matrix_element N mu cov i i true tol10 hbar) (fun x =>
            Ok (updG probs i (maximum0 (real_if_close x)))))
            (fun=> 0) (itproduct cutoff N)) (fun probs => Ok (Tensor (nseq N cutoff) probs)).
End Fock.
