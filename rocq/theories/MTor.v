(** Model of thewalrus/_torontonian.py (exact complex arithmetic).  Divisions by zero, which give infinities in NumPy, do
    not occur under the hypotheses of the theorems (positive definite 1 - O). *)
From mathcomp Require Import all_ssreflect all_algebra.
From Verif Require Import PyBase ArrLoop MPowerHaf MHafnian MHermite MSymplectic.
Set Implicit Arguments.
Unset Strict Implicit.
Unset Printing Implicit Defensive.
Import GRing.Theory Num.Theory.
Local Open Scope ring_scope.

Section Model.
Variable C : numClosedFieldType.
Variable sched : nat -> seq nat.              (* execution order of numba.prange *)
(** np.linalg.cholesky of an n x n matrix (LAPACK; LinAlgError unless positive definite) *)
Variable cholesky : nat -> (nat -> nat -> C) -> res (nat -> nat -> C).
Variable exp : C -> C.                        (* np.exp *)
Notation mat := (nat -> nat -> C).
Notation vec := (nat -> C).

(** nb_ix(M, rows, rows) (_hafnian.py:37-45) *)
Definition ix (M : mat) (rows : seq nat) : mat := fun i j => M (nth 0%N rows i) (nth 0%N rows j).
(** np.prod(np.diag(L)) for an m x m matrix, squared *)
Definition diag_det (m : nat) (L : mat) : C := (for_ (iota 0 m) 1 (fun p i => p * L i i)) ^+ 2.

(** _torontonian.py:126-161 [numba_tor(O)], O of size 2N x 2N.  [(N_odd - lenX % 2) % 2] is Python's modulo, here on
    integers. *)
Definition plusminus (N lenX : nat) : C :=
  (-1) ^+ absz (((N %% 2)%N%:Z - (lenX %% 2)%N%:Z) %% 2)%Z.
Definition kept_modes (X_modes : seq nat) : seq nat := [seq i <- iota 0 (size X_modes) | nth 0%N X_modes i != 0%N].
Definition numba_tor (N : nat) (O : mat) : C :=
  for_ (sched (2 ^ N)%N) 0 (fun total j =>
    let X_modes := find_kept_edges j (nseq N 1%N) in
    let lenX := sumn X_modes in
    let kept_modes := kept_modes X_modes in
    let kept_rows := kept_modes ++ [seq (m + N)%N | m <- kept_modes] in
    let O_XX := ix O kept_rows in
    let bottom := sqrtC ('Re (\det (mxof (2 * lenX) (2 * lenX) (fun i j => eye C i j - O_XX i j)))) in
    total + plusminus N lenX / bottom).

(** _torontonian.py:164-196 [quad_cholesky(L, Z, idx, mat)], len(mat) = len(Z) *)
Definition quad_cholesky (L : mat) (Z : seq nat) (idx : nat) (M : mat) : mat :=
  for_ (pyrange idx (size Z)) (ix L Z) (fun Ls i =>
    let Ls := for_ (pyrange idx i) Ls (fun Ls j =>
      let z := for_ (iota 0 j) 0 (fun z k => z + Ls i k * (Ls j k)^*) in
      upd2 Ls i j ((M i j - z) / Ls j j)) in
    let z := for_ (iota 0 i) 0 (fun z k => z + Ls i k * (Ls i k)^*) in
    upd2 Ls i i ('Re (sqrtC (M i i - z)))).

(** _torontonian.py:199-236 [recursiveTor(L, modes, A, n)], [m] = len(A).  [fuel] bounds the depth of the recursion; the
    theorems show that n is enough. *)
Fixpoint recursiveTor (fuel : nat) (L : mat) (modes : seq nat) (m : nat) (A : mat) (n : nat) : res C :=
  if fuel is fuel'.+1 then
    let start := if size modes == 0%N then 0%N else (last 0%N modes).+1 in
    foldM (fun tot i =>
      let nextModes := rcons modes i in
      let nm := (m %/ 2)%N in let idx := ((i - size modes) * 2)%N in
      let Z := iota 0 idx ++ pyrange (idx + 2) (nm * 2) in
      let nm := (nm - 1)%N in
      let Az := ix A Z in
      let Ls := quad_cholesky L Z idx (fun a b => eye C a b - Az a b) in
      let det := diag_det (size Z) Ls in
      bind (recursiveTor fuel' Ls nextModes (size Z) Az n) (fun r =>
      Ok (tot + ((-1) ^+ size nextModes / sqrtC det + r)))) 0 (pyrange start n)
  else Err RecursionError.

(** the interleaved order 0, n, 1, n + 1, ... (_torontonian.py:252-254) *)
Definition interleave (n : nat) : seq nat := flatten [seq [:: i; (n + i)%N] | i <- iota 0 n].
(** _torontonian.py:239-259 [rec_torontonian(A)], A of size 2n x 2n *)
Definition rec_torontonian (n : nat) (A : mat) : res C :=
  let Z := interleave n in
  let A := ix A Z in
  bind (cholesky (2 * n) (fun a b => eye C a b - A a b)) (fun L =>
  let det := diag_det (2 * n) L in
  bind (recursiveTor n.+1 L [::] (2 * n) A n) (fun r => Ok (1 / sqrtC det + r))).

(** _torontonian.py:262-285 [solve_triangular(L, y)], n = len(y) *)
Definition solve_triangular (n : nat) (L : mat) (y : vec) : vec :=
  for_ (iota 0 n) y (fun x j =>
    if x j == 0 then x else
    let x := upd1 x j (x j / L j j) in
    let temp := x j in
    for_ (pyrange j.+1 n) x (fun x i => upd1 x i (x i - temp * L i j))).

(** [v.conj().T @ v] *)
Definition norm2 (n : nat) (v : vec) : C := \sum_(i < n) (v i)^* * v i.

(** _torontonian.py:288-331 [recursiveLTor(L, modes, A, n, gammaL)] *)
Fixpoint recursiveLTor (fuel : nat) (L : mat) (modes : seq nat) (m : nat) (A : mat) (n : nat) (gammaL : vec) : res C :=
  if fuel is fuel'.+1 then
    let start := if size modes == 0%N then 0%N else (last 0%N modes).+1 in
    foldM (fun tot i =>
      let nextModes := rcons modes i in
      let nm := (m %/ 2)%N in let idx := ((i - size modes) * 2)%N in
      let Z := iota 0 idx ++ pyrange (idx + 2) (nm * 2) in
      let nm := (nm - 1)%N in
      let Az := ix A Z in
      let Ls := quad_cholesky L Z idx (fun a b => eye C a b - Az a b) in
      let det := diag_det (size Z) Ls in
      let gammaX : vec := fun i => gammaL (nth 0%N Z i) in
      let Lsinv := solve_triangular (size Z) Ls (fun i => (gammaX i)^*) in
      let lc := norm2 (size Z) Lsinv in
      bind (recursiveLTor fuel' Ls nextModes (size Z) Az n gammaX) (fun r =>
      Ok (tot + ((-1) ^+ size nextModes * exp (2%:R^-1 * lc) / sqrtC det + r)))) 0 (pyrange start n)
  else Err RecursionError.

(** _torontonian.py:334-365 [rec_ltorontonian(A, gamma)] *)
Definition rec_ltorontonian (n : nat) (A : mat) (gamma : vec) : res C :=
  let Z := interleave n in
  let A := ix A Z in
  let gamma : vec := fun i => gamma (nth 0%N Z i) in
  bind (cholesky (2 * n) (fun a b => eye C a b - A a b)) (fun L =>
  let det := diag_det (2 * n) L in
  let Ls := solve_triangular (2 * n) L (fun i => (gamma i)^*) in
  let lc := norm2 (2 * n) Ls in
  bind (recursiveLTor n.+1 L [::] (2 * n) A n gamma) (fun r => Ok (exp (2%:R^-1 * lc) / sqrtC det + r))).

(** _torontonian.py:388-434 [numba_ltor(O, gamma)] *)
Definition numba_ltor (N : nat) (O : mat) (gamma : vec) : res C :=
  foldM (fun total j =>
    let X_modes := find_kept_edges j (nseq N 1%N) in
    let lenX := sumn X_modes in
    let kept_modes := kept_modes X_modes in
    let kept_rows := kept_modes ++ [seq (m + N)%N | m <- kept_modes] in
    let O_XX := ix O kept_rows in
    let I_m_O_XX : mat := fun i j => eye C i j - O_XX i j in
    bind (np_inv (2 * lenX) I_m_O_XX) (fun I_m_O_XX_inv =>
    let gamma_X : vec := fun i => gamma (nth 0%N kept_rows i) in
    let top := exp (2%:R^-1 * \sum_(j < 2 * lenX) (\sum_(i < 2 * lenX) gamma_X i * I_m_O_XX_inv i j) * (gamma_X j)^*) in
    let bottom := sqrtC ('Re (\det (mxof (2 * lenX) (2 * lenX) I_m_O_XX))) in
    Ok (total + plusminus N lenX * top / bottom))) 0 (sched (2 ^ N)%N).

(** _torontonian.py:25-49 [tor_input_checks(A, loops)]; [loops]: None, or the length of the vector if it is an array *)
Definition tor_input_checks (A : pyobj C) (loops : option (option nat)) : res (ndarr C) :=
  match A with
  | PyOther => Err TypeError
  | PyArr A =>
    if nrows A != ncols A then Err ValueError
    else if (nrows A %% 2 != 0)%N then Err ValueError
    else match loops with
      | None => Ok A
      | Some None => Err TypeError
      | Some (Some l) => if nrows A != l then Err ValueError else Ok A
      end
  end.

(** _torontonian.py:52-63 [tor(A, recursive)] *)
Definition tor (A : pyobj C) (recursive : bool) : res C :=
  bind (tor_input_checks A None) (fun A =>
  let N := (nrows A %/ 2)%N in
  if recursive then rec_torontonian N (vals A) else Ok (numba_tor N (vals A))).

(** _torontonian.py:66-79 [ltor(A, gamma, recursive)]; gamma: None if it is not an array, else entries and length *)
Definition ltor (A : pyobj C) (gamma : option (vec * nat)) (recursive : bool) : res C :=
  bind (tor_input_checks A (Some (omap snd gamma))) (fun A =>
  let N := (nrows A %/ 2)%N in
  let g := if gamma is Some (g, _) then g else (fun=> 0) in
  if recursive then rec_ltorontonian N (vals A) g else numba_ltor N (vals A) g).

(** _torontonian.py:368-385 [numba_vac_prob(alpha, sigma)], alpha of length n *)
Definition numba_vac_prob (n : nat) (alpha : vec) (sigma : mat) : res C :=
  bind (np_inv n sigma) (fun si =>
  Ok ('Re ('Re (exp (- 2%:R^-1 * \sum_(j < n) (\sum_(i < n) (alpha i)^* * si i j) * alpha j)) / sqrtC (\det (mxof n n sigma))))).

(** _torontonian.py:82-123 [threshold_detection_prob(mu, cov, det_pattern, hbar, atol, rtol)], cov of size 2n x 2n; the
    detection pattern is a list of natural numbers *)
Definition threshold_detection_prob (n : nat) (mu : vec) (cov : mat) (det_pattern : seq nat) (hbar atol rtol : C) : res C :=
  if all (fun i => close rtol atol (mu i) 0) (iota 0 (2 * n)) then
    let Q := Qmat n cov hbar in
    bind (np_inv (2 * n) Q) (fun Qi =>
    let O : mat := fun i j => eye C i j - Qi i j in
    let rpt2 := det_pattern ++ det_pattern in
    let Os := reduction (arr_of (2 * n) (2 * n) O) rpt2 in
    bind (tor (PyArr Os) true) (fun t => Ok (t / sqrtC (\det (mxof (2 * n) (2 * n) Q)))))
  else
    let alpha : vec := fun i => (if (i < n)%N then mu i + 'i * mu (n + i)%N else mu (i - n)%N - 'i * mu i) / sqrtC (2%:R * hbar) in
    let sigma : mat := fun i j => (Qmat n cov hbar i j)^* in
    bind (np_inv (2 * n) sigma) (fun inv_sigma =>
    let O : mat := fun i j => eye C i j - inv_sigma i j in
    let gamma : vec := fun i => (\sum_(j < 2 * n) inv_sigma i j * alpha j)^* in
    let clicked := [seq i <- iota 0 (size det_pattern) | nth 0%N det_pattern i == 1%N] in
    bind (reduced_gaussian n gamma O clicked) (fun go => let: (gamma_red, O_red) := go in
    bind (numba_vac_prob (2 * n) alpha sigma) (fun v =>
    bind (numba_ltor (size clicked) O_red gamma_red) (fun t => Ok (v * 'Re t))))).
End Model.
