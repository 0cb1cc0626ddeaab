(** Model of thewalrus/symplectic.py, thewalrus/quantum/conversions.py and of the two
    is_symplectic checks.  A matrix is a pair of a shape and an entry function; arithmetic is exact
    over an algebraically closed numeric field C (so that 1j, sqrt, real and imaginary parts exist).
    Transcendental scalars (cos, sin, cosh, sinh) are passed as values, see [trig] and [hyp].
    Modes are natural numbers (negative numpy indices are not modelled). *)
From mathcomp Require Import all_ssreflect all_algebra.
From Verif Require Import PyBase ArrLoop MHafnian.
Set Implicit Arguments.
Unset Strict Implicit.
Unset Printing Implicit Defensive.
Import GRing.Theory Num.Theory.
Local Open Scope ring_scope.

Section Ring.
Variable R : comRingType.
Notation mat := (nat -> nat -> R).
Notation vec := (nat -> R).

(** np.identity / np.eye: entries *)
Definition eye : mat := fun i j => (i == j)%:R.
(** [A @ B] with inner dimension k; [A.T] *)
Definition mmul (k : nat) (A B : mat) : mat := fun i j => \sum_(t <- iota 0 k) A i t * B t j.
Definition mvmul (k : nat) (A : mat) (v : vec) : vec := fun i => \sum_(t <- iota 0 k) A i t * v t.
Definition trn (A : mat) : mat := fun i j => A j i.
Definition madd (A B : mat) : mat := fun i j => A i j + B i j.
Definition msub (A B : mat) : mat := fun i j => A i j - B i j.
Definition mscale (a : R) (A : mat) : mat := fun i j => a * A i j.
(** np.block([[A, B], [C, D]]) where A is r x c *)
Definition npblock (r c : nat) (A B C D : mat) : mat := fun i j =>
  if (i < r)%N then (if (j < c)%N then A i j else B i (j - c)%N)
  else (if (j < c)%N then C (i - r)%N j else D (i - r)%N (j - c)%N).
(** [S[a:, b:]] *)
Definition mshift (a b : nat) (S : mat) : mat := fun i j => S (a + i)%N (b + j)%N.

(** numpy fancy assignment [A[rows.reshape(-1,1), cols.reshape(1,-1)] = V] (also np.ix_): the
    assignments are made in index order.  IndexError when an index is out of the n x n array. *)
Definition fancy_set (n : nat) (A : mat) (rows cols : seq nat) (V : mat) : res mat :=
  if all (fun i => (i < n)%N) rows && all (fun i => (i < n)%N) cols then
    Ok (for_ (iota 0 (size rows)) A (fun A a => for_ (iota 0 (size cols)) A (fun A b =>
          upd2 A (nth 0%N rows a) (nth 0%N cols b) (V a b))))
  else Err IndexError.

(** symplectic.py:71-115 [expand(S, modes, N)] for a dense 2M x 2M array S (the scipy.sparse
    branches compute the same assignments and are not modelled).  [modes] is the list of modes (an
    int [m] is the list [[m]]).  When [len(w) != M] the numpy assignment of an M x M block
    to a len(w) x len(w) index raises ValueError. *)
Definition expand (M : nat) (S : mat) (w : seq nat) (N : nat) : res mat :=
  let S2 := eye in
  if M == 1%N then
    foldM (fun S2 m =>
      if (m + N < 2 * N)%N then
        let S2 := upd2 S2 m m (S 0%N 0%N) in
        let S2 := upd2 S2 (m + N) (m + N) (S 1%N 1%N) in
        let S2 := upd2 S2 m (m + N) (S 0%N 1%N) in
        Ok (upd2 S2 (m + N) m (S 1%N 0%N))
      else Err IndexError) S2 w
  else if size w != M then Err ValueError
  else let wN := [seq (m + N)%N | m <- w] in
    bind (fancy_set (2 * N) S2 w w S) (fun S2 =>
    bind (fancy_set (2 * N) S2 wN wN (mshift M M S)) (fun S2 =>
    bind (fancy_set (2 * N) S2 w wN (mshift 0 M S)) (fun S2 =>
    fancy_set (2 * N) S2 wN w (mshift M 0 S)))).

(** symplectic.py:137-159 [expand_passive(T, modes, N)], T of shape r x c *)
Definition expand_passive (r c : nat) (T : mat) (modes : seq nat) (N : nat) : res mat :=
  if r != c then Err ValueError
  else if size modes != r then Err ValueError
  else fancy_set N eye modes modes T.

(** symplectic.py:408-421 [sympmat(N)] *)
Definition sympmat (N : nat) : mat :=
  npblock N N (fun _ _ => 0) eye (fun i j => - eye i j) (fun _ _ => 0).

(** conversions.py:55-67 [Xmat(N)] *)
Definition Xmat (N : nat) : mat := npblock N N (fun _ _ => 0) eye eye (fun _ _ => 0).

(** symplectic.py:444-467 / 470-493: [np.arange(2n).reshape(2,-1).T.flatten()] and
    [np.arange(2n).reshape(-1,2).T.flatten()].  arange(r*c).reshape(r,c) has entry i*c+j; [.T.flatten()]
    lists the columns one after the other. *)
Definition reshape_T_flatten (r c : nat) : seq nat := flatten [seq [seq (i * c + j)%N | i <- iota 0 r] | j <- iota 0 c].
Definition ind_xxpp (n : nat) : seq nat := reshape_T_flatten 2 n.
Definition ind_xpxp (n : nat) : seq nat := reshape_T_flatten n 2.
(** the common body; [ind] as above; vectors and matrices *)
Definition reorder_vec (ind : nat -> seq nat) (len : nat) (v : vec) : res vec :=
  if odd len then Err ValueError
  else Ok (fun i => v (nth 0%N (ind len./2) i)).
Definition reorder_mat (ind : nat -> seq nat) (r c : nat) (S : mat) : res mat :=
  if odd r then Err ValueError
  else if r != c then Err ValueError
  else Ok (fun i j => S (nth 0%N (ind r./2) i) (nth 0%N (ind r./2) j)).
Definition xxpp_to_xpxp_vec := reorder_vec ind_xxpp.
Definition xxpp_to_xpxp_mat := reorder_mat ind_xxpp.
Definition xpxp_to_xxpp_vec := reorder_vec ind_xpxp.
Definition xpxp_to_xxpp_mat := reorder_mat ind_xpxp.

(** symplectic.py:162-192 [reduced_state(mu, cov, modes)] and conversions.py:22-52
    [reduced_gaussian(mu, cov, modes)]; mu has length 2N, cov is 2N x 2N *)
Definition take_modes (N : nat) (mu : vec) (cov : mat) (modes : seq nat) : res (vec * mat) :=
  let ind := modes ++ [seq (m + N)%N | m <- modes] in
  if all (fun i => (i < 2 * N)%N) ind then
    Ok ((fun i => mu (nth 0%N ind i)), (fun i j => cov (nth 0%N ind i) (nth 0%N ind j)))
  else Err IndexError.
Definition reduced_state (N : nat) (mu : vec) (cov : mat) (modes : seq nat) : res (vec * mat) :=
  if modes == iota 0 N then Ok (mu, cov)
  else if has (fun m => (N < m)%N) modes then Err ValueError
  else take_modes N mu cov modes.
Definition reduced_gaussian (N : nat) (mu : vec) (cov : mat) (modes : seq nat) : res (vec * mat) :=
  if has (fun m => (N < m)%N) modes then Err ValueError
  else if size modes == N then Ok (mu, cov)
  else take_modes N mu cov modes.

(** symplectic.py:212-247 [squeezing(r, phi)]: the loop sees, for each mode, the pair
    (cosh r_i, sinh r_i) and the pair (cos phi_i, sin phi_i) *)
Definition squeezing (rs phis : seq (R * R)) : mat :=
  let M := size rs in
  for_ (zip (iota 0 M) (zip rs phis)) eye (fun S x =>
    let i := x.1 in let '(ch, sh) := x.2.1 in let '(cp, sp) := x.2.2 in
    let S := upd2 S i i (ch - sh * cp) in
    let S := upd2 S i (i + M) (- sh * sp) in
    let S := upd2 S (i + M) i (- sh * sp) in
    upd2 S (i + M) (i + M) (ch + sh * cp)).

(** symplectic.py:250-276 [two_mode_squeezing(r, phi)] *)
Definition two_mode_squeezing (h : R * R) (p : R * R) : mat :=
  let '(ch, sh) := h in let '(cp, sp) := p in
  fun i j => nth 0 (nth [::]
    [:: [:: ch; cp * sh; 0; sp * sh];
        [:: cp * sh; ch; sp * sh; 0];
        [:: 0; sp * sh; ch; - cp * sh];
        [:: sp * sh; 0; - cp * sh; ch]] i) j.

(** symplectic.py:295-318 [passive_transformation(mu, cov, T)] after [P = interferometer(T)],
    where P is p x q *)
Definition passive_core (hbar2 : R) (p q : nat) (mu : vec) (cov P : mat) : vec * mat :=
  let L := mscale hbar2 (msub eye (mmul q P (trn P))) in
  (mvmul q P mu, madd (mmul q (mmul q P cov) (trn P)) L).

(** symplectic.py:322-349 [loss(mu, cov, T, mode, nbar, hbar)]; [s] is np.sqrt(T), [hbar2] is hbar/2;
    cov is 2N x 2N.  One loop iteration: *)
Definition loss_step (N : nat) (s T nbar hbar2 : R) (st : vec * mat) (m : nat) : res (vec * mat) :=
  let '(mu, cov) := st in
  if (m < 2 * N)%N then
    let mu := upd1 mu m (mu m * s) in
    let cov := for_ (iota 0 (2 * N)) cov (fun cov j => upd2 cov m j (cov m j * s)) in
    let cov := for_ (iota 0 (2 * N)) cov (fun cov i => upd2 cov i m (cov i m * s)) in
    Ok (mu, upd2 cov m m (cov m m + (1 - T) * (2%:R * nbar + 1) * hbar2))
  else Err IndexError.
End Ring.

Section Cplx.
Variable C : numClosedFieldType.
Notation mat := (nat -> nat -> C).
Notation vec := (nat -> C).

(** symplectic.py:279-292 [interferometer(U)], U of shape r x c *)
Definition interferometer (r c : nat) (U : mat) : mat :=
  let X : mat := fun i j => 'Re (U i j) in let Y : mat := fun i j => 'Im (U i j) in
  npblock r c X (fun i j => - Y i j) Y X.

(** symplectic.py:371-391 [beam_splitter(theta, phi)]; [t] = (cos theta, sin theta), [p] = (cos phi, sin phi) *)
Definition beam_splitter (t p : C * C) : mat :=
  let '(ct, st) := t in let eip := p.1 + 'i * p.2 in
  interferometer 2 2 (fun i j => nth 0 (nth [::] [:: [:: ct; - eip^* * st]; [:: eip * st; ct]] i) j).

(** symplectic.py:394-405 [rotation(theta)] *)
Definition rotation (t : C * C) : mat :=
  interferometer 1 1 (fun i j => eye C i j * (t.1 + 'i * t.2)).

(** symplectic.py:295-318, T of shape M x N *)
Definition passive_transformation (hbar : C) (M N : nat) (mu : vec) (cov T : mat) : vec * mat :=
  passive_core (hbar / 2%:R) (2 * M) (2 * N) mu cov (interferometer M N T).

Definition loss (N : nat) (mu : vec) (cov : mat) (T : C) (mode : nat) (nbar hbar : C) : res (vec * mat) :=
  foldM (loss_step N (sqrtC T) T nbar (hbar / 2%:R)) (mu, cov) [:: mode; (mode + N)%N].

(** symplectic.py:118-134 [expand_vector(alpha, mode, N, hbar)] (IndexError out of bounds) *)
Definition expand_vector (alpha : C) (mode N : nat) (hbar : C) : res vec :=
  if (mode + N < 2 * N)%N then
    let r : vec := fun _ => 0 in
    let r := upd1 r mode (sqrtC (2%:R * hbar) * 'Re alpha) in
    Ok (upd1 r (N + mode)%N (sqrtC (2%:R * hbar) * 'Im alpha))
  else Err IndexError.

(** symplectic.py:195-209 [vacuum_state(modes, hbar)] *)
Definition vacuum_state (hbar : C) : vec * mat := (fun _ => 0, fun i j => eye C i j * hbar / 2%:R).

(** symplectic.py:354-368 [mean_photon_number(mu, cov, hbar)], one mode *)
Definition mtrace (n : nat) (A : mat) : C := \sum_(i <- iota 0 n) A i i.
Definition vdot (n : nat) (u v : vec) : C := \sum_(i <- iota 0 n) u i * v i.
Definition mean_photon_number (mu : vec) (cov : mat) (hbar : C) : C * C :=
  ((mtrace 2 cov + vdot 2 mu mu) / (2%:R * hbar) - 1 / 2%:R,
   (mtrace 2 (mmul 2 cov cov) + vdot 2 (fun j => \sum_(i <- iota 0 2) 2%:R * mu i * cov i j) mu)
     / (2%:R * hbar ^+ 2) - 1 / 4%:R).

(** symplectic.py:424-441 [is_symplectic(S, rtol, atol)], S of shape n x m *)
Definition is_symplectic1 (rtol atol : C) (n m : nat) (S : mat) : bool :=
  if n != m then false
  else if odd n then false
  else let Omega := sympmat C n./2 in
    allclose rtol atol n n (mmul n (mmul n (trn S) Omega) S) Omega.

(** gaussian_checks.py:162-192 [is_symplectic(S, rtol, atol)] *)
Definition is_symplectic2 (rtol atol : C) (n m : nat) (S : mat) : bool :=
  if n != m then false
  else if odd n then false
  else let n := n./2 in
    let A := S in let B := mshift 0 n S in
    let Cm := mshift n 0 S in let D := mshift n n S in
    if [&& allclose rtol atol n n (mmul n (trn A) Cm) (mmul n (trn Cm) A),
           allclose rtol atol n n (mmul n (trn B) D) (mmul n (trn D) B) &
           allclose rtol atol n n (msub (mmul n (trn A) D) (mmul n (trn Cm) B)) (eye C)]
    then true else false.

(** conversions.py:70-96 [Qmat(cov, hbar)], cov of size 2N x 2N *)
Definition Qmat (N : nat) (cov : mat) (hbar : C) : mat :=
  let x : mat := fun i j => cov i j * 2%:R / hbar in
  let xp : mat := fun i j => mshift 0 N cov i j * 2%:R / hbar in
  let p : mat := fun i j => mshift N N cov i j * 2%:R / hbar in
  let aidaj : mat := fun i j => (x i j + p i j + 'i * (xp i j - xp j i) - 2%:R * eye C i j) / 4%:R in
  let aiaj : mat := fun i j => (x i j - p i j + 'i * (xp i j + xp j i)) / 4%:R in
  madd (npblock N N aidaj (fun i j => (aiaj i j)^*) aiaj (fun i j => (aidaj i j)^*)) (eye C).

(** conversions.py:99-121 [Covmat(Q, hbar)] *)
Definition Covmat (n : nat) (Q : mat) (hbar : C) : mat :=
  let N : mat := fun i j => Q i j - eye C i j in
  let M : mat := mshift n 0 Q in
  let mm11a : mat := fun i j => 2%:R * ('Re (N i j) + 'Re (M i j)) + eye C i j in
  let mm22a : mat := fun i j => 2%:R * ('Re (N i j) - 'Re (M i j)) + eye C i j in
  let mm12a : mat := fun i j => 2%:R * ('Im (M i j) + 'Im (N i j)) in
  mscale (hbar / 2%:R) (npblock n n mm11a mm12a (trn mm12a) mm22a).

(** function matrices as mathcomp matrices, and np.linalg.inv (LinAlgError, rendered as RuntimeError,
    on a singular matrix; exact inverse otherwise) *)
Definition mxof (r c : nat) (A : mat) : 'M[C]_(r, c) := \matrix_(i, j) A i j.
Definition ofmx (r c : nat) (A : 'M[C]_(r, c)) : mat := fun i j =>
  match insub i, insub j with Some i', Some j' => A i' j' | _, _ => 0 end.
Definition np_inv (n : nat) (A : mat) : res mat :=
  if mxof n n A \in unitmx then Ok (ofmx (invmx (mxof n n A))) else Err RuntimeError.

(** conversions.py:124-150 [Amat(cov, hbar, cov_is_qmat)] *)
Definition Amat (N : nat) (cov : mat) (hbar : C) (cov_is_qmat : bool) : res mat :=
  let X := Xmat C N in
  let Q := if cov_is_qmat then cov else Qmat N cov hbar in
  bind (np_inv (2 * N) Q) (fun Qinv =>
  Ok (mmul (2 * N) X (fun i j => (eye C i j - Qinv i j)^*))).

(** conversions.py:153-169 and 172-187; mu, beta of length 2N *)
Definition complex_to_real_displacements (N : nat) (mu : vec) (hbar : C) : vec :=
  let alpha : vec := fun i => (mu i + 'i * mu (N + i)%N) / sqrtC (2%:R * hbar) in
  fun i => if (i < N)%N then alpha i else (alpha (i - N)%N)^*.
Definition real_to_complex_displacements (N : nat) (beta : vec) (hbar : C) : vec :=
  fun i => sqrtC (2%:R * hbar) * (if (i < N)%N then 'Re (beta i) else 'Im (beta (i - N)%N)).
End Cplx.
