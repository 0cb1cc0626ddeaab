(** Model of thewalrus/random.py.  The random draws are arguments: a draw of np.random.randn is an arbitrary function. *)
From mathcomp Require Import all_ssreflect all_algebra.
From Verif Require Import PyBase ArrLoop MHafnian MSymplectic MDecomp.
Set Implicit Arguments.
Unset Strict Implicit.
Unset Printing Implicit Defensive.
Import GRing.Theory Num.Theory.
Local Open Scope ring_scope.

Section Random.
Variable C : numClosedFieldType.
Notation mat := (nat -> nat -> C).
Notation vec := (nat -> C).
Variable qr : nat -> mat -> mat * mat.              (* scipy.linalg.qr of an n x n matrix: q, r *)
Variable exp : C -> C.                              (* np.exp *)

(** random.py:46-48 [randnc]; x, y are the two arrays returned by np.random.randn *)
Definition randnc (x y : mat) : mat := fun i j => x i j + 'i * y i j.

(** random.py:115-134 [random_interferometer(N, real)]; d / np.abs(d) is NaN for d = 0 (here 0: excluded in the theorems) *)
Definition random_interferometer (N : nat) (real : bool) (xy : mat * mat) : mat :=
  let z : mat := if real then xy.1 else fun i j => randnc xy.1 xy.2 i j / sqrtC 2%:R in
  let: (q, r) := qr N z in
  let d : vec := fun i => r i i in
  let ph : vec := fun i => d i / `|d i| in
  fun i j => q i j * ph j.

(** random.py:78-112 [random_symplectic(N, passive, block_diag, scale)]; draws of the two interferometers and of the
    squeezing parameters *)
Definition random_symplectic (N : nat) (passive block_diag : bool) (scale : C) (xy1 xy2 : mat * mat) (rx ry : vec) : mat :=
  let U := random_interferometer N block_diag xy1 in
  let O := npblock N N (fun i j => 'Re (U i j)) (fun i j => - 'Im (U i j)) (fun i j => 'Im (U i j)) (fun i j => 'Re (U i j)) in
  if passive then O else
  let U := random_interferometer N block_diag xy2 in
  let P := npblock N N (fun i j => 'Re (U i j)) (fun i j => - 'Im (U i j)) (fun i j => 'Im (U i j)) (fun i j => 'Re (U i j)) in
  let r : vec := fun i => scale * `|rx i + 'i * ry i| in
  let Sq := np_diag (fun i => if (i < N)%N then exp (- r i) else exp (r (i - N)%N)) in
  mmul (2 * N) (mmul (2 * N) O Sq) P.

(** random.py:51-75 [random_covariance(N, hbar, pure, block_diag)]; [u] is np.random.random(N) *)
Definition random_covariance (N : nat) (hbar : C) (pure block_diag : bool) (xy1 xy2 : mat * mat) (rx ry u : vec) : mat :=
  let S := random_symplectic N false block_diag 1 xy1 xy2 rx ry in
  if pure then mmul (2 * N) (mscale (hbar / 2%:R) S) (trn S) else
  let nbar : vec := fun i => 2%:R * `|u i| + 1 in
  let Vth := mscale (hbar / 2%:R) (np_diag (fun i => if (i < N)%N then nbar i else nbar (i - N)%N)) in
  mmul (2 * N) (mmul (2 * N) S Vth) (trn S).

(** scipy.linalg.block_diag of square arrays: sizes and entries *)
Fixpoint block_diag (bs : seq (nat * mat)) : mat :=
  match bs with
  | [::] => fun _ _ => 0
  | (k, A) :: bs' => fun i j =>
      if (i < k)%N && (j < k)%N then A i j
      else if (k <= i)%N && (k <= j)%N then block_diag bs' (i - k)%N (j - k)%N else 0
  end.

(** random.py:137-162 [random_block_interferometer(N, top_one, real)]: the list of blocks given to scipy.linalg.block_diag; the k-th call
    of random_interferometer uses the draws [xy k].  For N = 0 and top_one=False, block_diag() is an array of shape (1, 0), not
    modelled. *)
Definition random_blocks (N : nat) (top_one real : bool) (xy : nat -> mat * mat) : seq (nat * mat) :=
  let u2 k := (2%N, random_interferometer 2 real (xy k)) in
  let u1 k := (1%N, random_interferometer 1 real (xy k)) in
  if (N %% 2 == 0)%N then
    if top_one then
      let u2s := [seq u2 k | k <- iota 0 (N %/ 2 - 1)] in
      u1 (N %/ 2 - 1)%N :: u2s ++ [:: u1 (N %/ 2 - 1).+1]
    else [seq u2 k | k <- iota 0 (N %/ 2)]
  else
    let u2s := [seq u2 k | k <- iota 0 ((N - 1) %/ 2)] in
    let u0 := u1 ((N - 1) %/ 2)%N in
    if top_one then u0 :: u2s else u2s ++ [:: u0].
(** the returned array: its size and its entries *)
Definition random_block_interferometer (N : nat) (top_one real : bool) (xy : nat -> mat * mat) : nat * mat :=
  let bs := random_blocks N top_one real xy in (sumn [seq b.1 | b <- bs], block_diag bs).

(** random.py:165-185 [random_banded_interferometer(N, w, top_one_init, real)]; the k-th draw of the initial phases is [xy 0 k], the
    k-th draw in the t-th iteration of the loop is [xy t.+1 k] *)
Definition random_banded_interferometer (N w : nat) (top_one_init real : bool) (xy : nat -> nat -> mat * mat) : res mat :=
  if (N < w + 1)%N then Err ValueError else
  if N == (w + 1)%N then Ok (random_interferometer N real (xy 0 0)%N) else
  let U := block_diag [seq (1%N, random_interferometer 1 real (xy 0%N k)) | k <- iota 0 N] in
  let: (U, _) := for_ (iota 0 w) (U, top_one_init) (fun st t => let: (U, top_one_init) := st in
    (mmul N U (random_block_interferometer N top_one_init real (xy t.+1)).2, ~~ top_one_init)) in
  Ok U.
End Random.
