(** Model of thewalrus/_hermite_multidimensional.py.
    Tensors are functions from multi-indices (sequences of naturals) to entries, together with a shape where
    the code needs it.  Scalars are exact. *)
From mathcomp Require Import all_ssreflect all_algebra zify.
From Verif Require Import PyBase ArrLoop MHafnian.
Set Implicit Arguments.
Unset Strict Implicit.
Unset Printing Implicit Defensive.
Import GRing.Theory Num.Theory.
Local Open Scope ring_scope.

(** np.ndindex(shape): all multi-indices below [shape], last index running fastest *)
Fixpoint ndindex (shape : seq nat) : seq (seq nat) :=
  if shape is c :: sh then [seq i :: r | i <- iota 0 c, r <- ndindex sh] else [:: [::]].

(** G[idx] = v *)
Definition updG (V : Type) (G : seq nat -> V) (idx : seq nat) (v : V) : seq nat -> V :=
  fun k => if k == idx then v else G k.

(** _hermite_multidimensional.py:219-229 [dec(tup, i)] *)
Definition dec (tup : seq nat) (i : nat) : seq nat := set_nth 0%N tup i (nth 0%N tup i - 1)%N.

(** _hermite_multidimensional.py:232-244 [remove(pattern)], the generator as the list it yields *)
Definition remove (pattern : seq nat) : seq (nat * seq nat) :=
  [seq (p, dec pattern p) | p <- iota 0 (size pattern) & (0 < nth 0 pattern p)%N].

(** the loop "i = 0; for i, val in enumerate(idx): if val > 0: break" (e.g. lines 266-269): the position of the
    first positive entry (if there is none, the last position; not reached by the code) *)
Definition first_pos (idx : seq nat) : nat :=
  let p := find (fun v => 0 < v)%N idx in if (p < size idx)%N then p else (size idx).-1.

Section Kernels.
Variable T : comRingType.
Implicit Types (R : nat -> nat -> T) (y : nat -> T) (G : seq nat -> T).

(** _hermite_multidimensional.py:278-303 [_hermite_multidimensional(R, y, G)] *)
Definition hermite_kernel R y (shape : seq nat) G : seq nat -> T :=
  for_ (behead (ndindex shape)) G (fun G idx =>
    let i := first_pos idx in
    let ki := dec idx i in
    let u := for_ (remove ki) (y i * G ki) (fun u lkl =>
       u - (nth 0%N ki lkl.1)%:R * R i lkl.1 * G lkl.2) in
    updG G idx u).

(** _hermite_multidimensional.py:346-383 [_interferometer(R, G)]; [dim] is the dimension of R, and
    num_modes = dim / 2 is truncated when it is used as an argument of range *)
Definition interferometer_kernel (dim : nat) R (shape : seq nat) G : seq nat -> T :=
  let num_modes := dim./2 in
  for_ (behead (ndindex shape)) G (fun G idx =>
    let bran := for_ (pyrange 0 num_modes) 0%N (fun b ii => (b + nth 0 idx ii)%N) in
    let ketn := for_ (pyrange num_modes dim) 0%N (fun b ii => (b + nth 0 idx ii)%N) in
    if bran == ketn then
      let i := first_pos idx in
      let ki := dec idx i in
      let u := for_ (remove ki) 0 (fun u lkl =>
         u - (nth 0%N ki lkl.1)%:R * R i lkl.1 * G lkl.2) in
      updG G idx u
    else G).

(** _hermite_multidimensional.py:456-489 [_grad_hermite_multidimensional(R, y, G, dG_dR, dG_dy)];
    the entries of dG_dR are matrices and those of dG_dy are vectors *)
Definition grad_body R y (G : seq nat -> T) (idx : seq nat) (dGR : seq nat -> nat -> nat -> T) (dGy : seq nat -> nat -> T)
   : (nat -> nat -> T) * (nat -> T) :=
  let i := first_pos idx in
  let ki := dec idx i in
  let dy := (fun j => y i * dGy ki j) in
  let dy := upd1 dy i (dy i + G ki) in
  let dR := (fun a b => y i * dGR ki a b) in
  for_ (remove ki) (dR, dy) (fun st lkl =>
    let l := lkl.1 in let kl := lkl.2 in
    let dy := (fun j => st.2 j - (nth 0%N ki l)%:R * dGy kl j * R i l) in
    let dR := (fun a b => st.1 a b - (nth 0%N ki l)%:R * R i l * dGR kl a b) in
    let dR := upd2 dR i l (dR i l - (nth 0%N ki l)%:R * G kl) in
    (dR, dy)).
Definition grad_kernel R y (shape : seq nat) G (dGR : seq nat -> nat -> nat -> T) (dGy : seq nat -> nat -> T) :=
  for_ (behead (ndindex shape)) (dGR, dGy) (fun st idx =>
    let d := grad_body R y G idx st.1 st.2 in
    (updG st.1 idx d.1, updG st.2 idx d.2)).
End Kernels.

Section Top.
Variable C : numClosedFieldType.
Notation mat := (nat -> nat -> C).
Notation vec := (nat -> C).
Implicit Types (R : mat) (y : vec) (G : seq nat -> C).

(** _hermite_multidimensional.py:247: the table SQRT = np.sqrt(np.arange(1000)); compiled code does not check
    bounds, so an access beyond the table reads an unspecified value [oob k] *)
Variable oob : nat -> C.
Definition SQRT (k : nat) : C := if (k < 1000)%N then sqrtC k%:R else oob k.

(** a store into the array: the identity for inexact element types; a cast to an integer array truncates *)
Variable trunc : C -> C.
Definition store (int_dtype : bool) (x : C) : C := if int_dtype then trunc x else x.

(** _hermite_multidimensional.py:250-275 [_hermite_multidimensional_renorm(R, y, G)] *)
Definition hermite_renorm_kernel (int_dtype : bool) R y (shape : seq nat) G : seq nat -> C :=
  for_ (behead (ndindex shape)) G (fun G idx =>
    let i := first_pos idx in
    let ki := dec idx i in
    let u := for_ (remove ki) (y i * G ki) (fun u lkl =>
       u - SQRT (nth 0%N ki lkl.1) * R i lkl.1 * G lkl.2) in
    updG G idx (store int_dtype (u / SQRT (nth 0%N idx i)))).

(** _hermite_multidimensional.py:306-343 [_interferometer_renorm(R, G)] *)
Definition interferometer_renorm_kernel (int_dtype : bool) (dim : nat) R (shape : seq nat) G : seq nat -> C :=
  let num_modes := dim./2 in
  for_ (behead (ndindex shape)) G (fun G idx =>
    let bran := for_ (pyrange 0 num_modes) 0%N (fun b ii => (b + nth 0 idx ii)%N) in
    let ketn := for_ (pyrange num_modes dim) 0%N (fun b ii => (b + nth 0 idx ii)%N) in
    if bran == ketn then
      let i := first_pos idx in
      let ki := dec idx i in
      let u := for_ (remove ki) 0 (fun u lkl =>
         u - SQRT (nth 0%N ki lkl.1) * R i lkl.1 * G lkl.2) in
      updG G idx (store int_dtype (u / SQRT (nth 0%N idx i)))
    else G).

(** _hermite_multidimensional.py:420-453 [_grad_hermite_multidimensional_renorm] *)
Definition grad_renorm_body R y (G : seq nat -> C) (idx : seq nat) (dGR : seq nat -> nat -> nat -> C) (dGy : seq nat -> nat -> C)
   : (nat -> nat -> C) * (nat -> C) :=
  let i := first_pos idx in
  let ki := dec idx i in
  let dy := (fun j => y i * dGy ki j) in
  let dy := upd1 dy i (dy i + G ki) in
  let dR := (fun a b => y i * dGR ki a b) in
  let d := for_ (remove ki) (dR, dy) (fun st lkl =>
    let l := lkl.1 in let kl := lkl.2 in
    let dy := (fun j => st.2 j - SQRT (nth 0%N ki l) * dGy kl j * R i l) in
    let dR := (fun a b => st.1 a b - SQRT (nth 0%N ki l) * R i l * dGR kl a b) in
    let dR := upd2 dR i l (dR i l - SQRT (nth 0%N ki l) * G kl) in
    (dR, dy)) in
  ((fun a b => d.1 a b / SQRT (nth 0%N idx i)), (fun j => d.2 j / SQRT (nth 0%N idx i))).
Definition grad_renorm_kernel R y (shape : seq nat) G (dGR : seq nat -> nat -> nat -> C) (dGy : seq nat -> nat -> C) :=
  for_ (behead (ndindex shape)) (dGR, dGy) (fun st idx =>
    let d := grad_renorm_body R y G idx st.1 st.2 in
    (updG st.1 idx d.1, updG st.2 idx d.2)).

(** a returned array: its shape and its entries *)
Record tensor := Tensor { tshape : seq nat; tent : seq nat -> C }.
(** values.flatten(): row-major (C) order *)
Definition flatten_tensor (t : tensor) : tensor :=
  Tensor [:: size (ndindex (tshape t))]
    (fun k => tent t (nth [::] (ndindex (tshape t)) (nth 0%N k 0))).

(** np.real_if_close(a) with the default tolerance 100 * eps: if every imaginary part is smaller than the tolerance,
    only the real parts are kept *)
Definition ric_tol : C := 100%:R * (2%:R ^+ 52)^-1.
Definition real_if_close_mat (n : nat) R : mat :=
  if all (fun i => all (fun j => `|'Im (R i j)| < ric_tol) (iota 0 n)) (iota 0 n)
  then (fun i j => 'Re (R i j)) else R.
Definition real_if_close_vec (n : nat) y : vec :=
  if all (fun i => `|'Im (y i)| < ric_tol) (iota 0 n) then (fun i => 'Re (y i)) else y.

(** the argument [cutoff]: an int (or 0-d / one-element array), or an iterable of ints *)
Inductive cutoff_arg := CInt of nat | CSeq of seq nat.
Definition cutoffs_of (n : nat) (c : cutoff_arg) : seq nat :=
  match c with CInt k => nseq n k | CSeq s => s end.

(** np.zeros(cutoffs); array[(0,) * n] = C : IndexError if an axis addressed by the index is missing or empty;
    if there are more axes than n the whole sub-array is set *)
Definition seed_array (n : nat) (cutoffs : seq nat) (c : C) : res (seq nat -> C) :=
  if (size cutoffs < n)%N || has (fun k => k == 0%N) (take n cutoffs) then Err IndexError
  else Ok (fun k => if all (fun x => x == 0%N) (take n k) then c else 0).

(** element types: whether R, y and C are integer (rather than float/complex) *)
Record int_types := IntTypes { int_R : bool; int_y : bool; int_C : bool }.

(** _hermite_multidimensional.py:82-111: the part of hermite_multidimensional after the argument y has been settled;
    [y = None] when the argument is None (then it is a complex zero vector, so the element type is inexact) *)
Definition hermite_main (n : nat) R (cutoff : cutoff_arg) (y : option (nat * vec)) (c : C) (renorm make_tensor : bool)
    (it : int_types) : res tensor :=
  let m := if y is Some (m, _) then m else n in
  let yv := if y is Some (_, v) then v else (fun=> 0) in
  if m != n then Err ValueError else
  let cutoffs := cutoffs_of n cutoff in
  let Rt := real_if_close_mat n R in
  let yt := real_if_close_vec n yv in
  let int_dtype := [&& int_R it, int_y it && isSome y & int_C it] in
  bind (seed_array n cutoffs c) (fun array =>
  let values := if renorm then hermite_renorm_kernel int_dtype Rt yt cutoffs array
                else hermite_kernel Rt yt cutoffs array in
  let t := Tensor cutoffs values in
  Ok (if make_tensor then t else flatten_tensor t)).

(** _hermite_multidimensional.py:26-111 [hermite_multidimensional]; the recursive call (lines 77-79) has modified=True and
    the default tolerances *)
Definition hermite_multidimensional (R : pyobj C) (cutoff : cutoff_arg) (y : option (nat * vec)) (c : C)
    (renorm make_tensor modified : bool) (rtol atol : C) (it : int_types) : res tensor :=
  bind (input_validation R rtol atol) (fun arr =>
  let n := nrows arr in
  if ~~ modified && (if y is Some (m, _) then m == n else false) then
    let yv := if y is Some (_, v) then v else (fun=> 0) in
    let ym := fun i => \sum_(j < n) vals arr i j * yv j in
    bind (input_validation R (rtol0 C) (atol0 C)) (fun arr =>
    hermite_main n (vals arr) cutoff (Some (n, ym)) c renorm make_tensor
       (IntTypes (int_R it) (int_R it && int_y it) (int_C it)))
  else hermite_main n (vals arr) cutoff y c renorm make_tensor it).

(** _hermite_multidimensional.py:173-216 [hafnian_batched]; the inner call validates again with default tolerances *)
Definition hafnian_batched (A : pyobj C) (cutoff : cutoff_arg) (mu : option (nat * vec)) (rtol atol : C)
    (renorm make_tensor : bool) (it : int_types) : res tensor :=
  bind (input_validation A rtol atol) (fun arr =>
  let n := nrows arr in
  let y := if mu is Some v then v else (n, fun=> 0) in
  hermite_multidimensional (PyArr (arr_of n n (fun i j => - vals arr i j))) cutoff (Some y) 1 renorm make_tensor true
    (rtol0 C) (atol0 C) (IntTypes (int_R it) (int_y it && isSome mu) true)).

(** _hermite_multidimensional.py:114-169 [interferometer]; with make_tensor the values are reshaped to
    cutoff * ones(n), the shape they already have; without it they are returned as they are *)
Definition interferometer (R : pyobj C) (cutoff : cutoff_arg) (c : C) (renorm make_tensor : bool)
    (rtol atol : C) (it : int_types) : res tensor :=
  bind (input_validation R rtol atol) (fun arr =>
  let n := nrows arr in
  let cutoffs := cutoffs_of n cutoff in
  let Rt := real_if_close_mat n (vals arr) in
  let int_dtype := int_R it && int_C it in
  bind (seed_array n cutoffs c) (fun array =>
  let values := if renorm then interferometer_renorm_kernel int_dtype n Rt cutoffs array
                else interferometer_kernel n Rt cutoffs array in
  if make_tensor && (size cutoffs != n) then Err ValueError
  else Ok (Tensor cutoffs values))).

(** _hermite_multidimensional.py:386-417 [grad_hermite_multidimensional]; [n] is R.shape[0], [m] is y.shape[0] *)
Definition grad_hermite_multidimensional (shape : seq nat) G (n : nat) R (m : nat) y (c : C) (renorm : bool)
  : res ((seq nat -> C) * (seq nat -> nat -> nat -> C) * (seq nat -> nat -> C)) :=
  if m != n then Err ValueError else
  let dGC := fun k => G k / c in
  let z2 := fun (_ : seq nat) (_ _ : nat) => 0 : C in
  let z1 := fun (_ : seq nat) (_ : nat) => 0 : C in
  let d := if renorm then grad_renorm_kernel R y shape G z2 z1 else grad_kernel R y shape G z2 z1 in
  Ok (dGC, d.1, d.2).
End Top.
