(** Model of thewalrus/charpoly.py (La Budde characteristic polynomial, Householder reduction, power traces).
    Matrices are functions of two indices together with their size; scalars are exact complex numbers
    (any [numClosedFieldType]). *)
From mathcomp Require Import all_ssreflect all_algebra.
From Verif Require Import PyBase ArrLoop.
Set Implicit Arguments.
Unset Strict Implicit.
Unset Printing Implicit Defensive.
Import GRing.Theory Num.Theory.
Local Open Scope ring_scope.

Section Field.
Variable K : ringType.
Notation mat := (nat -> nat -> K).

(** charpoly.py:129-192 [beta], [alpha], [hij] (1-based indices of the paper). *)
Definition beta (H : mat) i := H (i - 1)%N (i - 2)%N.
Definition alpha (H : mat) i := H (i - 1)%N (i - 1)%N.
Definition hij (H : mat) i j := H (i - 1)%N (j - 1)%N.
(** [c[mlo(i, j)]] read and write, charpoly.py:175-192 *)
Definition get (c : mat) i j := c (i - 1)%N (j - 1)%N.
Definition set (c : mat) i j v : mat := upd2 c (i - 1) (j - 1) v.

(** charpoly.py:230-232 (and 225-227, 245-247, 250-252, 264-266, 270-272):
    [beta_prod = 1; for bm in range(i, i - m, -1): beta_prod *= beta(H, bm)] *)
Definition beta_prod (H : mat) (i m : nat) : K :=
  for_ (range_down i (i - m)) 1 (fun p bm => p * beta H bm).

(** charpoly.py:222-228 (= 242-248 with j = i, = 261-268): the inner sum *)
Definition lb_suma (H c : mat) i j : K :=
  for_ (pyrange 1 (j - 1)) 0 (fun suma m =>
    suma + hij H (i - m) i * beta_prod H i m * get c (i - m - 1) (j - m - 1)).

(** charpoly.py:221-239 (= 260-279): one coefficient [c[i, j]], [2 <= j < i]. *)
Definition lb_coef (H c : mat) i j : K :=
  get c (i - 1) j - alpha H i * get c (i - 1) (j - 1) - lb_suma H c i j
   - hij H (i - j + 1) i * beta_prod H i (j - 1).

(** charpoly.py:196-282 [_charpoly(H, k)], n = len(H). *)
Definition labudde (n : nat) (H : mat) (k : nat) : seq K :=
  let c : mat := fun _ _ => 0 in
  let c := set c 1 1 (- alpha H 1) in
  let c := set c 2 1 (get c 1 1 - alpha H 2) in
  let c := set c 2 2 (alpha H 1 * alpha H 2 - hij H 1 2 * beta H 2) in
  let c := for_ (pyrange 3 k.+1) c (fun c i =>                          (* lines 219-254 *)
     let c := set c i 1 (get c (i - 1) 1 - alpha H i) in
     let c := for_ (pyrange 2 i) c (fun c j => set c i j (lb_coef H c i j)) in
     set c i i (- alpha H i * get c (i - 1) (i - 1) - lb_suma H c i i - hij H 1 i * beta_prod H i (i - 1))) in
  let c := for_ (pyrange k.+1 n.+1) c (fun c i =>                       (* lines 256-279 *)
     let c := set c i 1 (get c (i - 1) 1 - alpha H i) in
     if (2 <= k)%N then for_ (pyrange 2 k.+1) c (fun c j => set c i j (lb_coef H c i j)) else c) in
  [seq c (n - 1)%N (i - 1)%N | i <- pyrange 1 n.+1].

(** [np.trace] and [A @ H] *)
Definition ftrace (n : nat) (A : mat) : K := \sum_(i < n) A i i.
Definition fmul (n : nat) (A B : mat) : mat := fun i j => \sum_(k < n) A i k * B k j.

(** charpoly.py:301-327 [powertrace(H, n)], m = len(H), with the characteristic polynomial routine as a
    parameter.  [pow_traces[-k - 1]] reads the list from its end. *)
Definition powertrace_with (cpoly : nat -> mat -> seq K) (m : nat) (H : mat) (n : nat) : seq K :=
  let min_val := minn n m in
  let: (A, pow_traces) := for_ (iota 0 (min_val - 2)) (H, [:: m%:R; ftrace m H])
     (fun st _ => let: (A, pt) := st in let A := fmul m A H in (A, rcons pt (ftrace m A))) in
  if (n <= m)%N then pow_traces
  else
    let char_pol := cpoly m H in
    for_ (pyrange min_val n) pow_traces (fun pt _ =>
      let ssum := for_ (iota 0 m) 0 (fun s k => s - nth 0 char_pol k * nth 0 pt (size pt - k - 1)%N) in
      rcons pt ssum).
End Field.

Section Complex.
Variable C : numClosedFieldType.
Notation mat := (nat -> nat -> C).

(** [np.linalg.norm] of a vector given by its first [s] entries *)
Definition fnorm (s : nat) (v : nat -> C) : C := sqrtC (\sum_(i < s) `|v i| ^+ 2).

(** charpoly.py:42-72 [get_reflection_vector(matrix, k)] (k >= 1) *)
Definition get_reflection_vector (size : nat) (A : mat) (k : nat) : nat -> C :=
  let sizeH := (size - k)%N in
  let offset := (k - 1)%N in
  let matrix_column := for_ (iota 0 sizeH) (fun=> 0) (fun a i => upd1 a i (A (k + i)%N offset)) in
  let sigma := fnorm sizeH matrix_column in
  let sigma := if matrix_column 0%N != 0
               then sigma * (matrix_column 0%N / `|matrix_column 0%N|) else sigma in
  let reflect_vector := for_ (iota 0 sizeH) (fun=> 0) (fun a i => upd1 a i (matrix_column i)) in
  upd1 reflect_vector 0 (reflect_vector 0%N + sigma).

(** charpoly.py:75-109 [apply_householder(A, v, k)]; [len(v) = size_A - k]. *)
Definition apply_householder (size_A : nat) (A : mat) (v : nat -> C) (k : nat) : mat :=
  let sizeH := (size_A - k)%N in
  let norm_v_sqr := fnorm sizeH v ^+ 2 in
  if norm_v_sqr == 0 then A
  else
    let vHA := for_ (iota 0 (size_A - k + 1)) (fun=> 0) (fun a j =>       (* lines 95-97 *)
      for_ (iota 0 sizeH) a (fun a l => upd1 a j (a j + (v l)^* * A (k + l)%N (k - 1 + j)%N))) in
    let A := for_ (iota 0 sizeH) A (fun A i =>                              (* lines 99-101 *)
      for_ (iota 0 (size_A - k + 1)) A (fun A j =>
        upd2 A (k + i) (k - 1 + j) (A (k + i)%N (k - 1 + j)%N - 2%:R * v i * vHA j / norm_v_sqr))) in
    let Av := for_ (iota 0 size_A) (fun=> 0) (fun a i =>                    (* lines 103-105 *)
      for_ (iota 0 sizeH) a (fun a l => upd1 a i (a i + A i (k + l)%N * v l))) in
    for_ (iota 0 size_A) A (fun A i =>                                      (* lines 107-109 *)
      for_ (iota 0 sizeH) A (fun A j =>
        upd2 A i (k + j) (A i (k + j)%N - 2%:R * Av i * (v j)^* / norm_v_sqr))).

(** charpoly.py:112-125 [reduce_matrix_to_hessenberg(matrix)] *)
Definition reduce_matrix_to_hessenberg (n : nat) (A : mat) : mat :=
  for_ (pyrange 1 (n - 1)) A (fun A i => apply_householder n A (get_reflection_vector n A i) i).

(** charpoly.py:285-298 [charpoly(H)] *)
Definition charpoly (n : nat) (H : mat) : seq C := labudde n (reduce_matrix_to_hessenberg n H) n.

(** charpoly.py:301-327 [powertrace(H, n)] *)
Definition powertrace (m : nat) (H : mat) (n : nat) : seq C := powertrace_with charpoly m H n.
End Complex.
