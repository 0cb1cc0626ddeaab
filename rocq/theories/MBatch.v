(** Model of thewalrus/loop_hafnian_batch.py and thewalrus/loop_hafnian_batch_gamma.py.
    Same conventions as MPowerHaf.v: exact scalars, matrices as index functions, [sched steps] is the order
    in which the iterations of [numba.prange(steps)] are executed. *)
From mathcomp Require Import all_ssreflect all_algebra.
From Verif Require Import PyBase ArrLoop MPowerHaf.
Set Implicit Arguments.
Unset Strict Implicit.
Unset Printing Implicit Defensive.
Import GRing.Theory.
Local Open Scope ring_scope.

(** loop_hafnian_batch.py:212-236 [add_batch_edges_even(fixed_edges)] *)
Definition add_batch_edges_even (fe : seq nat) : seq nat :=
  if size fe == 0%N then [:: 0; 0]%N
  else let new_edge := (maxn_seq fe).+1 in
       (new_edge :: take (size fe %/ 2) fe) ++ new_edge :: drop (size fe %/ 2) fe.

(** loop_hafnian_batch.py:239-266 [add_batch_edges_odd(fixed_edges, oddmode)] *)
Definition add_batch_edges_odd (fe : seq nat) (oddmode : nat) : seq nat :=
  if size fe == 0%N then [:: 1; oddmode; 1; 1]%N
  else let new_edge := (maxn (maxn_seq fe) oddmode).+1 in
       ([:: new_edge; oddmode] ++ take (size fe %/ 2) fe) ++ [:: new_edge, new_edge & drop (size fe %/ 2) fe].

Section Field.
Variable K : fieldType.
Notation mat := (nat -> nat -> K).
Notation vec := (nat -> K).
Variable pt : nat -> mat -> nat -> seq K.
Variable sched : nat -> seq nat.

(** the product [for i in range(1, n // 2): binom_prod *= binoms[edge_reps[i], kept_edges[i]]] *)
Definition binom_prod1 (binoms : nat -> nat -> nat) (edge_reps kept : seq nat) (n : nat) : K :=
  for_ (pyrange 1 (n %/ 2)) 1 (fun p i => p * (binoms (nth 0%N edge_reps i) (nth 0%N kept i))%:R).

(** the final loop [for j in range(H_batch.shape[0]): H_batch[j] *= 0.5 ** ((N_fixed + j) // 2)] *)
Definition glynn_scale (N_fixed len : nat) (H : vec) : vec :=
  for_ (iota 0 len) H (fun H j => upd1 H j (H j * 2%:R^-1 ^+ ((N_fixed + j) %/ 2))).

(** loop_hafnian_batch.py:51-119 [_calc_loop_hafnian_batch_even(A, D, fixed_edge_reps, batch_max,
    odd_cutoff, glynn)]; [n = A.shape[0]].  The exponent [N // 2 - edges_sum] is never negative. *)
Definition calc_batch_even (n : nat) (A : mat) (D : vec) (fixed_edge_reps : seq nat) (batch_max odd_cutoff : nat)
    (glynn : bool) : seq K :=
  let oddloop := D 0%N in
  let oddV := A 0%N in
  let N_fixed := (2 * sumn fixed_edge_reps)%N in
  let N_max := (N_fixed + 2 * batch_max + odd_cutoff)%N in
  let edge_reps := batch_max :: fixed_edge_reps in
  let steps := (\prod_(r <- edge_reps) r.+1)%N in
  let binoms := precompute_binoms (maxn_seq edge_reps + odd_cutoff) in
  let len := (2 * batch_max + odd_cutoff + 1)%N in
  let H := for_ (sched steps) (fun=> 0 : K) (fun H j =>
    let kept := find_kept_edges j edge_reps in
    let edges_sum := sumn kept in
    let bp := binom_prod1 binoms edge_reps kept n in
    let delta := shift_kept glynn edge_reps kept in
    let s := size (nonzero_rows delta) in
    let AX_S := get_AX_S delta A in
    let f_even := f_loop pt s AX_S AX_S (get_XV delta D) (get_V delta D) N_max in
    let f_odd := f_loop_odd pt s AX_S AX_S (get_XV delta D) (get_V delta D) N_max oddloop (get_XV delta oddV) in
    let Hnew := for_ (pyrange (2 * nth 0 kept 0)%N len) (fun=> 0) (fun Hnew N_det =>
      let N := (N_fixed + N_det)%N in
      let plus_minus := (-1) ^+ (N %/ 2 - edges_sum) in
      let n_det_binom_prod := (binoms (N_det %/ 2)%N (nth 0%N kept 0))%:R * bp in
      upd1 Hnew N_det (Hnew N_det + n_det_binom_prod * plus_minus *
        (if (N_det %% 2 == 0)%N then f_even (N %/ 2)%N else f_odd N))) in
    fun i => H i + Hnew i) in
  mkseq (if glynn then glynn_scale N_fixed len H else H) len.

(** loop_hafnian_batch.py:124-209 [_calc_loop_hafnian_batch_odd]; the argument [batch_max] can be -1, so
    the model takes [bm1 = batch_max + 1]. *)
Definition calc_batch_odd (n : nat) (A : mat) (D : vec) (fixed_edge_reps : seq nat) (bm1 even_cutoff : nat)
    (glynn : bool) : seq K :=
  let oddloop := D 0%N in
  let oddV := A 0%N in
  let oddloop0 := D 1%N in
  let oddV0 := A 1%N in
  let N_fixed := (2 * sumn fixed_edge_reps + 1)%N in
  let N_max := (N_fixed + 2 * bm1 + even_cutoff - 1)%N in
  let edge_reps := [:: bm1.-1, 1 & fixed_edge_reps]%N in
  let steps := (bm1 * \prod_(r <- (1 :: fixed_edge_reps)) r.+1)%N in
  let binoms := precompute_binoms (maxn_seq edge_reps + even_cutoff) in
  let len := (2 * bm1 + even_cutoff)%N in
  let H := for_ (sched steps) (fun=> 0 : K) (fun H j =>
    let kept := find_kept_edges j edge_reps in
    let edges_sum := sumn kept in
    let bp := binom_prod1 binoms edge_reps kept n in
    let delta := shift_kept glynn edge_reps kept in
    let s := size (nonzero_rows delta) in
    let AX_S := get_AX_S delta A in
    let H :=
      if (nth 0%N kept 0 == 0%N) && (nth 0%N kept 1 == 0%N) then
        let oddVX_S0 := get_XV delta oddV0 in                       (* get_submatrix_batch_odd0 *)
        let plus_minus := (-1) ^+ (N_fixed %/ 2 - edges_sum) in
        let f := f_loop_odd pt s AX_S AX_S (get_XV delta D) (get_V delta D) N_fixed oddloop0 oddVX_S0 N_fixed in
        upd1 H 0%N (H 0%N + bp * plus_minus * f)
      else H in
    let f_even := f_loop pt s AX_S AX_S (get_XV delta D) (get_V delta D) N_max in
    let f_odd := f_loop_odd pt s AX_S AX_S (get_XV delta D) (get_V delta D) N_max oddloop (get_XV delta oddV) in
    let Hnew := for_ (pyrange (2 * nth 0 kept 0 + 1)%N len) (fun=> 0) (fun Hnew N_det =>
      let N := (N_fixed + N_det)%N in
      let plus_minus := (-1) ^+ (N %/ 2 - edges_sum) in
      let n_det_binom_prod := (binoms ((N_det - 1) %/ 2)%N (nth 0%N kept 0))%:R * bp in
      upd1 Hnew N_det (Hnew N_det + n_det_binom_prod * plus_minus *
        (if (N %% 2 == 0)%N then f_even (N %/ 2)%N else f_odd N))) in
    fun i => H i + Hnew i) in
  mkseq (if glynn then glynn_scale N_fixed len H else H) len.

(** [np.nonzero(list(fixed_reps) + [1])[0]] *)
Definition batch_nz (fixed_reps : seq nat) : seq nat :=
  [seq i <- iota 0 (size fixed_reps).+1 | nth 0%N (rcons fixed_reps 1%N) i != 0%N].

(** loop_hafnian_batch.py:269-304 [loop_hafnian_batch(A, D, fixed_reps, N_cutoff, glynn)]; A is n x n,
    D has length [lenD]. *)
Definition loop_hafnian_batch (n : nat) (A : mat) (D : vec) (lenD : nat) (fixed_reps : seq nat) (N_cutoff : nat)
    (glynn : bool) : res (seq K) :=
  if lenD != n then Err AssertionError
  else if (size fixed_reps).+1 != n then Err AssertionError
  else
    let nz := batch_nz fixed_reps in
    let Anz i j := A (nth 0%N nz i) (nth 0%N nz j) in
    let Dnz i := D (nth 0%N nz i) in
    let fixed_reps_nz := [seq nth 0%N fixed_reps i | i <- take (size nz).-1 nz] in
    match matched_reps fixed_reps_nz with
    | Some (fixed_edges, fixed_m_reps, None) =>
        let edges := add_batch_edges_even fixed_edges in
        Ok (calc_batch_even (size edges) (fun i j => Anz (nth 0%N edges i) (nth 0%N edges j))
              (fun i => Dnz (nth 0%N edges i)) fixed_m_reps (N_cutoff %/ 2) (N_cutoff %% 2) glynn)
    | Some (fixed_edges, fixed_m_reps, Some oddmode) =>
        let edges := add_batch_edges_odd fixed_edges oddmode in
        (* batch_max = (N_cutoff - 1) // 2, hence batch_max + 1 = (N_cutoff + 1) // 2 *)
        Ok (calc_batch_odd (size edges) (fun i j => Anz (nth 0%N edges i) (nth 0%N edges j))
              (fun i => Dnz (nth 0%N edges i)) fixed_m_reps ((N_cutoff + 1) %/ 2) (1 - N_cutoff %% 2) glynn)
    | None => Err RuntimeError     (* not reachable *)
    end.

(** ** The gamma variants: [D] is a matrix with [n_D] rows, results are indexed [k, N_det] *)
Definition glynn_scale2 (N_fixed nD len : nat) (H : mat) : mat :=
  for_ (iota 0 len) H (fun H j k i => if (i == j) && (k < nD)%N then H k i * 2%:R^-1 ^+ ((N_fixed + j) %/ 2) else H k i).

(** loop_hafnian_batch_gamma.py:52-126 [_calc_loop_hafnian_batch_gamma_even] *)
Definition calc_batch_gamma_even (n : nat) (A : mat) (nD : nat) (D : mat) (fixed_edge_reps : seq nat)
    (batch_max odd_cutoff : nat) (glynn : bool) : seq (seq K) :=
  let oddloop k := D k 0%N in
  let oddV := A 0%N in
  let N_fixed := (2 * sumn fixed_edge_reps)%N in
  let N_max := (N_fixed + 2 * batch_max + odd_cutoff)%N in
  let edge_reps := batch_max :: fixed_edge_reps in
  let steps := (\prod_(r <- edge_reps) r.+1)%N in
  let binoms := precompute_binoms (maxn_seq edge_reps + odd_cutoff) in
  let len := (2 * batch_max + odd_cutoff + 1)%N in
  let H := for_ (sched steps) (fun _ _ => 0 : K) (fun H j =>
    let kept := find_kept_edges j edge_reps in
    let edges_sum := sumn kept in
    let bp := binom_prod1 binoms edge_reps kept n in
    let delta := shift_kept glynn edge_reps kept in
    let s := size (nonzero_rows delta) in
    let AX_S := get_AX_S delta A in
    let Hnew := for_ (iota 0 nD) (fun _ _ => 0) (fun Hnew k =>
      let XD_S := get_XV delta (D k) in                             (* get_Dsubmatrices(delta, D[k, :]) *)
      let D_S := get_V delta (D k) in
      let f_even := f_loop pt s AX_S AX_S XD_S D_S N_max in
      let f_odd := f_loop_odd pt s AX_S AX_S XD_S D_S N_max (oddloop k) (get_XV delta oddV) in
      for_ (pyrange (2 * nth 0 kept 0)%N len) Hnew (fun Hnew N_det =>
        let N := (N_fixed + N_det)%N in
        let plus_minus := (-1) ^+ (N %/ 2 - edges_sum) in
        let n_det_binom_prod := (binoms (N_det %/ 2)%N (nth 0%N kept 0))%:R * bp in
        upd2 Hnew k N_det (Hnew k N_det + n_det_binom_prod * plus_minus *
          (if (N_det %% 2 == 0)%N then f_even (N %/ 2)%N else f_odd N)))) in
    fun k i => H k i + Hnew k i) in
  let H := if glynn then glynn_scale2 N_fixed nD len H else H in
  mkseq (fun k => mkseq (H k) len) nD.

(** loop_hafnian_batch_gamma.py:129-220 [_calc_loop_hafnian_batch_gamma_odd]; [bm1 = batch_max + 1] *)
Definition calc_batch_gamma_odd (n : nat) (A : mat) (nD : nat) (D : mat) (fixed_edge_reps : seq nat)
    (bm1 even_cutoff : nat) (glynn : bool) : seq (seq K) :=
  let oddloop k := D k 0%N in
  let oddV := A 0%N in
  let oddloop0 k := D k 1%N in
  let oddV0 := A 1%N in
  let N_fixed := (2 * sumn fixed_edge_reps + 1)%N in
  let N_max := (N_fixed + 2 * bm1 + even_cutoff - 1)%N in
  let edge_reps := [:: bm1.-1, 1 & fixed_edge_reps]%N in
  let steps := (bm1 * \prod_(r <- (1 :: fixed_edge_reps)) r.+1)%N in
  let binoms := precompute_binoms (maxn_seq edge_reps + even_cutoff) in
  let len := (2 * bm1 + even_cutoff)%N in
  let H := for_ (sched steps) (fun _ _ => 0 : K) (fun H j =>
    let kept := find_kept_edges j edge_reps in
    let edges_sum := sumn kept in
    let bp := binom_prod1 binoms edge_reps kept n in
    let delta := shift_kept glynn edge_reps kept in
    let s := size (nonzero_rows delta) in
    let AX_S := get_AX_S delta A in
    let Hnew := for_ (iota 0 nD) (fun _ _ => 0) (fun Hnew k =>
      let XD_S := get_XV delta (D k) in
      let D_S := get_V delta (D k) in
      let Hnew :=
        if (nth 0%N kept 0 == 0%N) && (nth 0%N kept 1 == 0%N) then
          let oddVX_S0 := get_XV delta oddV0 in
          let plus_minus := (-1) ^+ (N_fixed %/ 2 - edges_sum) in
          let f := f_loop_odd pt s AX_S AX_S XD_S D_S N_fixed (oddloop0 k) oddVX_S0 N_fixed in
          upd2 Hnew k 0%N (Hnew k 0%N + bp * plus_minus * f)
        else Hnew in
      let f_even := f_loop pt s AX_S AX_S XD_S D_S N_max in
      let f_odd := f_loop_odd pt s AX_S AX_S XD_S D_S N_max (oddloop k) (get_XV delta oddV) in
      for_ (pyrange (2 * nth 0 kept 0 + 1)%N len) Hnew (fun Hnew N_det =>
        let N := (N_fixed + N_det)%N in
        let plus_minus := (-1) ^+ (N %/ 2 - edges_sum) in
        let n_det_binom_prod := (binoms ((N_det - 1) %/ 2)%N (nth 0%N kept 0))%:R * bp in
        upd2 Hnew k N_det (Hnew k N_det + n_det_binom_prod * plus_minus *
          (if (N %% 2 == 0)%N then f_even (N %/ 2)%N else f_odd N)))) in
    fun k i => H k i + Hnew k i) in
  let H := if glynn then glynn_scale2 N_fixed nD len H else H in
  mkseq (fun k => mkseq (H k) len) nD.

(** loop_hafnian_batch_gamma.py:223-269 [loop_hafnian_batch_gamma(A, D, fixed_reps, N_cutoff, glynn)]; D is
    nD x [lenD]. *)
Definition loop_hafnian_batch_gamma (n : nat) (A : mat) (nD : nat) (D : mat) (lenD : nat) (fixed_reps : seq nat)
    (N_cutoff : nat) (glynn : bool) : res (seq (seq K)) :=
  if lenD != n then Err AssertionError
  else if (size fixed_reps).+1 != n then Err AssertionError
  else
    let nz := batch_nz fixed_reps in
    let Anz i j := A (nth 0%N nz i) (nth 0%N nz j) in
    let Dnz k i := D k (nth 0%N nz i) in
    let fixed_reps_nz := [seq nth 0%N fixed_reps i | i <- take (size nz).-1 nz] in
    match matched_reps fixed_reps_nz with
    | Some (fixed_edges, fixed_m_reps, None) =>
        let edges := add_batch_edges_even fixed_edges in
        Ok (calc_batch_gamma_even (size edges) (fun i j => Anz (nth 0%N edges i) (nth 0%N edges j)) nD
              (fun k i => Dnz k (nth 0%N edges i)) fixed_m_reps (N_cutoff %/ 2) (N_cutoff %% 2) glynn)
    | Some (fixed_edges, fixed_m_reps, Some oddmode) =>
        let edges := add_batch_edges_odd fixed_edges oddmode in
        Ok (calc_batch_gamma_odd (size edges) (fun i j => Anz (nth 0%N edges i) (nth 0%N edges j)) nD
              (fun k i => Dnz k (nth 0%N edges i)) fixed_m_reps ((N_cutoff + 1) %/ 2) (1 - N_cutoff %% 2) glynn)
    | None => Err RuntimeError
    end.
End Field.
