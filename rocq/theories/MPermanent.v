(** Model of thewalrus/_permanent.py.  Matrices are (size, entries); arithmetic is exact. *)
From Coq Require Import PeanoNat.
From mathcomp Require Import all_ssreflect all_algebra.
From Verif Require Import PyBase ArrLoop MPowerHaf MHafnian.
Set Implicit Arguments.
Unset Strict Implicit.
Unset Printing Implicit Defensive.
Import GRing.Theory Num.Theory.
Local Open Scope ring_scope.

Section Ring.
Variable R : comRingType.
Notation mat := (nat -> nat -> R).
Notation vec := (nat -> R).

(** [(a > b) - (a < b)] as a scalar *)
Definition pycmp (a b : nat) : R := (b < a)%N%:R - (a < b)%N%:R.

(** [for i in range(n): row_comb[i] += new_vector[i] * direction] *)
Definition add_row (n : nat) (row_comb new_vector : vec) (direction : R) : vec :=
  for_ (iota 0 n) row_comb (fun rc i => upd1 rc i (rc i + new_vector i * direction)).

(** np.prod of a vector of length n *)
Definition np_prod (n : nat) (v : vec) : R := for_ (iota 0 n) 1 (fun p i => p * v i).

(** state of the Gray-code loops: row_comb, total, old_grey, sign *)
Definition gstate := (vec * R * nat * R)%type.

(** _permanent.py:87-127 [perm_ryser(M)].  [list.index] raises ValueError when the element is absent. *)
Definition perm_ryser (n : nat) (M : mat) : res R :=
  if n == 0%N then Ok 1
  else
    let powers := [seq (2 ^ i)%N | i <- iota 0 n] in
    let num_loops := (2 ^ n)%N in
    bind (foldM (fun (st : gstate) k =>
      let: (row_comb, total, old_grey, sign) := st in
      let bin_index := (k.+1 %% num_loops)%N in
      let reduced := np_prod n row_comb in
      let total := total + sign * reduced in
      let new_grey := Nat.lxor bin_index (bin_index %/ 2) in
      let grey_diff := Nat.lxor old_grey new_grey in
      if grey_diff \notin powers then Err ValueError
      else
        let grey_diff_index := index grey_diff powers in
        let direction := pycmp old_grey new_grey in
        let row_comb := add_row n row_comb (M grey_diff_index) direction in
        Ok (row_comb, total, new_grey, - sign))
      (fun=> 0, 0, 0%N, 1) (iota 0 num_loops))
    (fun st => let: (_, total, _, _) := st in Ok total).
End Ring.

Section Field.
Variable K : fieldType.
Notation mat := (nat -> nat -> K).
Notation vec := (nat -> K).

(** _permanent.py:131-168 [perm_bbfg(M)] *)
Definition perm_bbfg (n : nat) (M : mat) : res K :=
  if n == 0%N then Ok 1
  else
    let powers := [seq (2 ^ i)%N | i <- iota 0 n] in
    let num_loops := (2 ^ (n - 1))%N in
    bind (foldM (fun (st : gstate K) bin_index =>
      let: (row_comb, total, old_gray, sign) := st in
      let reduced := np_prod n row_comb in
      let total := total + sign * reduced in
      let new_gray := Nat.lxor bin_index (bin_index %/ 2) in
      let gray_diff := Nat.lxor old_gray new_gray in
      if gray_diff \notin powers then Err ValueError
      else
        let gray_diff_index := index gray_diff powers in
        let direction := 2%:R * pycmp K old_gray new_gray in
        let row_comb := add_row n row_comb (M gray_diff_index) direction in
        Ok (row_comb, total, new_gray, - sign))
      (fun i => for_ (iota 0 n) 0 (fun s r => s + M r i), 0, 0%N, 1) (iota 1 num_loops))
    (fun st => let: (_, total, _, _) := st in Ok (total / num_loops%:R)).
End Field.

Section Complex.
Variable C : numClosedFieldType.
Notation mat := (nat -> nat -> C).
Notation vec := (nat -> C).

(** _permanent.py:34-83 [perm(A, method)]; [bbfg] is [method == "bbfg"] *)
Definition perm (A : pyobj C) (bbfg : bool) : res C :=
  match A with
  | PyOther => Err TypeError
  | PyArr A =>
    let n := nrows A in
    if n != ncols A then Err ValueError
    else if has (fun i => has (fun j => ent A i j == None) (iota 0 (ncols A))) (iota 0 n) then Err ValueError
    else
      let A := vals A in
      if n == 0%N then Ok 1
      else if n == 1%N then Ok (A 0 0)%N
      else if n == 2%N then Ok (A 0%N 0%N * A 1%N 1%N + A 0%N 1%N * A 1%N 0%N)
      else if n == 3%N then
        Ok (A 0%N 2%N * A 1%N 1%N * A 2%N 0%N
          + A 0%N 1%N * A 1%N 2%N * A 2%N 0%N
          + A 0%N 2%N * A 1%N 0%N * A 2%N 1%N
          + A 0%N 0%N * A 1%N 2%N * A 2%N 1%N
          + A 0%N 1%N * A 1%N 0%N * A 2%N 2%N
          + A 0%N 0%N * A 1%N 1%N * A 2%N 2%N)
      else if ~~ bbfg then perm_ryser n A else perm_bbfg n A
  end.

Variable sched : nat -> seq nat.

(** np.vstack([np.hstack([O, A]), np.hstack([A.T, O])]) for an n x n matrix A *)
Definition bipartite (n : nat) (A : mat) : mat := fun i j =>
  if (i < n)%N then (if (j < n)%N then 0 else A i (j - n)%N)
  else (if (j < n)%N then A j (i - n)%N else 0).

(** _permanent.py:171-195 [permanent_repeated(A, rpt)], with [rpt] a list ([rpt * 2] concatenates);
    default tolerances and glynn=True in hafnian_repeated. *)
Definition permanent_repeated (n : nat) (A : mat) (rpt : seq rat) : res C :=
  hafnian_repeated sched (PyArr (arr_of (2 * n) (2 * n) (bipartite n A))) (rpt ++ rpt) None false (rtol0 C) (atol0 C) true.

(** _permanent.py:199-223 [brs(A, E)]: A is m x n, E is n x n; [prange] may run in any order *)
Definition kept_rows (m j : nat) : seq nat :=
  let kept := find_kept_edges j (nseq m 1%N) in [seq i <- iota 0 m | nth 0%N kept i != 0%N].
(** entries of [Ay.conj().T @ Ay] where Ay = A[rows, :] *)
Definition gram (A : mat) (rows : seq nat) : mat := fun i j =>
  for_ rows 0 (fun s r => s + (A r i)^* * A r j).
Definition brs (m n : nat) (A E : mat) : res C :=
  foldM (fun total j =>
    let rows := kept_rows m j in
    let plusminus := (-1) ^+ ((m - size rows) %% 2) in
    bind (perm_bbfg n (fun i k => gram A rows i k + E i k)) (fun p => Ok (total + plusminus * p)))
  0 (sched (2 ^ m)%N).

(** _permanent.py:227-249 [ubrs(A)]: prange(1, steps) *)
Definition ubrs (m n : nat) (A : mat) : res C :=
  foldM (fun total j =>
    let j := j.+1 in
    let rows := kept_rows m j in
    let plusminus := (-1) ^+ ((m - size rows) %% 2) in
    bind (perm_bbfg n (gram A rows)) (fun p => Ok (total + plusminus * p)))
  0 (sched (2 ^ m - 1)%N).

(** list(chain( *[[i]*j for i, j in enumerate(n) if j > 0])) *)
Definition mode_list (n : seq nat) : seq nat := flatten [seq nseq ij.2 ij.1 | ij <- zip (iota 0 (size n)) n & (0 < ij.2)%N].
Definition fac_prod (n : seq nat) : C := for_ n 1 (fun p k => p * (k`!)%:R).

(** _permanent.py:252-279 [fock_prob(n, m, U)]; U is M x M and the occupied modes must be in range
    (NumPy raises IndexError otherwise) *)
Definition fock_prob (n m : seq nat) (M : nat) (U : mat) : res C :=
  if sumn n != sumn m then Err ValueError
  else
    let in_modes := mode_list n in
    let out_modes := mode_list m in
    if ~~ all (fun i => (i < M)%N) in_modes || ~~ all (fun i => (i < M)%N) out_modes then Err IndexError
    else
      let Umn : mat := fun i j => U (nth 0%N out_modes i) (nth 0%N in_modes j) in
      bind (perm (PyArr (arr_of (size out_modes) (size in_modes) Umn)) true) (fun p =>
      Ok (`|p| ^+ 2 / (fac_prod n * fac_prod m))).

(** _permanent.py:282-321 [fock_threshold_prob(n, d, T)]; T is Mout x Min *)
Definition fock_threshold_prob (n d : seq nat) (Mout Min : nat) (T : mat) : res C :=
  if size n != Min then Err ValueError
  else if size d != Mout then Err ValueError
  else if (Min < Mout)%N then Err ValueError
  else
    let in_modes := mode_list n in
    let c := [seq i <- iota 0 Mout | (0 < nth 0%N d i)%N] in
    let A : mat := fun i j => T (nth 0%N c i) (nth 0%N in_modes j) in
    let E : mat := fun i j => (i == j)%:R - gram T (iota 0 Mout) i j in
    if allclose (rtol0 C) (atol0 C) Min Min E (fun _ _ => 0) then
      bind (ubrs (size c) (size in_modes) A) (fun v => Ok ('Re v / fac_prod n))
    else
      let E_n : mat := fun i j => E (nth 0%N in_modes i) (nth 0%N in_modes j) in
      bind (brs (size c) (size in_modes) A E_n) (fun v => Ok ('Re v / fac_prod n)).
End Complex.
