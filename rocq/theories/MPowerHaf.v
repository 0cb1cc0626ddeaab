(** Model of the power-trace hafnian algorithms of thewalrus/_hafnian.py.
    Scalars: a field [K]; matrices: functions of two indices with an explicit size; int64 overflow and
    floating-point rounding are not modelled.  [pt s M n] stands for [charpoly.powertrace(M, n)] with
    [len(M) = s]; it is instantiated by the model of that function in PropPowerHaf.v. *)
From mathcomp Require Import all_ssreflect all_algebra.
From Verif Require Import PyBase ArrLoop.
Set Implicit Arguments.
Unset Strict Implicit.
Unset Printing Implicit Defensive.
Import GRing.Theory.
Local Open Scope ring_scope.

(** ** Integer kernels *)
(** _hafnian.py:27-45 [nb_binom]; arguments are natural numbers, so [k < 0] cannot happen. *)
Definition nb_binom (n k : nat) : nat :=
  if (n < k)%N then 0%N
  else if (k == 0%N) || (k == n) then 1%N
  else for_ (iota 0 (minn k (n - k))) 1%N (fun binom i => ((binom * (n - i)) %/ i.+1)%N).

(** _hafnian.py:49-63 [precompute_binoms] *)
Definition precompute_binoms (max_binom : nat) : nat -> nat -> nat :=
  for_ (iota 0 max_binom.+1) (fun _ _ => 0%N) (fun b i =>
    for_ (iota 0 max_binom.+1) b (fun b j => upd2 b i j (nb_binom i j))).

(** [sorted(zip(reps, x), reverse=True)]: descending lexicographic order on (rep, index) *)
Definition lexge (p q : nat * nat) : bool := (q.1 < p.1)%N || ((q.1 == p.1) && (q.2 <= p.2)%N).
Definition sort_desc (l : seq (nat * nat)) : seq (nat * nat) := sort lexge l.

(** _hafnian.py:116-146: the while loop of [matched_reps]; the list holds the pairs (reps[i], x[i]);
    the state is (list, edgesA, edgesB, edgereps).  Every iteration removes at least 2 units of
    repetition, so [fuel] = sum(reps) iterations are enough (theorem). *)
Record mrstate := MR { mr_l : seq (nat * nat); mr_A : seq nat; mr_B : seq nat; mr_r : seq nat }.

Definition mr_guard (l : seq (nat * nat)) : bool :=
  (1 < size l)%N || ((size l == 1%N) && (1 < (nth (0, 0)%N l 0).1)%N).

Definition mr_body (st : mrstate) : mrstate :=
  let l := sort_desc (mr_l st) in
  let r0 := (nth (0, 0)%N l 0).1 in let x0 := (nth (0, 0)%N l 0).2 in
  let r1 := (nth (0, 0)%N l 1).1 in let x1 := (nth (0, 0)%N l 1).2 in
  if (size l == 1%N) || (r1 * 2 < r0)%N then
    MR (if (r0 %% 2 == 0)%N then behead l else (1%N, x0) :: behead l)
       (rcons (mr_A st) x0) (rcons (mr_B st) x0) (rcons (mr_r st) (r0 %/ 2)%N)
  else
    MR (if (r1 < r0)%N then ((r0 - r1)%N, x0) :: drop 2 l else drop 2 l)
       (rcons (mr_A st) x0) (rcons (mr_B st) x1) (rcons (mr_r st) r1).

Fixpoint mr_loop (fuel : nat) (st : mrstate) : option mrstate :=
  if ~~ mr_guard (mr_l st) then Some st
  else if fuel is f.+1 then mr_loop f (mr_body st) else None.

(** _hafnian.py:80-159 [matched_reps(reps)]: (x, edgereps, oddmode). *)
Definition matched_reps (reps : seq nat) : option (seq nat * seq nat * option nat) :=
  if sumn reps == 0%N then Some ([::], [::], None)
  else
    let l := sort_desc (zip reps (iota 0 (size reps))) in
    let l := [seq p <- l | (0 < p.1)%N] in                                   (* remove zeros *)
    omap (fun st => (mr_A st ++ mr_B st, mr_r st,
                     if size (mr_l st) == 1%N then Some (nth (0, 0)%N (mr_l st) 0).2 else None))
         (mr_loop (sumn reps) (MR l [::] [::] [::])).

(** _hafnian.py:163-180 [find_kept_edges(j, reps)] *)
Definition find_kept_edges (j : nat) (reps : seq nat) : seq nat :=
  let st := for_ (rev [seq r.+1 | r <- reps]) (j, [::])
     (fun st base => let: (num, out) := st in ((num %/ base)%N, rcons out (num %% base)%N)) in
  rev st.2.

Section Field.
Variable K : fieldType.
Notation mat := (nat -> nat -> K).
Notation vec := (nat -> K).
Variable pt : nat -> mat -> nat -> seq K.

(** ** Polynomial coefficients *)
(** One pass of the outer loop in [f], [f_loop], [f_loop_odd] (_hafnian.py:200-208, 230-242, 269-284):
    the array [comb] has two rows used alternately, [count] is the current one. *)
Definition comb_pass (M jmax i : nat) (factor : K) (st : nat * mat) : nat * mat :=
  let: (count, comb) := st in
  let count := (1 - count)%N in
  let comb : mat := fun a b => if a == count then comb (1 - count)%N b else comb a b in
  let: (comb, _) := for_ (pyrange 1 jmax.+1) (comb, 1) (fun st j =>
     let: (comb, powfactor) := st in
     let powfactor := powfactor * (factor / j%:R) in
     (for_ (pyrange (i * j).+1 M.+2) comb (fun comb k =>
        upd2 comb count (k - 1) (comb count (k - 1)%N + comb (1 - count)%N (k - i * j - 1)%N * powfactor)),
      powfactor)) in
  (count, comb).

Definition comb0 : nat * mat := (0%N, fun a b => if (a == 0%N) && (b == 0%N) then 1 else 0).

(** _hafnian.py:184-209 [f(A, n)]; [s] = len(A).  The result is the row [comb[count, :]]. *)
Definition f (s : nat) (A : mat) (n : nat) : vec :=
  let powtrace := pt s A (n %/ 2).+1 in
  let: (count, comb) := for_ (pyrange 1 (n %/ 2).+1) comb0 (fun st i =>
     comb_pass (n %/ 2) (n %/ (2 * i)) i (nth 0 powtrace i / (2 * i)%:R) st) in
  comb count.

Definition fdot (s : nat) (u v : vec) : K := \sum_(i < s) u i * v i.
Definition vecmat (s : nat) (u : vec) (A : mat) : vec := fun j => \sum_(i < s) u i * A i j.
Definition matvec (s : nat) (A : mat) (u : vec) : vec := fun i => \sum_(j < s) A i j * u j.

(** _hafnian.py:213-243 [f_loop(AX, AX_S, XD_S, D_S, n)] (AX is a copy of AX_S) *)
Definition f_loop (s : nat) (AX AX_S : mat) (XD_S D_S : vec) (n : nat) : vec :=
  let powtrace := pt s AX (n %/ 2).+1 in
  let: (st, _) := for_ (pyrange 1 (n %/ 2).+1) (comb0, XD_S) (fun sx i =>
     let: (st, XD_S) := sx in
     let factor := nth 0 powtrace i / (2 * i)%:R + fdot s XD_S D_S / 2%:R in
     (comb_pass (n %/ 2) (n %/ (2 * i)) i factor st, vecmat s XD_S AX_S)) in
  st.2 st.1.

(** _hafnian.py:247-285 [f_loop_odd] *)
Definition f_loop_odd (s : nat) (AX AX_S : mat) (XD_S D_S : vec) (n : nat) (oddloop : K) (oddVX_S : vec) : vec :=
  let powtrace := pt s AX (n %/ 2).+1 in
  let: (st, _) := for_ (pyrange 1 n.+1) (comb0, D_S) (fun sx i =>
     let: (st, D_S) := sx in
     let: (factor, D_S) :=
       if i == 1%N then (oddloop, D_S)
       else if (i %% 2 == 0)%N then (nth 0 powtrace (i %/ 2) / i%:R + fdot s XD_S D_S / 2%:R, D_S)
       else (fdot s oddVX_S D_S, matvec s AX_S D_S) in
     (comb_pass n (n %/ i) i factor st, D_S)) in
  st.2 st.1.

(** ** Submatrices *)
Section Sub.
Variable kept : seq int.
Definition nonzero_rows : seq nat := [seq i <- iota 0 (size kept + size kept) | nth 0 (kept ++ kept) i != 0].
Definition n_nonzero : nat := (size nonzero_rows %/ 2)%N.
Definition kept_nonzero : seq int := [seq k <- kept | k != 0].

(** _hafnian.py:289-312 [get_AX_S] *)
Definition get_AX_S (A : mat) : mat :=
  let A_nonzero i j := A (nth 0%N nonzero_rows i) (nth 0%N nonzero_rows j) in
  fun i j => if (j < n_nonzero)%N then (nth 0 kept_nonzero j)%:~R * A_nonzero i (n_nonzero + j)%N
             else (nth 0 kept_nonzero (j - n_nonzero))%:~R * A_nonzero i (j - n_nonzero)%N.
(** _hafnian.py:339-341, 344-347: [X @ V] scaled, for a vector [V] (D or oddV) *)
Definition get_XV (V : vec) : vec :=
  let V_nonzero i := V (nth 0%N nonzero_rows i) in
  fun j => if (j < n_nonzero)%N then (nth 0 kept_nonzero j)%:~R * V_nonzero (n_nonzero + j)%N
           else (nth 0 kept_nonzero (j - n_nonzero))%:~R * V_nonzero (j - n_nonzero)%N.
(** _hafnian.py:337: [D[nonzero_rows]] *)
Definition get_V (V : vec) : vec := fun i => V (nth 0%N nonzero_rows i).
End Sub.

(** ** The sieves *)
(** The parallel loop [for j in numba.prange(steps)] with the reduction [H += Hnew]: [sched steps] is the
    order in which the [steps] iterations are executed and added. *)
Definition binom_prod (binoms : nat -> nat -> nat) (edge_reps kept : seq nat) (n : nat) : K :=
  for_ (iota 0 (n %/ 2)) 1 (fun p i => p * (binoms (nth 0%N edge_reps i) (nth 0%N kept i))%:R).
Definition shift_kept (glynn : bool) (edge_reps kept : seq nat) : seq int :=
  if glynn then [seq 2%:Z * (kr.1)%:Z - (kr.2)%:Z | kr <- zip kept edge_reps] else [seq k%:Z | k <- kept].
Definition maxn_seq (l : seq nat) : nat := foldr maxn 0%N l.

Definition steps_of (half : bool) (edge_reps : seq nat) : nat :=
  if half then (((head 0%N edge_reps + 2) %/ 2) * \prod_(r <- behead edge_reps) r.+1)%N
  else (\prod_(r <- edge_reps) r.+1)%N.

(** _hafnian.py:417-467 [_calc_hafnian(A, edge_reps, glynn)]; [n = A.shape[0]] *)
Definition calc_hafnian (sched : nat -> seq nat) (n : nat) (A : mat) (edge_reps : seq nat) (glynn : bool) : K :=
  let N := (2 * sumn edge_reps)%N in
  let binoms := precompute_binoms (maxn_seq edge_reps).+1 in
  let H := for_ (sched (steps_of glynn edge_reps)) 0 (fun H j =>
    let kept := find_kept_edges j edge_reps in
    let edge_sum := sumn kept in
    let bp := binom_prod binoms edge_reps kept n in
    let kept_edges := shift_kept glynn edge_reps kept in
    let AX_S := get_AX_S kept_edges A in
    let prefac := (-1) ^+ (N %/ 2 - edge_sum) * bp in
    let prefac := if glynn && (head 0 kept_edges == 0) then prefac * 2%:R^-1 else prefac in
    H + prefac * f (size (nonzero_rows kept_edges)) AX_S N (N %/ 2)%N) in
  if glynn then H * 2%:R^-1 ^+ (N %/ 2 - 1) else H.

(** _hafnian.py:513-577 [_calc_loop_hafnian(A, D, edge_reps, oddloop, oddV, glynn)]; [odd] packs
    (oddloop, oddV). *)
Definition calc_loop_hafnian (sched : nat -> seq nat) (n : nat) (A : mat) (D : vec) (edge_reps : seq nat)
    (odd : option (K * vec)) (glynn : bool) : K :=
  let N := (2 * sumn edge_reps + odd)%N in
  let binoms := precompute_binoms (maxn_seq edge_reps).+1 in
  let H := for_ (sched (steps_of (glynn && ~~ odd) edge_reps)) 0 (fun H j =>
    let kept := find_kept_edges j edge_reps in
    let edge_sum := sumn kept in
    let bp := binom_prod binoms edge_reps kept n in
    let kept_edges := shift_kept glynn edge_reps kept in
    let s := size (nonzero_rows kept_edges) in
    let AX_S := get_AX_S kept_edges A in
    let XD_S := get_XV kept_edges D in
    let D_S := get_V kept_edges D in
    let prefac := (-1) ^+ (N %/ 2 - edge_sum) * bp in
    let Hnew := match odd with
      | Some (oddloop, oddV) => prefac * f_loop_odd s AX_S AX_S XD_S D_S N oddloop (get_XV kept_edges oddV) N
      | None =>
          let prefac := if glynn && (head 0 kept_edges == 0) then prefac * 2%:R^-1 else prefac in
          prefac * f_loop s AX_S AX_S XD_S D_S N (N %/ 2)%N
      end in
    H + Hnew) in
  if glynn then match odd with None => H * 2%:R^-1 ^+ (N %/ 2 - 1) | Some _ => H * 2%:R^-1 ^+ (N %/ 2) end
  else H.

(** _hafnian.py:470-507 [_haf(A, reps, glynn)]; A is n x n. *)
Definition haf_ (sched : nat -> seq nat) (n : nat) (A : mat) (reps : option (seq nat)) (glynn : bool) : res K :=
  let reps := if reps is Some r then r else nseq n 1%N in
  let N := sumn reps in
  if N == 0%N then Ok 1
  else if (N %% 2 == 1)%N then Ok 0
  else if n != size reps then Err AssertionError
  else match matched_reps reps with
    | Some (x, edge_reps, oddmode) =>
        Ok (calc_hafnian sched (size x) (fun i j => A (nth 0%N x i) (nth 0%N x j)) edge_reps glynn)
    | None => Err RuntimeError     (* not reachable: theorem matched_reps_total *)
    end.

(** _hafnian.py:581-631 [loop_hafnian(A, D, reps, glynn)]; A is n x n, D has length [snd D]. *)
Definition loop_hafnian (sched : nat -> seq nat) (n : nat) (A : mat) (D : option (vec * nat)) (reps : option (seq nat))
    (glynn : bool) : res K :=
  let reps := if reps is Some r then r else nseq n 1%N in
  let: (D, lenD) := if D is Some d then d else (fun i => A i i, n) in
  let N := sumn reps in
  if N == 0%N then Ok 1
  else if N == 1%N then Ok (D (index 1%N reps))
  else if n != size reps then Err AssertionError
  else if lenD != n then Err AssertionError
  else match matched_reps reps with
    | Some (x, edge_reps, oddmode) =>
        let odd := omap (fun o => (D o, (fun i => A o (nth 0%N x i)) : vec)) oddmode in
        Ok (calc_loop_hafnian sched (size x) (fun i j => A (nth 0%N x i) (nth 0%N x j))
              (fun i => D (nth 0%N x i)) edge_reps odd glynn)
    | None => Err RuntimeError
    end.
End Field.
