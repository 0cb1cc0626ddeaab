(** Model of quantum/fock_tensors.py: loss_mat, update_probabilities_with_loss, _update_1d, update_probabilities_with_noise
    (exact real arithmetic).  A multidimensional array is its shape and a function from multi-indices. *)
From mathcomp Require Import all_ssreflect all_algebra.
From Verif Require Import PyBase ArrLoop.
Set Implicit Arguments.
Unset Strict Implicit.
Unset Printing Implicit Defensive.
Import GRing.Theory Num.Theory.
Local Open Scope ring_scope.

Section Model.
Variable R : realFieldType.
Notation arr := (seq nat -> R).

(** fock_tensors.py:434-459 [loss_mat(eta, cutoff)] *)
Definition loss_mat (eta : R) (cutoff : nat) : res (nat -> nat -> R) :=
  if (eta < 0) || (1 < eta) then Err ValueError else
  if eta == 1 then Ok (fun i j => (i == j)%:R) else
  if cutoff == 0%N then Err IndexError else      (* lm[:, 0] of a 0 x 0 array *)
  let mu := 1 - eta in
  let lm := fun i j => if j == 0%N then mu ^+ i else 0 in
  Ok (for_ (iota 0 cutoff) lm (fun lm i => for_ (pyrange 1 (i + 1)) lm (fun lm j =>
        upd2 lm i j (lm i (j - 1)%N * (eta / mu) * (i - j + 1)%:R / j%:R)))).

(** np.einsum with two operands, explicit output and an ellipsis on the second operand and the output.
    Labels are letters, 'a' = 0.  All labelled axes have length c.  A label that is repeated in an operand
    selects a diagonal; a label absent from the output is summed; a repeated output label is an error. *)
Fixpoint sum_labels (c : nat) (ls : seq nat) (env : nat -> nat) (F : (nat -> nat) -> R) : R :=
  if ls is l :: ls' then \sum_(v < c) sum_labels c ls' (fun l' => if l' == l then val v else env l') F else F env.
Definition einsum2 (c : nat) (in1 in2 out : seq nat) (A B : arr) : res arr :=
  if ~~ uniq out then Err ValueError else
  if ~~ all (fun l => l \in in1 ++ in2) out then Err ValueError else
  Ok (fun idx =>
    let env := fun l => nth 0%N idx (index l out) in
    sum_labels c (undup [seq l <- in1 ++ in2 | l \notin out]) env
      (fun env => A (map env in1) * B (map env in2 ++ drop (size out) idx))).

(** alphabet[:i] *)
Definition alphabet (i : nat) : seq nat := iota 0 (minn i 26).
Definition ch_i : nat := 8.
Definition ch_j : nat := 9.

(** fock_tensors.py:462-488 [update_probabilities_with_loss(etas, probs)].
    Simplification: axes of length 1 that einsum would broadcast are reported as a ValueError. *)
Definition update_probabilities_with_loss (etas : seq R) (shape : seq nat) (probs : arr) : res arr :=
  if size shape != size etas then Err ValueError else
  if shape is cutoff :: _ then
    foldM (fun probs i =>
      bind (loss_mat (nth 0 etas i) cutoff) (fun lm =>
      if nth 0%N shape i != cutoff then Err ValueError else
      einsum2 cutoff [:: ch_i; ch_j] (rcons (alphabet i) ch_i) (rcons (alphabet i) ch_j)
        (fun ij => lm (nth 0%N ij 0) (nth 0%N ij 1)) probs)) probs (iota 0 (size etas))
  else Err IndexError.

(** fock_tensors.py:491-507 [_update_1d(probs, one_d, cutoff)]; probs[i] is the sub-array at first index i *)
Definition update_1d (probs : arr) (one_d : seq R) (cutoff : nat) : arr :=
  for_ (iota 0 cutoff) (fun=> 0) (fun (new_d : arr) i =>
    for_ (iota 0 (minn i.+1 (size one_d))) new_d (fun (new_d : arr) j =>
      fun idx => if nth 0%N idx 0 == i then new_d idx + probs ((i - j)%N :: behead idx) * nth 0 one_d j else new_d idx)).

(** np.transpose(probs, axes=perm) for perm exchanging 0 and k *)
Definition swap0 (k : nat) (idx : seq nat) : seq nat :=
  [seq nth 0%N idx (if a == 0%N then k else if a == k then 0%N else a) | a <- iota 0 (size idx)].
Definition transpose0 (k : nat) (a : arr) : arr := fun idx => a (swap0 k idx).

(** fock_tensors.py:510-537 [update_probabilities_with_noise(probs_noise, probs)] *)
Definition update_probabilities_with_noise (probs_noise : seq (seq R)) (shape : seq nat) (probs : arr) : res arr :=
  if shape is cutoff :: _ then
    if size shape != size probs_noise then Err ValueError else
    Ok (for_ (iota 0 (size shape)) probs (fun probs k =>
      let one_d := nth [::] probs_noise k in
      transpose0 k (update_1d (transpose0 k probs) one_d cutoff)))
  else Err IndexError.
End Model.
