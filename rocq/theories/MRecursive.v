(** Model of thewalrus/_hafnian.py: recursive_hafnian and solve (exact arithmetic in a commutative ring). *)
From mathcomp Require Import all_ssreflect all_algebra.
From Verif Require Import PyBase ArrLoop.
Set Implicit Arguments.
Unset Strict Implicit.
Unset Printing Implicit Defensive.
Import GRing.Theory.
Local Open Scope ring_scope.

Section Model.
Variable R : comRingType.
Notation mat := (nat -> nat -> R).
Notation vec := (nat -> R).

(** _hafnian.py:1011-1045 [solve(b, s, w, g, n)] with s = 2 p (the code halts at s = 0 and calls itself on
    s - 2).  [b] is an array of rows; [c[i] = b[...]] copies a row. *)
Fixpoint solve (p : nat) (b : mat) (w : R) (g : vec) (n : nat) : R :=
  if p is p'.+1 then
    let s := p.*2 in
    let c := (for_ (pyrange 1 (s - 2)) ((fun _ _ => 0) : mat, 0%N) (fun ci j =>
                for_ (iota 0 j) ci (fun ci k =>
                  let: (c, i) := ci in
                  (fun a => if a == i then b ((j + 1) * (j + 2) %/ 2 + k + 2)%N else c a, i.+1)))).1 in
    let h := solve p' c (- w) g n in
    let e := for_ (iota 0 n) g (fun e u => for_ (iota 0 (n - u)) e (fun e v =>
                upd1 e (u + v + 1)%N (e (u + v + 1)%N + g u * b 0%N v))) in
    let c := for_ (pyrange 1 (s - 2)) c (fun c j => for_ (iota 0 j) c (fun c k =>
               for_ (iota 0 n) c (fun c u => for_ (iota 0 (n - u)) c (fun c v =>
                 upd2 c (j * (j - 1) %/ 2 + k)%N (u + v + 1)%N
                   (c (j * (j - 1) %/ 2 + k)%N (u + v + 1)%N
                    + (b ((j + 1) * (j + 2) %/ 2)%N u * b ((k + 1) * (k + 2) %/ 2 + 1)%N v
                       + b ((k + 1) * (k + 2) %/ 2)%N u * b ((j + 1) * (j + 2) %/ 2 + 1)%N v)))))) in
    h + solve p' c w e n
  else w * g n.

(** _hafnian.py:979-1008 [recursive_hafnian(A)] for A of shape (nl, nc) *)
Definition recursive_hafnian (nl nc : nat) (A : mat) : res R :=
  if nl != nc then Err ValueError
  else if (nl %% 2 != 0)%N then Err ValueError
  else
    let n := (nl %/ 2)%N in
    let z := for_ (pyrange 1 (2 * n)) ((fun _ _ => 0) : mat) (fun z j =>
       let ind := (j * (j - 1) %/ 2)%N in
       for_ (iota 0 j) z (fun z k => upd2 z (ind + k)%N 0%N (A j k))) in
    let g := upd1 (fun=> 0) 0%N 1 in
    Ok (solve n z 1 g n).
End Model.
