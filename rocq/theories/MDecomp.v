(** Model of thewalrus/decompositions.py.  The numerical linear-algebra routines called by the code (numpy/scipy eigvalsh, eigh,
    eigvals, svd, sqrtm, schur, polar, qr, argsort, angle and exp) are parameters; their documented contracts are in
    SpecDecomp.v.  Arithmetic is exact. *)
From mathcomp Require Import all_ssreflect all_algebra.
From Verif Require Import Prelude PyBase ArrLoop MHafnian MHermite MSymplectic.
Set Implicit Arguments.
Unset Strict Implicit.
Unset Printing Implicit Defensive.
Import GRing.Theory Num.Theory.
Local Open Scope ring_scope.

Section Decomp.
Variable C : numClosedFieldType.
Notation mat := (nat -> nat -> C).
Notation vec := (nat -> C).
Variable eigvalsh : nat -> mat -> seq C.            (* np.linalg.eigvalsh *)
Variable eigh : nat -> mat -> vec * mat.            (* np.linalg.eigh: eigenvalues, eigenvectors *)
Variable eigvals : nat -> mat -> seq C.             (* np.linalg.eigvals of a real matrix *)
Variable svd : nat -> mat -> mat * vec * mat.       (* np.linalg.svd: u, d, v with A = u diag(d) v *)
Variable sqrtm : nat -> mat -> mat.                 (* scipy.linalg.sqrtm *)
Variable schur : nat -> mat -> mat * mat.           (* scipy.linalg.schur of a real matrix: T, Z with A = Z T Z^T *)
Variable polar_left : nat -> mat -> mat * mat.      (* scipy.linalg.polar(S, side="left"): u, p with S = p u *)
Variable qr : nat -> mat -> mat * mat.              (* scipy.linalg.qr: q, r *)
Variable argsort : nat -> vec -> seq nat.           (* np.argsort of an array of the given length *)
Variable angle : C -> C.                            (* np.angle *)
Variable expi : C -> C.                             (* x |-> np.exp(1j * x) *)

(** np.diag(d) *)
Definition np_diag (d : vec) : mat := fun i j => if i == j then d i else 0.

(** decompositions.py:50-102 [williamson(V, rtol, atol)], V of shape n x m *)
Definition williamson (rtol atol : C) (n m : nat) (V : mat) : res (mat * mat) :=
  if n != m then Err ValueError else
  if ~~ allclose rtol atol n n V (trn V) then Err ValueError else
  if odd n then Err ValueError else
  let N := n./2 in
  let omega := sympmat C N in
  let vals := eigvalsh n V in
  if ~~ all (fun v => 0 < v) vals then Err ValueError else
  let M12 := real_if_close_mat n (sqrtm n V) in
  bind (np_inv n M12) (fun Mm12 =>
  let Gamma := mmul n (mmul n Mm12 omega) Mm12 in
  let: (a, Z) := schur n Gamma in
  let perm := for_ (iota 0 N) (fun i => i) (fun perm i =>
    if a (2 * i)%N (2 * i + 1)%N <= 0
    then upd1 (upd1 perm (2 * i)%N (perm (2 * i + 1)%N)) (2 * i + 1)%N (perm (2 * i)%N) else perm) in
  let perm := fun i => if (i < N)%N then perm (2 * i)%N else perm (2 * (i - N) + 1)%N in
  let O : mat := fun i j => Z i (perm j) in
  let phi : vec := fun i => `|a (2 * i)%N (2 * i + 1)%N| in
  let dd : vec := fun i => if (i < N)%N then 1 / phi i else 1 / phi (i - N)%N in
  let ddsqrt : vec := fun i => 1 / sqrtC (dd i) in
  let S : mat := fun i j => mmul n M12 O i j * ddsqrt j in
  Ok (np_diag dd, S)).

(** decompositions.py:105-116 [symplectic_eigenvals(cov)], cov with n rows; np.real_if_close acts on the whole array *)
Definition symplectic_eigenvals (n : nat) (cov : mat) : seq C :=
  let M := n./2 in
  let Omega := sympmat C M in
  let e := [seq - 'i * x | x <- eigvals n (mmul n Omega cov)] in
  let e := if all (fun x => `|'Im x| < ric_tol C) e then [seq 'Re x | x <- e] else e in
  [seq nth 0 e (2 * i)%N | i <- iota 0 (uphalf (size e))].

(** decompositions.py:176 [np.triu(A) + np.triu(A, k=1).T] *)
Definition symmetrise (A : mat) : mat := fun i j =>
  (if (i <= j)%N then A i j else 0) + (if (j < i)%N then A j i else 0).

(** decompositions.py:184-196, the case of a real array *)
Definition takagi_eigh (n : nat) (A : mat) (svd_order : bool) : vec * mat :=
  let: (ls, U) := eigh n A in
  let vals : vec := fun i => `|ls i| in
  let signs : vec := fun i => if 0 <= ls i then 1 else - 1 in
  let phases : vec := fun i => sqrtC (signs i) in
  let Uc : mat := fun i j => U i j * phases j in
  let perm := argsort n vals in
  let perm := if svd_order then rev perm else perm in
  (fun i => vals (nth 0%N perm i), fun i j => Uc i (nth 0%N perm j)).

(** decompositions.py:155-196 [takagi(A)] on an n x n array of real dtype: real_if_close leaves it alone *)
Definition takagi_real (n : nat) (A : mat) (svd_order : bool) : vec * mat :=
  let A := symmetrise A in
  if allclose (rtol0 C) (atol0 C) n n A (fun _ _ => 0) then (fun=> 0, eye C)
  else takagi_eigh n A svd_order.

(** np.real_if_close and np.isrealobj of a complex n x n array: is it turned into a real array? *)
Definition becomes_real (n : nat) (A : mat) : bool :=
  all (fun i => all (fun j => `|'Im (A i j)| < ric_tol C) (iota 0 n)) (iota 0 n).

(** np.unravel_index(np.argmax(np.abs(A)), (n, n)): the first position of the largest modulus, in row-major order *)
Definition argmax_abs (n : nat) (A : mat) : nat * nat :=
  let ps := [seq (i, j) | i <- iota 0 n, j <- iota 0 n] in
  head (0%N, 0%N) [seq p <- ps | all (fun q => `|A q.1 q.2| <= `|A p.1 p.2|) ps].

(** decompositions.py:207-218, the case of a diagonal array *)
Definition takagi_diag (n : nat) (A : mat) (svd_order : bool) : vec * mat :=
  let d : vec := fun i => A i i in
  let l : vec := fun i => `|d i| in
  let idx := argsort n l in
  let d : vec := fun i => d (nth 0%N idx i) in
  let l : vec := fun i => l (nth 0%N idx i) in
  let U := np_diag (fun i => expi (2%:R^-1 * angle (d i))) in
  let U : mat := fun i j => U (n - 1 - i)%N j in
  if svd_order then (fun i => l (n - 1 - i)%N, fun i j => U i (n - 1 - j)%N) else (l, U).

(** decompositions.py:220-224, the general case *)
Definition takagi_svd (n : nat) (A : mat) (svd_order : bool) : vec * mat :=
  let: (u, d, v) := svd n A in
  let U := mmul n u (sqrtm n (trn (mmul n v (fun i j => (u i j)^*)))) in
  if svd_order then (d, U) else (fun i => d (n - 1 - i)%N, fun i j => U i (n - 1 - j)%N).

(** decompositions.py:155-224 [takagi(A, svd_order, rtol)], A of shape n x m; [isreal]: A has a real dtype *)
Definition takagi (rtol : C) (isreal : bool) (n m : nat) (A : mat) (svd_order : bool) : res (vec * mat) :=
  if n != m then Err ValueError else
  if isreal then Ok (takagi_real n A svd_order) else
  let A := symmetrise A in
  let real := becomes_real n A in
  let A : mat := if real then (fun i j => 'Re (A i j)) else A in
  if allclose (rtol0 C) (atol0 C) n n A (fun _ _ => 0) then Ok (fun=> 0, eye C) else
  if real then Ok (takagi_eigh n A svd_order) else
  let pos := argmax_abs n A in
  let phi := angle (A pos.1 pos.2) in
  let Amr : mat := fun i j => expi (- phi) * A i j in
  if becomes_real n Amr then
    let: (vals, U) := takagi_real n (fun i j => 'Re (Amr i j)) svd_order in
    Ok (vals, fun i j => U i j * expi (phi / 2%:R)) else
  if allclose rtol (atol0 C) n n A (np_diag (fun i => A i i)) then Ok (takagi_diag n A svd_order)
  else Ok (takagi_svd n A svd_order).
(** the default of the argument rtol *)
Definition takagi_rtol : C := 10%:R^-1 ^+ 16.

(** decompositions.py:119-152 [blochmessiah(S)], S of shape n x m *)
Definition blochmessiah (n m : nat) (S : mat) : res (mat * mat * mat) :=
  if ~~ is_symplectic2 (rtol0 C) (atol0 C) n m S then Err ValueError else
  let N := n./2 in
  let: (V, P) := polar_left n S in
  let A := P in
  let B := mshift 0 N P in
  let Cm := mshift N N P in
  let M : mat := fun i j => A i j - Cm i j + 'i * (B i j + B j i) in
  bind (takagi takagi_rtol false N N M true) (fun '(Lam, W) =>
  let Lam : vec := fun i => 2%:R^-1 * Lam i in
  let O := npblock N N (fun i j => 'Re (W i j)) (fun i j => - 'Im (W i j)) (fun i j => 'Im (W i j)) (fun i j => 'Re (W i j)) in
  let Q := mmul n (trn O) V in
  let sqrt1pLam2 : vec := fun i => sqrtC (1 + Lam i ^+ 2) in
  let D := np_diag (fun i => if (i < N)%N then sqrt1pLam2 i + Lam i else sqrt1pLam2 (i - N)%N - Lam (i - N)%N) in
  Ok (O, D, Q)).

(** decompositions.py:227-262 [pre_iwasawa(S)], S of shape n x m *)
Definition pre_iwasawa (n m : nat) (S : mat) : res (mat * mat * mat) :=
  if ~~ is_symplectic2 (rtol0 C) (atol0 C) n m S then Err ValueError else
  let N := n./2 in
  let zerom : mat := fun _ _ => 0 in
  let idm := eye C in
  let A := S in
  let B := mshift 0 N S in
  let Cm := mshift N 0 S in
  let D := mshift N N S in
  let A0 := sqrtm N (madd (mmul N A (trn A)) (mmul N B (trn B))) in
  bind (np_inv N A0) (fun A0inv =>
  let X := mmul N A0inv A in
  let Y := mmul N A0inv B in
  let C0 := mmul N (madd (mmul N Cm (trn A)) (mmul N D (trn B))) A0inv in
  let E := npblock N N idm zerom (mmul N C0 A0inv) idm in
  let D := npblock N N A0 zerom zerom A0inv in
  let F := npblock N N X Y (fun i j => - Y i j) X in
  Ok (E, D, F)).

(** decompositions.py:265-300 [iwasawa(S)]; np.sign of a real number *)
Definition iwasawa (n m : nat) (S : mat) : res (mat * mat * mat) :=
  bind (pre_iwasawa n m S) (fun '(E, D, F) =>
  let N := n./2 in
  let DNN := D in
  let: (Q, R) := qr N DNN in
  let R := trn R in
  let Q := trn Q in
  let dR : vec := fun i => R i i in
  let dd : vec := fun i => `|dR i| in
  let ds : vec := fun i => if 0 < dR i then 1 else if dR i < 0 then - 1 else 0 in
  let R : mat := fun i j => R i j * (1 / dR j) in
  bind (np_inv N R) (fun Rinv =>
  let RinvT := trn Rinv in
  let DD := np_diag (fun i => if (i < N)%N then dd i else 1 / dd (i - N)%N) in
  let zerom : mat := fun _ _ => 0 in
  let OO := npblock N N R zerom zerom RinvT in
  let Q : mat := fun i j => ds i * Q i j in
  let AA := npblock N N Q zerom zerom Q in
  let EE := mmul n E OO in
  let FF := mmul n AA F in
  Ok (EE, DD, FF))).
End Decomp.
