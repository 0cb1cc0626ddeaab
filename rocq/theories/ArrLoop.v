(** Imperative arrays as functions, loops as folds, and lemmas to read loop results. *)
From mathcomp Require Import all_ssreflect all_algebra zify.
Set Implicit Arguments.
Unset Strict Implicit.
Unset Printing Implicit Defensive.
Import GRing.Theory.
Local Open Scope ring_scope.

(** [A[i, j] = v] and [a[i] = v] on arrays represented as functions.  Accesses are not
    bounds-checked, exactly like numba code compiled in nopython mode; in this representation an
    out-of-bounds write has no effect on in-bounds entries. *)
Definition upd2 (R : Type) (A : nat -> nat -> R) (i j : nat) (v : R) : nat -> nat -> R :=
  fun a b => if (a == i) && (b == j) then v else A a b.
Definition upd1 (R : Type) (a : nat -> R) (i : nat) (v : R) : nat -> R :=
  fun b => if b == i then v else a b.

(** [for x in l: s = body(s, x)] *)
Definition for_ (X S : Type) (l : seq X) (s : S) (body : S -> X -> S) : S := foldl body s l.

(** [range(a, b, -1)] for [a >= b]: a, a-1, ..., b+1 *)
Definition range_down (a b : nat) : seq nat := [seq (a - d)%N | d <- iota 0 (a - b)].

Section Lemmas.
Variable R : zmodType.

Lemma for_cons X S x l (s : S) (body : S -> X -> S) : for_ (x :: l) s body = for_ l (body s x) body.
Proof. by []. Qed.
Lemma for_cat X S l1 l2 (s : S) (body : S -> X -> S) : for_ (l1 ++ l2) s body = for_ l2 (for_ l1 s body) body.
Proof. by rewrite /for_ foldl_cat. Qed.

(** accumulate: s += g x *)
Lemma for_sum X (l : seq X) (s : R) (g : X -> R) : for_ l s (fun s x => s + g x) = s + \sum_(x <- l) g x.
Proof. by elim: l s => [|x l IH] s; rewrite ?big_nil ?addr0 // for_cons IH big_cons addrA. Qed.

Lemma for_iotaS S m n (s : S) (body : S -> nat -> S) :
  for_ (iota m n.+1) s body = body (for_ (iota m n) s body) (m + n)%N.
Proof. by rewrite -addn1 iotaD for_cat. Qed.

(** accumulate into one cell *)
Lemma for_cell (l : seq nat) (g : nat -> R) (a : nat -> R) i b :
  for_ l a (fun a x => upd1 a i (a i + g x)) b = if b == i then a i + \sum_(x <- l) g x else a b.
Proof.
elim: l a => [|x l IH] a; first by rewrite big_nil addr0 /for_ /=; case: eqP => // ->.
by rewrite for_cons IH big_cons addrA /upd1 eqxx; case: eqP.
Qed.

(** [for i in range(p): for j in range(q): A[r+i, c+j] -= g(i, j)] *)
Lemma for_sub2 (A : nat -> nat -> R) r c p q (g : nat -> nat -> R) a b :
  for_ (iota 0 p) A (fun A i => for_ (iota 0 q) A (fun A j =>
     upd2 A (r + i) (c + j) (A (r + i)%N (c + j)%N - g i j))) a b
  = if (r <= a < r + p)%N && (c <= b < c + q)%N then A a b - g (a - r)%N (b - c)%N else A a b.
Proof.
have inner (B : nat -> nat -> R) i a' b' :
  for_ (iota 0 q) B (fun A j => upd2 A (r + i) (c + j) (A (r + i)%N (c + j)%N - g i j)) a' b'
  = if (a' == r + i)%N && (c <= b' < c + q)%N then B a' b' - g i (b' - c)%N else B a' b'.
  elim: q B a' b' => [|q IH] B a' b'.
    by rewrite /for_ /=; case: ifP => // /andP[_]; lia.
  rewrite for_iotaS add0n /upd2 !IH eqxx /=.
  have -> : (c <= c + q < c + q)%N = false by lia.
  case: (a' =P (r + i)%N) => //= ->; case: (b' =P (c + q)%N) => [->|ne] /=.
    by rewrite (_ : (c <= c + q < c + q.+1)%N) ?addKn //; lia.
  by congr (if _ then _ else _); lia.
elim: p a b => [|p IH] a b; first by rewrite /for_ /=; case: ifP => //; lia.
rewrite for_iotaS add0n inner; case: (a =P (r + p)%N) => [->|ne] /=.
  rewrite IH; have -> : (r <= r + p < r + p)%N = false by lia.
  rewrite (_ : (r <= r + p < r + p.+1)%N) /= ?addKn //; lia.
by rewrite IH; congr (if _ then _ else _); lia.
Qed.
End Lemmas.

Lemma sum_iota (R : zmodType) n (g : nat -> R) : \sum_(i <- iota 0 n) g i = \sum_(i < n) g i.
Proof. by rewrite -(big_mkord xpredT) /index_iota subn0. Qed.

Lemma prod_iota (R : ringType) n (g : nat -> R) : \prod_(i <- iota 0 n) g i = \prod_(i < n) g i.
Proof. by rewrite -(big_mkord xpredT) /index_iota subn0. Qed.

Lemma for_prod (R : ringType) X (l : seq X) (s : R) (g : X -> R) :
  for_ l s (fun s x => s * g x) = s * \prod_(x <- l) g x.
Proof. by elim: l s => [|x l IH] s; rewrite ?big_nil ?mulr1 // for_cons IH big_cons mulrA. Qed.

(** Loop over a range with an invariant. *)
Lemma for_inv S m n (s : S) (body : S -> nat -> S) (Q : nat -> S -> Prop) :
  Q m s -> (forall i t, (m <= i < m + n)%N -> Q i t -> Q i.+1 (body t i)) ->
  Q (m + n)%N (for_ (iota m n) s body).
Proof.
elim: n => [|n IH] q0 qs; first by rewrite addn0.
rewrite for_iotaS addnS; apply: (qs); first by lia.
by apply: IH => // i t hi; apply: qs; lia.
Qed.
