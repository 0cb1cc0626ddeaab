(** C33: the montrealer functions agree with the reference implementation. *)
From mathcomp Require Import all_ssreflect all_fingroup all_algebra zify.
From Verif Require Import Prelude PyBase ArrLoop MCharpoly MHafnian MMisc MTor SpecMtl MMtl PropMtl2 PropMtl3 PropMtl4 PropMtl5.
Set Implicit Arguments.
Unset Strict Implicit.
Unset Printing Implicit Defensive.
Import GRing.Theory Num.Theory.
Local Open Scope ring_scope.

Section Final.
Variable C : numClosedFieldType.
Variable sched : nat -> seq nat.
Hypothesis sched_ok : forall n, perm_eq (sched n) (iota 0 n).
Variable permutations_py : seq nat -> seq (seq nat).
Hypothesis py_ok : forall l, uniq l -> perm_eq (permutations_py l) (permutations l).
Variables (m : nat) (A : nat -> nat -> C).
Let n := m.+1.
Hypothesis sA : forall i j, (i < 2 * n)%N -> (j < 2 * n)%N -> A i j = A j i.
Lemma n0 : (2 * n)%:R != 0 :> C. Proof. by rewrite pnatr_eq0. Qed.

(** C33: on a symmetric matrix of even positive size, mtl equals the reference's sum over reduced perfect matchings *)
Theorem mtl_reference : mtl sched (PyArr (arr_of (2 * n) (2 * n) A)) = ref_mtl permutations_py (2 * n) A false.
Proof. by rewrite mtl_correct // ref_mtl_correct // n0. Qed.

Lemma path_weight_eq u v u' v' (s : 'S_n) (b : {ffun 'I_n -> bool}) :
  (forall i, (i < 2 * n)%N -> u i = u' i) -> (forall i, (i < 2 * n)%N -> v i = v' i) -> path_weight u v A s b = path_weight u' v' A s b.
Proof. by move=> hu hv; rewrite /path_weight hu ?hv ?node_lt2. Qed.

(** C33: lmtl equals the reference's loop version exactly when zeta carries the diagonal as the reference reads it *)
Theorem lmtl_reference (zeta : nat -> C) :
  (forall v, (v < 2 * n)%N -> (zeta v)^* = A v v) -> (forall v, (v < 2 * n)%N -> zeta v = A (partner m v) (partner m v)) ->
  lmtl sched (PyArr (arr_of (2 * n) (2 * n) A)) (Some (zeta, (2 * n)%N)) = ref_mtl permutations_py (2 * n) A true.
Proof.
move=> h1 h2; rewrite lmtl_correct // ref_lmtl_correct // ?n0 // /lmtl_spec; congr (Ok (_ + _ / _)).
by apply: eq_bigr => s _; apply: eq_bigr => b _; apply: path_weight_eq.
Qed.
End Final.

(** A concrete case: two modes, a symmetric matrix with complex conjugate blocks *)
Section Ex.
Variable C : numClosedFieldType.
Let A (i j : nat) : C := (i + j)%:R.
Remark mtl_case : mtl (iota 0) (PyArr (arr_of 4 4 A)) = ref_mtl (@permutations nat_eqType) 4 A false.
Proof. by apply: (@mtl_reference C (iota 0) _ (@permutations nat_eqType) _ 1 A); [|move=> l _; exact: perm_refl|move=> i j _ _; rewrite /A addnC]. Qed.
Let B (i j : nat) : C := if i == j then (if (i < 2)%N then 'i else - 'i) else (i + j)%:R.
Let z (i : nat) : C := if (i < 2)%N then - 'i else 'i.
Remark lmtl_case : lmtl (iota 0) (PyArr (arr_of 4 4 B)) (Some (z, 4%N)) = ref_mtl (@permutations nat_eqType) 4 B true.
Proof.
apply: (@lmtl_reference C (iota 0) _ (@permutations nat_eqType) _ 1 B) => //.
- by move=> i j _ _; rewrite /B eq_sym addnC; case: (eqVneq j i) => [->|].
- by case=> [|[|[|[|]]]] //= _; rewrite /z /B /= ?rmorphN /= ?conjCi ?opprK.
- by case=> [|[|[|[|]]]].
Qed.
(** the value is not trivial: one mode, A = [[a, b], [b, c]] has montrealer b *)
Remark mtl_one (a b c : C) : mtl (iota 0) (PyArr (arr_of 2 2 (fun i j => if i == j then (if i == 0%N then a else c) else b))) = Ok b.
Proof.
rewrite (@mtl_correct C (iota 0) _ 0) // /mtl_spec.
have e (s : 'S_1) (x : {ffun 'I_1 -> bool}) : cycle_weight (fun i j => if i == j then (if i == 0%N then a else c) else b) s x = b.
  rewrite /cycle_weight big_ord1 !ord1 /node; case: (x _) => //=.
rewrite (eq_bigr (fun=> b + b)) => [|s _]; last first.
  rewrite (eq_bigr (fun=> b)) => [|x _]; last exact: e.
  by rewrite sumr_const card_ffun card_bool card_ord expn1 mulr2n.
rewrite sumr_const card_Sn factS fact0 muln1 -mulr2n mulrnAl; congr Ok.
by rewrite mulr1n muln1 -[b *+ 2]mulr_natr mulfK ?pnatr_eq0.
Qed.
End Ex.
