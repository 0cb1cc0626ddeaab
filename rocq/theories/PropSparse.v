(** C14: [hafnian_sparse], every execution (every choice made by [set.pop], every summation order). *)
From mathcomp Require Import all_ssreflect all_fingroup all_algebra all_field zify.
From Verif Require Import Prelude PyBase ArrLoop SpecHaf ThHaf MCharpoly MPowerHaf MRecursive MHafnian
  PropCharpoly PropPowerHaf PropRecursive PropHafnian.
Set Implicit Arguments.
Unset Strict Implicit.
Unset Printing Implicit Defensive.
Import Order.Theory GRing.Theory Num.Theory.
Local Open Scope ring_scope.

Section Sparse.
Variable C : numClosedFieldType.
Notation mat := (nat -> nat -> C).

Lemma atol0_ge0 : 0 <= atol0 C.
Proof. by rewrite exprn_ge0 // invr_ge0 ler0n. Qed.
Definition symmetrize n (A : mat) : mat := fun i j => if (i < n)%N && (j < n)%N then A i j else 0.
Lemma symmetrize_sym n (A : mat) : sym_upto n A -> forall i j, symmetrize n A i j = symmetrize n A j i.
Proof. by move=> sA i j; rewrite /symmetrize andbC; case: ifP => // /andP[? ?]; rewrite sA. Qed.
Lemma lhq_symmetrize n (A : mat) (d : seq nat) : all (fun i => i < n)%N d ->
  lhq A (fun i => A i i) d = lhq (symmetrize n A) (fun i => symmetrize n A i i) d.
Proof.
move=> /allP dn; apply: eq_lhq => [i j hi hj|i hi]; by rewrite /symmetrize !dn.
Qed.

(** every run of the inner function computes the loop hafnian of the submatrix indexed by [d] *)
Lemma lhaf_run_correct n (A : mat) d v : sym_upto n A -> lhaf_run n A d v ->
  uniq d -> all (fun i => i < n)%N d -> v = lhq A (fun i => A i i) d.
Proof.
move=> sA; elim=> [|{v}{}d k idx v kd idxE _ IH] ud dn; first by rewrite lhq_nil.
have kn := allP dn _ kd.
rewrite (lhq_symmetrize _ dn) (lhq_expand _ (symmetrize_sym sA) kd).
have udk : uniq (rem k d) by apply: rem_uniq.
have dnk : all (fun i => i < n)%N (rem k d) by apply/allP => i /mem_rem; apply: (allP dn).
rewrite (perm_big _ idxE) big_filter /= (perm_big _ (perm_to_rem kd)) /= big_mkcond big_cons /=.
have mem i : i \in d -> (i < n)%N && (A k i != 0) -> i \in idx.
  by move=> id h; rewrite (perm_mem idxE) mem_filter h id.
congr (_ + _).
  rewrite /symmetrize kn /=; case: ifP => [h|/negbFE/eqP ->]; last by rewrite mul0r.
  have rk : rem k (rem k d) = rem k d by apply: rem_id; rewrite mem_rem_uniqF.
  by rewrite IH ?rk ?mem ?kn -/(symmetrize n A) -?lhq_symmetrize.
apply: eq_big_seq => z zd; have zd' := mem_rem zd; have zn := allP dn _ zd'.
rewrite {1}/symmetrize kn zn /=; case: ifP => [h|/negbFE/eqP ->]; last by rewrite mul0r.
have un : uniq (rem z (rem k d)) by apply: rem_uniq.
have an : all (fun i => i < n)%N (rem z (rem k d)) by apply/allP => i /mem_rem; apply: (allP dnk).
by rewrite IH ?mem ?zn // -lhq_symmetrize // sA.
Qed.

(** a run always exists *)
Lemma lhaf_run_total n (A : mat) d : exists v, lhaf_run n A d v.
Proof.
move: {2}(size d) (leqnn (size d)) => m; elim: m d => [|m IH] d; first by case: d => // _; exists 1; constructor.
case: d => [|k d] hd; first by exists 1; constructor.
have h i : exists v, lhaf_run n A (rem i d) v.
  by apply: IH; apply: leq_trans (size_subseq (rem_subseq i d)) _.
have [f hf] : exists f : nat -> C, forall i, i \in k :: d -> lhaf_run n A (rem i d) (f i).
  elim: (k :: d) => [|x l [f hf]]; first by exists (fun=> 0).
  have [w hw] := h x; exists (fun i => if i == x then w else f i) => i.
  by rewrite in_cons; case: eqP => [-> _|_ /= /hf].
exists (\sum_(i <- [seq i <- k :: d | (i < n)%N && (A k i != 0)]) A i k * f i).
apply: lhaf_pop => [|//|i]; first exact: mem_head.
by rewrite mem_filter => /andP[_ id] /=; rewrite eqxx; apply: hf.
Qed.

(** the (loop) hafnian of the submatrix with rows and columns [d] *)
Definition sub_haf (loop : bool) (A : mat) (d : seq nat) : C :=
  haf_or_lhaf loop (size d) (fun i j => A (nth 0%N d i) (nth 0%N d j)).

Lemma sub_haf_lhq n loop (A : mat) d : sym_upto n A -> uniq d -> all (fun i => i < n)%N d ->
  sub_haf loop A d = lhq (drop_diag loop A) (fun i => drop_diag loop A i i) d.
Proof.
move=> sA ud dn; have dn' i : (i < size d)%N -> (nth 0%N d i < n)%N by move=> hi; apply: (allP dn); apply: mem_nth.
have sD : sym_upto n (drop_diag loop A).
  by move=> i j hi hj; rewrite /drop_diag; case: (loop); rewrite sA // [j == i]eq_sym; case: eqP => // ->.
rewrite (lhq_symmetrize _ dn) -(nth_lhq 0%N d _ (symmetrize_sym sD)) /sub_haf haf_or_lhaf_lhq.
have lt i : i \in iota 0 (size d) -> (i < size d)%N by rewrite mem_iota.
transitivity (lhq (fun i j => drop_diag loop A (nth 0%N d i) (nth 0%N d j))
   (fun i => drop_diag loop A (nth 0%N d i) (nth 0%N d i)) (iota 0 (size d))); last first.
  by apply: eq_lhq => [i j /lt hi /lt hj|i /lt hi]; rewrite /symmetrize !dn'.
rewrite /drop_diag; case: (loop) => //.
(* only pairs of distinct positions matter *)
have key s : uniq s -> {subset s <= iota 0 (size d)} ->
  lhq (fun i j => A (nth 0%N d i) (nth 0%N d j)) (fun=> 0) s =
  lhq (fun i j => if nth 0%N d i == nth 0%N d j then A (nth 0%N d i) (nth 0%N d j) - A (nth 0%N d i) (nth 0%N d j)
          else A (nth 0%N d i) (nth 0%N d j)) (fun i => if nth 0%N d i == nth 0%N d i then A (nth 0%N d i) (nth 0%N d i) - A (nth 0%N d i) (nth 0%N d i)
          else A (nth 0%N d i) (nth 0%N d i)) s.
  move: {2}(size s) (leqnn (size s)) => m; elim: m s => [|m IH] [|x s] // hs /= /andP[xs us] sub; rewrite !lhq_cons eqxx subrr.
  congr (_ + _); first by rewrite !mul0r.
  apply: eq_big_seq => z zs; rewrite nth_uniq ?lt ?sub ?mem_head // ?in_cons ?zs ?orbT //.
  have -> : (x == z) = false by apply/eqP => e; rewrite e zs in xs.
  congr (_ * _); apply: IH; rewrite ?rem_uniq //; first by apply: leq_trans (size_subseq (rem_subseq z s)) _.
  by move=> y /mem_rem ys; apply: sub; rewrite in_cons ys orbT.
by apply: key; rewrite ?iota_uniq.
Qed.

(** C14 *)
Theorem hafnian_sparse_correct n (A : mat) (D : option (seq nat)) loop v :
  let d := if D is Some s then undup s else iota 0 n in
  sym_upto n A -> all (fun i => i < n)%N d ->
  ~~ allclose (rtol0 C) (atol0 C) n n (drop_diag loop A) (fun _ _ => 0) ->
  hafnian_sparse_run n A D loop v -> v = sub_haf loop A d.
Proof.
move=> d sA dn nz run; case: run nz => [->//|{}v _ run _].
have ud : uniq d by rewrite /d; case: (D) => [s|]; rewrite ?undup_uniq ?iota_uniq.
rewrite (sub_haf_lhq loop sA) //; apply: lhaf_run_correct run _ _ => // i j hi hj.
by rewrite /drop_diag; case: (loop); rewrite sA // [j == i]eq_sym; case: eqP => // ->.
Qed.

Theorem hafnian_sparse_total n (A : mat) D loop : exists v, @hafnian_sparse_run C n A D loop v.
Proof.
case: (boolP (allclose (rtol0 C) (atol0 C) n n (drop_diag loop A) (fun _ _ => 0))) => h; first by exists 0; constructor.
by have [v hv] := lhaf_run_total n (drop_diag loop A) (if D is Some s then undup s else iota 0 n); exists v; apply: sparse_rec.
Qed.

(** all indices: the hafnian of the whole matrix *)
Corollary hafnian_sparse_whole n (A : mat) loop v : sym_upto n A ->
  ~~ allclose (rtol0 C) (atol0 C) n n (drop_diag loop A) (fun _ _ => 0) ->
  hafnian_sparse_run n A None loop v -> v = haf_or_lhaf loop n A.
Proof.
move=> sA nz run; rewrite (hafnian_sparse_correct sA _ nz run); last by apply/allP => i; rewrite mem_iota.
rewrite /sub_haf size_iota !haf_or_lhaf_lhq; apply: eq_lhq => [i j|i]; rewrite !mem_iota.
  by move=> hi hj; rewrite !nth_iota.
by case: (loop) => // hi; rewrite nth_iota.
Qed.

(** The zero shortcut: it is right for every non-empty [D] when the matrix really is zero ... *)
Theorem hafnian_sparse_zero n (A : mat) D loop v :
  let d := if D is Some s then undup s else iota 0 n in
  sym_upto n A -> all (fun i => i < n)%N d -> d != [::] ->
  (forall i j, (i < n)%N -> (j < n)%N -> drop_diag loop A i j = 0) ->
  hafnian_sparse_run n A D loop v -> v = sub_haf loop A d.
Proof.
move=> d sA dn d0 z run.
have ud : uniq d by rewrite /d; case: (D) => [s|]; rewrite ?undup_uniq ?iota_uniq.
case: run => [_|{}v /negP[]]; last first.
  by apply/allP2 => i j hi hj; rewrite /close z // subr0 normr0 mulr0 addr0 atol0_ge0.
rewrite (sub_haf_lhq loop sA) // lhq_zero => [|x y hx hy]; last by rewrite z ?(allP dn).
by case: (d) d0 dn => // x l _ /= /andP[xn _]; rewrite big_cons z ?mul0r.
Qed.

(** ... but it is wrong for the empty index set, and for small entries: C14 is false without the
    hypothesis of [hafnian_sparse_correct]. *)
Theorem hafnian_sparse_empty_refuted n (A : mat) loop : (forall i j, drop_diag loop A i j = 0) ->
  (forall v, hafnian_sparse_run n A (Some [::]) loop v -> v = 0) /\ sub_haf loop A [::] = 1 :> C.
Proof.
move=> z; split=> [v run|]; last by rewrite /sub_haf haf_or_lhaf_lhq.
case: run => // {}v /negP[]; apply/allP2 => i j _ _.
by rewrite /close z subr0 normr0 mulr0 addr0 atol0_ge0.
Qed.
End Sparse.
(** Non-vacuity: an all-ones 2 x 2 matrix with loops has loop hafnian 2, in every execution. *)
Lemma atol0_lt1 (C : numClosedFieldType) : atol0 C < 1.
Proof. by rewrite /atol0 exprn_ilt1 // ?invr_ge0 ?ler0n // invf_lt1 ?ltr0n // ltr1n. Qed.
Example hafnian_sparse_ex (v : algC) : hafnian_sparse_run (C := [numClosedFieldType of algC]) 2 (fun _ _ => 1) None true v -> v = 2%:R.
Proof.
move/hafnian_sparse_whole => ->//; last first.
  apply/negP => /allP2 /(_ 0 0)%N /(_ isT isT); rewrite /close subr0 normr0 mulr0 addr0 normr1.
  by move=> /le_lt_trans /(_ (atol0_lt1 _)); rewrite ltxx.
by rewrite haf_or_lhaf_lhq /= !(lhq_cons, lhq_nil, big_cons, big_nil) /=; rring.
Qed.
