(** C31, C32: the recursive torontonian and loop torontonian equal the sums over subsets of modes. *)
From mathcomp Require Import all_ssreflect all_algebra zify fingroup perm.
From Verif Require Import Prelude PyBase ArrLoop MPowerHaf MHafnian MSymplectic SpecTor MTor PropTor PropTor2 PropMeans4.
Set Implicit Arguments.
Unset Strict Implicit.
Unset Printing Implicit Defensive.
Import Order.Theory GRing.Theory Num.Theory.
Local Open Scope ring_scope.

Definition inter n (l : seq nat) : seq nat := flatten [seq [:: i; (n + i)%N] | i <- l].
Lemma inter_cat n l1 l2 : inter n (l1 ++ l2) = inter n l1 ++ inter n l2.
Proof. by rewrite /inter map_cat flatten_cat. Qed.
Lemma inter_cons n x l : inter n (x :: l) = [:: x, (n + x)%N & inter n l].
Proof. by []. Qed.
Lemma size_inter n l : size (inter n l) = (2 * size l)%N.
Proof. by elim: l => // x l IH; rewrite inter_cons /= IH mulnS. Qed.
Lemma perm_inter n l : perm_eq (inter n l) (l ++ [seq (n + x)%N | x <- l]).
Proof.
elim: l => // x l IH; rewrite inter_cons /= perm_cons -cat1s.
rewrite (perm_trans _ (_ : perm_eq ([:: (n + x)%N] ++ (l ++ [seq (n + x)%N | x <- l])) _)) //; first by rewrite perm_cat2l.
by rewrite perm_catCA perm_cat2l.
Qed.
Lemma inter_uniq n l : uniq l -> all (fun i => i < n)%N l -> uniq (inter n l).
Proof.
move=> u a; rewrite (perm_uniq (perm_inter n l)) cat_uniq u map_inj_uniq ?u ?andbT; last by move=> x y /addnI.
by apply/hasPn => y /mapP[x xl ->]; apply/negP => /(allP a); lia.
Qed.
Lemma inter_all n l : all (fun i => i < n)%N l -> all (fun i => i < 2 * n)%N (inter n l).
Proof. by elim: l => // x l IH; rewrite inter_cons /= => /andP[h /IH ->]; rewrite andbT; lia. Qed.

Section Cong.
Variable C : numClosedFieldType.
Notation mat := (nat -> nat -> C).
Notation vec := (nat -> C).
Lemma hermitian_eq n (M M' : mat) : (forall i j, (i < n)%N -> (j < n)%N -> M i j = M' i j) -> hermitian n M -> hermitian n M'.
Proof. by move=> e h i j hi hj; rewrite -!e // h. Qed.
Lemma posdef_eq n (M M' : mat) : (forall i j, (i < n)%N -> (j < n)%N -> M i j = M' i j) -> posdef n M -> posdef n M'.
Proof. by move=> e h v nz; have := h v nz; congr (0 < _); apply: eq_bigr => i _; apply: eq_bigr => j _; rewrite e. Qed.
Lemma cholesky_eq n (M M' L : mat) : (forall i j, (i < n)%N -> (j < n)%N -> M i j = M' i j) -> is_cholesky n M L -> is_cholesky n M' L.
Proof. by move=> e [h d]; split=> // i j hi hj; rewrite -h // -e //; lia. Qed.
Lemma mxof_eq n (M M' : mat) : (forall i j, (i < n)%N -> (j < n)%N -> M i j = M' i j) -> mxof n n M = mxof n n M'.
Proof. by move=> e; apply/matrixP => i j; rewrite !mxE e. Qed.

(** ** Forward substitution *)
Theorem solve_triangular_correct n (L : mat) (y : vec) : (forall i, (i < n)%N -> L i i != 0) ->
  forall i, (i < n)%N -> \sum_(k < i.+1) L i k * solve_triangular n L y k = y i.
Proof.
move=> d; rewrite /solve_triangular; set body := (X in for_ _ _ X).
pose P (j : nat) (x : vec) := (forall i, (i < j)%N -> \sum_(k < i.+1) L i k * x k = y i) /\
   (forall i, (j <= i)%N -> (i < n)%N -> x i = y i - \sum_(k < j) L i k * x k).
suff [p _] : P (0 + n)%N (for_ (iota 0 n) y body) by move=> i hi; apply: p.
apply: for_inv; first by split=> // i _ _; rewrite big_ord0 subr0.
move=> j x /andP[_ hj] [p1 p2]; rewrite add0n in hj; rewrite /body.
case: eqP => [x0|/eqP xn].
  split=> [i|i ji hi]; last by rewrite big_ord_recr /= x0 mulr0 addr0 p2 //; lia.
  rewrite ltnS leq_eqVlt => /orP[/eqP ->|]; last exact: p1.
  by rewrite big_ord_recr /= x0 mulr0 addr0; have := p2 j (leqnn _) hj; rewrite x0 => /eqP; rewrite eq_sym subr_eq0 => /eqP ->.
set x1 := upd1 x j _; set t := x1 j.
have tE : t = x j / L j j by rewrite /t /x1 /upd1 eqxx.
pose Q (i : nat) (x' : vec) := forall k, x' k = if k == j then t else if (j < k)%N && (k < i)%N then x k - t * L k j else x k.
rewrite /pyrange; set inner := (X in for_ _ x1 X).
have q : Q (j.+1 + (n - j.+1))%N (for_ (iota j.+1 (n - j.+1)) x1 inner).
  apply: for_inv.
    by move=> k; rewrite /x1 /upd1; case: eqP => [_|kj]; [by rewrite tE|have -> : (j < k < j.+1)%N = false by lia].
  move=> i x' hi q k; rewrite /inner /upd1 !q; case: (k =P i) => [->|ki].
    have -> : (i == j) = false by lia.
    by rewrite ltnS leqnn ltnn andbF andbT; have -> : (j < i)%N by lia.
  by case: eqP => // _; have -> : (k < i.+1)%N = (k < i)%N by lia.
move: q; set xf := for_ _ _ _ => q.
have xk (k : nat) : (k < j)%N -> xf k = x k.
  by move=> kj; rewrite q ltn_eqF // ltnNge ltnW.
have xj : xf j = t by rewrite q eqxx.
split=> [i|i ji hi].
  rewrite ltnS leq_eqVlt => /orP[/eqP ->|hi].
    rewrite big_ord_recr /= xj tE mulrCA divff ?d // mulr1 (p2 j) //.
    rewrite (eq_bigr (fun k : 'I_j => L j k * x k)) => [|k _]; first by rewrite addrC subrK.
    by rewrite xk.
  by rewrite -[RHS]p1 //; apply: eq_bigr => k _; rewrite xk //; have := ltn_ord k; lia.
rewrite big_ord_recr /= xj q gtn_eqF // ji /=.
have -> : (i < j.+1 + (n - j.+1))%N by lia.
rewrite p2 //; last by lia.
rewrite opprD addrA [t * _]mulrC; congr (_ - _ - _).
by apply: eq_bigr => k _; rewrite xk.
Qed.
Theorem norm2_solve n (M L : mat) (g : vec) : hermitian n M -> is_cholesky n M L ->
  norm2 n (solve_triangular n L (fun i => (g i)^*)) = ((\col_(i < n) g i)^T *m invmx (mxof n n M) *m (\col_(i < n) (g i)^*)) 0 0.
Proof.
move=> hM ch; have dg i : (i < n)%N -> L i i != 0 by move=> hi; rewrite gt_eqF // (proj2 ch).
have sc := @solve_triangular_correct n L (fun i => (g i)^*) dg; set x := solve_triangular _ _ _ in sc *.
pose T : 'M[C]_n := \matrix_(a, k) (if (k <= a)%N then L a k else 0).
have MT : mxof n n M = T *m ct T by exact: chol_mx.
pose xv : 'cV[C]_n := \col_i x i.
have Tx : T *m xv = \col_i (g i)^*.
  apply/matrixP => i j; rewrite !mxE -(sc i (ltn_ord i)) (big_ord_widen_cond n xpredT (fun k => L i k * x k)) //= [RHS]big_mkcond.
  by apply: eq_bigr => k _; rewrite !mxE ltnS; case: leqP => // _; rewrite mul0r.
have uT : T \in unitmx by rewrite unitmxE det_T unitfE; apply/prodf_neq0 => i _; exact: dg.
have uT' : ct T \in unitmx by rewrite /ct map_unitmx unitmx_tr.
have gE : (\col_(i < n) g i)^T = ct xv *m ct T.
  by rewrite -ctM Tx; apply/matrixP => i j; rewrite !mxE conjCK.
have iM : invmx (mxof n n M) *m (T *m xv) = invmx (ct T) *m xv.
  have u : mxof n n M \in unitmx by rewrite MT unitmx_mul uT.
  by apply: (can_inj (mulKmx u)); rewrite mulKVmx // MT -!mulmxA mulKVmx.
rewrite -mulmxA -Tx iM gE -mulmxA mulKVmx // mxE; apply: eq_bigr => k _; rewrite !mxE //.
Qed.
End Cong.
