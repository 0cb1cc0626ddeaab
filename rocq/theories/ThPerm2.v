(** Row expansion of the permanent, and haf([[0, A], [A^T, 0]]) = perm(A). *)
From mathcomp Require Import all_ssreflect all_fingroup all_algebra zify.
From Verif Require Import Prelude SpecHaf ThHaf ThRec.
Set Implicit Arguments.
Unset Strict Implicit.
Unset Printing Implicit Defensive.
Import GRing.Theory.
Local Open Scope ring_scope.

Section PQ.
Variable R : comRingType.
Variables X Z : eqType.

Fixpoint pq (A : X -> Z -> R) (L : seq X) (s : seq Z) : R :=
  if L is x :: L' then \sum_(z <- s) A x z * pq A L' (rem z s) else 1.

Lemma pq_perm A L s t : perm_eq s t -> pq A L s = pq A L t.
Proof.
elim: L s t => //= x L IH s t st; rewrite (perm_big _ st) /=; apply: eq_big_seq => z zt.
by congr (_ * _); apply: IH; apply: perm_rem.
Qed.

Lemma pq_permutations A L s : uniq s -> size L = size s ->
  pq A L s = \sum_(t <- permutations s) \prod_(p <- zip L t) A p.1 p.2.
Proof.
elim: L s => [|x L IH] s us sz.
  by case: s sz us => // _ _; rewrite (_ : permutations _ = [:: [::]]) // big_cons !big_nil addr0.
have s0 : (0 < size s)%N by rewrite -sz.
rewrite (perm_big _ (permutationsE s0)) /= big_allpairs_dep /= undup_id //.
apply: eq_big_seq => z zs; rewrite IH ?rem_uniq ?size_rem -?sz // mulr_sumr.
by apply: eq_bigr => t _; rewrite big_cons.
Qed.
End PQ.

Lemma pq_map (R : comRingType) (X Z U V : eqType) (f : U -> X) (g : V -> Z) (A : X -> Z -> R) L s :
  pq A (map f L) (map g s) = pq (fun u v => A (f u) (g v)) L s.
Proof.
elim: L s => //= x L IH s; rewrite big_map; apply: eq_big_seq => z zs; congr (_ * _); rewrite -IH.
apply: pq_perm; rewrite -(perm_cons (g z)); apply: perm_trans (_ : perm_eq _ (map g s)) _.
  by rewrite perm_sym; apply: perm_to_rem; apply: map_f.
by rewrite -map_cons; apply: perm_map; apply: perm_to_rem.
Qed.

Lemma perm_spec_pq (R : comRingType) n (A : nat -> nat -> R) : perm_spec n A = pq A (iota 0 n) (iota 0 n).
Proof.
rewrite pq_permutations ?iota_uniq //.
rewrite (perm_big [seq [seq val (s i) | i <- enum 'I_n] | s : 'S_n <- enum 'S_n]) /=; last first.
  apply: uniq_perm; first exact: permutations_uniq.
    rewrite map_inj_uniq ?enum_uniq // => s t /eq_in_map e; apply/permP => i; apply: val_inj.
    by apply: e; rewrite mem_enum.
  move=> t; rewrite mem_permutations; apply/idP/mapP => [|[s _ ->]].
    rewrite -val_enum_ord => pt.
    have sz : size [seq val i | i <- enum 'I_n] == n by rewrite size_map size_enum_ord.
    have /tuple_permP[s es] : perm_eq t (Tuple sz) by [].
    exists s; rewrite ?mem_enum // es /=; apply: eq_map => i.
    by rewrite (tnth_nth 0%N) /= (nth_map i) ?size_enum_ord // nth_ord_enum.
  apply: uniq_perm; [|exact: iota_uniq|].
    by rewrite map_inj_uniq -?enumT ?enum_uniq // => i j /val_inj/perm_inj.
  move=> i; rewrite mem_iota /=; apply/mapP/idP => [[j _ ->]|hi]; first exact: ltn_ord.
  by exists ((s^-1)%g (Ordinal hi)); rewrite ?mem_enum // permKV.
rewrite big_map /perm_spec big_enum; apply: eq_bigr => s _.
rewrite -val_enum_ord zip_map big_map /=; exact/esym/big_enum.
Qed.

Lemma perm_spec_nth (R : comRingType) (A : nat -> nat -> R) L s : size L = size s ->
  perm_spec (size L) (fun i j => A (nth 0%N L i) (nth 0%N s j)) = pq A L s.
Proof.
move=> sz; rewrite perm_spec_pq -(pq_map (nth 0%N L) (nth 0%N s)) {2}sz !map_nth_iota0 ?take_size // ?sz //.
Qed.

Section Bipartite.
Variables (R : comRingType) (n : nat) (A : nat -> nat -> R).
Definition bip : nat -> nat -> R := fun i j =>
  if (i < n)%N then (if (j < n)%N then 0 else A i (j - n)%N)
  else (if (j < n)%N then A j (i - n)%N else 0).

Lemma lhq_bip L s : all (fun i => i < n)%N L -> size L = size s ->
  lhq bip (fun=> 0) (L ++ [seq (n + j)%N | j <- s]) = pq A L s.
Proof.
elim: L s => [|x L IH] s /=; first by case: s => // _ _; rewrite lhq_nil.
case/andP=> xn Ln sz; rewrite lhq_cons mul0r add0r big_cat /= big1_seq ?add0r => [|z /= zL]; last first.
  by rewrite /bip xn (allP Ln _ zL) mul0r.
rewrite big_map; apply: eq_big_seq => z zs; rewrite {1}/bip xn ifF; last by lia.
rewrite addKn; congr (_ * _).
have remc (L' t : seq nat) y : y \notin L' -> rem y (L' ++ t) = L' ++ rem y t.
  by elim: L' => //= a L' IHL; rewrite in_cons negb_or eq_sym => /andP[/negPf -> /IHL ->].
rewrite remc; last by apply/negP => /(allP Ln) /=; lia.
rewrite (@rem_map_inj _ _ (addn n)); last exact: addnI.
by apply: IH; rewrite // size_rem // -sz.
Qed.
End Bipartite.
