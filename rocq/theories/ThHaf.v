(** Theory of loop hafnians of label sequences (with repetition). *)
From mathcomp Require Import all_ssreflect all_fingroup all_algebra zify.
From Verif Require Import Prelude SpecHaf.
Set Implicit Arguments.
Unset Strict Implicit.
Unset Printing Implicit Defensive.
Import GRing.Theory.
Local Open Scope ring_scope.

(** ** Sums over pairs of distinct positions *)
Section RemSum.
Variables (T : eqType) (R : zmodType).

Lemma perm_rem_cons (x y : T) s : y \in s -> perm_eq (rem y (x :: s)) (x :: rem y s).
Proof.
move=> ys /=; case: eqP => [->|_] //.
by rewrite perm_to_rem.
Qed.

Lemma perm_rem (x : T) s t : perm_eq s t -> perm_eq (rem x s) (rem x t).
Proof.
move=> st; have [xs|xs] := boolP (x \in s).
  by rewrite -(perm_cons x) -(permPl (perm_to_rem xs)) -(permPr (perm_to_rem (_ : x \in t))) // -(perm_mem st).
by rewrite !rem_id // -(perm_mem st).
Qed.

Lemma rem_rem_perm (x y : T) s : perm_eq (rem x (rem y s)) (rem y (rem x s)).
Proof.
have cE z t : z \in t = (0 < count_mem z t)%N by rewrite -has_pred1 has_count.
apply/seq.permP => p; rewrite !count_rem !cE !count_rem !cE /=.
have [<-|nxy] := eqVneq x y; first by rewrite ?eqxx.
by rewrite !andbF !subn0; lia.
Qed.

Lemma big_rem_sub (s : seq T) z (f : T -> R) :
  z \in s -> \sum_(w <- rem z s) f w = \sum_(w <- s) f w - f z.
Proof. by move=> zs; rewrite (big_rem z zs) /= addrAC subrr add0r. Qed.

Lemma sum_rem_swap (s : seq T) (f : T -> T -> R) :
  \sum_(z <- s) \sum_(w <- rem z s) f z w = \sum_(z <- s) \sum_(w <- rem z s) f w z.
Proof.
have E (g : T -> T -> R) : \sum_(z <- s) \sum_(w <- rem z s) g z w
   = \sum_(z <- s) \sum_(w <- s) g z w - \sum_(z <- s) g z z.
  rewrite -sumrB; apply: eq_big_seq => z zs; exact: big_rem_sub.
by rewrite !E exchange_big.
Qed.
End RemSum.

(** ** Recursive loop hafnian of a label sequence *)
Section Lhq.
Variables (T : eqType) (R : comRingType) (A : T -> T -> R) (mu : T -> R).

Fixpoint lhq_rec (n : nat) (s : seq T) : R :=
  match n, s with
  | n'.+1, x :: s' => mu x * lhq_rec n' s' + \sum_(z <- s') A x z * lhq_rec n' (rem z s')
  | _, _ => 1
  end.

Definition lhq (s : seq T) : R := lhq_rec (size s) s.

Lemma lhq_rec_fuel2 n m s : (size s <= n)%N -> (size s <= m)%N -> lhq_rec n s = lhq_rec m s.
Proof.
elim: n m s => [|n IH] [|m] [|x s] //= sn sm.
rewrite (IH m) //; congr (_ + _); apply: eq_big_seq => z zs.
by rewrite (IH m) // size_rem //; lia.
Qed.

Lemma lhq_rec_fuel n s : (size s <= n)%N -> lhq_rec n s = lhq s.
Proof. by move=> h; apply: lhq_rec_fuel2. Qed.

Lemma lhq_nil : lhq [::] = 1. Proof. by []. Qed.

Lemma lhq_cons x s : lhq (x :: s) = mu x * lhq s + \sum_(z <- s) A x z * lhq (rem z s).
Proof.
rewrite {1}/lhq /=; congr (_ + _); apply: eq_big_seq => z zs.
by rewrite lhq_rec_fuel // size_rem //; lia.
Qed.

Hypothesis symA : forall x y, A x y = A y x.

Lemma lhq_perm_aux n : (forall s t, (size s <= n)%N -> perm_eq s t -> lhq s = lhq t).
Proof.
elim: n => [|n IH] s t sz st.
  by move: sz st; case: s => // _; rewrite perm_sym => /perm_nilP ->.
have IHsum y s' t' : (size s' <= n)%N -> perm_eq s' t' -> lhq (y :: s') = lhq (y :: t').
  move=> sz' st'; rewrite !lhq_cons (IH _ t') //; congr (_ + _).
  rewrite (perm_big _ st') /=; apply: eq_big_seq => z zs.
  rewrite (IH _ (rem z t')) //; last exact: perm_rem.
  by have := size_rem (_ : z \in s'); rewrite (perm_mem st') zs => ->; lia.
case: s sz st => [|x s] sz st; first by move: st; rewrite perm_sym => /perm_nilP ->.
case: t st => [|y t] st; first by move/perm_nilP: st.
have [exy|nxy] := eqVneq x y.
  by subst y; apply: IHsum => //; rewrite -(perm_cons x).
have ys : y \in s.
  have : y \in x :: s by rewrite (perm_mem st) mem_head.
  by rewrite inE eq_sym (negPf nxy).
have xt : x \in t.
  have : x \in y :: t by rewrite -(perm_mem st) mem_head.
  by rewrite inE (negPf nxy).
pose u := rem y s.
have su : perm_eq s (y :: u) by exact: perm_to_rem.
have tu : perm_eq t (x :: u).
  rewrite -(perm_cons y) -(permPl st) (perm_trans _ (_ : perm_eq [:: x, y & u] _)) //.
    by rewrite perm_cons.
  by apply/seq.permP => p /=; lia.
clearbody u.
have szt : size s = size t by move/perm_size: st => /= [].
rewrite (IHsum x s (y :: u)) // (IHsum y t (x :: u)) -?szt //.
have szu : (size u < n)%N by move/perm_size: su sz => /= ->; lia.
have swp a b : lhq [:: a, b & u] = mu a * mu b * lhq u + A a b * lhq u
   + (\sum_(z <- u) (mu a * A b z + mu b * A a z) * lhq (rem z u))
   + \sum_(z <- u) \sum_(w <- rem z u) A a z * A b w * lhq (rem w (rem z u)).
  rewrite lhq_cons lhq_cons big_cons /= eqxx.
  have -> : \sum_(z <- u) A a z * lhq (if b == z then u else b :: rem z u)
     = \sum_(z <- u) (mu b * A a z * lhq (rem z u) +
         \sum_(w <- rem z u) A a z * A b w * lhq (rem w (rem z u))).
    apply: eq_big_seq => z zu.
    have -> : lhq (if b == z then u else b :: rem z u) = lhq (b :: rem z u).
      apply: IH; first by case: ifP => _ /=; rewrite ?size_rem //; lia.
      by case: eqP => [->|//]; exact: perm_to_rem.
    rewrite lhq_cons mulrDr mulr_sumr; congr (_ + _); first by rring.
    by apply: eq_bigr => w _; rring.
  have -> : \sum_(z <- u) (mu a * A b z + mu b * A a z) * lhq (rem z u) =
    \sum_(z <- u) mu a * (A b z * lhq (rem z u)) + \sum_(z <- u) mu b * A a z * lhq (rem z u).
    by rewrite -big_split /=; apply: eq_bigr => z _; rring.
  by rewrite big_split /= -mulr_sumr; rring.
rewrite (swp x y) (swp y x); congr (_ + _ + _ + _).
- by rring.
- by rewrite symA.
- by apply: eq_bigr => z _; rring.
rewrite sum_rem_swap; apply: eq_big_seq => z zu; apply: eq_big_seq => w wu.
rewrite (IH (rem z (rem w u)) (rem w (rem z u))); first by rring.
  by move: (size_subseq (rem_subseq z (rem w u))) (size_subseq (rem_subseq w u)); lia.
exact: rem_rem_perm.
Qed.

Lemma lhq_perm s t : perm_eq s t -> lhq s = lhq t.
Proof. exact: (@lhq_perm_aux (size s)). Qed.

(** Expansion along any element. *)
Lemma lhq_expand x s : x \in s ->
  lhq s = mu x * lhq (rem x s) + \sum_(z <- rem x s) A x z * lhq (rem z (rem x s)).
Proof. by move=> xs; rewrite (lhq_perm (perm_to_rem xs)) lhq_cons. Qed.

(** Expansion along the two front elements. *)
Lemma lhq_cons2 a b u : lhq [:: a, b & u] = (mu a * mu b + A a b) * lhq u
   + (\sum_(z <- u) (mu a * A b z + mu b * A a z) * lhq (rem z u))
   + \sum_(z <- u) \sum_(w <- rem z u) A a z * A b w * lhq (rem w (rem z u)).
Proof.
rewrite lhq_cons lhq_cons big_cons /= eqxx.
have -> : \sum_(z <- u) A a z * lhq (if b == z then u else b :: rem z u)
   = \sum_(z <- u) (mu b * A a z * lhq (rem z u) +
       \sum_(w <- rem z u) A a z * A b w * lhq (rem w (rem z u))).
  apply: eq_big_seq => z zu.
  have -> : lhq (if b == z then u else b :: rem z u) = lhq (b :: rem z u).
    by apply: lhq_perm; case: eqP => [->|//]; exact: perm_to_rem.
  rewrite lhq_cons mulrDr mulr_sumr; congr (_ + _); first by rring.
  by apply: eq_bigr => w _; rring.
have -> : \sum_(z <- u) (mu a * A b z + mu b * A a z) * lhq (rem z u) =
  \sum_(z <- u) mu a * (A b z * lhq (rem z u)) + \sum_(z <- u) mu b * A a z * lhq (rem z u).
  by rewrite -big_split /=; apply: eq_bigr => z _; rring.
by rewrite big_split /= -mulr_sumr; rring.
Qed.
End Lhq.

Section LhqExt.
Variables (T : eqType) (R : comRingType).

Lemma eq_lhq (A B : T -> T -> R) mu nu s :
  {in s &, forall x y, A x y = B x y} -> {in s, mu =1 nu} -> lhq A mu s = lhq B nu s.
Proof.
rewrite /lhq; move: (size s) => m0; elim: m0 s => [|n IH] [|x s] //= eA emu.
rewrite emu ?mem_head // IH; first last.
- by move=> y ys; apply: emu; rewrite inE ys orbT.
- by move=> y z ys zs; apply: eA; rewrite inE ?ys ?zs orbT.
congr (_ + _); apply: eq_big_seq => z zs.
rewrite eA ?mem_head ?inE ?zs ?orbT // IH // => [y w ys ws|y ys].
  by apply: eA; rewrite inE (mem_rem ys, mem_rem ws) orbT.
by apply: emu; rewrite inE (mem_rem ys) orbT.
Qed.

Lemma lhq_map (U : eqType) (f : U -> T) (A : T -> T -> R) mu s :
  (forall x y, A x y = A y x) ->
  lhq A mu (map f s) = lhq (fun x y => A (f x) (f y)) (fun x => mu (f x)) s.
Proof.
move=> symA; move: {2}(size s) (leqnn (size s)) => n.
elim: n s => [|n IH] [|x s] //= sz.
rewrite !lhq_cons IH // big_map; congr (_ + _); apply: eq_big_seq => z zs.
rewrite -IH; last by rewrite size_rem //; lia.
congr (_ * _); apply: lhq_perm => //.
rewrite -(perm_cons (f z)) -(permPl (perm_to_rem (map_f f zs))).
exact: (perm_map f (perm_to_rem zs)).
Qed.

(** Same, for an injective labelling, without symmetry. *)
Lemma lhq_map_inj (U : eqType) (f : U -> T) (A : T -> T -> R) mu s :
  {in s &, injective f} ->
  lhq A mu (map f s) = lhq (fun x y => A (f x) (f y)) (fun x => mu (f x)) s.
Proof.
move: {2}(size s) (leqnn (size s)) => n.
elim: n s => [|n IH] [|x s] //= sz inj_f.
have inj_f' : {in s &, injective f}.
  by move=> y z ys zs; apply: inj_f; rewrite inE ?ys ?zs orbT.
rewrite !lhq_cons IH // big_map; congr (_ + _); apply: eq_big_seq => z zs.
rewrite -IH; last 2 first.
- by rewrite size_rem //; lia.
- by move=> y w /mem_rem ys /mem_rem ws; apply: inj_f'.
congr (_ * lhq _ _ _).
elim: (s) zs inj_f' {IH inj_f sz} => //= y s' IHs zs inj_f.
have [-> | nyz] := eqVneq y z; first by rewrite eqxx.
case: eqP => [e|_].
  by move/eqP: nyz; case; apply: inj_f; rewrite ?inE ?eqxx.
rewrite IHs //.
  by move: zs; rewrite inE eq_sym (negPf nyz).
by move=> a b aa bb; apply: inj_f; rewrite inE ?aa ?bb orbT.
Qed.

Lemma lhq_hom (S : comRingType) (phi : {rmorphism R -> S}) (A : T -> T -> R) mu s :
  phi (lhq A mu s) = lhq (fun x y => phi (A x y)) (fun x => phi (mu x)) s.
Proof.
rewrite /lhq; move: (size s) => m0; elim: m0 s => [|n IH] [|x s] //=; rewrite ?rmorph1 //.
rewrite rmorphD rmorphM IH rmorph_sum; congr (_ + _).
by apply: eq_bigr => z _; rewrite rmorphM IH.
Qed.

(** Without loops, odd sequences give 0. *)
Lemma lhq_odd (A : T -> T -> R) s : odd (size s) -> lhq A (fun => 0) s = 0.
Proof.
move: {2}(size s) (leqnn (size s)) => n.
elim: n s => [|n IH] [|x s] //= sz os.
rewrite lhq_cons mul0r add0r big1_seq // => z /andP[_ zs].
rewrite IH ?mulr0 // size_rem //; first lia.
by move: os zs; case: (s) => [|a l] /=; rewrite ?in_nil ?negbK.
Qed.
End LhqExt.

(** ** Link with the permutation-sum specification *)
Section Link.
Variables (R : comRingType) (n : nat) (A : nat -> nat -> R) (mu : nat -> R).

Definition on_inv (S : {set 'I_n}) (p : 'S_n) := perm_on S p && [forall i, p (p i) == i].

Definition lhS (S : {set 'I_n}) : R :=
  \sum_(p : 'S_n | on_inv S p)
    (\prod_(i in S | (i < p i)%N) A i (p i)) * (\prod_(i in S | p i == i) mu i).

Lemma lhS0 : lhS set0 = 1.
Proof.
rewrite /lhS (big_pred1 1%g).
  by rewrite !big1 ?mulr1 // => i; rewrite in_set0.
move=> p; rewrite /on_inv /=; apply/idP/eqP => [/andP[h _]|->].
  by apply/permP => i; rewrite perm1 (out_perm h) // in_set0.
by rewrite perm_on1; apply/forallP => i; rewrite !perm1.
Qed.

Hypothesis symA : forall x y, A x y = A y x.

Lemma lhS_expand (S : {set 'I_n}) x : x \in S ->
  lhS S = mu x * lhS (S :\ x) + \sum_(y in S :\ x) A x y * lhS (S :\ x :\ y).
Proof.
move=> xS; rewrite {1}/lhS (bigID (fun p : 'S_n => p x == x)) /=; congr (_ + _).
  rewrite /lhS mulr_sumr; apply: eq_big => [p|p /andP[/andP[onp invp] /eqP px]].
    rewrite /on_inv andbAC; congr (_ && _).
    apply/andP/idP => [[onp /eqP px]|onp].
      apply/subsetP => i ip; rewrite in_setD1 (subsetP onp _ ip) andbT.
      by apply: contraNneq ip => ->; rewrite px.
    split; last by rewrite (out_perm onp) // in_setD1 eqxx.
    by apply: subset_trans onp _; apply: subsetDl.
  rewrite [X in _ * X = _](bigD1 x) /=; last by rewrite xS px eqxx.
  rewrite mulrCA; congr (_ * (_ * _)).
    apply: eq_bigl => i; rewrite in_setD1; case: eqP => [->|] //=.
    by rewrite px ltnn andbF.
  by apply: eq_bigl => i; rewrite in_setD1; case: (i == x); case: (i \in S); case: (p i == i).
rewrite (partition_big (fun p : 'S_n => p x) (fun y => y \in S :\ x)) /=; last first.
  by move=> p /andP[/andP[onp _] npx]; rewrite in_setD1 npx perm_closed.
apply: eq_bigr => y; rewrite in_setD1 => /andP[nyx yS].
rewrite /lhS mulr_sumr (reindex (fun q : 'S_n => q * tperm x y)%g) /=; last first.
  by exists (fun q : 'S_n => q * tperm x y)%g => q _; rewrite -mulgA tperm2 mulg1.
have E (q : 'S_n) : [&& on_inv S (q * tperm x y)%g, (q * tperm x y)%g x != x & (q * tperm x y)%g x == y] = on_inv (S :\ x :\ y) q.
  rewrite permM; apply/idP/idP.
    move=> /and3P[/andP[onp /forallP invp] npx /eqP pxy].
    have qx : q x = x by move: pxy; rewrite -[RHS](tpermL x y) => /perm_inj.
    have qy : q y = y.
      have := invp x; rewrite !permM qx tpermL => /eqP e.
      by move: e; rewrite -{2}(tpermR x y) => /perm_inj.
    have invq i : q (q i) = i.
      have [->|nix] := eqVneq i x; first by rewrite !qx.
      have [->|niy] := eqVneq i y; first by rewrite !qy.
      have qix : q i != x by rewrite -{1}qx (inj_eq perm_inj).
      have qiy : q i != y by rewrite -{1}qy (inj_eq perm_inj).
      have := invp i; rewrite !permM (tpermD (z := q i)) 1?eq_sym //.
      have qqx : q (q i) != x by rewrite -{1}qx (inj_eq perm_inj).
      have qqy : q (q i) != y by rewrite -{1}qy (inj_eq perm_inj).
      by rewrite tpermD 1?eq_sym // => /eqP.
    rewrite /on_inv; apply/andP; split; last by apply/forallP => i; rewrite invq.
    apply/subsetP => i; rewrite inE => qi.
    have nix : i != x by apply: contraNneq qi => ->; rewrite qx.
    have niy : i != y by apply: contraNneq qi => ->; rewrite qy.
    rewrite !in_setD1 nix niy /=.
    apply: (subsetP onp); rewrite inE permM tpermD //; first by rewrite eq_sym -{1}qx (inj_eq perm_inj).
    by rewrite eq_sym -{1}qy (inj_eq perm_inj).
  move=> /andP[onq /forallP invq].
  have qx : q x = x by rewrite (out_perm onq) // !in_setD1 eqxx andbF.
  have qy : q y = y by rewrite (out_perm onq) // !in_setD1 eqxx.
  rewrite qx tpermL eqxx nyx !andbT /on_inv; apply/andP; split.
    apply/subsetP => i; rewrite inE permM => h.
    have [->//|nix] := eqVneq i x; have [->//|niy] := eqVneq i y.
    have qix : x != q i by rewrite -{1}qx (inj_eq perm_inj) eq_sym.
    have qiy : y != q i by rewrite -{1}qy (inj_eq perm_inj) eq_sym.
    move: h; rewrite tpermD // => h.
    by have := subsetP onq i; rewrite inE h !in_setD1 => /(_ isT) /and3P[].
  apply/forallP => i; rewrite !permM.
  have [->|nix] := eqVneq i x; first by rewrite qx tpermL qy tpermR.
  have [->|niy] := eqVneq i y; first by rewrite qy tpermR qx tpermL.
  have qix : x != q i by rewrite -{1}qx (inj_eq perm_inj) eq_sym.
  have qiy : y != q i by rewrite -{1}qy (inj_eq perm_inj) eq_sym.
  by rewrite (tpermD qix qiy) (eqP (invq i)) tpermD // eq_sym.
rewrite (eq_bigl (on_inv (S :\ x :\ y))); last by move=> q; rewrite -E andbA.
apply: eq_bigr => q /andP[onq /forallP invq].
have qx : q x = x by rewrite (out_perm onq) // !in_setD1 eqxx andbF.
have qy : q y = y by rewrite (out_perm onq) // !in_setD1 eqxx.
have tq i : i != x -> i != y -> (q * tperm x y)%g i = q i.
  move=> nix niy; rewrite permM tpermD //; first by rewrite -{1}qx (inj_eq perm_inj) eq_sym.
  by rewrite -{1}qy (inj_eq perm_inj) eq_sym.
have tx : (q * tperm x y)%g x = y by rewrite permM qx tpermL.
have ty : (q * tperm x y)%g y = x by rewrite permM qy tpermR.
rewrite mulrA; congr (_ * _); last first.
  apply: eq_bigl => i; rewrite !in_setD1.
  have [->|nix] := eqVneq i x; first by rewrite tx (negPf nyx) !andbF.
  have [->|niy] := eqVneq i y; first by rewrite ty eq_sym (negPf nyx) !andbF.
  by rewrite tq.
have main (a b : 'I_n) : (a < b)%N -> (a == x) && (b == y) || (a == y) && (b == x) ->
  \prod_(i in S | (i < (q * tperm x y)%g i)%N) A i ((q * tperm x y)%g i) =
  A x y * \prod_(i in S :\ x :\ y | (i < q i)%N) A i (q i).
  move=> ab ex.
  have aS : a \in S by case/orP: ex => /andP[/eqP-> _].
  have ta : (q * tperm x y)%g a = b by case/orP: ex => /andP[/eqP-> /eqP->].
  rewrite (bigD1 a) /= ?aS ?ta //; congr (_ * _).
    by case/orP: ex => /andP[/eqP-> /eqP->].
  rewrite (eq_bigl (fun i => (i \in S :\ x :\ y) && (i < q i)%N)).
    apply: eq_bigr => i; rewrite !in_setD1 => /andP[/and3P[niy nix _] _].
    by rewrite tq.
  move=> i; rewrite !in_setD1; case: (boolP ((i == x) || (i == y))) => [/orP[]/eqP->|].
  - rewrite eqxx andbF /=; case/orP: ex => /andP[/eqP ea /eqP eb]; first by rewrite ea eqxx andbF.
    by rewrite tx -ea -eb ltnNge (ltnW ab) andbF.
  - rewrite eqxx /=; case/orP: ex => /andP[/eqP ea /eqP eb]; last by rewrite ea eqxx andbF.
    by rewrite ty -ea -eb ltnNge (ltnW ab) andbF.
  - rewrite negb_or => /andP[nix niy]; rewrite nix niy tq //=.
    by rewrite (_ : i != a) ?andbT //; case/orP: ex => /andP[/eqP-> _].
case: (ltngtP x y) => [xy|yx|/val_inj exy]; last by rewrite exy eqxx in nyx.
  by apply: (main x y) => //; rewrite !eqxx.
by apply: (main y x) => //; rewrite !eqxx orbT.
Qed.

Lemma lhS_enum (S : {set 'I_n}) :
  lhS S = lhq (fun i j : 'I_n => A i j) (fun i : 'I_n => mu i) (enum S).
Proof.
move: {2}#|S| (leqnn #|S|) => m; elim: m S => [|m IH] S.
  by rewrite leqn0 cards_eq0 => /eqP->; rewrite lhS0 enum_set0.
move=> cS; have [->|[x xS]] := set_0Vmem S; first by rewrite lhS0 enum_set0.
have cSx : (#|S :\ x| <= m)%N by move: cS; rewrite (cardsD1 x S) xS.
have pe (U : {set 'I_n}) y : perm_eq (rem y (enum U)) (enum (U :\ y)).
  apply: uniq_perm; rewrite ?rem_uniq ?enum_uniq // => i.
  by rewrite mem_rem_uniq ?enum_uniq // inE !mem_enum in_setD1 -[mem _ _]/(i \in enum U) mem_enum.
rewrite (lhS_expand xS) (@lhq_expand _ _ _ _ _ x) ?mem_enum //; congr (_ * _ + _).
  by rewrite IH //; apply: lhq_perm => //; rewrite perm_sym.
rewrite [RHS](perm_big _ (pe S x)) /= big_enum /=.
apply: eq_bigr => y yS; rewrite IH; last first.
  by apply: leq_trans cSx; rewrite subset_leq_card // subsetDl.
congr (_ * _); apply: lhq_perm => //; rewrite perm_sym.
by rewrite (perm_trans _ (pe (S :\ x) y)) // perm_rem.
Qed.

Lemma lhaf_spec_lhq_sym : lhaf_spec n A mu = lhq A mu (iota 0 n).
Proof.
rewrite -val_enum_ord lhq_map // -[enum 'I_n](_ : enum [set: 'I_n] = _); last first.
  by apply: eq_enum => i; rewrite inE.
rewrite -lhS_enum /lhS /lhaf_spec; apply: eq_big => [p|p _].
  rewrite /on_inv (_ : perm_on _ _ = true) //.
  by apply/subsetP => i; rewrite inE.
by congr (_ * _); apply: eq_bigl => i; rewrite inE.
Qed.
End Link.

Lemma lhaf_spec_lhq (R : comRingType) n (A : nat -> nat -> R) mu :
  lhaf_spec n A mu = lhq A mu (iota 0 n).
Proof.
pose A' i j := if (i < j)%N then A i j else A j i.
have symA' i j : A' i j = A' j i by rewrite /A'; case: ltngtP => // ->.
have -> : lhaf_spec n A mu = lhaf_spec n A' mu.
  rewrite /lhaf_spec; apply: eq_bigr => s _; congr (_ * _).
  by apply: eq_bigr => i ii; rewrite /A' ii.
rewrite lhaf_spec_lhq_sym //.
have H : sorted ltn (iota 0 n) by exact: iota_ltn_sorted.
rewrite /lhq; move: (size _) => m0; elim: m0 (iota 0 n) H => [|m IH] [|x s] //= xs.
have ss := path_sorted xs; rewrite IH //; congr (_ + _).
apply: eq_big_seq => z zs.
have xz : (x < z)%N by apply: (allP (order_path_min ltn_trans xs)).
rewrite /A' xz IH //; exact: (subseq_sorted ltn_trans (rem_subseq _ _)).
Qed.

Lemma haf_spec_lhaf (R : comRingType) n (A : nat -> nat -> R) :
  haf_spec n A = lhaf_spec n A (fun => 0).
Proof.
rewrite /haf_spec /lhaf_spec [RHS](bigID (fun s : 'S_n => [forall i, s i != i])) /=.
rewrite [X in _ = _ + X]big1 ?addr0; last first.
  move=> s /andP[_ /forallPn[i]]; rewrite negbK => /eqP si.
  by rewrite [X in _ * X](bigD1 i) ?si //= mul0r mulr0.
apply: eq_big => [s|s /forallP h].
  apply/forallP/andP => [h|[/forallP h /forallP nf] i]; last by rewrite h nf.
  by split; apply/forallP => i; case/andP: (h i).
by rewrite [X in _ * X]big_pred0 ?mulr1 // => i; case/andP: (h i) => _ /negbTE.
Qed.

Lemma haf_spec_lhq (R : comRingType) n (A : nat -> nat -> R) :
  haf_spec n A = lhq A (fun => 0) (iota 0 n).
Proof. by rewrite haf_spec_lhaf lhaf_spec_lhq. Qed.

Lemma nth_lhq (R : comRingType) (T : eqType) (x0 : T) s (A : T -> T -> R) mu :
  (forall x y, A x y = A y x) ->
  lhq (fun i j => A (nth x0 s i) (nth x0 s j)) (fun i => mu (nth x0 s i)) (iota 0 (size s)) = lhq A mu s.
Proof. by move=> symA; rewrite -(lhq_map (nth x0 s)) // map_nth_iota0 // take_size. Qed.

Lemma lhaf_rep_spec_lhq (R : comRingType) r (A : nat -> nat -> R) mu :
  (forall i j, A i j = A j i) -> lhaf_rep_spec r A mu = lhq A mu (rep_index r).
Proof. by move=> symA; rewrite /lhaf_rep_spec lhaf_spec_lhq nth_lhq. Qed.

Lemma haf_rep_spec_lhq (R : comRingType) r (A : nat -> nat -> R) :
  (forall i j, A i j = A j i) -> haf_rep_spec r A = lhq A (fun => 0) (rep_index r).
Proof. by move=> symA; rewrite /haf_rep_spec haf_spec_lhq (nth_lhq _ _ (fun => 0)). Qed.
