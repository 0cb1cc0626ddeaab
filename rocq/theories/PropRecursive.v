(** C07: the recursive hafnian algorithm is exact, over every commutative ring. *)
From mathcomp Require Import all_ssreflect all_fingroup all_algebra zify.
From Verif Require Import Prelude PyBase ArrLoop SpecHaf ThHaf ThRec MRecursive.
Set Implicit Arguments.
Unset Strict Implicit.
Unset Printing Implicit Defensive.
Import GRing.Theory.
Local Open Scope ring_scope.

Definition tri (j k : nat) : nat := (j * (j - 1) %/ 2 + k)%N.
Lemma triS j : tri j.+1 0 = (tri j 0 + j)%N.
Proof. by rewrite /tri !addn0 !divn2; case: j => [|j] //; rewrite !subn1 /=; nia. Qed.
Lemma tri_shift j k : tri j k = (tri j 0 + k)%N. Proof. by rewrite /tri addn0. Qed.
Lemma tri_mono i j : (i < j)%N -> (tri i 0 + i <= tri j 0)%N.
Proof.
elim: j => // j IH; rewrite ltnS leq_eqVlt => /orP[/eqP->|h]; first by rewrite triS.
by rewrite triS; have := IH h; lia.
Qed.
Lemma tri_inj j k j' k' : (k < j)%N -> (k' < j')%N -> tri j k = tri j' k' -> j = j' /\ k = k'.
Proof.
rewrite tri_shift [tri j' k']tri_shift => h h' e.
case: (ltngtP j j') => c; last by subst j'; split=> //; lia.
  by have := tri_mono c; lia.
by have := tri_mono c; lia.
Qed.
Lemma tri_code j k : ((j + 1) * (j + 2) %/ 2 + k)%N = tri j.+2 k.
Proof. by rewrite /tri subn1 /=; congr (_ %/ 2 + _)%N; lia. Qed.
Lemma tri_code0 j : ((j + 1) * (j + 2) %/ 2)%N = tri j.+2 0.
Proof. by rewrite -(tri_code j 0) addn0. Qed.

Section Acc.
Variable R : zmodType.
Lemma for_acc2 X (l : seq X) (F : (nat -> nat -> R) -> X -> (nat -> nat -> R)) S :
  (forall x c a b, F c x a b = c a b + S x a b) ->
  forall c a b, for_ l c F a b = c a b + \sum_(x <- l) S x a b.
Proof.
move=> h; elim: l => [|x l IH] c a b; first by rewrite big_nil addr0.
by rewrite for_cons IH h big_cons addrA.
Qed.
Lemma for_acc1 X (l : seq X) (F : (nat -> R) -> X -> (nat -> R)) S :
  (forall x c a, F c x a = c a + S x a) ->
  forall c a, for_ l c F a = c a + \sum_(x <- l) S x a.
Proof.
move=> h; elim: l => [|x l IH] c a; first by rewrite big_nil addr0.
by rewrite for_cons IH h big_cons addrA.
Qed.
Lemma upd2_acc (c : nat -> nat -> R) i j v a b :
  upd2 c i j (c i j + v) a b = c a b + if (a == i) && (b == j) then v else 0.
Proof. by rewrite /upd2; case: ifP => [/andP[/eqP-> /eqP->]|_] //; rewrite addr0. Qed.
Lemma upd1_acc (c : nat -> R) i v a : upd1 c i (c i + v) a = c a + if a == i then v else 0.
Proof. by rewrite /upd1; case: eqP => [->|_] //; rewrite addr0. Qed.
End Acc.

Section Solve.
Variable R : comRingType.
Variable n : nat.

Lemma conv (x y : nat -> R) (P Q : {poly R}) t :
  (forall i, (i <= n)%N -> x i = P`_i) -> (forall i, (i <= n)%N -> y i = Q`_i) -> (t <= n)%N ->
  \sum_(u <- iota 0 n) \sum_(v <- iota 0 (n - u)) (if t == (u + v + 1)%N then x u * y v else 0) = ('X * (P * Q))`_t.
Proof.
move=> hx hy; rewrite coefXM; case: t => [|i] ti /=.
  by rewrite big1 // => u _; rewrite big1 // => v _; rewrite addn1.
transitivity (\sum_(u <- iota 0 n) if (u < i.+1)%N then x u * y (i - u)%N else 0).
  apply: eq_big_seq => u; rewrite mem_iota add0n => /andP[_ hu].
  case: ifP => ui.
    rewrite (bigD1_seq (i - u)%N) ?iota_uniq ?mem_iota //=; last by lia.
    have -> : (i.+1 == u + (i - u) + 1)%N by lia.
    rewrite big1 ?addr0 // => v hv.
    by have -> : (i.+1 == u + v + 1)%N = false by lia.
  rewrite big1 // => v _.
  by have -> : (i.+1 == u + v + 1)%N = false by lia.
rewrite sum_iota coefM -big_mkcond /=.
rewrite (big_ord_widen n (fun u => P`_u * Q`_(i - u))) //.
by apply: eq_bigr => u hu; rewrite hx ?hy //; lia.
Qed.

Definition brel s (b : nat -> nat -> R) (B : nat -> nat -> {poly R}) :=
  forall j k v, (k < j)%N -> (j < s)%N -> (v <= n)%N -> b (tri j k) v = (B j k)`_v.

Lemma solveP p b (B : nat -> nat -> {poly R}) w g (G : {poly R}) :
  brel p.*2 b B -> (forall v, (v <= n)%N -> g v = G`_v) ->
  solve p b w g n = w * (G * Tp 'X p B)`_n.
Proof.
elim: p b B w g G => [|p IH] b B w g G hb hg; first by rewrite /= mulr1 hg.
rewrite [solve _ _ _ _ _]/=.
set c := (for_ _ (_, _) _).1; set e := for_ _ g _; set c2 := for_ _ c _.
have hc : brel p.*2 c (rdrop B).
  have : [/\ (for_ (pyrange 1 (p.+1.*2 - 2)) ((fun _ _ => 0) : nat -> nat -> R, 0%N) (fun ci j =>
                for_ (iota 0 j) ci (fun ci k => let: (c, i) := ci in
                  (fun a => if a == i then b ((j + 1) * (j + 2) %/ 2 + k + 2)%N else c a, i.+1)))).2
             = tri (1 + (p.+1.*2 - 2 - 1))%N 0 &
     forall j k, (k < j)%N -> (j < 1 + (p.+1.*2 - 2 - 1))%N -> c (tri j k) =1 b (tri j.+2 k.+2)].
    rewrite /c; apply: (for_inv (Q := fun J ci => [/\ ci.2 = tri J 0 &
       forall j k, (k < j)%N -> (j < J)%N -> ci.1 (tri j k) =1 b (tri j.+2 k.+2)])).
      by split=> // -[|j].
    move=> J ci _ [h1 h2].
    have : [/\ (for_ (iota 0 J) ci (fun ci k => let: (c, i) := ci in
                  (fun a => if a == i then b ((J + 1) * (J + 2) %/ 2 + k + 2)%N else c a, i.+1))).2
             = tri J (0 + J) &
       forall j k, (k < j)%N -> (j < J)%N || (j == J) && (k < 0 + J)%N ->
       (for_ (iota 0 J) ci (fun ci k => let: (c, i) := ci in
                  (fun a => if a == i then b ((J + 1) * (J + 2) %/ 2 + k + 2)%N else c a, i.+1))).1 (tri j k)
        =1 b (tri j.+2 k.+2)].
      apply: (for_inv (Q := fun t ci => [/\ ci.2 = tri J t & forall j k, (k < j)%N ->
           (j < J)%N || (j == J) && (k < t)%N -> ci.1 (tri j k) =1 b (tri j.+2 k.+2)])).
        split=> // j k kj; rewrite ltn0 andbF orbF => jJ; exact: h2.
      move=> t [c' i'] /= ht [-> h3]; split; first by rewrite /tri; lia.
      move=> j k kj hjk v; case: eqP => [ejk|nejk].
        have [-> ->] : j = J /\ k = t by apply: tri_inj ejk => //; lia.
        by rewrite -addnA tri_code addn2.
      apply: h3 => //; case/orP: hjk => [->//|/andP[/eqP ej kt]]; subst j.
      by rewrite eqxx /= (_ : (k < t)%N) ?orbT //; case: (ltngtP k t) nejk => // [|->]; [lia|move=> []].
    case=> h3 h4; split; first by rewrite h3 tri_shift add0n triS.
    by move=> j k kj jJ; apply: h4 => //; lia.
  case=> _ h j k v kj jp vn; rewrite h //; last by lia.
  by rewrite hb //; lia.
have he v : (v <= n)%N -> e v = (G * (1 + 'X * B 1%N 0%N))`_v.
  move=> vn; rewrite /e.
  rewrite (@for_acc1 _ _ _ _ (fun u a => \sum_(v <- iota 0 (n - u)) if a == (u + v + 1)%N then g u * b 0%N v else 0)).
    rewrite (conv hg (y := b 0%N) (Q := B 1%N 0%N) _ vn); last by move=> i hi; rewrite -hb.
    by rewrite hg // mulrDr mulr1 coefD mulrCA.
  move=> u c' a; rewrite (@for_acc1 _ _ _ _ (fun v a => if a == (u + v + 1)%N then g u * b 0%N v else 0)) //.
  by move=> v' c'' a'; rewrite upd1_acc.
have hc2 : brel p.*2 c2 (fun j k => rdrop B j k + 'X * rpert B j k).
  move=> j k v kj jp vn; rewrite coefD -hc // /c2.
  pose val j k u v : R := b (tri j.+2 0) u * b (tri k.+2 1) v + b (tri k.+2 0) u * b (tri j.+2 1) v.
  pose S3 j k u a t : R := \sum_(v <- iota 0 (n - u)) if (a == tri j k) && (t == (u + v + 1)%N) then val j k u v else 0.
  pose S2 j k a t : R := \sum_(u <- iota 0 n) S3 j k u a t.
  pose S1 j a t : R := \sum_(k <- iota 0 j) S2 j k a t.
  rewrite (@for_acc2 _ _ _ _ (S1)); last first.
    move=> j' c' a t; apply: (@for_acc2 _ _ _ _ (S2 j')) => {k kj} k c'' {}a {}t.
    apply: (@for_acc2 _ _ _ _ (S3 j' k)) => u c3 {}a {}t.
    apply: (@for_acc2 _ _ _ _ (fun v a t => if (a == tri j' k) && (t == (u + v + 1)%N) then val j' k u v else 0)) => v' c4 {}a {}t.
    by rewrite upd2_acc !tri_code !tri_code0.
  congr (_ + _).
  rewrite (bigD1_seq j) /=; last by rewrite iota_uniq.
    rewrite [X in _ + X]big1_seq ?addr0.
      rewrite /S1 (bigD1_seq k) ?mem_iota ?iota_uniq //= [X in _ + X]big1_seq ?addr0.
        rewrite /S2 /S3 /val /rpert mulrDr coefD eqxx /=.
        have hbx J t i : (t < J.+2)%N -> (J < p.*2)%N -> (i <= n)%N -> b (tri J.+2 t) i = (B J.+2 t)`_i.
          by move=> *; apply: hb.
        rewrite -(@conv (b (tri j.+2 0)) (b (tri k.+2 1)) (B j.+2 0%N) (B k.+2 1%N) v) //;
          try by move=> i hi; apply: hbx => //; lia.
        rewrite -(@conv (b (tri k.+2 0)) (b (tri j.+2 1)) (B k.+2 0%N) (B j.+2 1%N) v) //;
          try by move=> i hi; apply: hbx => //; lia.
        rewrite -big_split /=; apply: eq_bigr => u _; rewrite -big_split /=; apply: eq_bigr => t _.
        by case: ifP => // _; rewrite addr0.
      move=> k' /andP[kk]; rewrite mem_iota => hk'; rewrite /S2 big1 // => u _; rewrite /S3 big1 // => t _.
      case: eqP => // ek; have hk2 : (k' < j)%N by lia.
      have [_ e2] := tri_inj kj hk2 ek.
      by rewrite e2 eqxx in kk.
    move=> j' /andP[jj hj']; rewrite /S1 big1_seq // => k' /andP[_]; rewrite mem_iota => hk'.
    rewrite /S2 big1 // => u _; rewrite /S3 big1 // => t _.
    case: eqP => // ek; have hk2 : (k' < j')%N by lia.
    have [e1 _] := tri_inj kj hk2 ek.
    by rewrite e1 eqxx in jj.
  by rewrite mem_iota; lia.
rewrite (IH _ _ _ _ _ hc hg) (IH _ _ _ _ _ hc2 he) /=.
by rewrite mulrBr coefB mulrBr addrC mulrA mulNr.
Qed.
End Solve.

(** C07, for every commutative ring, every even size and every matrix; the code reads the entries below the
    diagonal only, so the statement has A transposed (for symmetric A it is haf_spec A, next theorem). *)
Theorem recursive_hafnian_gen (R : comRingType) n (A : nat -> nat -> R) : ~~ odd n ->
  recursive_hafnian n n A = Ok (haf_spec n (fun i j => A j i)).
Proof.
move=> on; rewrite /recursive_hafnian eqxx modn2 (negPf on) /= divn2; congr Ok.
set z := for_ _ _ _; set p := n./2.
have np : n = p.*2 by rewrite /p; lia.
have hz : brel p p.*2 z (fun j k => (A j k)%:P).
  have h2n : (2 * p = p.*2)%N by rewrite mul2n.
  pose Q J (z : nat -> nat -> R) := (forall j k, (k < j)%N -> (j < J)%N -> z (tri j k) 0%N = A j k) /\
                                   (forall a v, z a v.+1 = 0).
  have [h1 h2] : Q (1 + (2 * p - 1))%N z.
    apply: (for_inv (Q := Q)) => [|J z' hJ [h1 h2]]; first by split=> // -[|j].
    pose Q' t (z : nat -> nat -> R) := (forall j k, (k < j)%N -> (j < J)%N || (j == J) && (k < t)%N ->
        z (tri j k) 0%N = A j k) /\ (forall a v, z a v.+1 = 0).
    set z2 := for_ _ _ _; have [h3 h4] : Q' (0 + J)%N z2.
      apply: (for_inv (Q := Q')) => [|t z3 ht [h3 h4]].
        by split=> // j k kj; rewrite ltn0 andbF orbF; apply: h1.
      rewrite -/(tri J t); split=> [j k kj hjk|a v]; rewrite /upd2; last by rewrite andbF.
      rewrite andbT; case: eqP => [e|ne].
        have tJ : (t < J)%N by lia.
        by have [-> ->] := tri_inj kj tJ e.
      apply: h3 => //; case/orP: hjk => [->//|/andP[/eqP ej kt]]; subst j.
      by rewrite eqxx /= (_ : (k < t)%N) ?orbT //; case: (ltngtP k t) ne => // [|->]; [lia|move=> []].
    by split=> // j k kj jJ; apply: h3 => //; lia.
  move=> j k [|v] kj jp vp; last by rewrite h2 coefC.
  by rewrite h1 ?coefC //; lia.
have [U [hU U0]] := Tp_haf p A.
rewrite (solveP (B := fun j k => (A j k)%:P) (G := 1) 1 hz) => [|v _]; last by rewrite coefC /upd1.
rewrite !mul1r hU coefXnM ltnn subnn U0 np haf_spec_lhq /rhaf.
rewrite -haf_spec_lhq -haf_spec_lhq.
by apply: eq_bigr => s _; apply: eq_bigr => i hi; rewrite /rsym hi.
Qed.

Theorem recursive_hafnian_correct (R : comRingType) n (A : nat -> nat -> R) : ~~ odd n ->
  (forall i j, (i < n)%N -> (j < n)%N -> A i j = A j i) ->
  recursive_hafnian n n A = Ok (haf_spec n A).
Proof.
move=> on symA; rewrite recursive_hafnian_gen //; congr Ok.
by apply: eq_bigr => s _; apply: eq_bigr => i hi; apply: symA.
Qed.

Theorem recursive_hafnian_bad_shape (R : comRingType) nl nc (A : nat -> nat -> R) :
  nl <> nc \/ odd nl -> recursive_hafnian nl nc A = Err ValueError.
Proof.
rewrite /recursive_hafnian modn2 => h; case: eqP => //= e; case: h => [//|->] //.
Qed.

Example recursive_hafnian_ex : recursive_hafnian 4 4 (fun i j => (i * j + 1)%N%:R : int) = Ok 14%:R.
Proof. by vm_compute. Qed.
