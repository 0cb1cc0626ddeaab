(** Theorems about [reference.memoized]: C04 (transparency) and C05 (cache bound). *)
From Coq Require List.
From mathcomp Require Import all_ssreflect zify.
From Verif Require Import PyBase MReference.
Set Implicit Arguments.
Unset Strict Implicit.
Unset Printing Implicit Defensive.

(** ** C05.  A [LimitedSizeDict] constructed with [size_limit = n] never holds more than [n] entries... *)
Section Bound.
Variables (K : eqType) (V : Type).

Definition lsd_ok (d : lsd K V) := if size_limit d is Some n then size (entries d) <= n else true.

Lemma check_ok d : lsd_ok (check_size_limit d).
Proof.
rewrite /check_size_limit; case: d => [[n|] e] //=; rewrite /lsd_ok /= size_drop; lia.
Qed.

Theorem lsd_bounded kwkey as_nat kwargs (sets : seq (K * V)) :
  lsd_ok (foldl (fun d kv => lsd_set d kv.1 kv.2) (lsd_init kwkey as_nat kwargs) sets).
Proof.
have : lsd_ok (lsd_init kwkey as_nat kwargs) by apply: check_ok.
elim: sets (lsd_init _ _ _) => //= kv sets IH d _; apply: IH; exact: check_ok.
Qed.

(** ... and [__setitem__] keeps the value just stored when the limit is positive. *)
Lemma od_set_last k v (e : seq (K * V)) : k \notin map fst e -> od_set k v e = rcons e (k, v).
Proof. by rewrite /od_set => /negPf ->. Qed.

Lemma od_get_notin k (e : seq (K * V)) : k \notin map fst e -> od_get k e = None.
Proof.
elim: e => //= -[k' v] e IH; rewrite inE negb_or => /andP[kk' ke]; rewrite /od_get /= eq_sym (negPf kk').
exact: IH.
Qed.

Lemma od_get_rcons k v (e : seq (K * V)) : k \notin map fst e -> od_get k (rcons e (k, v)) = Some v.
Proof.
elim: e => [|[k' v'] e IH] /=; first by rewrite /od_get /= eqxx.
by rewrite inE negb_or => /andP[kk' ke]; rewrite /od_get /= eq_sym (negPf kk'); apply: IH.
Qed.

Lemma od_get_mem k (e : seq (K * V)) : k \in map fst e -> exists2 v, od_get k e = Some v & List.In (k, v) e.
Proof.
elim: e => //= -[k' v'] e IH; rewrite inE /od_get /=; case: (k' =P k) => [->|kk'] /=.
  by move=> _; exists v' => //; left.
by rewrite eq_sym => /orP[/eqP//|/IH[v hv iv]]; exists v => //; right.
Qed.
End Bound.

(** ... but [memoized] passes the bound under the keyword [maxsize], which the constructor does not
    know: for every [maxsize] and every number of distinct calls, the cache grows without bound. *)
Section Refute.
Variables (Arg : eqType) (V : Type) (f : Arg -> seq V) (g : nat -> Arg).
Hypothesis ginj : injective g.

Lemma cache_grows maxsize n : exists st,
  [/\ mrun f (minit Arg V maxsize) [seq MCall (g i) | i <- iota 0 n] = Some (st, [::]),
      size_limit (mcache st) = None
    & map fst (entries (mcache st)) = None :: [seq Some (g i) | i <- iota 0 n]].
Proof.
elim: n => [|n [st [run lim ent]]]; first by eexists; split.
have nin : Some (g n) \notin map fst (entries (mcache st)).
  rewrite ent inE /=; apply/mapP => -[i]; rewrite mem_iota => /andP[_ hi] [] /ginj ?; lia.
pose c1 := rcons (entries (mcache st)) (Some (g n), CIter (Titer (size (mgens st)) 0)).
exists (MState (Lsd None (od_set (Some (g n)) (CIter (Titer (size (mgens st)) 0)) c1))
   (rcons (mgens st) (Gen (g n) [::])) (rcons (mhandles st) (Titer (size (mgens st)) 0))).
have hrun ops1 ops2 s0 s1 : mrun f s0 ops1 = Some (s1, [::]) -> mrun f s0 (ops1 ++ ops2) = mrun f s1 ops2.
  elim: ops1 s0 => [|[a|h] ops1 IH] s0 /=; first by case=> ->.
    by case: (mcall a s0) => // s0' /IH.
  by case: (mnext f h s0) => s' v; case: (mrun f s' ops1) => // -[s'' l].
split.
- rewrite -addn1 iotaD map_cat (hrun _ _ _ _ run) /= add0n /mcall (od_get_notin nin) /=.
  rewrite /lsd_set /check_size_limit /= lim /= od_set_last //.
  by rewrite od_get_rcons.
- by [].
have -> : [seq Some (g i) | i <- iota 0 n.+1] = rcons [seq Some (g i) | i <- iota 0 n] (Some (g n)).
  by rewrite -addn1 iotaD map_cat /= cats1.
rewrite /= /od_set /c1 map_rcons mem_rcons inE eqxx /= -map_comp.
rewrite (eq_map (f2 := fst)); last by case=> k v /=; case: eqP => [->|].
by rewrite map_rcons ent.
Qed.

(** C05 is false of the code: for every [maxsize] there is a history after which the cache has more
    than [maxsize] entries. *)
Theorem memoized_maxsize_refuted maxsize : exists ops st log,
  mrun f (minit Arg V maxsize) ops = Some (st, log) /\ maxsize < size (entries (mcache st)).
Proof.
have [st [run _ ent]] := cache_grows maxsize maxsize.
exists [seq MCall (g i) | i <- iota 0 maxsize], st, [::]; split => //.
by rewrite -(size_map fst) ent /= size_map size_iota.
Qed.
End Refute.

(** Non-vacuity: [nat] arguments. *)
Example memoized_maxsize_refuted_nat := @memoized_maxsize_refuted nat_eqType nat (fun n => iota 0 n) id (fun _ _ => id).

(** ** C04: transparency *)
Section Transparent.
Variables (Arg : eqType) (V : Type) (f : Arg -> seq V).

(** Spec: the [i]-th value produced by a plain iterator over the sequence [l] ([None] once exhausted). *)
Definition plain_next (l : seq V) (i : nat) : option V := ohead (drop i l).

(** Arguments of the successive calls in a history, i.e. argument of each handle. *)
Definition calls (ops : seq (mop Arg)) : seq Arg :=
  pmap (fun o => if o is MCall a then Some a else None) ops.

(** A history in which [next] is only applied to iterators that were already handed out. *)
Fixpoint wf (n : nat) (ops : seq (mop Arg)) : bool :=
  match ops with
  | [::] => true
  | MCall _ :: ops' => wf n.+1 ops'
  | MNext h :: ops' => (h < n) && wf n ops'
  end.

(** Values received from handle [h], in order. *)
Definition received (log : seq (nat * option V)) (h : nat) : seq (option V) :=
  [seq p.2 | p <- log & p.1 == h].

(** Number of [next]s applied to handle [h]. *)
Definition nexts (h : nat) (ops : seq (mop Arg)) : nat :=
  count (fun o => if o is MNext h' then h' == h else false) ops.

Definition gen_ok (g : gen Arg V) := exists l, f (gsrc g) = gbuf g ++ l.

Definition inv (st : mstate Arg V) (hs : seq Arg) (pos : nat -> nat) : Prop :=
  [/\ size_limit (mcache st) = None,
      (forall a v, List.In (Some a, v) (entries (mcache st)) ->
         exists g b, v = CIter (Titer g 0) /\ ohead (drop g (mgens st)) = Some (Gen a b)),
      (forall g x, ohead (drop g (mgens st)) = Some x -> gen_ok x),
      size (mhandles st) = size hs
    & forall h a, ohead (drop h hs) = Some a -> exists g b,
        [/\ ohead (drop h (mhandles st)) = Some (Titer g (pos h)),
            ohead (drop g (mgens st)) = Some (Gen a b) & pos h <= size b]].

Lemma ohead_drop_rcons (S : Type) (s : seq S) x i :
  ohead (drop i (rcons s x)) = if i < size s then ohead (drop i s) else if i == size s then Some x else None.
Proof.
elim: s i => [|y s IH] [|i] //=; rewrite ?drop0 //; last by rewrite IH ltnS eqSS.
Qed.

Lemma ohead_drop_some (S : Type) (s : seq S) i x : ohead (drop i s) = Some x -> i < size s.
Proof. by elim: s i => [|y s IH] [|i] //= /IH; rewrite ltnS. Qed.

Lemma ohead_drop_set (S : Type) (s : seq S) d x i j : i < size s ->
  ohead (drop j (set_nth d s i x)) = if j == i then Some x else ohead (drop j s).
Proof.
elim: s i j => [|y s IH] [|i] [|j] //= h; rewrite ?drop0 //= IH //.
Qed.

Lemma size_set (S : Type) (s : seq S) d x i : i < size s -> size (set_nth d s i x) = size s.
Proof. by move=> h; rewrite size_set_nth; apply/maxn_idPr. Qed.

Lemma In_rcons (S : Type) (s : seq S) x y : List.In y (rcons s x) -> List.In y s \/ y = x.
Proof. by elim: s => [|z s IH] /=; [case=> // ->; right|case=> [->|/IH[]]; auto]. Qed.

Lemma In_map (S S' : Type) (u : S -> S') s y : List.In y (map u s) -> exists2 x, y = u x & List.In x s.
Proof. by elim: s => //= z s IH [<-|/IH[x -> xs]]; [exists z; auto|exists x; auto]. Qed.

Lemma In_od_set (K : eqType) (W : Type) (k : K) (v : W) e k' v' :
  List.In (k', v') (od_set k v e) -> (k' = k /\ v' = v) \/ List.In (k', v') e.
Proof.
rewrite /od_set; case: ifP => _.
  move=> h; case: (In_map h) => -[k1 v1] /=; case: eqP => [->|_] [-> ->]; auto.
move=> h; case: (In_rcons h) => [|[-> ->]]; auto.
Qed.

Lemma od_set_get (K : eqType) (W : Type) (k : K) (v : W) e : od_get k (od_set k v e) = Some v.
Proof.
rewrite /od_set; case: ifPn => [|kn]; last by apply: od_get_rcons.
elim: e => //= -[k' v'] e IH; rewrite inE /= /od_get /=; case: (k' =P k) => [->|kk'] /=.
  by rewrite eqxx.
case/orP => [/eqP kk''|ke]; first by case: kk'.
by case: eqP => // _; apply: IH.
Qed.

Lemma call_inv st hs pos a : inv st hs pos ->
  exists2 st', mcall a st = Some st' & inv st' (rcons hs a) (fun h => if h == size hs then 0 else pos h).
Proof.
case=> lim hc hg hsz hh; rewrite /mcall.
pose st1 := if od_get (Some a) (entries (mcache st)) is Some _ then st
  else MState (lsd_set (mcache st) (Some a) (CIter (Titer (size (mgens st)) 0)))
         (rcons (mgens st) (Gen a [::])) (mhandles st).
rewrite -/st1.
have [lim1 hc1 hg1 hh1 [g [b [get1 gg]]]] :
  [/\ size_limit (mcache st1) = None,
   (forall a' v, List.In (Some a', v) (entries (mcache st1)) ->
         exists g b, v = CIter (Titer g 0) /\ ohead (drop g (mgens st1)) = Some (Gen a' b)),
   (forall g x, ohead (drop g (mgens st1)) = Some x -> gen_ok x),
   (forall g x, ohead (drop g (mgens st)) = Some x -> ohead (drop g (mgens st1)) = Some x)
   & exists g b, od_get (Some a) (entries (mcache st1)) = Some (CIter (Titer g 0)) /\
        ohead (drop g (mgens st1)) = Some (Gen a b)].
  rewrite /st1; case E: (od_get _ _) => [v|].
    split => //; case: (boolP (Some a \in map fst (entries (mcache st)))) => [/od_get_mem[w]|/od_get_notin].
      by rewrite E => -[<-] /hc[g [b [-> hb]]]; exists g, b.
    by rewrite E.
  have new : ohead (drop (size (mgens st)) (rcons (mgens st) (Gen a [::]))) = Some (Gen a [::]).
    by rewrite ohead_drop_rcons ltnn eqxx.
  rewrite /lsd_set /check_size_limit /= lim /=; split => //.
  - move=> a' v h; case: (In_od_set h) => [[[->] ->]|/hc[g [b [-> hb]]]]; first by exists (size (mgens st)), [::].
    by exists g, b; split => //; rewrite ohead_drop_rcons (ohead_drop_some hb).
  - move=> g x; rewrite ohead_drop_rcons; case: ifP => _; first exact: hg.
    by case: ifP => // _ [<-]; exists (f a).
  - by move=> g x hx; rewrite ohead_drop_rcons (ohead_drop_some hx).
  by exists (size (mgens st)), [::]; rewrite od_set_get.
have hand : mhandles st1 = mhandles st by rewrite /st1; case: (od_get _ _).
rewrite get1; eexists; first by [].
rewrite /lsd_set /check_size_limit /= lim1; split => //=.
- by move=> a' v h; case: (In_od_set h) => [[[->] ->]|/hc1//]; exists g, b.
- by rewrite hand !size_rcons hsz.
move=> h a'; rewrite !ohead_drop_rcons hand hsz.
case: (ltngtP h (size hs)) => [hlt|//|eh] ha.
  by have [g' [b' [h1 h2 h3]]] := hh h a' ha; exists g', b'; split => //; apply: hh1.
by case: ha => <-; exists g, b.
Qed.

Lemma next_inv st hs pos h a : inv st hs pos -> ohead (drop h hs) = Some a ->
  exists st' pos', [/\ mnext f h st = (st', plain_next (f a) (pos h)), inv st' hs pos',
    (forall h', h' != h -> pos' h' = pos h')
    & pos' h = if pos h < size (f a) then (pos h).+1 else pos h].
Proof.
case=> lim hc hg hsz hh ha; have [g [b [h1 h2 h3]]] := hh h a ha.
rewrite /mnext h1 h2.
have [l fl] : gen_ok (Gen a b) by apply: hg h2.
set b' := if _ < _ then _ else _.
have bb' : exists l1 l2, b' = b ++ l1 /\ f a = b' ++ l2.
  rewrite /b'; case: ifP => _; first by exists [::], l; rewrite cats0.
  rewrite fl drop_size_cat //; case: l fl => [|v l] /= fl; first by exists [::], [::]; rewrite !cats0.
  by exists [:: v], l; rewrite cats1 cat_rcons.
have pb' : ohead (drop (pos h) b') = plain_next (f a) (pos h).
  rewrite /plain_next /b'; case: ifP => pb; first by rewrite fl drop_cat pb; case: (drop _ b) (size_drop (pos h) b) => //=; lia.
  have -> : pos h = size b by lia.
  rewrite fl drop_size_cat //; case: l fl => [|v l] fl /=; first by rewrite drop_size.
  by rewrite -cats1 drop_size_cat.
rewrite pb'; case E: (plain_next _ _) => [v|].
  have lt : pos h < size (f a) by apply: ohead_drop_some E.
  eexists; exists (fun h' => if h' == h then (pos h).+1 else pos h'); split; first by []; last by rewrite eqxx lt.
    have gsz := ohead_drop_some h2; have hsz' := ohead_drop_some h1.
    case: bb' => l1 [l2 [eb' fa]].
    have keep g' a' b0 : ohead (drop g' (mgens st)) = Some (Gen a' b0) -> exists b1,
       ohead (drop g' (set_nth (Gen a b') (mgens st) g (Gen a b'))) = Some (Gen a' b1) /\ size b0 <= size b1.
      move=> hg'; rewrite ohead_drop_set //; case: eqP => [e|_]; last by exists b0.
      by move: hg'; rewrite e h2 => -[-> <-]; exists b'; split => //; rewrite eb' size_cat leq_addr.
    split => //=.
    - by move=> a' w /hc[g' [b0 [-> /keep[b1 [hb1 _]]]]]; exists g', b1.
    - move=> g' x; rewrite ohead_drop_set //; case: eqP => [_ [<-]|_]; last exact: hg.
      by exists l2.
    - by rewrite size_set.
    move=> h' a' ha'; rewrite ohead_drop_set //; case: eqP => [e|_].
      move: ha'; rewrite e ha => -[<-]; exists g, b'; split => //.
        by rewrite ohead_drop_set // eqxx.
      by rewrite -pb' in E; exact: ohead_drop_some E.
    have [g' [b0 [k1 k2 k3]]] := hh h' a' ha'; have [b1 [k4 k5]] := keep _ _ _ k2.
    by exists g', b1; split => //; apply: leq_trans k3 k5.
  by move=> h' /negPf ->.
exists st, pos; split => //.
case: ltnP => // lt; move: E; rewrite /plain_next.
by case: (drop _ _) (size_drop (pos h) (f a)) => //=; lia.
Qed.

Lemma plain_sat l i : size l <= i -> plain_next l i = None.
Proof. by move=> h; rewrite /plain_next drop_oversize. Qed.

Lemma run_inv st hs pos ops : inv st hs pos -> wf (size hs) ops ->
  exists st' log, mrun f st ops = Some (st', log) /\
  forall h a, ohead (drop h (hs ++ calls ops)) = Some a ->
    received log h = [seq plain_next (f a) ((if h < size hs then pos h else 0) + i) | i <- iota 0 (nexts h ops)].
Proof.
elim: ops st hs pos => [|[a|h] ops IH] st hs pos hI /=.
- by move=> _; exists st, [::]; split=> // h a _.
- move=> w; have [st' -> hI'] := call_inv a hI.
  case: (IH _ _ _ hI'); first by rewrite size_rcons.
  move=> st'' [log [run hl]]; exists st'', log; split=> // h' a' ha'.
  have := hl h' a'; rewrite cat_rcons => /(_ ha') ->; rewrite -/(nexts h' ops).
  apply: eq_map => i; rewrite size_rcons; congr (plain_next _ (_ + _)).
  case: eqP => [->|ne]; first by rewrite ltnn ltnSn.
  by case: (ltngtP h' (size hs)) ne => [lt|gt|->] // _; [rewrite ltnS ltnW|rewrite ltnS leqNgt gt].
case/andP=> hlt w.
have [a ha] : exists a, ohead (drop h hs) = Some a.
  by case: (drop h hs) (size_drop h hs) => [|a l] /=; [lia|exists a].
have [st' [pos' [-> hI' hpos' hposh]]] := next_inv hI ha.
have [st'' [log [-> hl]]] := IH _ _ _ hI' w.
exists st'', ((h, plain_next (f a) (pos h)) :: log); split=> // h' a' ha'.
have hn := hl h' a' ha'; rewrite /received /nexts /= -/(nexts h' ops); case: eqP => [e|ne].
  rewrite -e in ha' hn *.
  have ea : a' = a.
    have : ohead (drop h (hs ++ calls ops)) = Some a.
      by rewrite drop_cat hlt; case: (drop h hs) ha.
    by rewrite ha' => -[].
  rewrite add1n hlt /= addn0 -/(received log h) hn ea hlt; congr (_ :: _).
  rewrite (iotaDl 1 0) -map_comp; apply: eq_map => i /=; rewrite hposh.
  by case: ltnP => // lt; rewrite ?addSn ?addnS // !plain_sat //; lia.
rewrite -/(received log h') hn; apply: eq_map => i.
by rewrite hpos' //; apply/eqP => e; apply: ne.
Qed.

(** C04: whatever the interleaving of calls and [next]s, no call raises, and each caller of the memoised
    generator receives from its iterator exactly the values of the undecorated generator function, in
    order, followed by StopIteration. *)
Theorem memoized_transparent maxsize (ops : seq (mop Arg)) : wf 0 ops ->
  exists st log, mrun f (minit Arg V maxsize) ops = Some (st, log) /\
  forall h a, ohead (drop h (calls ops)) = Some a ->
    received log h = [seq plain_next (f a) i | i <- iota 0 (nexts h ops)].
Proof.
move=> w; have I0 : inv (minit Arg V maxsize) [::] (fun=> 0).
  split=> //=.
  by move=> a v [[]|].
have [st [log [run hl]]] := run_inv I0 w.
by exists st, log; split.
Qed.
End Transparent.

(** Non-vacuity: two callers with the same arguments, interleaved. *)
Example memo_ex :
  let f := fun n : nat => iota n 3 in
  let ops := [:: MCall 5; MNext _ 0; MCall 5; MNext _ 1; MNext _ 0; MCall 7; MNext _ 1; MNext _ 2; MNext _ 0; MNext _ 0] in
  wf 0 ops /\ (if mrun f (minit _ _ 1000) ops is Some (_, log) then log else [::])
   = [:: (0, Some 5); (1, Some 5); (0, Some 6); (1, Some 6); (2, Some 7); (0, Some 7); (0, None)].
Proof. by vm_compute. Qed.
