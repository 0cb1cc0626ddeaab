(** C20-C23: the multidimensional Hermite recurrences compute (loop) hafnians with repeated rows; their
    renormalised versions divide by the square root of the factorials; the gradients are derivatives;
    the interferometer kernels compute the photon-number-conserving part. *)
From mathcomp Require Import all_ssreflect all_algebra zify ring.
From Verif Require Import Prelude PyBase ArrLoop SpecHaf ThHaf ThPerm2 PropPowerHaf MHafnian MHermite.
Set Implicit Arguments.
Unset Strict Implicit.
Unset Printing Implicit Defensive.
Import Order.Theory GRing.Theory Num.Theory.
Local Open Scope ring_scope.

(** ** Index order *)
Fixpoint lexlt (s t : seq nat) : bool :=
  match s, t with a :: s', b :: t' => (a < b)%N || ((a == b) && lexlt s' t') | _, _ => false end.
Lemma lexlt_irr s : lexlt s s = false.
Proof. by elim: s => //= a s ->; rewrite ltnn eqxx. Qed.
Lemma lexlt_asym s t : lexlt s t -> ~~ lexlt t s.
Proof. by elim: s t => [|a s IH] [|b t] //=; case: ltngtP => //= _ /IH. Qed.

(** [below k sh]: k is a multi-index of an array of shape [sh] *)
Definition below (k sh : seq nat) : bool := (size k == size sh) && all2 ltn k sh.
Lemma mem_ndindex sh k : (k \in ndindex sh) = below k sh.
Proof.
rewrite /below; elim: sh k => [|c sh IH] k /=; first by case: k.
apply/allpairsP/idP => [[[i r] /= [hi hr ->]]|].
  by move: hi hr; rewrite mem_iota IH /= add0n eqSS => -> /andP[-> ->].
case: k => //= a k; rewrite eqSS => /and3P[h1 h2 h3].
by exists (a, k); rewrite mem_iota IH h1 h3.
Qed.
Lemma ndindex_sorted sh : pairwise lexlt (ndindex sh).
Proof.
elim: sh => //= c sh IH; elim: c 0%N => //= c IHc m; rewrite pairwise_cat IHc andbT; apply/andP; split.
  apply/allrelP => _ _ /mapP[r _ ->] /allpairsP[[j r'] /= [hj _ ->]] /=.
  by move: hj; rewrite mem_iota => /andP[-> _].
rewrite pairwise_map; move: IH; apply: sub_pairwise => r r' /= ->; by rewrite eqxx orbT.
Qed.
Lemma behead_ndindex sh : (0 < size (ndindex sh))%N -> ndindex sh = nseq (size sh) 0%N :: behead (ndindex sh).
Proof.
elim: sh => //= c sh IH; case: c => //= c; rewrite size_cat size_map => h.
have : (0 < size (ndindex sh))%N by move: h; case: (ndindex sh) => //=; elim: (iota _ _).
by move/IH; clear; case: (ndindex sh) => [//|z l] /= [<-].
Qed.

(** ** Filling an array in index order *)
Section FillS.
Variables (S V : Type) (get : S -> seq nat -> V) (P : seq nat -> V -> Prop) (G0 : S) (sh : seq nat).
Variable body : S -> seq nat -> S.
Hypothesis loc : forall G idx k, k != idx -> get (body G idx) k = get G k.
Hypothesis step : forall G idx, idx \in behead (ndindex sh) ->
  (forall k, k \in ndindex sh -> lexlt k idx -> P k (get G k)) -> get G idx = get G0 idx -> P idx (get (body G idx) idx).
Lemma fillS : P (nseq (size sh) 0%N) (get G0 (nseq (size sh) 0%N)) ->
  forall k, k \in ndindex sh -> P k (get (for_ (behead (ndindex sh)) G0 body) k).
Proof.
move=> P0; case: (posnP (size (ndindex sh))) => [/size0nil -> //|/behead_ndindex E].
have srt := ndindex_sorted sh; rewrite E in srt.
suff H : forall l2 l1 G, ndindex sh = l1 ++ l2 -> (forall k, k \in l1 -> P k (get G k)) ->
   (forall k, k \in l2 -> get G k = get G0 k) -> subseq l2 (behead (ndindex sh)) ->
   forall k, k \in ndindex sh -> P k (get (for_ l2 G body) k).
  apply: (H _ [:: nseq (size sh) 0%N]) => // k; by rewrite inE => /eqP ->.
elim=> [|idx l2 IH] l1 G El Pl Gl sub k hk; first by apply: Pl; move: hk; rewrite El cats0.
have srt2 := ndindex_sorted sh; rewrite El pairwise_cat in srt2.
case/and3P: srt2 => a12 _ /= /andP[a2 _].
have nl2 : idx \notin l2 by apply/negP => h; move: (allP a2 _ h); rewrite lexlt_irr.
have nl1 : idx \notin l1.
  by apply/negP => h; move/allrelP: a12 => /(_ idx idx h (mem_head _ _)); rewrite lexlt_irr.
apply: (IH (rcons l1 idx) (body G idx)) => //.
- by rewrite cat_rcons.
- move=> j; rewrite mem_rcons inE; case: (eqVneq j idx) => [-> _|ne /= hj]; last by rewrite loc //; apply: Pl.
  apply: step.
  + by apply: (mem_subseq sub); rewrite mem_head.
  + move=> k'; rewrite El mem_cat inE => /or3P[h _|/eqP ->|h l]; first exact: Pl.
    * by rewrite lexlt_irr.
    * by move: (lexlt_asym (allP a2 _ h)); rewrite l.
  + by apply: Gl; rewrite mem_head.
- move=> j hj; rewrite loc ?Gl //; first by rewrite inE hj orbT.
  by apply: contraNneq nl2 => <-.
- exact: (subseq_trans (subseq_cons _ _) sub).
Qed.
End FillS.

Section Fill.
Variables (V : Type) (P : seq nat -> V -> Prop) (G0 : seq nat -> V) (sh : seq nat).
Variable body : (seq nat -> V) -> seq nat -> (seq nat -> V).
Hypothesis loc : forall G idx k, k != idx -> body G idx k = G k.
Hypothesis step : forall G idx, idx \in behead (ndindex sh) ->
  (forall k, k \in ndindex sh -> lexlt k idx -> P k (G k)) -> G idx = G0 idx -> P idx (body G idx idx).
Lemma fill : P (nseq (size sh) 0%N) (G0 (nseq (size sh) 0%N)) ->
  forall k, k \in ndindex sh -> P k (for_ (behead (ndindex sh)) G0 body k).
Proof. exact: (@fillS _ _ (fun G : seq nat -> V => G) P G0 sh body loc step). Qed.
End Fill.

(** ** Repeated indices and decrements *)
Lemma rep_index_sorted r : sorted leq (rep_index r).
Proof.
rewrite sorted_pairwise; last exact: leq_trans.
rewrite /rep_index; suff H n m : pairwise leq (flatten [seq nseq (nth 0%N r i) i | i <- iota m n]) by [].
elim: n m => //= n IH m; rewrite pairwise_cat IH andbT; apply/andP; split.
  apply/allrelP => x y; rewrite mem_nseq => /andP[_ /eqP ->] /flattenP[s /mapP[j hj ->]].
  by rewrite mem_nseq => /andP[_ /eqP ->]; move: hj; rewrite mem_iota => /andP[/ltnW].
by elim: (nth _ _ _) => //= k ->; rewrite andbT; apply/allP => x; rewrite mem_nseq => /andP[_ /eqP ->].
Qed.

Lemma nth_dec (k : seq nat) i j : (i < size k)%N ->
  nth 0%N (dec k i) j = if j == i then (nth 0 k i - 1)%N else nth 0%N k j.
Proof. by move=> h; rewrite /dec nth_set_nth /=. Qed.
Lemma size_dec (k : seq nat) i : (i < size k)%N -> size (dec k i) = size k.
Proof. by move=> h; rewrite /dec size_set_nth; apply/maxn_idPr. Qed.

Lemma rep_index_rem (k : seq nat) l : (0 < nth 0 k l)%N -> rem l (rep_index k) = rep_index (dec k l).
Proof.
move=> h; have lk : (l < size k)%N by case: (ltnP l (size k)) h => // h; rewrite nth_default.
apply: (sorted_eq leq_trans anti_leq); last 1 first.
- apply/allP => x _; apply/eqP; rewrite /= count_rem !count_rep_index nth_dec //.
  rewrite mem_rep_index h /= eq_sym; case: eqP => [->|_]; lia.
- exact: (subseq_sorted leq_trans (rem_subseq _ _)) (rep_index_sorted _).
- exact: rep_index_sorted.
Qed.

Lemma first_posP (k : seq nat) : has (fun v => 0 < v)%N k ->
  [/\ (first_pos k < size k)%N, (0 < nth 0 k (first_pos k))%N & forall j, (j < first_pos k)%N -> nth 0%N k j = 0%N].
Proof.
move=> h; rewrite /first_pos -has_find h; split.
- by rewrite -has_find.
- exact: (@nth_find _ 0%N _ _ h).
- by move=> j hj; move: (@before_find _ 0%N _ _ _ hj); rewrite lt0n => /negbFE/eqP.
Qed.

Lemma rep_index_first (k : seq nat) : has (fun v => 0 < v)%N k ->
  rep_index k = first_pos k :: rep_index (dec k (first_pos k)).
Proof.
case/first_posP => h1 h2 h3.
apply: (sorted_eq leq_trans anti_leq); first exact: rep_index_sorted.
  rewrite /= path_min_sorted; first exact: rep_index_sorted.
  apply/allP => x; rewrite mem_rep_index nth_dec //.
  case: (ltnP x (first_pos k)) => // hx; case: eqP hx => [->|_ hx]; first by rewrite ltnn.
  by rewrite h3.
rewrite -rep_index_rem // perm_to_rem // mem_rep_index //.
Qed.

Lemma sum_rep_index (T : comRingType) (k : seq nat) (F : nat -> T) :
  \sum_(z <- rep_index k) F z = \sum_(l < size k) (nth 0%N k l)%:R * F l.
Proof.
rewrite /rep_index big_flatten /= big_map -(sum_iota _ (fun l => (nth 0%N k l)%:R * F l)).
apply: eq_bigr => i _; rewrite mulr_natl; elim: (nth _ _ _) => [|m IH] /=; first by rewrite big_nil mulr0n.
by rewrite big_cons IH mulrS.
Qed.

(** no symmetry is needed: only entries on or above the diagonal are read *)
Lemma lhaf_rep_spec_lhq_any (T : comRingType) r (A : nat -> nat -> T) mu :
  lhaf_rep_spec r A mu = lhq A mu (rep_index r).
Proof.
pose B i j := if (i <= j)%N then A i j else A j i.
have symB i j : B i j = B j i by rewrite /B; case: ltngtP => // ->.
have E1 : lhaf_rep_spec r A mu = lhaf_rep_spec r B mu.
  rewrite /lhaf_rep_spec /lhaf_spec; apply: eq_bigr => s _; congr (_ * _); apply: eq_bigr => i ii.
  rewrite /B ifT //; apply: (sorted_leq_nth leq_trans leqnn); rewrite ?inE //; [exact: rep_index_sorted| exact: ltnW].
rewrite E1 lhaf_rep_spec_lhq //.
have : sorted leq (rep_index r) by exact: rep_index_sorted.
rewrite /lhq; move: (size _) => m0; elim: m0 (rep_index r) => [|m IH] [|x s] //= xs.
have ss := path_sorted xs; rewrite IH //; congr (_ + _); apply: eq_big_seq => z zs.
have xz : (x <= z)%N by apply: (allP (order_path_min leq_trans xs)).
rewrite /B xz IH //; exact: (subseq_sorted leq_trans (rem_subseq _ _)).
Qed.

Lemma dec_lexlt (k : seq nat) i : (0 < nth 0 k i)%N -> lexlt (dec k i) k.
Proof.
elim: k i => [|a k IH] [|i] //=; first by case: a => //= a _; rewrite subn1 ltnSn.
by move=> h; rewrite ltnn eqxx IH.
Qed.
Lemma lexlt_trans s t u : lexlt s t -> lexlt t u -> lexlt s u.
Proof.
elim: s t u => [|a s IH] [|b t] [|c u] //=.
case/orP => [h1|/andP[/eqP -> h1]]; case/orP => [h2|/andP[/eqP <- h2]].
- by rewrite (ltn_trans h1 h2).
- by rewrite h1.
- by rewrite h2.
- by rewrite eqxx (IH _ _ h1 h2) orbT.
Qed.
Lemma belowP (k sh : seq nat) : reflect (size k = size sh /\ forall i, (i < size sh)%N -> (nth 0 k i < nth 0 sh i)%N) (below k sh).
Proof.
rewrite /below; apply: (iffP andP) => [[/eqP sz]|[sz h]]; rewrite sz.
  elim: k sh sz => [|a k IH] [|b sh] //= [sz] /andP[h1 h2]; split=> // -[|i] // hi.
  by case: (IH _ sz h2) => _; apply.
split=> //; elim: k sh sz h => [|a k IH] [|b sh] //= [sz] h; rewrite (h 0%N) //=; apply: IH => // i hi.
exact: (h i.+1).
Qed.
Lemma below_dec k sh i : (0 < nth 0 k i)%N -> below k sh -> below (dec k i) sh.
Proof.
move=> hi /belowP[sz h]; have ik : (i < size k)%N by case: (ltnP i (size k)) hi => // h'; rewrite nth_default.
apply/belowP; rewrite size_dec //; split=> // j hj; rewrite nth_dec //; case: eqP => [->|_]; last exact: h.
have := h i; rewrite -sz => /(_ ik); lia.
Qed.
Lemma behead_pos sh k : k \in behead (ndindex sh) -> below k sh /\ has (fun v => 0 < v)%N k.
Proof.
move=> h; have hk : k \in ndindex sh by exact: mem_behead h.
split; first by rewrite -mem_ndindex.
have /behead_ndindex E : (0 < size (ndindex sh))%N by case: (ndindex sh) hk.
have := ndindex_sorted sh; rewrite E /= => /andP[/allP /(_ _ h) + _].
have := hk; rewrite mem_ndindex => /andP[/eqP <- _]; clear.
elim: k => //= a k IH /orP[-> //|/andP[_ /IH ->]]; by rewrite orbT.
Qed.

Lemma for_remove (T : comRingType) (k : seq nat) (u : T) (g : nat -> seq nat -> T) :
  for_ (remove k) u (fun u lkl => u - g lkl.1 lkl.2)
  = u - \sum_(l < size k | (0 < nth 0 k l)%N) g l (dec k l).
Proof.
rewrite (for_sum _ _ (fun lkl => - g lkl.1 lkl.2)) sumrN; congr (_ - _).
by rewrite /remove big_map big_filter /= -[in LHS](subn0 (size k)) -/(index_iota 0 (size k)) big_mkord.
Qed.

(** ** The value: Hermite polynomial = loop hafnian of -R with repetitions *)
Section Value.
Variable T : comRingType.
Implicit Types (R : nat -> nat -> T) (y : nat -> T).
Definition herm R y (k : seq nat) : T := lhaf_rep_spec k (fun i j => - R i j) y.

Lemma herm0 R y n : herm R y (nseq n 0%N) = 1.
Proof.
have : rep_index (nseq n 0%N) = [::].
  by apply/size0nil; rewrite size_rep_index; elim: n => //= n ->.
by rewrite /herm lhaf_rep_spec_lhq_any => ->; rewrite lhq_nil.
Qed.

Lemma herm_rec R y (k : seq nat) : has (fun v => 0 < v)%N k ->
  let i := first_pos k in let ki := dec k i in
  herm R y k = y i * herm R y ki
     - \sum_(l < size k | (0 < nth 0 ki l)%N) (nth 0%N ki l)%:R * R i l * herm R y (dec ki l).
Proof.
move=> hk /=; have [h1 h2 h3] := first_posP hk.
rewrite /herm !lhaf_rep_spec_lhq_any {1}rep_index_first // lhq_cons; congr (_ + _).
set ki := dec k _; have sz : size ki = size k by rewrite size_dec.
rewrite sum_rep_index sz -sumrN [RHS]big_mkcond /=; apply: eq_bigr => l _.
case: posnP => [->|hl]; first by rewrite mul0r.
by rewrite rep_index_rem // lhaf_rep_spec_lhq_any; rring.
Qed.

(** C20, recurrence without renormalisation *)
Theorem hermite_kernel_correct R y sh (c : T) (G : seq nat -> T) :
  G (nseq (size sh) 0%N) = c ->
  forall k, below k sh -> hermite_kernel R y sh G k = c * lhaf_rep_spec k (fun i j => - R i j) y.
Proof.
move=> G0 k; rewrite -/(herm R y k) -mem_ndindex.
apply: (fill (P := fun k v => v = c * herm R y k)); last by rewrite G0 herm0 mulr1.
  by move=> G' idx j ne; rewrite /updG (negbTE ne).
move=> G' idx /behead_pos[hb hp] dep _; rewrite /updG eqxx.
have [h1 h2 h3] := first_posP hp.
have hki : below (dec idx (first_pos idx)) sh by exact: below_dec.
set i := first_pos idx in hki h1 h2 h3 *; set ki := dec idx i in hki *.
rewrite (for_remove _ _ (fun l kl => (nth 0%N ki l)%:R * R i l * G' kl)) herm_rec // size_dec //.
rewrite -/i -/ki mulrBr dep; last 2 first.
- by rewrite mem_ndindex.
- exact: dec_lexlt.
congr (_ - _); first by rring.
rewrite mulr_sumr; apply: eq_bigr => l hl; rewrite dep; first by rring.
- by rewrite mem_ndindex; apply: below_dec.
- by apply: (lexlt_trans (dec_lexlt hl)); apply: dec_lexlt.
Qed.
End Value.

Section Renorm.
Variable C : numClosedFieldType.
Variables (oob : nat -> C) (trunc : C -> C).
Implicit Types (R : nat -> nat -> C) (y : nat -> C).

(** the normalisation: product of the square roots of the factorials of the entries *)
Definition snorm (k : seq nat) : C := \prod_(v <- k) sqrtC (v`!)%:R.
Lemma snorm_neq0 k : snorm k != 0.
Proof.
rewrite /snorm; elim: k => [|v k IH]; first by rewrite big_nil oner_eq0.
by rewrite big_cons mulf_neq0 // sqrtC_eq0 pnatr_eq0 -lt0n fact_gt0.
Qed.
Lemma snorm_dec (k : seq nat) i : (0 < nth 0 k i)%N -> snorm k = snorm (dec k i) * sqrtC (nth 0%N k i)%:R.
Proof.
rewrite /snorm; elim: k i => [|v k IH] [|i] //= h; rewrite !big_cons.
  case: v h => // v _; rewrite subn1 /= factS natrM sqrtCM ?nnegrE ?ler0n //.
  by rring.
by rewrite -/(set_nth 0%N _ _ _) -/(dec k i) (IH _ h); rring.
Qed.
Lemma sqrtC_nat_neq0 v : (0 < v)%N -> sqrtC v%:R != 0 :> C.
Proof. by move=> h; rewrite sqrtC_eq0 pnatr_eq0 -lt0n. Qed.
Lemma SQRTE k : (k < 1000)%N -> SQRT oob k = sqrtC k%:R.
Proof. by rewrite /SQRT => ->. Qed.
Lemma below1000 k sh i : all (fun v => v <= 1000)%N sh -> below k sh -> (nth 0 k i < 1000)%N.
Proof.
move=> h /belowP[sz hk]; case: (ltnP i (size sh)) => hi; last by rewrite nth_default ?sz.
by apply: (leq_trans (hk i hi)); apply: (allP h); apply: mem_nth.
Qed.

(** C20, renormalised recurrence *)
Theorem hermite_renorm_kernel_correct R y sh (c : C) (G : seq nat -> C) :
  all (fun v => v <= 1000)%N sh ->
  G (nseq (size sh) 0%N) = c ->
  forall k, below k sh ->
  hermite_renorm_kernel oob trunc false R y sh G k
  = c * lhaf_rep_spec k (fun i j => - R i j) y / \prod_(v <- k) sqrtC (v`!)%:R.
Proof.
move=> h1000 G0 k; rewrite -/(herm R y k) -/(snorm k) -mem_ndindex.
apply: (fill (P := fun k v => v = c * herm R y k / snorm k)).
3: {
  rewrite G0 herm0 mulr1 /snorm big1_seq ?divr1 // => v; rewrite mem_nseq => /and3P[_ _ /eqP ->].
  by rewrite fact0 sqrtC1. }
  by move=> G' idx j ne; rewrite /updG (negbTE ne).
move=> G' idx /behead_pos[hb hp] dep _; rewrite /updG eqxx /store.
have [h1 h2 h3] := first_posP hp.
have hki : below (dec idx (first_pos idx)) sh by exact: below_dec.
set i := first_pos idx in hki h1 h2 h3 *; set ki := dec idx i in hki *.
rewrite (for_remove _ _ (fun l kl => SQRT oob (nth 0%N ki l) * R i l * G' kl)) herm_rec // size_dec //.
rewrite -/i -/ki SQRTE ?(below1000 _ h1000) // (snorm_dec h2) -/ki dep; last 2 first.
- by rewrite mem_ndindex.
- exact: dec_lexlt.
have -> : \sum_(l < size idx | (0 < nth 0 ki l)%N) SQRT oob (nth 0%N ki l) * R i l * G' (dec ki l)
  = c * (\sum_(l < size idx | (0 < nth 0 ki l)%N) (nth 0%N ki l)%:R * R i l * herm R y (dec ki l)) / snorm ki.
  rewrite mulr_sumr mulr_suml; apply: eq_bigr => l hl; rewrite dep; last 2 first.
  - by rewrite mem_ndindex; apply: below_dec.
  - by apply: (lexlt_trans (dec_lexlt hl)); apply: dec_lexlt.
  rewrite SQRTE ?(below1000 _ h1000) // (snorm_dec hl).
  have n1 := sqrtC_nat_neq0 hl; have n2 := snorm_neq0 (dec ki l).
  have e : (nth 0%N ki l)%:R = sqrtC (nth 0%N ki l)%:R * sqrtC (nth 0%N ki l)%:R :> C by rewrite -expr2 sqrtCK.
  move: (sqrtC _) n1 e (snorm _) n2 => s n1 e t n2; move: (herm _ _ _) => h; rewrite e.
  by ffield; rewrite mulf_neq0.
have n1 := sqrtC_nat_neq0 h2; have n2 := snorm_neq0 ki.
move: (sqrtC _) n1 (snorm _) n2 => s n1 t n2; move: (herm _ _ _) => h; move: (\sum_(_ < _ | _) _) => S.
by ffield; rewrite mulf_neq0.
Qed.
End Renorm.

(** ** Gradients *)
Lemma for_morph X S S' (phi : S -> S') (l : seq X) (s : S) (b : S -> X -> S) (b' : S' -> X -> S') :
  (forall s x, phi (b s x) = b' (phi s) x) -> phi (for_ l s b) = for_ l (phi s) b'.
Proof. by move=> h; rewrite /for_; elim: l s => //= x l IH s; rewrite IH h. Qed.

Section Grad.
Variable T : comRingType.
Variables (n : nat) (R E : nat -> nat -> T) (y v : nat -> T).
(** the line R + t E, y + t v through the point (R, y), as polynomials in t *)
Definition lineM : nat -> nat -> {poly T} := fun i j => (R i j)%:P + (E i j)%:P * 'X.
Definition lineV : nat -> {poly T} := fun i => (y i)%:P + (v i)%:P * 'X.
(** directional derivative of the Hermite polynomial: the coefficient of t along that line *)
Definition dherm (k : seq nat) : T := (herm lineM lineV k)`_1.

Lemma herm_line0 k : (herm lineM lineV k)`_0 = herm R y k.
Proof.
rewrite /herm !lhaf_rep_spec_lhq_any -horner_coef0 -[_.[0]]/(horner_eval 0 _) (lhq_hom [rmorphism of horner_eval 0]).
by apply: eq_lhq => [i j|i] *; rewrite /= /horner_eval /lineM /lineV !hornerE ?mulr0 ?addr0 //.
Qed.
Lemma coef1_lin (a b : T) (p : {poly T}) : ((a%:P + b%:P * 'X) * p)`_1 = a * p`_1 + b * p`_0.
Proof. by rewrite mulrDl coefD coefCM -mulrA coefCM coefXM. Qed.

Lemma dherm0 m : dherm (nseq m 0%N) = 0.
Proof. by rewrite /dherm herm0 coef1. Qed.
Lemma dherm_rec (k : seq nat) : has (fun v => 0 < v)%N k ->
  let i := first_pos k in let ki := dec k i in
  dherm k = y i * dherm ki + v i * herm R y ki
     - \sum_(l < size k | (0 < nth 0 ki l)%N)
         (nth 0%N ki l)%:R * (R i l * dherm (dec ki l) + E i l * herm R y (dec ki l)).
Proof.
move=> hk; rewrite /= /dherm herm_rec // coefB coef1_lin herm_line0; congr (_ - _).
rewrite coef_sum; apply: eq_bigr => l _; rewrite -mulrA mulr_natl coefMn coef1_lin herm_line0 -mulr_natl //.
Qed.

(** contraction of a gradient with the direction *)
Definition contr (d : (nat -> nat -> T) * (nat -> T)) : T :=
  \sum_(a < n) \sum_(b < n) d.1 a b * E a b + \sum_(j < n) d.2 j * v j.

Lemma contr_upd d i l x : (i < n)%N -> (l < n)%N ->
  contr (upd2 d.1 i l (d.1 i l + x), d.2) = contr d + x * E i l.
Proof.
move=> hi hl; rewrite /contr /= [RHS]addrAC; congr (_ + _).
rewrite (bigD1 (Ordinal hi)) //= [X in _ = X + _](bigD1 (Ordinal hi)) //= [RHS]addrAC; congr (_ + _); last first.
  by apply: eq_bigr => a na; apply: eq_bigr => b _; rewrite /upd2; have -> : (val a == i) = false by exact: negbTE na.
rewrite (bigD1 (Ordinal hl)) //= [X in _ = X + _](bigD1 (Ordinal hl)) //= [RHS]addrAC; congr (_ + _); last first.
  by apply: eq_bigr => b nb; rewrite /upd2 eqxx; have -> : (val b == l) = false by exact: negbTE nb.
by rewrite /upd2 !eqxx mulrDl.
Qed.
Lemma contr_upd1 d i x : (i < n)%N ->
  contr (d.1, upd1 d.2 i (d.2 i + x)) = contr d + x * v i.
Proof.
move=> hi; rewrite /contr /= -addrA; congr (_ + _).
rewrite (bigD1 (Ordinal hi)) //= [X in _ = X + _](bigD1 (Ordinal hi)) //= [RHS]addrAC; congr (_ + _); last first.
  by apply: eq_bigr => a na; rewrite /upd1; have -> : (val a == i) = false by exact: negbTE na.
by rewrite /upd1 !eqxx mulrDl.
Qed.
Lemma contr_lin d d' x : contr ((fun a b => d.1 a b - x * d'.1 a b), (fun j => d.2 j - x * d'.2 j)) = contr d - x * contr d'.
Proof.
rewrite /contr /= mulrDr opprD addrACA !mulr_sumr -!sumrB; congr (_ + _).
  apply: eq_bigr => a _; rewrite mulr_sumr -sumrB; apply: eq_bigr => b _; by rring.
by apply: eq_bigr => a _; rring.
Qed.
Lemma contr_scale d x : contr ((fun a b => x * d.1 a b), (fun j => x * d.2 j)) = x * contr d.
Proof.
rewrite /contr /= mulrDr !mulr_sumr; congr (_ + _).
  by apply: eq_bigr => a _; rewrite mulr_sumr; apply: eq_bigr => b _; rring.
by apply: eq_bigr => a _; rring.
Qed.
Lemma contr_ext d d' : (forall a b, (a < n)%N -> (b < n)%N -> d.1 a b = d'.1 a b) -> (forall j, (j < n)%N -> d.2 j = d'.2 j) -> contr d = contr d'.
Proof.
move=> h1 h2; rewrite /contr; congr (_ + _).
  by apply: eq_bigr => a _; apply: eq_bigr => b _; rewrite h1.
by apply: eq_bigr => a _; rewrite h2.
Qed.

(** the inner loop of both gradient kernels, with weight w *)
Lemma grad_inner (w : nat -> T) (G : seq nat -> T) (ki : seq nat) i (dGR : seq nat -> nat -> nat -> T) (dGy : seq nat -> nat -> T) s :
  (i < n)%N -> size ki = n ->
  contr (for_ (remove ki) s (fun st lkl =>
    let l := lkl.1 in let kl := lkl.2 in
    let dy := (fun j => st.2 j - w (nth 0%N ki l) * dGy kl j * R i l) in
    let dR := (fun a b => st.1 a b - w (nth 0%N ki l) * R i l * dGR kl a b) in
    let dR := upd2 dR i l (dR i l - w (nth 0%N ki l) * G kl) in
    (dR, dy)))
  = contr s - \sum_(l < n | (0 < nth 0 ki l)%N)
      w (nth 0%N ki l) * (R i l * contr (dGR (dec ki l), dGy (dec ki l)) + E i l * G (dec ki l)).
Proof.
move=> hi sz; rewrite -[in RHS]sz.
rewrite -(for_remove _ _ (fun l kl => w (nth 0%N ki l) * (R i l * contr (dGR kl, dGy kl) + E i l * G kl))).
have : all (fun x => x.1 < n)%N (remove ki).
  by apply/allP => x /mapP[p]; rewrite mem_filter mem_iota sz => /and3P[_ _ hp] ->.
rewrite /for_; elim: (remove ki) s => //= x r IH s /andP[hx hr]; rewrite IH //; congr (foldl _ _ _).
rewrite (contr_upd ((fun a b => s.1 a b - w (nth 0%N ki x.1) * R i x.1 * dGR x.2 a b),
  (fun j => s.2 j - w (nth 0%N ki x.1) * dGy x.2 j * R i x.1))) //.
rewrite (@contr_ext _ ((fun a b => s.1 a b - w (nth 0%N ki x.1) * R i x.1 * (dGR x.2, dGy x.2).1 a b),
  (fun j => s.2 j - w (nth 0%N ki x.1) * R i x.1 * (dGR x.2, dGy x.2).2 j))) //=; last by move=> j _; rring.
by rewrite (contr_lin s (dGR x.2, dGy x.2)); rring.
Qed.

(** C22 without renormalisation, directional form *)
Lemma grad_kernel_contr sh (c : T) (G : seq nat -> T) : size sh = n ->
  (forall k, below k sh -> G k = c * herm R y k) ->
  forall k, below k sh ->
  let d := grad_kernel R y sh G (fun _ _ _ => 0) (fun _ _ => 0) in
  contr (d.1 k, d.2 k) = c * dherm k.
Proof.
move=> szn hG k; rewrite -mem_ndindex /=.
apply: (fillS (get := fun st k => (st.1 k, st.2 k)) (P := fun k d => contr d = c * dherm k)).
3: { by rewrite dherm0 mulr0 /contr /= !big1 ?addr0 // => a _; rewrite ?mul0r // big1 // => b _; rewrite mul0r. }
  by move=> G' idx j ne; rewrite /updG /= (negbTE ne).
move=> st idx /behead_pos[hb hp] dep _; rewrite /updG /= eqxx /=.
have [h1 h2 h3] := first_posP hp.
have hki : below (dec idx (first_pos idx)) sh by exact: below_dec.
have szi : size idx = n by case/belowP: hb => ->.
rewrite -[X in contr X]surjective_pairing /grad_body dherm_rec // szi.
set i := first_pos idx in hki h1 h2 h3 *; set ki := dec idx i in hki *.
rewrite grad_inner ?size_dec // -?szi // szi.
rewrite (contr_upd1 ((fun a b => y i * (st.1 ki, st.2 ki).1 a b), (fun j => y i * (st.1 ki, st.2 ki).2 j))) -?szi //.
rewrite (contr_scale (st.1 ki, st.2 ki)) mulrBr hG // dep; last 2 first.
- by rewrite mem_ndindex.
- exact: dec_lexlt.
congr (_ - _); first by rring.
rewrite mulr_sumr; apply: eq_bigr => l hl; have hkl : below (dec ki l) sh by apply: below_dec.
rewrite dep; first by rewrite hG //; rring.
- by rewrite mem_ndindex.
- by apply: (lexlt_trans (dec_lexlt hl)); apply: dec_lexlt.
Qed.
End Grad.

Section GradRenorm.
Variable C : numClosedFieldType.
Variable oob : nat -> C.
Lemma grad_renorm_kernel_contr n (R E : nat -> nat -> C) (y v : nat -> C) sh (c : C) (G : seq nat -> C) : size sh = n ->
  all (fun x => x <= 1000)%N sh ->
  (forall k, below k sh -> G k = c * herm R y k / snorm C k) ->
  forall k, below k sh ->
  let d := grad_renorm_kernel oob R y sh G (fun _ _ _ => 0) (fun _ _ => 0) in
  contr n E v (d.1 k, d.2 k) = c * dherm R E y v k / snorm C k.
Proof.
move=> szn h1000 hG k; rewrite -mem_ndindex /=.
apply: (fillS (get := fun st k => (st.1 k, st.2 k)) (P := fun k d => contr n E v d = c * dherm R E y v k / snorm C k)).
3: { by rewrite dherm0 mulr0 mul0r /contr /= !big1 ?addr0 // => a _; rewrite ?mul0r // big1 // => b _; rewrite mul0r. }
  by move=> G' idx j ne; rewrite /updG /= (negbTE ne).
move=> st idx /behead_pos[hb hp] dep _; rewrite /updG /= eqxx /=.
have [h1 h2 h3] := first_posP hp.
have hki : below (dec idx (first_pos idx)) sh by exact: below_dec.
have szi : size idx = n by case/belowP: hb => ->.
rewrite dherm_rec // szi.
set i := first_pos idx in hki h1 h2 h3 *; set ki := dec idx i in hki *.
set d := (X in ((fun a b => X.1 a b / _), _)).
rewrite (@contr_ext _ _ _ _ _ ((fun a b => (SQRT oob (nth 0%N idx i))^-1 * d.1 a b), (fun j => (SQRT oob (nth 0%N idx i))^-1 * d.2 j))); try by move=> *; rewrite /= mulrC.
rewrite contr_scale /d grad_inner ?size_dec // -?szi // szi.
rewrite (contr_upd1 _ _ ((fun a b => y i * (st.1 ki, st.2 ki).1 a b), (fun j => y i * (st.1 ki, st.2 ki).2 j))) -?szi //.
rewrite szi (contr_scale _ _ _ (st.1 ki, st.2 ki)) hG // dep; last 2 first.
- by rewrite mem_ndindex.
- exact: dec_lexlt.
rewrite SQRTE ?(below1000 _ h1000) // (snorm_dec C h2) -/ki.
have -> : \sum_(l < n | (0 < nth 0 ki l)%N) SQRT oob (nth 0%N ki l) *
        (R i l * contr n E v (st.1 (dec ki l), st.2 (dec ki l)) + E i l * G (dec ki l))
  = c * (\sum_(l < n | (0 < nth 0 ki l)%N) (nth 0%N ki l)%:R * (R i l * dherm R E y v (dec ki l) + E i l * herm R y (dec ki l))) / snorm C ki.
  rewrite mulr_sumr mulr_suml; apply: eq_bigr => l hl.
  have hkl : below (dec ki l) sh by apply: below_dec.
  rewrite dep ?hG //; last 2 first.
  - by rewrite mem_ndindex.
  - by apply: (lexlt_trans (dec_lexlt hl)); apply: dec_lexlt.
  rewrite SQRTE ?(below1000 _ h1000) // (snorm_dec C hl).
  have n1 := sqrtC_nat_neq0 C hl; have n2 := snorm_neq0 C (dec ki l).
  have e : (nth 0%N ki l)%:R = sqrtC (nth 0%N ki l)%:R * sqrtC (nth 0%N ki l)%:R :> C by rewrite -expr2 sqrtCK.
  move: (sqrtC _) n1 e (snorm _ _) n2 => s n1 e t n2; move: (herm _ _ _) (dherm _ _ _ _ _) => h h'; rewrite e.
  by ffield; rewrite mulf_neq0.
have n1 := sqrtC_nat_neq0 C h2; have n2 := snorm_neq0 C ki.
move: (sqrtC _) n1 (snorm _ _) n2 => s n1 t n2; move: (herm _ _ _) (dherm _ _ _ _ _) => h h'; move: (\sum_(_ < _ | _) _) => S.
by ffield; rewrite mulf_neq0.
Qed.
End GradRenorm.

(** ** Interferometer *)
Section Interf.
Variable T : comRingType.
Variables (m : nat) (R : nat -> nat -> T).
(** the part of R that couples the first m indices with the others *)
Definition offblock : nat -> nat -> T := fun i j => if (i < m)%N == (j < m)%N then 0 else R i j.
Definition cnt (b : bool) (s : seq nat) := count (fun i => (i < m)%N == b) s.

Lemma lhq_unbalanced s : cnt true s != cnt false s -> lhq (fun i j => - offblock i j) (fun=> 0) s = 0.
Proof.
move: {2}(size s) (leqnn (size s)) => N; elim: N s => [|N IH] [|x s] //= sz ub.
rewrite lhq_cons mul0r add0r big1_seq // => z /= zs.
rewrite /offblock; case: eqP => [|ne]; first by rewrite oppr0 mul0r.
rewrite IH ?mulr0 //; first by rewrite size_rem //; apply: leq_trans (leq_pred _) _.
move: ub; rewrite /cnt !count_rem zs /=.
have c1 : ((z < m)%N == true) -> (0 < count (fun i => (i < m)%N == true) s)%N.
  by move=> h; rewrite -has_count; apply/hasP; exists z.
have c2 : ((z < m)%N == false) -> (0 < count (fun i => (i < m)%N == false) s)%N.
  by move=> h; rewrite -has_count; apply/hasP; exists z.
by move: ne c1 c2; case: (x < m)%N; case: (z < m)%N => //= _; lia.
Qed.
Definition hoff := herm offblock (fun=> 0).
Lemma hoff_unb k : cnt true (rep_index k) != cnt false (rep_index k) -> hoff k = 0.
Proof. by move=> h; rewrite /hoff /herm lhaf_rep_spec_lhq_any lhq_unbalanced. Qed.

Lemma cnt_rep b (k : seq nat) : cnt b (rep_index k) = (\sum_(i < size k | (i < m)%N == b) nth 0%N k i)%N.
Proof.
rewrite /cnt /rep_index count_flatten -map_comp sumnE big_map -[in LHS](subn0 (size k)) -/(index_iota 0 (size k)).
rewrite big_mkord [RHS]big_mkcond /=; apply: eq_bigr => i _; rewrite count_nseq.
by case: eqP; rewrite ?mul1n ?mul0n.
Qed.
Lemma foldl_addn (l : seq nat) a (f : nat -> nat) : foldl (fun b i => b + f i)%N a l = (a + \sum_(i <- l) f i)%N.
Proof. by elim: l a => [|x l IH] a /=; rewrite ?big_nil ?addn0 // IH big_cons addnA. Qed.
Lemma bran_cnt (k : seq nat) : (m <= size k)%N ->
  for_ (pyrange 0 m) 0%N (fun b ii => (b + nth 0 k ii)%N) = cnt true (rep_index k).
Proof.
move=> mk; rewrite cnt_rep /for_ /pyrange subn0.
have -> : foldl (fun b ii => b + nth 0 k ii)%N 0%N (iota 0 m) = (\sum_(i <- iota 0 m) nth 0 k i)%N.
  by rewrite foldl_addn.
rewrite -{1}(subn0 m) -/(index_iota 0 m) big_mkord (big_ord_widen _ (fun i => nth 0%N k i) mk).
by apply: eq_bigl => i; case: (i < m)%N.
Qed.
Lemma ketn_cnt (k : seq nat) : (m <= size k)%N ->
  for_ (pyrange m (size k)) 0%N (fun b ii => (b + nth 0 k ii)%N) = cnt false (rep_index k).
Proof.
move=> mk; rewrite cnt_rep /for_ /pyrange.
have -> : foldl (fun b ii => b + nth 0 k ii)%N 0%N (iota m (size k - m)) = (\sum_(i <- iota m (size k - m)) nth 0 k i)%N.
  by rewrite foldl_addn.
rewrite -/(index_iota m (size k)) (big_nat_widenl m 0) // big_mkord.
by apply: eq_bigl => i /=; rewrite leqNgt; case: (i < m)%N.
Qed.

(** one step, for a balanced index *)
Lemma hoff_rec (k : seq nat) : has (fun v => 0 < v)%N k -> cnt true (rep_index k) = cnt false (rep_index k) ->
  let i := first_pos k in let ki := dec k i in
  hoff k = - \sum_(l < size k | (0 < nth 0 ki l)%N) (nth 0%N ki l)%:R * R i l * hoff (dec ki l).
Proof.
move=> hk bal /=; rewrite {1}/hoff herm_rec // mul0r sub0r; congr (- _).
have [h1 h2 h3] := first_posP hk.
set i := first_pos k in h1 h2 h3 *; set ki := dec k i; apply: eq_bigr => l hl.
rewrite /offblock; case: eqP => // same; rewrite mulr0 mul0r -/(hoff (dec ki l)) hoff_unb ?mulr0 //.
move: bal; rewrite rep_index_first // -/i -/ki /cnt /= -rep_index_rem // !count_rem mem_rep_index hl /=.
have c1 : ((l < m)%N == true) -> (0 < count (fun i => (i < m)%N == true) (rep_index ki))%N.
  by move=> h; rewrite -has_count; apply/hasP; exists (val l) => //; rewrite mem_rep_index.
have c2 : ((l < m)%N == false) -> (0 < count (fun i => (i < m)%N == false) (rep_index ki))%N.
  by move=> h; rewrite -has_count; apply/hasP; exists (val l) => //; rewrite mem_rep_index.
by move: c1 c2; rewrite -same; case: (i < m)%N => //=; lia.
Qed.
End Interf.

Lemma rep_cat r1 r2 : rep_index (r1 ++ r2) = rep_index r1 ++ [seq (size r1 + i)%N | i <- rep_index r2].
Proof.
rewrite /rep_index size_cat iotaD map_cat flatten_cat map_flatten -map_comp; congr (flatten _ ++ flatten _).
  by apply/eq_in_map => i; rewrite mem_iota => hi; rewrite nth_cat ifT.
rewrite add0n -[X in iota X _]addn0 iotaDl -map_comp; apply: eq_map => i /=.
by rewrite map_nseq nth_cat ifF ?addKn //; lia.
Qed.

Section Interf2.
Variable T : comRingType.
(** C23, without renormalisation: the interferometer kernel is the Hermite recurrence at y = 0 for the part of R
    that couples the first half of the indices with the second half *)
Theorem interferometer_kernel_correct n (R : nat -> nat -> T) sh (c : T) (G : seq nat -> T) : size sh = n ->
  G (nseq n 0%N) = c -> (forall k, below k sh -> k != nseq n 0%N -> G k = 0) ->
  forall k, below k sh ->
  interferometer_kernel n R sh G k
  = c * haf_rep_spec k (fun i j => - (if (i < n./2)%N == (j < n./2)%N then 0 else R i j)).
Proof.
move=> sz G0 Gz k; rewrite -mem_ndindex haf_rep_lhaf -/(offblock n./2 R) -/(herm (offblock n./2 R) (fun=> 0) k) -/(hoff n./2 R k).
apply: (fill (P := fun k v => v = c * hoff n./2 R k)).
3: by rewrite sz G0 {1}/hoff herm0 mulr1.
  by move=> G' idx j ne; cbv beta zeta; case: ifP => // _; rewrite /updG (negbTE ne).
move=> G' idx hi dep Gi; cbv beta zeta; have [hb hp] := behead_pos hi.
have [h1 h2 h3] := first_posP hp.
have szi : size idx = n by case/belowP: hb => ->.
have hm : (n./2 <= size idx)%N by rewrite szi; lia.
rewrite bran_cnt // (_ : for_ (pyrange _ n) _ _ = cnt n./2 false (rep_index idx)); last by rewrite -ketn_cnt // szi.
case: eqP => bal; last first.
  rewrite Gi Gz ?hoff_unb ?mulr0 //; first exact/eqP.
  by apply: contraTneq hp => ->; rewrite -all_predC; apply/allP => x; rewrite mem_nseq => /andP[_ /eqP ->].
rewrite /updG eqxx.
have hki : below (dec idx (first_pos idx)) sh by exact: below_dec.
rewrite (hoff_rec R hp bal).
set i := first_pos idx in hki h1 h2 h3 *; set ki := dec idx i in hki *.
rewrite (for_remove _ _ (fun l kl => (nth 0%N ki l)%:R * R i l * G' kl)) size_dec // sub0r mulrN; congr (- _).
rewrite mulr_sumr; apply: eq_bigr => l hl; rewrite dep; first by rring.
- by rewrite mem_ndindex; apply: below_dec.
- by apply: (lexlt_trans (dec_lexlt hl)); apply: dec_lexlt.
Qed.

(** ... and for an n = 2m mode interferometer, R = - [[0, U], [U^T, 0]], these are permanents of U with rows and columns repeated *)
Lemma haf_bip_perm m (U : nat -> nat -> T) p q : size p = m -> size q = m ->
  haf_rep_spec (p ++ q) (fun i j => - (if (i < m)%N == (j < m)%N then 0 else - bip m U i j))
  = if sumn p == sumn q
    then perm_spec (sumn p) (fun i j => U (nth 0%N (rep_index p) i) (nth 0%N (rep_index q) j)) else 0.
Proof.
move=> szp szq; rewrite haf_rep_lhaf lhaf_rep_spec_lhq_any; case: eqP => [e|ne]; last first.
  apply: (@lhq_unbalanced T m (fun i j => - bip m U i j)); apply/eqP => h; apply: ne; move: h.
  have lt i : i \in rep_index p -> (i < m)%N by move/rep_index_lt; rewrite szp.
  rewrite (rep_cat p q) szp /cnt !count_cat !count_map.
  rewrite (eq_in_count (a2 := xpredT)) => [|i /lt -> //].
  rewrite [X in (_ + X = _)%N](eq_count (a2 := pred0)) => [|i]; last by rewrite /= ltnNge leq_addr.
  rewrite [X in (_ = X + _)%N](eq_in_count (a2 := pred0)) => [|i /lt -> //].
  rewrite [X in (_ = _ + X)%N](eq_count (a2 := xpredT)) => [|i]; last by rewrite /= ltnNge leq_addr.
  by rewrite !count_predT !count_pred0 addn0 add0n !size_rep_index.
rewrite -size_rep_index perm_spec_nth; last by rewrite !size_rep_index.
rewrite (rep_cat p q) -(@lhq_bip T m U) ?size_rep_index //; last first.
  by apply/allP => i /rep_index_lt; rewrite szp.
rewrite szp; apply: eq_lhq => // i j _ _; rewrite /bip.
by case: (i < m)%N; case: (j < m)%N; rewrite /= ?oppr0 ?opprK.
Qed.
End Interf2.
