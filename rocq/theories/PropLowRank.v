(** low_rank_hafnian(G) is the hafnian of G G^T. *)
From mathcomp Require Import all_ssreflect all_algebra zify.
From SsrMultinomials Require Import mpoly.
From Verif Require Import Prelude PyBase ArrLoop SpecHaf ThHaf MLowRank PropHafnian.
Set Implicit Arguments.
Unset Strict Implicit.
Unset Printing Implicit Defensive.
Import GRing.Theory.
Local Open Scope ring_scope.

(** partitions(r, n) lists the r-tuples of non-negative integers with sum n, each once *)
Theorem partitions_correct r n : (0 < r)%N -> exists l, [/\ partitions r n = Ok l, uniq l &
  forall c : seq nat, (c \in l) = (size c == r) && (sumn c == n)].
Proof.
case: r => // r _; elim: r n => [|r IH] n.
  exists [:: [:: n]]; split=> // c; rewrite inE; case: c => [|x [|y c]] //=; first by rewrite addn0 !eqseq_cons eqxx andbT.
  by rewrite !eqseq_cons andbF.
have inv k : (k <= n.+1)%N -> exists l, [/\ foldM (fun new_combos first_val =>
      bind (partitions r.+1 (n - first_val)) (fun rest => Ok (new_combos ++ [seq first_val :: p | p <- rest])))
      [::] (iota 0 k) = Ok l, uniq l &
      forall c : seq nat, (c \in l) = [&& size c == r.+2, sumn c == n & head 0%N c < k]%N].
  elim: k => [|k IHk] hk; first by exists [::]; split=> // c; rewrite ltn0 !andbF.
  have [l [e u h]] := IHk (ltnW hk); have [l' [e' u' h']] := IH (n - k)%N.
  exists (l ++ [seq k :: p | p <- l']); split.
  - have fM (s : seq nat) (x : seq (seq nat)) f : foldM f x (rcons s k) = bind (foldM f x s) (fun y => f y k).
      by elim: s x => [|a s IHs] x /=; [case: (f x k)|case: (f x a)].
    rewrite -[in iota 0 k.+1]addn1 iotaD cats1 fM e.
    change (bind (partitions r.+1 (n - k)) (fun rest => Ok (l ++ [seq k :: p | p <- rest])) = Ok (l ++ [seq k :: p | p <- l'])).
    by rewrite e'.
  - rewrite cat_uniq u map_inj_uniq ?u' ?andbT => [|x y [] //].
    by apply/hasPn => c /mapP[p _ ->]; change (~~ ((k :: p) \in l)); rewrite h /=; lia.
  move=> c; rewrite mem_cat h; case: c => [|x c] /=.
    by apply/mapP => [[p _]].
  have -> : ((x :: c) \in [seq k :: p | p <- l']) = (x == k) && (c \in l').
    apply/mapP/andP => [[p hp [-> ->]]|[/eqP -> hc]]; [by []|by exists c].
  by rewrite h' eqSS; case: (size c == r.+1) => //=; [lia|rewrite andbF].
have [l [e u h]] := inv n.+1 (leqnn _); exists l; split=> //.
by move=> c; rewrite h; case: c => [|x c] //=; lia.
Qed.

Lemma factorial2_oddS k : factorial2_odd k.+1 = ((2 * k).+1 * factorial2_odd k)%N.
Proof. by rewrite /factorial2_odd big_ord_recr /= mulnC. Qed.

Section Moment.
Variables (C : comRingType) (r : nat).
(** moments of a standard Gaussian variable *)
Definition dm (n : nat) : C := if odd n then 0 else (factorial2_odd n./2)%:R.
Lemma dmS n : dm n.+1 = n%:R * dm n.-1.
Proof.
case: n => [|n]; first by rewrite /dm /= mul0r.
rewrite /dm /= negbK; case: ifP => h; first by rewrite mulr0.
rewrite factorial2_oddS natrM; congr (_%:R * _); have := odd_double_half n; rewrite h; lia.
Qed.
Definition gm (m : 'X_{1..r}) : C := \prod_(i < r) dm (m i).
Definition L (p : {mpoly C[r]}) : C := \sum_(m <- msupp p) p@_m * gm m.
Lemma Lsupp p (s : seq 'X_{1..r}) : uniq s -> (forall m, p@_m * gm m != 0 -> m \in s) -> L p = \sum_(m <- s) p@_m * gm m.
Proof.
move=> us hs.
have nz (t : seq 'X_{1..r}) : \sum_(m <- t) p@_m * gm m = \sum_(m <- [seq m <- t | p@_m * gm m != 0]) p@_m * gm m.
  by rewrite big_filter [RHS]big_mkcond; apply: eq_bigr => m _; case: eqP.
rewrite /L nz [RHS]nz; apply: perm_big; apply: uniq_perm; rewrite ?filter_uniq ?msupp_uniq // => m.
rewrite !mem_filter; case: (boolP (p@_m * gm m != 0)) => //= h; rewrite hs //.
by apply: contraNT h => /memN_msupp_eq0 ->; rewrite mul0r.
Qed.
Lemma LD p q : L (p + q) = L p + L q.
Proof.
pose s := undup (msupp p ++ msupp q).
have hs (f : {mpoly C[r]}) : (forall m, f@_m != 0 -> (m \in msupp p) || (m \in msupp q)) -> L f = \sum_(m <- s) f@_m * gm m.
  move=> h; apply: Lsupp; first exact: undup_uniq.
  by move=> m hm; rewrite mem_undup mem_cat; apply: h; apply: contraNneq hm => ->; rewrite mul0r.
rewrite !hs => [|m|m|m]; rewrite -?big_split /=.
- by apply: eq_bigr => m _; rewrite mcoeffD mulrDl.
- by rewrite -mcoeff_msupp => ->; rewrite orbT.
- by rewrite -mcoeff_msupp => ->.
rewrite mcoeffD; apply: contraNT; rewrite negb_or => /andP[/memN_msupp_eq0 -> /memN_msupp_eq0 ->]; by rewrite addr0.
Qed.
Lemma LZ c p : L (c *: p) = c * L p.
Proof.
rewrite (@Lsupp (c *: p) (msupp p)) ?msupp_uniq //; last first.
  by move=> m; rewrite mcoeffZ; apply: contraNT => /memN_msupp_eq0 ->; rewrite mulr0 mul0r.
by rewrite /L mulr_sumr; apply: eq_bigr => m _; rewrite mcoeffZ mulrA.
Qed.
Lemma L0 : L 0 = 0. Proof. by rewrite /L msupp0 big_nil. Qed.
Lemma L_sum I (s : seq I) (F : I -> {mpoly C[r]}) : L (\sum_(i <- s) F i) = \sum_(i <- s) L (F i).
Proof. by elim: s => [|i s IH]; rewrite ?big_nil ?L0 // !big_cons LD IH. Qed.
Lemma LX m : L 'X_[m] = gm m.
Proof. by rewrite /L msuppX big_seq1 mcoeffX eqxx mul1r. Qed.
(** Gaussian integration by parts *)
Lemma stein j (p : {mpoly C[r]}) : L ('X_j * p) = L (p^`M(j)).
Proof.
elim/mpolyind: p => [|c m p _ _ IH]; first by rewrite mulr0 mderiv0.
rewrite mulrDr mderivD !LD IH; congr (_ + _); rewrite -scalerAr mderivZ !LZ; congr (_ * _).
rewrite mderivX LZ -mpolyXD !LX /gm (bigD1 j) //= [X in _ = _ * X](bigD1 j) //= mulrA; congr (_ * _).
  by rewrite mnmDE mnmBE mnm1E eqxx add1n dmS subn1.
by apply: eq_bigr => i ij; rewrite mnmDE mnmBE mnm1E eq_sym (negbTE ij) add0n subn0.
Qed.

Variable G : nat -> nat -> C.
Definition lin (k : nat) : {mpoly C[r]} := \sum_(j < r) G k j *: 'X_j.
Definition prodl (s : seq nat) : {mpoly C[r]} := \prod_(k <- s) lin k.
Lemma lin_deriv k j : (lin k)^`M(j) = (G k j)%:MP.
Proof.
rewrite /lin linear_sum /= (bigD1 j) //= big1 => [|i ij].
  by rewrite addr0 mderivZ mderivX mnm1E eqxx scale1r (_ : U_(j) - U_(j) = 0)%MM ?mpolyX0 ?alg_mpolyC //; apply/mnmP => i; rewrite mnmBE mnm0E subnn.
by rewrite mderivZ mderivX mnm1E (negbTE ij) scale0r scaler0.
Qed.
Lemma prodl_deriv s j : (prodl s)^`M(j) = \sum_(z <- s) G z j *: prodl (rem z s).
Proof.
elim: s => [|x s IH]; first by rewrite /prodl !big_nil -mpolyC1 mderivC.
rewrite /prodl big_cons mderivM lin_deriv -/(prodl s) IH big_cons /= eqxx mul_mpolyC; congr (_ + _).
rewrite mulr_sumr; apply: eq_big_seq => z zs; rewrite -scalerAr; congr (_ *: _).
rewrite /prodl; case: eqP => [e|ne]; last by rewrite big_cons.
by rewrite e (perm_big _ (perm_to_rem zs)) big_cons.
Qed.
(** Wick's theorem for sums of independent Gaussians *)
Lemma L_prodl s : L (prodl s) = lhq (fun a b => \sum_(j < r) G a j * G b j) (fun=> 0) s.
Proof.
move: {2}(size s) (leqnn (size s)) => n; elim: n s => [|n IH] [|x s] // sz.
- by rewrite /prodl big_nil -mpolyX0 LX lhq_nil /gm big1 // => i _; rewrite mnm0E /dm /factorial2_odd big_ord0.
- by rewrite /prodl big_nil -mpolyX0 LX lhq_nil /gm big1 // => i _; rewrite mnm0E /dm /factorial2_odd big_ord0.
rewrite lhq_cons mul0r add0r /prodl big_cons -/(prodl s) /lin mulr_suml L_sum.
transitivity (\sum_(j < r) \sum_(z <- s) G x j * G z j * L (prodl (rem z s))).
  apply: eq_bigr => j _; rewrite -scalerAl LZ stein prodl_deriv L_sum mulr_sumr.
  by apply: eq_bigr => z _; rewrite LZ mulrA.
rewrite exchange_big; apply: eq_big_seq => z zs /=.
by rewrite -mulr_suml IH // size_rem //; move: sz => /=; lia.
Qed.
Lemma prodl_deg s m : (prodl s)@_m != 0 -> mdeg m = size s.
Proof.
have h : prodl s \is (size s).-homog.
  elim: s => [|x s IH]; first by rewrite /prodl big_nil dhomog1.
  rewrite /prodl big_cons -/(prodl s) -[size _]/(1 + size s)%N; apply: dhomogM => //.
  by rewrite /lin; apply: rpred_sum => j _; apply: dhomogZ; rewrite dhomogX /= mdeg1.
by move=> nz; apply/eqP; apply: contraNT nz => ne; apply/eqP; apply: (dhomog_nemf_coeff h).
Qed.
End Moment.

Lemma foldM_sum (R : zmodType) X (f : R -> X -> res R) (g : X -> R) (l : seq X) s :
  (forall s x, f s x = Ok (s + g x)) -> foldM f s l = Ok (s + \sum_(x <- l) g x).
Proof.
move=> hf; elim: l s => [|x l IH] s; first by rewrite big_nil addr0.
by rewrite /= hf /= IH big_cons addrA.
Qed.

Lemma even_halfK n : ~~ odd n -> n./2.*2 = n.
Proof. by move=> h; have := odd_double_half n; rewrite (negbTE h). Qed.

Section Main.
Variable C : comRingType.
Lemma for_prodl (n r : nat) (G : nat -> nat -> C) :
  for_ (pyrange 0 n) (1 : {mpoly C[r]}) (fun poly k => poly * \sum_(j < r) G k j *: 'X_j) = prodl r G (iota 0 n).
Proof. by rewrite for_prod mul1r /pyrange subn0. Qed.

Theorem low_rank_hafnian_correct (n r : nat) (G : nat -> nat -> C) : (0 < r)%N -> (r = 1%N \/ 0 < n)%N ->
  low_rank_hafnian n r G = Ok (haf_spec n (fun a b => \sum_(j < r) G a j * G b j)).
Proof.
move=> r0 hn; rewrite /low_rank_hafnian haf_spec_lhq.
case: ifP => on; first by rewrite lhq_odd // size_iota.
rewrite -L_prodl; case: eqP => [r1|nr].
  subst r; congr Ok.
  have e : prodl 1 G (iota 0 n) = (\prod_(k < n) G k 0%N) *: 'X_[(U_(ord0) *+ n)%MM].
    rewrite /prodl -(prod_iota n (fun k => G k 0%N)).
    have -> : \prod_(k <- iota 0 n) lin 1 G k = \prod_(k <- iota 0 n) (G k 0%N *: 'X_ord0).
      by apply: eq_bigr => k _; rewrite /lin big_ord_recl big_ord0 addr0.
    have h (s : seq nat) : \prod_(k <- s) (G k 0%N *: 'X_ord0) = (\prod_(k <- s) G k 0%N) *: ('X_ord0 ^+ size s) :> {mpoly C[1]}.
      elim: s => [|x s IH]; first by rewrite !big_nil expr0 scale1r.
      by rewrite !big_cons IH -scalerAl -scalerAr scalerA exprS.
    by rewrite h size_iota mpolyXn.
  rewrite e LZ LX /gm big_ord_recl big_ord0 mulr1 mulmnE mnm1E eqxx ?mul1n ?muln1 /dm on mulrC; congr (_ * _).
rewrite for_prodl; have [l [-> ul hl]] := partitions_correct n./2 r0.
have n0 : (n == 0)%N = false by case: hn => [/nr//|]; case: (n).
rewrite /= n0 (@foldM_sum _ _ _ (fun c => (prodl r G (iota 0 n))@_[multinom (2 * nth 0 c i)%N | i < r] * \prod_(i < r) (factorial2_odd (nth 0%N c i))%:R)) //.
rewrite add0r; congr Ok; symmetry.
pose mk (c : seq nat) := [multinom (2 * nth 0 c i)%N | i < r].
rewrite (@Lsupp C r _ [seq mk c | c <- l]).
- rewrite big_map; apply: eq_bigr => c _; congr (_ * _); apply: eq_bigr => i _.
  by rewrite mnmE /dm mul2n odd_double doubleK.
- rewrite map_inj_in_uniq // => c d; rewrite !hl => /andP[/eqP sc _] /andP[/eqP sd _] /mnmP e.
  apply: (@eq_from_nth _ 0%N); first by rewrite sc sd.
  by move=> i; rewrite sc => hi; have := e (Ordinal hi); rewrite !mnmE /=; lia.
move=> m nz.
have hd : mdeg m = n by rewrite (@prodl_deg C r G (iota 0 n) m) ?size_iota //; apply: contraNneq nz => ->; rewrite mul0r.
have ev i : ~~ odd (m i).
  by apply: contraNN nz => h; rewrite /gm (bigD1 i) //= /dm h mul0r mulr0.
apply/mapP; exists [seq (m i)./2 | i <- enum 'I_r].
  rewrite hl size_map size_enum_ord eqxx /= -(inj_eq double_inj) even_halfK ?on //.
  rewrite -[X in _ == X]hd mdegE sumnE big_map big_enum /= -muln2 big_distrl /=; apply/eqP; apply: eq_bigr => i _.
  by rewrite muln2 even_halfK.
apply/mnmP => i; rewrite mnmE (nth_map i) ?size_enum_ord // nth_ord_enum mul2n even_halfK //.
Qed.
(** for n = 0 and r >= 2 the code fails instead of returning the hafnian 1 of the empty matrix *)
Theorem low_rank_hafnian_empty (r : nat) (G : nat -> nat -> C) : (1 < r)%N ->
  low_rank_hafnian 0 r G = Err AttributeError /\ haf_spec 0 (fun a b => \sum_(j < r) G a j * G b j) = 1.
Proof.
move=> r1; split; last by rewrite haf_spec_lhq lhq_nil.
have r0 : (0 < r)%N by lia.
rewrite /low_rank_hafnian /= (_ : (r == 1)%N = false); last by lia.
have [l [-> _ hl]] := partitions_correct 0 r0.
have : nseq r 0%N \in l by rewrite hl size_nseq eqxx /= sumn_nseq.
by case: l {hl}.
Qed.
Theorem low_rank_hafnian_rank0 (n : nat) (G : nat -> nat -> C) : ~~ odd n -> low_rank_hafnian n 0 G = Err RecursionError.
Proof. by rewrite /low_rank_hafnian => /negbTE ->. Qed.
(** n = 4, r = 2 *)
Lemma low_rank_example : low_rank_hafnian 4 2 (fun i j => (i + j)%:R : C) = Ok 101%:R.
Proof.
rewrite low_rank_hafnian_correct //; last by right.
congr Ok; rewrite haf_spec_lhq /= !(lhq_cons, lhq_nil, big_cons, big_nil) /= !big_ord_recl !big_ord0 /=.
by rewrite /bump /= !(mul0r, addr0, add0r, mulr1) -!natrM -!natrD -!natrM -!natrD.
Qed.
End Main.
