(** random_block_interferometer and random_banded_interferometer. *)
From mathcomp Require Import all_ssreflect all_algebra zify.
From Verif Require Import Prelude PyBase ArrLoop MHafnian MHermite MSymplectic MDecomp MRandom SpecSymp SpecTor SpecDecomp SpecRandom PropTor PropChannels PropDecomp PropDecomp6 PropRandom.
Set Implicit Arguments.
Unset Strict Implicit.
Unset Printing Implicit Defensive.
Import Order.TTheory GRing.Theory Num.Theory.
Local Open Scope ring_scope.

Lemma In_cat (T : Type) (b : T) (s t : seq T) : List.In b (s ++ t) -> List.In b s \/ List.In b t.
Proof. by elim: s => [|x s IH] /= h; [right|case: h => [->|/IH[]]; [left; left|move=> ?; left; right|move=> ?; right]]. Qed.

Section Blocks.
Variable C : numClosedFieldType.
Notation mat := (nat -> nat -> C).
Notation mxo n A := (mxof n n A).
Definition bsize (bs : seq (nat * mat)) : nat := sumn [seq b.1 | b <- bs].

Lemma bd_cons k (A : mat) bs : block_diag ((k, A) :: bs) = fun i j =>
  if (i < k)%N && (j < k)%N then A i j else if (k <= i)%N && (k <= j)%N then block_diag bs (i - k)%N (j - k)%N else 0.
Proof. by []. Qed.
Lemma bd_unitary bs : (forall b, List.In b bs -> unitary b.1 b.2) -> unitary (bsize bs) (block_diag bs).
Proof.
elim: bs => [|[k A] bs IH] h i j; first by rewrite /bsize.
have uA : unitary k A by apply: (h (k, A)); left.
have uB : unitary (bsize bs) (block_diag bs) by apply: IH => b hb; apply: h; right.
have -> : bsize ((k, A) :: bs) = (k + bsize bs)%N by [].
move=> hi hj; rewrite big_split_ord bd_cons /=.
case: (ltnP i k) => ik; case: (ltnP j k) => jk /=.
- rewrite [X in _ + X]big1 => [|l _]; last by rewrite [(k + l < k)%N]ltnNge leq_addr /= conjC0 mul0r.
  by rewrite addr0 -(uA i j) //; apply: eq_bigr => l _; rewrite ltn_ord.
- rewrite big1 => [|l _]; last by rewrite ltn_ord /= [(k <= l)%N]leqNgt ltn_ord /= mulr0.
  rewrite add0r big1 => [|l _]; last by rewrite [(k + l < k)%N]ltnNge leq_addr /= conjC0 mul0r.
  by case: eqP => // e; exfalso; lia.
- rewrite big1 => [|l _]; last by rewrite ltn_ord /= [(k <= l)%N]leqNgt ltn_ord /= conjC0 mul0r.
  rewrite add0r big1 => [|l _]; last by rewrite [(k + l < k)%N]ltnNge leq_addr /= mulr0.
  by case: eqP => // e; exfalso; lia.
rewrite big1 => [|l _]; last by rewrite ltn_ord /= [(k <= l)%N]leqNgt ltn_ord /= mulr0.
rewrite add0r (eq_bigr (fun l : 'I_(bsize bs) => (block_diag bs l (i - k)%N)^* * block_diag bs l (j - k)%N)) => [|l _]; last first.
  by rewrite leq_addr andbF /= addKn.
rewrite uB; [|lia|lia].
by have -> : ((i - k)%N == (j - k)%N) = (i == j) by apply/eqP/eqP => ?; lia.
Qed.
Lemma bd_real bs : (forall b, List.In b bs -> realm b.1 b.2) -> realm (bsize bs) (block_diag bs).
Proof.
elim: bs => [|[k A] bs IH] h i j; first by rewrite /bsize.
have -> : bsize ((k, A) :: bs) = (k + bsize bs)%N by [].
move=> hi hj; rewrite bd_cons; case: ifP => [/andP[ik jk]|_]; first by apply: (h (k, A)); [left|..].
case: ifP => [/andP[ki kj]|_]; last exact: real0.
by apply: IH => [b hb||]; [apply: h; right|lia|lia].
Qed.
(** blocks of size 2, the last one possibly of size 1 *)
Fixpoint twos (bs : seq (nat * mat)) : bool :=
  if bs is b :: bs' then ((b.1 == 2)%N || (b.1 == 1)%N && nilp bs') && twos bs' else true.
Lemma twos_blocks bs : twos bs -> two_blocks (bsize bs) false (block_diag bs).
Proof.
elim: bs => [|[k A] bs IH] /=; first by move=> _ i j.
move=> /andP[hk /IH{}IH] i j; have -> : bsize ((k, A) :: bs) = (k + bsize bs)%N by [].
move=> hi hj ij nb; case: ifP => [/andP[ik jk]|_].
  exfalso; move: hk => /orP[/eqP e|/andP[/eqP e _]]; subst k; last by move/eqP: ij; lia.
  by move: nb ij hi hj ik jk; case: i => [|[|i]]; case: j => [|[|j]].
case: ifP => [/andP[ki kj]|//]; move: hk => /orP[/eqP e|/andP[/eqP e /nilP e2]]; subst k; last first.
  by move: hi; rewrite e2 /bsize /=; lia.
apply: IH; [lia|lia| |].
  by apply: contra ij => /eqP e; apply/eqP; lia.
move: nb; case: i ki {hi ij} => [|[|i]] // _; case: j kj {hj} => [|[|j]] // _ /=.
by rewrite !negbK !eqSS !subSS !subn0.
Qed.
Lemma one_twos (A : mat) bs : twos bs -> two_blocks (1 + bsize bs) true (block_diag ((1%N, A) :: bs)).
Proof.
move=> /twos_blocks h i j hi hj ij nb; rewrite bd_cons; case: ifP => [/andP[i1 j1]|_].
  by exfalso; move/eqP: ij; lia.
case: ifP => [/andP[ki kj]|//]; apply: h; [lia|lia| |].
  by apply: contra ij => /eqP e; apply/eqP; lia.
move: nb; case: i ki {hi ij} => [|i] // _; case: j kj {hj} => [|j] // _ /=.
by rewrite !eqb_id !eqSS !subSS !subn0 !eqbF_neg.
Qed.

Variable qr : nat -> mat -> mat * mat.
Hypothesis qro : qrc_ok qr.
(** draws whose leading blocks are invertible *)
Definition good_draw (real : bool) n (xy : mat * mat) : Prop := forall m, (m <= n)%N -> nonsing m (draw real xy).

Example good_draw_id n : good_draw false n (fun i j => (i == j)%:R : C, fun i j => (i == j)%:R : C).
Proof. by move=> m _; exact: random_interferometer_draw. Qed.

Section One.
Variables (N : nat) (real : bool) (xy : nat -> mat * mat).
Hypotheses (N0 : (0 < N)%N) (good : forall k, good_draw real 2 (xy k)).
Let ri m k := random_interferometer qr m real (xy k).
Lemma blocks_in top b : List.In b (random_blocks qr N top real xy) -> exists m k, (m <= 2)%N /\ b = (m, ri m k).
Proof.
have In2 n l : List.In b [seq (2%N, random_interferometer qr 2 real (xy k)) | k <- iota l n] -> exists m k, (m <= 2)%N /\ b = (m, ri m k).
  elim: n l => [|n IH] l //= [<-|]; [by exists 2%N, l|exact: IH].
have In1 k : b = (1%N, random_interferometer qr 1 real (xy k)) -> exists m k, (m <= 2)%N /\ b = (m, ri m k) by exists 1%N, k; split.
rewrite /random_blocks; case: ifP => _; case: top.
- case=> [/esym|h]; first exact: In1.
  by case: (In_cat h) => [|[/esym|[]]]; [exact: In2|exact: In1].
- exact: In2.
- by case=> [/esym|]; [exact: In1|exact: In2].
- by move=> h; case: (In_cat h) => [|[/esym|[]]]; [exact: In2|exact: In1].
Qed.
Lemma bsize_cat (a b : seq (nat * mat)) : bsize (a ++ b) = (bsize a + bsize b)%N.
Proof. by rewrite /bsize map_cat sumn_cat. Qed.
Lemma bsize2 (f : nat -> mat) n m : bsize [seq (2%N, f k) | k <- iota m n] = (2 * n)%N.
Proof. by elim: n m => [|n IH] m //; rewrite /= /bsize /= -/(bsize _) IH; lia. Qed.
Lemma twos_cat (f : nat -> mat) n m (t : seq (nat * mat)) : twos t -> twos ([seq (2%N, f k) | k <- iota m n] ++ t).
Proof. by move=> h; elim: n m => [|n IH] m //=; rewrite IH. Qed.
Lemma blocks_size top : bsize (random_blocks qr N top real xy) = N.
Proof.
rewrite /random_blocks; case: eqP => par; case: top.
- rewrite -cat1s !bsize_cat bsize2 /bsize /=; lia.
- rewrite bsize2; lia.
- rewrite -cat1s !bsize_cat bsize2 /bsize /=; lia.
- rewrite !bsize_cat bsize2 /bsize /=; lia.
Qed.
Lemma blocks_two top : two_blocks N top (block_diag (random_blocks qr N top real xy)).
Proof.
have := blocks_size top; rewrite /random_blocks; case: eqP => par; case: top => e; rewrite -[X in two_blocks X]e.
- by apply: one_twos; exact: twos_cat.
- by apply: twos_blocks; rewrite -[X in twos X]cats0; exact: twos_cat.
- by apply: one_twos; rewrite -[X in twos X]cats0; exact: twos_cat.
- by apply: twos_blocks; exact: twos_cat.
Qed.

(** random_block_interferometer returns an N x N unitary matrix with blocks of size at most two, that start at the even modes, or at
    the odd modes with top_one=True; a real one with real=True *)
Theorem random_block_interferometer_correct top : let: (n, U) := random_block_interferometer qr N top real xy in
  [/\ n = N, unitary N U, two_blocks N top U & real -> (forall k, real_draw (xy k)) -> orth N U].
Proof.
rewrite /random_block_interferometer; split; first exact: blocks_size.
- rewrite -[X in unitary X](blocks_size top); apply: bd_unitary => b /blocks_in[m [k [m2 ->]]] /=.
  by apply: random_interferometer_unitary => //; exact: good.
- exact: blocks_two.
move=> rl rd; have uU : unitary N (block_diag (random_blocks qr N top real xy)).
  rewrite -[X in unitary X](blocks_size top); apply: bd_unitary => b /blocks_in[m [k [m2 ->]]] /=.
  by apply: random_interferometer_unitary => //; exact: good.
have rU : realm N (block_diag (random_blocks qr N top real xy)).
  rewrite -[X in realm X](blocks_size top); apply: bd_real => b /blocks_in[m [k [m2 ->]]] /=.
  by have := good k m2; rewrite /ri rl => g; case: (random_interferometer_real qro g (rd k)).
split=> //; apply/eqm_mx; rewrite mx_prod mx_tr mx_idm -(rmx_ct ((rmx_real _ _).1 rU)).
exact/unitary_mx.
Qed.
End One.

(** for N = 0 and top_one=True a 2 x 2 matrix is returned *)
Theorem random_block_interferometer_zero_refuted real xy : (random_block_interferometer qr 0 true real xy).1 = 2%N.
Proof. by []. Qed.

Section Banded.
Variables (N w : nat) (real : bool) (xy : nat -> nat -> mat * mat).
Hypothesis good : forall t k, good_draw real (maxn 2 N) (xy t k).
Lemma good2 t k : good_draw real 2 (xy t k). Proof. by move=> m hm; apply: good; rewrite leq_max hm. Qed.
Lemma banded_mul v p (U B : mat) : banded N v U -> two_blocks N p B -> banded N v.+1 (mmul N U B).
Proof.
move=> bU bB i j hi hj ij; rewrite /mmul big_seq big1 // => k; rewrite mem_iota /= add0n => kN.
case h : ((i + v < k)%N || (k + v < i)%N); first by rewrite bU ?mul0r.
rewrite bB ?mulr0 //; first by apply/eqP => e; move: h ij; rewrite e => -/negbT; rewrite negb_or; lia.
by apply/negP => hh; move/negbT: h; rewrite negb_or -!leqNgt => /andP[h1 h2]; case/orP: hh => /andP[_ /eqP e]; lia.
Qed.
Lemma diag_in b l n : List.In b [seq (1%N, random_interferometer qr 1 real (xy 0%N k)) | k <- iota l n] -> exists k, b = (1%N, random_interferometer qr 1 real (xy 0%N k)).
Proof. by elim: n l => [|n IH] m //= [<-|]; [exists m|exact: IH]. Qed.
Lemma diag_size (f : nat -> mat) n m : bsize [seq (1%N, f k) | k <- iota m n] = n.
Proof. by elim: n m => [|n IH] m //; rewrite /= /bsize /= -/(bsize _) IH; lia. Qed.
Lemma diag_banded (f : nat -> mat) n m i j : i != j -> block_diag [seq (1%N, f k) | k <- iota m n] i j = 0.
Proof.
elim: n m i j => [|n IH] m i j ij //=; case: ifP => [/andP[i0 j0]|_]; first by exfalso; move/eqP: ij; lia.
by case: ifP => // /andP[i1 j1]; apply: IH; apply: contra ij => /eqP e; apply/eqP; lia.
Qed.

(** random_banded_interferometer rejects w >= N, and otherwise returns an N x N unitary matrix of bandwidth w; a real one with real=True *)
Theorem random_banded_interferometer_correct top :
  if (w < N)%N then exists U, [/\ random_banded_interferometer qr N w top real xy = Ok U, unitary N U, banded N w U &
    real -> (forall t k, real_draw (xy t k)) -> orth N U]
  else random_banded_interferometer qr N w top real xy = Err ValueError.
Proof.
have e1 : (N < w + 1)%N = ~~ (w < N)%N by lia.
rewrite /random_banded_interferometer e1; case: (ltnP w N) => wN //.
change (~~ true) with false; cbv iota.
have toO (U : mat) : unitary N U -> realm N U -> orth N U.
  move=> uU rU; split=> //; apply/eqm_mx; rewrite mx_prod mx_tr mx_idm -(rmx_ct ((rmx_real _ _).1 rU)); exact/unitary_mx.
case: eqP => [e|_].
  have g : nonsing N (draw real (xy 0%N 0%N)) by apply: good; rewrite leq_maxr.
  eexists; split; first reflexivity.
  - exact: random_interferometer_unitary.
  - by move=> i j hi hj; lia.
  - by move: g => + rl; rewrite rl => g rd; exact: random_interferometer_real.
pose F (st : mat * bool) (t : nat) := let: (U, top_one_init) := st in
  (mmul N U (random_block_interferometer qr N top_one_init real (xy t.+1)).2, ~~ top_one_init).
rewrite -/F; set U0 := block_diag _.
suff [h1 h2 h3] : let U := (for_ (iota 0 w) (U0, top) F).1 in
    [/\ unitary N U, banded N w U & real -> (forall t k, real_draw (xy t k)) -> realm N U].
  by case: (for_ _ _ _) h1 h2 h3 => U b /= h1 h2 h3; exists U; split=> // rl rd; apply: toO => //; exact: h3.
have N0 : (0 < N)%N by lia.
elim: w => [|v IH].
  split; rewrite /= /U0.
  - rewrite -[X in unitary X](@diag_size (fun k => random_interferometer qr 1 real (xy 0%N k)) N 0).
    apply: bd_unitary => b /diag_in[k ->] /=; apply: random_interferometer_unitary => //; exact: good2.
  - by move=> i j _ _ ij; apply: diag_banded; apply/eqP; lia.
  - move=> rl rd; rewrite -[X in realm X](@diag_size (fun k => random_interferometer qr 1 real (xy 0%N k)) N 0).
    apply: bd_real => b /diag_in[k ->] /=.
    by have := @good2 0%N k 1%N isT; rewrite rl => g; case: (random_interferometer_real qro g (rd 0%N k)).
have -> : iota 0 v.+1 = rcons (iota 0 v) v by rewrite -addn1 iotaD cats1.
rewrite -cats1 for_cat; case: (for_ (iota 0 v) (U0, top) F) IH => U b /= [a1 a2 a3].
have := @random_block_interferometer_correct N real (xy v.+1) N0 (good2 v.+1) b; rewrite /F /random_block_interferometer => -[_ b1 b2 b3] /=; split.
- by apply/unitary_mx; rewrite mxof_mmul; apply: unit_mxM; exact/unitary_mx.
- exact: (banded_mul a2 b2).
- move=> rl rd; apply/rmx_real; rewrite mxof_mmul; apply: rmxM; apply/rmx_real; first exact: a3.
  by case: (b3 rl (rd v.+1)).
Qed.
End Banded.
End Blocks.
Print Assumptions random_banded_interferometer_correct.
