(** C18, C19: batched loop hafnians. *)
From mathcomp Require Import all_ssreflect all_fingroup all_algebra all_field zify.
From SsrMultinomials Require Import mpoly.
From Verif Require Import Prelude PyBase ArrLoop SpecHaf ThHaf ThTrace ThMpoly ThSieve ThHess MCharpoly PropCharpoly
  MPowerHaf PropKernels ThComb ThSub ThPower PropPowerHaf MBatch.
Set Implicit Arguments.
Unset Strict Implicit.
Unset Printing Implicit Defensive.
Import GRing.Theory Num.Theory.
Local Open Scope ring_scope.

(** ** Loops over array cells *)
Lemma for_updE (T : Type) a n (f : nat -> T) (op : T -> nat -> T) i :
  for_ (iota a n) f (fun H k => upd1 H k (op (H k) k)) i = if (a <= i < a + n)%N then op (f i) i else f i.
Proof.
elim: n => [|n IH]; first by rewrite /= addn0; case: ifP => //; lia.
rewrite for_iotaS {1}/upd1; case: (i =P (a + n)%N) => [e|e].
  rewrite -e IH; have -> : (a <= i < a + n)%N = false by lia.
  by have -> : (a <= i < a + n.+1)%N by lia.
rewrite IH; suff -> : (a <= i < a + n)%N = (a <= i < a + n.+1)%N by [].
lia.
Qed.
Lemma for_add (K : zmodType) X (l : seq X) (H0 : nat -> K) (g : X -> nat -> K) i :
  for_ l H0 (fun H j i => H i + g j i) i = H0 i + \sum_(j <- l) g j i.
Proof.
rewrite /for_; elim: l H0 => [|x l IH] H0 /=; first by rewrite big_nil addr0.
by rewrite IH big_cons addrA.
Qed.

(** ** Sieve weights and boxes *)
Lemma wtE (K : comRingType) rs ks : ks \in box rs ->
  sieve_wt K rs ks = (-1) ^+ (sumn rs - sumn ks) * \prod_(e < size rs) ('C(nth 0%N rs e, nth 0%N ks e))%:R.
Proof.
move=> hb; have hs := size_box hb; have hn e := nth_box e hb.
rewrite /sieve_wt; have -> : (sumn rs - sumn ks = \sum_(e < size rs) (nth 0%N rs e - nth 0%N ks e))%N.
  by rewrite !sumn_nth hs -sumnB.
rewrite -prodrXr -big_split /=; apply: eq_bigr => e _; by rewrite mulr_natr.
Qed.

Lemma box_restrict rs er : size rs = size er -> (forall e, nth 0 rs e <= nth 0 er e)%N ->
  perm_eq [seq ks <- box er | ks \in box rs] (box rs).
Proof.
move=> hs hle; apply: uniq_perm; rewrite ?filter_uniq ?box_uniq // => ks.
rewrite mem_filter; case hb : (ks \in box rs) => //=; rewrite boxP (size_box hb) hs eqxx /=.
have hn e := leq_trans (nth_box e hb) (hle e); have := size_box hb; rewrite hs => {hs hle hb}.
elim: ks er hn => [|k ks IH] [|e er] //= hn [hs]; rewrite (hn 0%N) /= IH // => i; exact: (hn i.+1).
Qed.

Section GenSieve.
Variables (K : fieldType) (char0 : [char K] =i pred0) (m : nat) (A : vert m -> vert m -> K) (D : vert m -> K).
Hypothesis symA : forall u v, A u v = A v u.
Variables (er : seq nat) (r : 'X_{1..m}) (a : nat -> K) (c : K).
Hypothesis hs : size er = m.
Hypothesis hle : forall e, (nth 0 (mreps r) e <= nth 0 er e)%N.

Lemma restr (F : seq nat -> K) : \sum_(ks <- box er) (if ks \in box (mreps r) then F ks else 0) = \sum_(ks <- box (mreps r)) F ks.
Proof.
rewrite -big_mkcond -big_filter; apply: perm_big; apply: box_restrict => //.
by rewrite hs /mreps size_map size_enum_ord.
Qed.
Lemma gen_even : \sum_(ks <- box er) (if ks \in box (mreps r) then sieve_wt K (mreps r) ks * Ev A D (sieve_pt a c ks) (mdeg r) else 0)
  = c ^+ mdeg r * lhq A D (mends r).
Proof. by rewrite restr sieve_even. Qed.
Lemma gen_odd : \sum_(ks <- box er) (if ks \in box (mreps r) then sieve_wt K (mreps r) ks * Ov A D (sieve_pt a c ks) (mdeg r).*2.+1 else 0)
  = c ^+ mdeg r * lhq A D (mends r ++ [:: None]).
Proof. by rewrite restr sieve_odd. Qed.
End GenSieve.

Section Calc.
Variable K : fieldType.
Hypothesis char0 : [char K] =i pred0.
Notation mat := (nat -> nat -> K).
Notation vec := (nat -> K).
Variable pt : nat -> mat -> nat -> seq K.
Hypothesis pt_ok : forall s M n k, (k < n)%N -> nth 0 (pt s M n) k = \tr (mxpow (mx_of s M) k).
Variables (sched : nat -> seq nat).
Hypothesis sched_ok : forall s, perm_eq (sched s) (iota 0 s).
Let two0 : 2%:R != 0 :> K. Proof. by move/charf0P: char0 => ->. Qed.

Lemma glynn_scaleE nf len (H : vec) i : (i < len)%N ->
  glynn_scale nf len H i = H i * 2%:R^-1 ^+ ((nf + i) %/ 2).
Proof. by move=> hi; rewrite /glynn_scale (for_updE 0 len H (fun h j => h * _ ^+ ((nf + j) %/ 2))) add0n hi. Qed.

Lemma bp1E b er ks n : binom_prod1 K b er ks n = \prod_(i <- pyrange 1 (n %/ 2)) (b (nth 0%N er i) (nth 0%N ks i))%:R.
Proof. by rewrite /binom_prod1 for_prod mul1r. Qed.

(** the weight of one term: first edge with [r0] repetitions, the others as in [er] *)
Lemma weightE bm tl r0 c ks : (r0 <= bm)%N -> ks \in box (r0 :: tl) ->
  (precompute_binoms (maxn_seq (bm :: tl) + c) r0 (nth 0%N ks 0))%:R *
   binom_prod1 K (precompute_binoms (maxn_seq (bm :: tl) + c)) (bm :: tl) ks ((size tl).+1 + (size tl).+1)
   * (-1) ^+ (r0 + sumn tl - sumn ks) = sieve_wt K (r0 :: tl) ks.
Proof.
move=> hr hb; rewrite wtE // mulrC; congr (_ * _); rewrite bp1E addnn -muln2 mulnK //.
have hn e := nth_box e hb.
rewrite [size _]/= big_ord_recl /=; congr (_ * _).
  rewrite precompute_binoms_correct //=; first by rewrite (leq_trans hr) // (leq_trans (leq_maxl bm (maxn_seq tl))) ?leq_addr.
  by rewrite (leq_trans (hn 0%N)) //= (leq_trans hr) // (leq_trans (leq_maxl bm (maxn_seq tl))) ?leq_addr.
rewrite /pyrange subSS subn0 -[1%N]addn0 iotaDl big_map sum_iota || rewrite /pyrange subSS subn0 -[1%N]addn0 iotaDl big_map prod_iota.
apply: eq_bigr => i _; rewrite add1n /= precompute_binoms_correct //.
  by rewrite (leq_trans (maxn_seq_nth tl i)) // (leq_trans (leq_maxr bm (maxn_seq tl))) ?leq_addr.
rewrite (leq_trans (hn i.+1)) //= (leq_trans (maxn_seq_nth tl i)) // (leq_trans (leq_maxr bm (maxn_seq tl))) ?leq_addr //.
Qed.

Lemma box_head r0 bm tl ks : (r0 <= bm)%N -> ks \in box (bm :: tl) -> (ks \in box (r0 :: tl)) = (nth 0%N ks 0 <= r0)%N.
Proof.
move=> hr; rewrite !boxP /=; case: ks => [|k ks] //=.
by rewrite !eqSS; case: (size ks == size tl) => //= /andP[_ ->]; rewrite andbT.
Qed.

Section Even.
Variables (tl : seq nat) (bm : nat) (A : mat) (D : vec) (oo : K).
Let er := bm :: tl.
Notation m := (size tl).+1.
Hypothesis symA : forall i j, (i < m + m)%N -> (j < m + m)%N -> A i j = A j i.
Notation AV := (@Av K er A oo (A 0%N)).
Notation DV := (@Dv K er D (D 0%N)).


(** one term of the sieve with [r0] repetitions of the batched edge *)
Definition W (ol : K) (oV : vec) (o glynn : bool) (rs ks : seq nat) : K :=
  if ks \in box rs then sieve_wt K rs ks *
     (if o then Ov (@Av K er A oo oV) (@Dv K er D ol) (sieve_pt (offs K er glynn) (stp K glynn) ks) (sumn rs).*2.+1
      else Ev (@Av K er A oo oV) (@Dv K er D ol) (sieve_pt (offs K er glynn) (stp K glynn) ks) (sumn rs)) else 0.

Lemma sumW ol oV o glynn (R : 'X_{1..m}) : (forall e, (nth 0 (mreps R) e <= nth 0 er e)%N) -> mdeg R = sumn (mreps R) ->
  \sum_(ks <- box er) W ol oV o glynn (mreps R) ks
   = stp K glynn ^+ sumn (mreps R) * lhq (@Av K er A oo oV) (@Dv K er D ol) (mends R ++ overt er o).
Proof.
move=> hle hd; have sA := @Av_sym K char0 er A oo oV symA.
rewrite /W /overt -hd; case: o; first by rewrite -(@gen_odd K char0 m _ _ sA er R (offs K er glynn)).
by rewrite cats0 -(@gen_even K char0 m _ _ sA er R (offs K er glynn)).
Qed.
Lemma unscale glynn F : (if glynn then stp K glynn ^+ F * 2%:R^-1 ^+ F else stp K glynn ^+ F) = 1.
Proof. by rewrite /stp; case: glynn; rewrite ?expr1n // exprVn mulfV // expf_neq0. Qed.

Lemma mrW r0 : mreps (rer (r0 :: tl) : 'X_{1..m}) = r0 :: tl. Proof. exact: (mreps_rer (r0 :: tl)). Qed.
Lemma mdW r0 : mdeg (rer (r0 :: tl) : 'X_{1..m}) = (r0 + sumn tl)%N. Proof. exact: (mdeg_rer (r0 :: tl)). Qed.

Lemma calc_batch_evenE oc glynn i : (oc <= 1)%N -> (i < 2 * bm + oc + 1)%N ->
  nth 0 (calc_batch_even pt sched (m + m) A D tl bm oc glynn) i
   = lhq AV DV (mends (rer (i./2 :: tl) : 'X_{1..m}) ++ overt er (odd i)).
Proof.
move=> hoc hi; rewrite /calc_batch_even -/er nth_mkseq //.
set F := (fun (H : vec) (j : nat) => _).
have hr : (i./2 <= bm)%N by lia.
have hF : for_ (sched (\prod_(r <- er) r.+1)%N) (fun=> 0) F i
    = \sum_(ks <- box er) W (D 0%N) (A 0%N) (odd i) glynn (i./2 :: tl) ks.
  rewrite -(sum_full (K := K) sched_ok) for_sum /F.
  etransitivity; [exact: (for_add (sched _) (fun=> 0) _ i)|cbv beta zeta].
  rewrite !add0r; apply: eq_bigr => j _.
  have hb := fke_in_box j er; move: (find_kept_edges j er) hb => ks hb.
  rewrite /pyrange (for_updE _ _ _ (fun h N_det => h + _)).
  have -> : (2 * nth 0 ks 0 <= i < 2 * nth 0 ks 0 + (2 * bm + oc + 1 - 2 * nth 0 ks 0))%N = (nth 0 ks 0 <= i./2)%N by lia.
  rewrite /W (box_head hr hb); case: ifP => // h0; rewrite add0r.
  have hb' : ks \in box (i./2 :: tl) by rewrite (box_head hr hb).
  have e1 : ((2 * sumn tl + i) %/ 2 = i./2 + sumn tl)%N by rewrite divn2; lia.
  rewrite e1 divn2 (weightE oc hr hb'); congr (_ * _).
  have -> : (i %% 2 == 0)%N = ~~ odd i by rewrite modn2; case: (odd i).
  case o: (odd i) => /=.
    rewrite (f_loop_odd_term char0 pt_ok A D (D 0%N) oo (A 0%N) glynn hb); last by lia.
    by congr (Ov _ _ _ _); lia.
  by rewrite (f_loop_term char0 pt_ok A D (D 0%N) oo (A 0%N) glynn hb) // divn2; lia.
have hS : \sum_(ks <- box er) W (D 0%N) (A 0%N) (odd i) glynn (i./2 :: tl) ks = stp K glynn ^+ (i./2 + sumn tl) *
    lhq AV DV (mends (rer (i./2 :: tl) : 'X_{1..m}) ++ overt er (odd i)).
  by rewrite -{1}(mrW i./2) sumW ?mrW ?mdW // => -[|e].
have := unscale glynn (i./2 + sumn tl); case: glynn @F hF hS => F hF hS hU.
  rewrite glynn_scaleE // hF hS mulrAC.
  have -> : ((2 * sumn tl + i) %/ 2 = i./2 + sumn tl)%N by rewrite divn2; lia.
  by rewrite hU mul1r.
by rewrite hF hS hU mul1r.
Qed.
End Even.

Lemma for_add_at X (l : seq X) (H0 : vec) (F : vec -> X -> vec) (g : X -> K) i :
  (forall H j, F H j i = H i + g j) -> for_ l H0 F i = H0 i + \sum_(j <- l) g j.
Proof.
move=> h; rewrite /for_; elim: l H0 => [|x l IH] H0 /=; first by rewrite big_nil addr0.
by rewrite IH h big_cons addrA.
Qed.

Section Odd.
Variables (fer : seq nat) (bm : nat) (A : mat) (D : vec) (oo : K).
Let er := [:: bm, 1 & fer]%N.
Notation m := (size fer).+2.
Hypothesis symA : forall i j, (i < m + m)%N -> (j < m + m)%N -> A i j = A j i.

Lemma calc_batch_oddE ec glynn i : (ec <= 1)%N -> (0 < i < 2 * bm.+1 + ec)%N ->
  nth 0 (calc_batch_odd pt sched (m + m) A D fer bm.+1 ec glynn) i
   = lhq (@Av K er A oo (A 0%N)) (@Dv K er D (D 0%N))
       (mends (rer [:: i.-1./2, 1 & fer]%N : 'X_{1..m}) ++ overt er (odd i.-1)).
Proof.
move=> hec hi; rewrite /calc_batch_odd -/er nth_mkseq; last by lia.
set F := (fun (H : vec) (j : nat) => _).
have hr : (i.-1./2 <= bm)%N by lia.
pose r0 := i.-1./2.
have hF : for_ (sched (bm.+1 * \prod_(r <- 1 :: fer) r.+1)%N) (fun=> 0) F i
    = \sum_(ks <- box er) W (1 :: fer)%N bm A D oo (D 0%N) (A 0%N) (odd i.-1) glynn [:: r0, 1 & fer]%N ks.
  rewrite -(sum_full (K := K) sched_ok) for_sum /steps_of [X in _ = _ + \sum_(i <- sched X) _]big_cons.
  rewrite (for_add_at _ _ (g := fun j => W (1 :: fer)%N bm A D oo (D 0%N) (A 0%N) (odd i.-1) glynn
     [:: r0, 1 & fer]%N (find_kept_edges j er))) // => H j; rewrite /F.
  have hb := fke_in_box j er; move: (find_kept_edges j er) hb => ks hb; cbv beta zeta.
  congr (_ + _).
    by case: ifP => // _; rewrite /upd1; case: eqP hi => // ->.
  rewrite /pyrange (for_updE _ _ _ (fun h N_det => h + _)).
  have -> : (2 * nth 0 ks 0 + 1 <= i < 2 * nth 0 ks 0 + 1 + (2 * bm.+1 + ec - (2 * nth 0 ks 0 + 1)))%N
     = (nth 0 ks 0 <= r0)%N by rewrite /r0; lia.
  rewrite /W (box_head hr hb); case: ifP => // h0; rewrite add0r.
  have hb' : ks \in box (r0 :: (1 :: fer))%N by rewrite (box_head hr hb).
  have e1 : ((2 * sumn fer + 1 + i) %/ 2 = r0 + sumn (1 :: fer)%N)%N by rewrite divn2 /r0 /=; lia.
  have e2 : ((i - 1) %/ 2 = r0)%N by rewrite divn2 /r0; lia.
  rewrite e1 e2 (weightE ec hr hb'); congr (_ * _).
  have -> : ((2 * sumn fer + 1 + i) %% 2 == 0)%N = ~~ odd i.-1 by rewrite modn2; lia.
  case o: (odd i.-1) => /=.
    rewrite (f_loop_odd_term char0 pt_ok A D (D 0%N) oo (A 0%N) glynn hb); last by lia.
    by congr (Ov _ _ _ _); rewrite /r0; lia.
  by rewrite (f_loop_term char0 pt_ok A D (D 0%N) oo (A 0%N) glynn hb) // divn2 /r0; lia.
have hS : \sum_(ks <- box er) W (1 :: fer)%N bm A D oo (D 0%N) (A 0%N) (odd i.-1) glynn [:: r0, 1 & fer]%N ks
   = stp K glynn ^+ (r0 + sumn (1 :: fer)%N) * lhq (@Av K er A oo (A 0%N)) (@Dv K er D (D 0%N))
       (mends (rer [:: r0, 1 & fer]%N : 'X_{1..m}) ++ overt er (odd i.-1)).
  by rewrite -{1}(mrW (1 :: fer)%N r0) (@sumW (1 :: fer)%N bm A D oo symA) ?(mrW (1 :: fer)%N) ?(mdW (1 :: fer)%N) // => -[|e].
have := unscale glynn (r0 + sumn (1 :: fer)%N); case: glynn @F hF hS => F hF hS hU.
  rewrite glynn_scaleE; last by lia.
  rewrite hF hS mulrAC.
  have -> : ((2 * sumn fer + 1 + i) %/ 2 = r0 + sumn (1 :: fer)%N)%N by rewrite divn2 /r0 /=; lia.
  by rewrite hU mul1r.
by rewrite hF hS hU mul1r.
Qed.

Lemma calc_batch_odd0E ec glynn : (ec <= 1)%N ->
  nth 0 (calc_batch_odd pt sched (m + m) A D fer bm.+1 ec glynn) 0
   = lhq (@Av K er A oo (A 1%N)) (@Dv K er D (D 1%N))
       (mends (rer [:: 0, 0 & fer]%N : 'X_{1..m}) ++ overt er true).
Proof.
move=> hec; rewrite /calc_batch_odd -/er nth_mkseq; last by lia.
set F := (fun (H : vec) (j : nat) => _).
have hF : for_ (sched (bm.+1 * \prod_(r <- 1 :: fer) r.+1)%N) (fun=> 0) F 0%N
    = \sum_(ks <- box er) W (1 :: fer)%N bm A D oo (D 1%N) (A 1%N) true glynn [:: 0, 0 & fer]%N ks.
  rewrite -(sum_full (K := K) sched_ok) for_sum /steps_of [X in _ = _ + \sum_(i <- sched X) _]big_cons.
  rewrite (for_add_at _ _ (g := fun j => W (1 :: fer)%N bm A D oo (D 1%N) (A 1%N) true glynn
     [:: 0, 0 & fer]%N (find_kept_edges j er))) // => H j; rewrite /F.
  have hb := fke_in_box j er; move: (find_kept_edges j er) hb => ks hb; cbv beta zeta.
  rewrite /pyrange (for_updE _ _ _ (fun h N_det => h + _)).
  have -> : (2 * nth 0 ks 0 + 1 <= 0 < 2 * nth 0 ks 0 + 1 + (2 * bm.+1 + ec - (2 * nth 0 ks 0 + 1)))%N = false by lia.
  rewrite addr0 /W.
  have -> : (ks \in box [:: 0, 0 & fer]%N) = (nth 0%N ks 0 == 0%N) && (nth 0%N ks 1 == 0%N).
    move: hb; rewrite !boxP; case: ks => [|k0 [|k1 ks]] //=; rewrite !eqSS !leqn0.
    by case: (size ks == size fer) => //= /and3P[_ _ ->]; rewrite andbT.
  case: ifP => h00; last by rewrite addr0.
  rewrite /upd1 /=; congr (_ + _).
  have hb' : ks \in box [:: 0, 0 & fer]%N.
    move: hb h00; rewrite !boxP; case: ks => [|k0 [|k1 ks]] //=; rewrite !eqSS !leqn0.
    by case: (size ks == size fer) => //= /and3P[_ _ ->]; rewrite andbT.
  have e1 : ((2 * sumn fer + 1) %/ 2 = sumn fer)%N by rewrite divn2 /=; lia.
  rewrite e1 (f_loop_odd_term char0 pt_ok A D (D 1%N) oo (A 1%N) glynn hb) //.
  have e3 : (0 + (0 + sumn fer)).*2.+1 = (2 * sumn fer + 1)%N by lia.
  rewrite e3; congr (_ * _).
  have hn e := nth_box e hb.
  rewrite wtE // [size _]/= !big_ord_recl mulrC; congr (_ * _).
  rewrite bp1E addnn -muln2 mulnK // /pyrange subSS subn0 /= big_cons.
  have k0 : nth 0%N ks 0 = 0%N by case/andP: h00 => /eqP.
  have k1 : nth 0%N ks 1 = 0%N by case/andP: h00 => _ /eqP.
  have mx e : (nth 0 er e <= maxn_seq er + ec)%N by rewrite (leq_trans (maxn_seq_nth er e)) ?leq_addr.
  rewrite !precompute_binoms_correct ?(mx 1%N) ?k1 ?k0 //= !bin0 !mul1r.
  rewrite (_ : iota 2 _ = map (addn 2) (iota 0 (size fer))) ?big_map ?prod_iota; last by rewrite -iotaDl.
  apply: eq_bigr => e _; rewrite add2n precompute_binoms_correct ?(mx e.+2) //.
  exact: leq_trans (hn e.+2) (mx e.+2).
have mr : mreps (rer [:: 0, 0 & fer]%N : 'X_{1..m}) = [:: 0, 0 & fer]%N by exact: (mreps_rer [:: 0, 0 & fer]%N).
have md : mdeg (rer [:: 0, 0 & fer]%N : 'X_{1..m}) = sumn fer by exact: (mdeg_rer [:: 0, 0 & fer]%N).
have hS : \sum_(ks <- box er) W (1 :: fer)%N bm A D oo (D 1%N) (A 1%N) true glynn [:: 0, 0 & fer]%N ks
   = stp K glynn ^+ (sumn fer) * lhq (@Av K er A oo (A 1%N)) (@Dv K er D (D 1%N))
       (mends (rer [:: 0, 0 & fer]%N : 'X_{1..m}) ++ overt er true).
  by rewrite -{1}mr (@sumW (1 :: fer)%N bm A D oo symA) ?mr ?md // => -[|[|e]] //=.
have := unscale glynn (sumn fer); case: glynn @F hF hS => F hF hS hU.
  rewrite glynn_scaleE; last by lia.
  rewrite hF hS mulrAC.
  have -> : ((2 * sumn fer + 1 + 0) %/ 2 = sumn fer)%N by rewrite divn2 /=; lia.
  by rewrite hU mul1r.
by rewrite hF hS hU mul1r.
Qed.
End Odd.
End Calc.

(** ** From edges back to repetitions *)
Section Edges.
Variables (K : fieldType) (char0 : [char K] =i pred0).
Notation mat := (nat -> nat -> K).
Notation vec := (nat -> K).
Variables (reps : seq nat) (A : mat) (D : vec).
Let n := size reps.
Hypothesis symA : forall i j, (i < n)%N -> (j < n)%N -> A i j = A j i.
Variables (x er : seq nat) (o : option nat) (EA EB : seq nat).
Hypothesis hx : x = EA ++ EB.
Hypothesis sEA : size EA = size er.
Hypothesis sEB : size EB = size er.
Hypothesis hw : forall i, nth 0%N reps i = (ewt er EA EB i + (o == Some i))%N.
Hypothesis xlt : all (fun i => (i < n)%N) x.
Hypothesis olt : forall i, o = Some i -> (i < n)%N.
Notation m := (size er).
Let xv := @xv x er o.
Let Ax : mat := fun i j => A (nth 0%N x i) (nth 0%N x j).
Let Dx : vec := fun i => D (nth 0%N x i).

Lemma edges_lhq2 ol oo oV :
  (forall w, o = Some w -> [/\ ol = D w, oo = A w w & forall i, (i < m + m)%N -> oV i = A w (nth 0%N x i)]) ->
  lhq (@Av K er Ax oo oV) (@Dv K er Dx ol) (mends (rer er) ++ overt er o) = lhaf_rep_spec reps A D.
Proof.
move=> ho; pose A' i j := if (i < n)%N && (j < n)%N then A i j else 0.
have symA' i j : A' i j = A' j i by rewrite /A' andbC; case: ifP => // /andP[hj hi]; exact: symA.
have e i j : (i < n)%N -> (j < n)%N -> A i j = A' i j by move=> hi hj; rewrite /A' hi hj.
have ep : perm_eq [seq xv v | v <- mends (rer er) ++ overt er o] (rep_index reps).
  apply/allP => y _; apply/eqP; rewrite /= count_map count_cat count_mends count_rep_index hw.
  congr (_ + _)%N.
    rewrite /ewt; apply: eq_bigr => f _; rewrite mnmE /= hx !nth_cat sEA addn0 mul1n ltn_ord.
    by rewrite [(f + m < m)%N]ltnNge leq_addl addnK.
  by rewrite /overt /xv /PropPowerHaf.xv /oi; case: o => [i|] //=; rewrite addn0.
rewrite (lhaf_rep_spec_ext e (nu := D)) // lhaf_rep_spec_lhq // -(lhq_perm _ symA' ep) lhq_map //.
have oN : None \in mends (rer er) ++ overt er o -> o.
  rewrite mem_cat; case: (o) => [i|] //=; rewrite orbF => /flattenP[l /mapP[e' _ ->]].
  by elim: (rer er e') => //= k IH; rewrite !inE.
have vin v : v \in mends (rer er) ++ overt er o -> (xv v < n)%N /\ (v = None -> o).
  case: v => [[e' b]|] h; split=> //.
  - apply: (allP xlt); apply: mem_nth; rewrite hx size_cat sEA sEB.
    by apply: (vidx_lt char0 (Some (e', b))); apply: leq_trans (ltn_ord e').
  - have := oN h; rewrite /xv /PropPowerHaf.xv /oi; case: (o) olt => [i|] //= hl _; exact: hl.
  - by move=> _; exact: oN.
have vlt v : v \in mends (rer er) ++ overt er o -> v <> None -> (vidx v < m + m)%N.
  by case: v => [[e' b]|] // _ _; apply: (vidx_lt char0 (Some (e', b))); apply: leq_trans (ltn_ord e').
apply: eq_lhq => [u v hu0 hv0|u hu0].
  have [hu ou] := vin _ hu0; have [hv ov] := vin _ hv0; have lu := vlt _ hu0; have lv := vlt _ hv0.
  rewrite -e //; case: u ou hu lu {hu0} => [u|] ou hu lu; case: v ov hv lv {hv0} => [v|] ov hv lv //=.
  - have := ov erefl; move: hv; rewrite /xv /PropPowerHaf.xv /oi; case E : o => [w|] //= hw' _.
    have [_ _ -> //] := ho _ E; last exact: (lu).
    exact: symA.
  - have := ou erefl; rewrite /xv /PropPowerHaf.xv /oi; case E : o => [w|] //= _.
    by have [_ _ -> //] := ho _ E; exact: (lv).
  - have := ou erefl; rewrite /xv /PropPowerHaf.xv /oi; case E : o => [w|] //= _.
    by have [_ ->] := ho _ E.
have [hu ou] := vin _ hu0; case: u ou hu {hu0} => [u|] ou hu //=.
have := ou erefl; rewrite /xv /PropPowerHaf.xv /oi; case E : o => [w|] //= _.
by have [->] := ho _ E.
Qed.
End Edges.

Lemma ewt_cons r er a EA b EB y : ewt (r :: er) (a :: EA) (b :: EB) y = (r * ((a == y) + (b == y)) + ewt er EA EB y)%N.
Proof. by rewrite /ewt [size _]/= big_ord_recl. Qed.

(** all the modes with a positive multiplicity occur among the edges *)
Lemma ewt_mem er EA EB y : (0 < ewt er EA EB y)%N -> size EA = size er -> size EB = size er -> y \in EA ++ EB.
Proof.
move=> h sA sB; apply/negPn/negP; rewrite mem_cat negb_or => /andP[yA yB]; move: h; rewrite /ewt big1 // => e _.
suff [-> ->] : (nth 0%N EA e == y) = false /\ (nth 0%N EB e == y) = false by rewrite muln0.
split; apply/negbTE/eqP => h; [move: yA|move: yB]; rewrite -h mem_nth //= ?sA ?sB ltn_ord //.
Qed.
Lemma maxn_seq_lt l n : (0 < n)%N -> all (fun i => i < n)%N l -> (maxn_seq l < n)%N.
Proof. by move=> n0; elim: l => //= x l IH /andP[hx /IH]; rewrite gtn_max hx. Qed.
Lemma maxn_seq_mem l y : y \in l -> (y <= maxn_seq l)%N.
Proof. by move/(nthP 0%N) => [i _ <-]; exact: maxn_seq_nth. Qed.

Section NewEdge.
Variables (fr EA EB er : seq nat) (o : option nat).
Hypothesis pos : all (fun r => 0 < r)%N fr.
Hypothesis hm : matched_reps fr = Some (EA ++ EB, er, o).
Hypothesis sA : size EA = size er.
Hypothesis sB : size EB = size er.
Hypothesis hw : forall i, nth 0%N fr i = (ewt er EA EB i + (o == Some i))%N.
Notation f := (size fr).

Lemma rangeE : all (fun i => i < f)%N EA /\ all (fun i => i < f)%N EB.
Proof. by have [h _] := matched_reps_range hm; move: h; rewrite all_cat => /andP[]. Qed.

Lemma edges_evenE : o = None -> add_batch_edges_even (EA ++ EB) = (f :: EA) ++ f :: EB.
Proof.
move=> o0; rewrite /add_batch_edges_even size_cat sA sB addnn -muln2 muln_eq0 orbF; case: eqP => [e0|/eqP e0].
  have -> : f = 0%N.
    case E : fr pos hw => [|r fr'] //= /andP[r0 _] /(_ 0%N) /=.
    have -> : er = [::] by apply/nilP/eqP.
    by rewrite /ewt big_ord0 o0 /= => h; move: r0; rewrite h.
  by move: sA sB; rewrite e0; case: (EA) (EB) => // -[].
rewrite mulnK // -sA take_size_cat // drop_size_cat //.
have -> : (maxn_seq (EA ++ EB)).+1 = f; last by [].
have f0 : (0 < f)%N.
  have [h _] := rangeE; move: h sA e0; case: (EA) => [_ <- //|a l /= /andP[h _] _ _]; exact: leq_ltn_trans (leq0n _) h.
apply/eqP; rewrite eqn_leq maxn_seq_lt //=; last by rewrite all_cat; apply/andP; exact: rangeE.
rewrite -(ltn_predK f0) ltnS; apply: maxn_seq_mem; apply: (@ewt_mem er) => //.
have := hw f.-1; rewrite o0 addn0 => <-; apply: (allP pos); apply: mem_nth; rewrite ltn_predL; exact: f0.
Qed.

Lemma edges_oddE i : o = Some i -> add_batch_edges_odd (EA ++ EB) i = [:: f, i & EA] ++ [:: f, f & EB].
Proof.
move=> o0; have [_ /(_ _ o0) hi] := matched_reps_range hm.
rewrite /add_batch_edges_odd size_cat sA sB addnn -muln2 muln_eq0 orbF; case: eqP => [e0|/eqP e0].
  have e1 : er = [::] by apply/nilP/eqP.
  have -> : f = 1%N.
    case: (ltnP 1 f) => h; last by lia.
    have h0 := allP pos _ (mem_nth 0%N (ltnW h)); have h1 := allP pos _ (mem_nth 0%N h).
    move: h0 h1; rewrite !hw e1 /ewt !big_ord0 o0 /=.
    by case: eqP => // -[->].
  by move: sA sB; rewrite e0; case: (EA) (EB) => // -[].
rewrite mulnK // -sA take_size_cat // drop_size_cat //.
have -> : (maxn (maxn_seq (EA ++ EB)) i).+1 = f; last by [].
have f0 : (0 < f)%N by exact: leq_ltn_trans (leq0n _) hi.
apply/eqP; rewrite eqn_leq gtn_max maxn_seq_lt ?hi //=; last by rewrite all_cat; apply/andP; exact: rangeE.
rewrite -(ltn_predK f0) ltnS leq_max; case: (i =P f.-1) => [->|ne]; first by rewrite leqnn orbT.
apply/orP; left; apply: maxn_seq_mem; apply: (@ewt_mem er) => //.
have := hw f.-1; rewrite o0; case: eqP => [[/esym//]|_]; rewrite addn0 => <-.
apply: (allP pos); apply: mem_nth; rewrite ltn_predL; exact: f0.
Qed.
End NewEdge.

(** ** Removing the modes without photons *)
Lemma batch_nzE fr : let nz := batch_nz fr in
  nz = rcons [seq i <- iota 0 (size fr) | nth 0%N fr i != 0%N] (size fr).
Proof.
rewrite /= /batch_nz -[(size fr).+1]addn1 iotaD filter_cat /= nth_rcons ltnn eqxx /= cats1; congr rcons.
by apply: eq_in_filter => i; rewrite mem_iota nth_rcons => /andP[_ ->].
Qed.
Lemma flatten_filter (T : eqType) (S : Type) (p : pred T) (f : T -> seq S) l : (forall i, i \in l -> ~~ p i -> f i = [::]) ->
  flatten [seq f i | i <- [seq i <- l | p i]] = flatten [seq f i | i <- l].
Proof.
elim: l => //= i l IH h; have {}IH := IH (fun j hj => h j (mem_behead (s := i :: l) hj)).
case: ifP => pi /=; rewrite IH // h ?mem_head ?pi //.
Qed.
Lemma rep_index_nz fr k : let nz := batch_nz fr in
  let frnz := [seq nth 0%N fr i | i <- take (size nz).-1 nz] in
  [/\ all (fun r => 0 < r)%N frnz, size nz = (size frnz).+1, (forall i, (i < size nz)%N -> (nth 0%N nz i <= size fr)%N) &
  rep_index (rcons fr k) = [seq nth 0%N nz i | i <- rep_index (rcons frnz k)]].
Proof.
move=> nz frnz; have enz := batch_nzE fr; rewrite -/nz in enz.
set l := [seq i <- iota 0 (size fr) | _] in enz.
have tk : take (size nz).-1 nz = l by rewrite enz size_rcons -cats1 take_size_cat.
have snz : size nz = (size frnz).+1 by rewrite /frnz tk size_map enz size_rcons.
split=> //.
- by rewrite /frnz tk all_map; apply/allP => i; rewrite mem_filter /= lt0n => /andP[].
- move=> i hi; have : nth 0%N nz i \in nz by exact: mem_nth.
  by rewrite {2}enz mem_rcons inE mem_filter mem_iota => /orP[/eqP->|/and3P[_ _ /ltnW]].
have ernz : rcons frnz k = [seq nth 0%N (rcons fr k) i | i <- nz].
  rewrite enz map_rcons nth_rcons ltnn eqxx /frnz tk; congr rcons.
  by apply/eq_in_map => i; rewrite mem_filter mem_iota nth_rcons => /and3P[_ _ ->].
rewrite /rep_index map_flatten -map_comp !size_rcons -snz.
transitivity (flatten [seq nseq (nth 0%N (rcons fr k) j) j | j <- nz]).
  rewrite -(@flatten_filter _ _ (fun i => nth 0%N (rcons fr 1%N) i != 0%N)) // => i.
  rewrite mem_iota !nth_rcons negbK add0n ltnS => /andP[_]; case: (ltngtP i (size fr)) => //= h _ /eqP-> //.
rewrite -{1}(mkseq_nth 0%N nz) /mkseq -map_comp; congr flatten; apply/eq_in_map => i; rewrite mem_iota => /andP[_ hi].
by rewrite /= map_nseq ernz (nth_map 0%N).
Qed.

Section Main.
Variable K : fieldType.
Hypothesis char0 : [char K] =i pred0.
Notation mat := (nat -> nat -> K).
Notation vec := (nat -> K).
Variable pt : nat -> mat -> nat -> seq K.
Hypothesis pt_ok : forall s M n k, (k < n)%N -> nth 0 (pt s M n) k = \tr (mxpow (mx_of s M) k).
Variables (sched : nat -> seq nat).
Hypothesis sched_ok : forall s, perm_eq (sched s) (iota 0 s).
Variables (fr : seq nat) (A : mat).
Let n := (size fr).+1.
Hypothesis symA : forall i j, (i < n)%N -> (j < n)%N -> A i j = A j i.
Let nz := batch_nz fr.
Let frnz := [seq nth 0%N fr i | i <- take (size nz).-1 nz].
Let Anz : mat := fun i j => A (nth 0%N nz i) (nth 0%N nz j).

Lemma nz_spec (D : vec) k :
  lhaf_rep_spec (rcons frnz k) Anz (fun i => D (nth 0%N nz i)) = lhaf_rep_spec (rcons fr k) A D.
Proof.
have [_ _ _ e] := rep_index_nz fr k; rewrite /lhaf_rep_spec e size_map.
apply: eq_lhaf_spec => [i j hi hj|i hi]; by rewrite !(nth_map 0%N).
Qed.
Lemma symAnz i j : (i < (size frnz).+1)%N -> (j < (size frnz).+1)%N -> Anz i j = Anz j i.
Proof.
have [_ hs hl _] := rep_index_nz fr 0; rewrite -/nz -/frnz in hs hl; rewrite -hs => hi hj.
by apply: symA; rewrite ltnS; apply: hl.
Qed.

Variables (EA EB er : seq nat).
Hypothesis sA : size EA = size er.
Hypothesis sB : size EB = size er.
Notation f := (size frnz).

Lemma ewt_out i : all (fun j => j < f)%N EA -> all (fun j => j < f)%N EB -> (f <= i)%N -> ewt er EA EB i = 0%N.
Proof.
move=> hA hB fi; rewrite /ewt big1 // => e _.
have h1 := allP hA _ (mem_nth 0%N (_ : e < size EA)%N); have h2 := allP hB _ (mem_nth 0%N (_ : e < size EB)%N).
rewrite sA sB ltn_ord in h1 h2; have {}h1 := h1 isT; have {}h2 := h2 isT.
by rewrite (ltn_eqF (leq_trans h1 fi)) (ltn_eqF (leq_trans h2 fi)) muln0.
Qed.

Section Row.
Variable D : vec.
Let Dnz : vec := fun i => D (nth 0%N nz i).

Lemma batch_even_main N_cutoff glynn : matched_reps frnz = Some (EA ++ EB, er, None) ->
  (forall i, nth 0%N frnz i = ewt er EA EB i) ->
  let edges := add_batch_edges_even (EA ++ EB) in
  calc_batch_even pt sched (size edges) (fun i j => Anz (nth 0%N edges i) (nth 0%N edges j))
     (fun i => Dnz (nth 0%N edges i)) er (N_cutoff %/ 2) (N_cutoff %% 2) glynn
   = mkseq (fun k => lhaf_rep_spec (rcons fr k) A D) N_cutoff.+1.
Proof.
move=> hm hw; have [pos hs hl _] := rep_index_nz fr 0; rewrite -/nz -/frnz in pos hs hl.
have hw0 i : nth 0%N frnz i = (ewt er EA EB i + (None == Some i))%N by rewrite hw addn0.
have [rA rB] := rangeE hm.
cbv zeta; rewrite (edges_evenE pos hm sA sB hw0 erefl); set x := _ ++ _.
have sx : size x = ((size er).+1 + (size er).+1)%N by rewrite /x size_cat /= sA sB.
have xlt : all (fun i => i < f.+1)%N x.
  rewrite /x all_cat /= ltnSn /=; apply/andP; split; [apply: sub_all rA|apply: sub_all rB] => i; exact: leqW.
have sy i j : (i < (size er).+1 + (size er).+1)%N -> (j < (size er).+1 + (size er).+1)%N ->
    Anz (nth 0%N x i) (nth 0%N x j) = Anz (nth 0%N x j) (nth 0%N x i).
  by rewrite -sx => hi hj; apply: symAnz; apply: (allP xlt); apply: mem_nth.
have szE : size (calc_batch_even pt sched (size x) (fun i j => Anz (nth 0%N x i) (nth 0%N x j))
     (fun i => Dnz (nth 0%N x i)) er (N_cutoff %/ 2) (N_cutoff %% 2) glynn) = N_cutoff.+1.
  by rewrite /calc_batch_even size_mkseq; have := divn_eq N_cutoff 2; lia.
apply: (@eq_from_nth _ 0); rewrite szE ?size_mkseq // => i hi; rewrite [in RHS]nth_mkseq // sx.
rewrite (@calc_batch_evenE K char0 pt pt_ok sched sched_ok er (N_cutoff %/ 2) _ _ (Anz f f) sy); last 2 first.
- by rewrite -ltnS ltn_pmod.
- by have := divn_eq N_cutoff 2; lia.
rewrite -nz_spec.
pose o := if odd i then Some f else None.
have -> : odd i = o :> bool by rewrite /o; case: (odd i).
rewrite -(@edges_lhq2 K char0 (rcons frnz i) Anz Dnz _ x (i./2 :: er) o (f :: EA) (f :: EB) _ _ _ _ _ _
   (Dnz f) (Anz f f) (fun j => Anz f (nth 0%N x j))) //= ?sA ?sB ?size_rcons //.
- by move=> a b; exact: symAnz.
- move=> y; rewrite ewt_cons nth_rcons.
  case: ltngtP => hy.
  + rewrite hw !addn0 muln0 /o; case: (odd i) => //=; rewrite ?addn0 // eqE /= (gtn_eqF hy) addn0 //.
  + rewrite ewt_out // 1?ltnW // muln0 /o; case: (odd i) => //=; rewrite ?addn0 // eqE /= (ltn_eqF hy) //.
  rewrite hy ewt_out // /o; case oi : (odd i); rewrite ?eqxx /=; lia.
- by move=> w; rewrite /o; case: (odd i) => // -[<-].
- by move=> w; rewrite /o; case: (odd i) => // -[<-].
Qed.

Lemma batch_odd_main N_cutoff glynn w : (0 < N_cutoff)%N -> matched_reps frnz = Some (EA ++ EB, er, Some w) ->
  (forall i, nth 0%N frnz i = ewt er EA EB i + (Some w == Some i))%N ->
  let edges := add_batch_edges_odd (EA ++ EB) w in
  calc_batch_odd pt sched (size edges) (fun i j => Anz (nth 0%N edges i) (nth 0%N edges j))
     (fun i => Dnz (nth 0%N edges i)) er ((N_cutoff + 1) %/ 2) (1 - N_cutoff %% 2) glynn
   = mkseq (fun k => lhaf_rep_spec (rcons fr k) A D) N_cutoff.+1.
Proof.
move=> Nc hm hw; have [pos hs hl _] := rep_index_nz fr 0; rewrite -/nz -/frnz in pos hs hl.
have [rA rB] := rangeE hm; have [_ /(_ _ erefl) rw] := matched_reps_range hm.
cbv zeta; rewrite (edges_oddE pos hm sA sB hw erefl); set x := _ ++ _.
have sx : size x = ((size er).+2 + (size er).+2)%N by rewrite /x size_cat /= sA sB.
have xlt : all (fun i => i < f.+1)%N x.
  rewrite /x all_cat /= ltnSn /= (leqW rw) /=; apply/andP; split; [apply: sub_all rA|apply: sub_all rB] => i; exact: leqW.
have sy i j : (i < (size er).+2 + (size er).+2)%N -> (j < (size er).+2 + (size er).+2)%N ->
    Anz (nth 0%N x i) (nth 0%N x j) = Anz (nth 0%N x j) (nth 0%N x i).
  by rewrite -sx => hi hj; apply: symAnz; apply: (allP xlt); apply: mem_nth.
set ec := (1 - N_cutoff %% 2)%N; have hec : (ec <= 1)%N by exact: leq_subr.
have [bm ebm] : exists bm, ((N_cutoff + 1) %/ 2 = bm.+1)%N.
  by exists ((N_cutoff + 1) %/ 2).-1; rewrite divn2; lia.
have eN : (2 * bm.+1 + ec = N_cutoff.+1)%N by rewrite -ebm divn2 /ec modn2; lia.
have szE : size (calc_batch_odd pt sched (size x) (fun i j => Anz (nth 0%N x i) (nth 0%N x j))
     (fun i => Dnz (nth 0%N x i)) er ((N_cutoff + 1) %/ 2) ec glynn) = N_cutoff.+1.
  by rewrite /calc_batch_odd size_mkseq ebm.
apply: (@eq_from_nth _ 0); rewrite szE ?size_mkseq // => i hi; rewrite [in RHS]nth_mkseq // sx ebm -nz_spec.
case: (posnP i) => [i0|i0].
  rewrite i0 (@calc_batch_odd0E K char0 pt pt_ok sched sched_ok er bm _ _ (Anz w w) sy) //.
  have h := @edges_lhq2 K char0 (rcons frnz 0%N) Anz Dnz _ x [:: 0, 0 & er]%N (Some w) [:: f, w & EA]
     [:: f, f & EB] _ _ _ _ _ _ (Dnz w) (Anz w w) (fun j => Anz w (nth 0%N x j)).
  rewrite /= in h; apply: h; rewrite /= ?sA ?sB ?size_rcons //.
  - by move=> a b; exact: symAnz.
  - move=> y; rewrite !ewt_cons !mul0n !add0n nth_rcons.
    case: ltngtP => hy; first by rewrite hw.
    + rewrite ewt_out // 1?ltnW //= eqE /= ltn_eqF //; exact: ltn_trans rw hy.
    + by rewrite hy ewt_out //= eqE /= ltn_eqF.
  - by move=> v [<-]; rewrite leqW.
  - by move=> v [<-].
rewrite (@calc_batch_oddE K char0 pt pt_ok sched sched_ok er bm _ _ (Anz f f) sy) // ?i0 ?eN //.
pose o := if odd i.-1 then Some f else None.
have -> : odd i.-1 = o :> bool by rewrite /o; case: (odd i.-1).
have h := @edges_lhq2 K char0 (rcons frnz i) Anz Dnz _ x [:: i.-1./2, 1 & er]%N o [:: f, w & EA]
     [:: f, f & EB] _ _ _ _ _ _ (Dnz f) (Anz f f) (fun j => Anz f (nth 0%N x j)).
rewrite /= in h; apply: h; rewrite /= ?sA ?sB ?size_rcons //.
- by move=> a b; exact: symAnz.
- move=> y; rewrite !ewt_cons nth_rcons mul1n.
  have eo : (o == Some y :> option nat) = odd i.-1 && (f == y).
    by rewrite /o; case: (odd i.-1) => //=.
  rewrite eo; case: ltngtP => hy.
  + by rewrite hw ?addn0 muln0 andbF !addn0 eqE /= addnC.
  + by rewrite ewt_out // 1?ltnW // muln0 andbF (ltn_eqF (ltn_trans rw hy)).
  rewrite hy ewt_out // (ltn_eqF rw) andbT; lia.
- by move=> v; rewrite /o; case: (odd i.-1) => // -[<-].
- by move=> v; rewrite /o; case: (odd i.-1) => // -[<-].
Qed.

End Row.
End Main.

Lemma sumn_nz fr : let nz := batch_nz fr in sumn [seq nth 0%N fr i | i <- take (size nz).-1 nz] = sumn fr.
Proof.
move=> nz; have [_ _ _ e] := rep_index_nz fr 0; have := size_rep_index (rcons fr 0%N).
by rewrite e size_map size_rep_index !sumn_rcons !addn0.
Qed.

(** ** The gamma kernels are the plain kernels, row by row *)
Section Gamma.
Variable K : fieldType.
Notation mat := (nat -> nat -> K).
Notation vec := (nat -> K).
Variable pt : nat -> mat -> nat -> seq K.
Variables (sched : nat -> seq nat).

Lemma for_add_at2 X (l : seq X) (H0 : mat) (F : mat -> X -> mat) (g : X -> K) k i :
  (forall H j, F H j k i = H k i + g j) -> for_ l H0 F k i = H0 k i + \sum_(j <- l) g j.
Proof.
move=> h; rewrite /for_; elim: l H0 => [|x l IH] H0 /=; first by rewrite big_nil addr0.
by rewrite IH h big_cons addrA.
Qed.
Lemma for_upd2E a n (f : mat) (op : K -> nat -> K) r k i :
  for_ (iota a n) f (fun H N => upd2 H r N (op (H r N) N)) k i
   = if (k == r) && (a <= i < a + n)%N then op (f k i) i else f k i.
Proof.
elim: n => [|n IH]; first by rewrite /= addn0; case: ifP => // /and3P[_]; lia.
rewrite for_iotaS {1}/upd2; move: IH; case: (k =P r) => [<-|e] /= IH; last by rewrite IH.
case: (i =P (a + n)%N) => [ei|ei].
  rewrite -ei IH; have -> : (a <= i < a + n)%N = false by lia.
  by have -> : (a <= i < a + n.+1)%N by lia.
rewrite IH; suff -> : (a <= i < a + n)%N = (a <= i < a + n.+1)%N by [].
lia.
Qed.
Lemma for_rows m (f : mat) (B : mat -> nat -> mat) i :
  (forall H r k, k <> r -> forall i, B H r k i = H k i) ->
  (forall (H H' : mat) k, H k =1 H' k -> B H k k i = B H' k k i) ->
  forall k, (k < m)%N -> for_ (iota 0 m) f B k i = B f k k i.
Proof.
move=> h1 h2.
have hn l k : k \notin l -> forall q, for_ l f B k q = f k q.
  elim/last_ind: l => [|l r IH] //; rewrite mem_rcons inE negb_or => /andP[/eqP kr kl] q.
  by rewrite -cats1 for_cat /= h1 // IH.
elim: m => [|m IH] k //; rewrite for_iotaS add0n ltnS leq_eqVlt => /orP[/eqP->|hk].
  by apply: h2 => q; rewrite hn // mem_iota add0n ltnn andbF.
by rewrite h1 ?IH // => e; rewrite e ltnn in hk.
Qed.
Lemma glynn_scale2E nf nD len (H : mat) k i : (k < nD)%N -> (i < len)%N ->
  glynn_scale2 nf nD len H k i = H k i * 2%:R^-1 ^+ ((nf + i) %/ 2).
Proof.
move=> hk; rewrite /glynn_scale2; elim: len => // n IH; rewrite ltnS => hi; rewrite for_iotaS add0n hk andbT.
have hn q : (n <= q)%N -> for_ (iota 0 n) H (fun H j k i => if (i == j) && (k < nD)%N then H k i * 2%:R^-1 ^+ ((nf + j) %/ 2) else H k i) k q = H k q.
  elim: n {IH hi} => // n IH hq; rewrite for_iotaS add0n (gtn_eqF hq) /= IH //; exact: ltnW.
by case: (i =P n) hi => [-> _|ne hi]; [rewrite hn|rewrite IH //; lia].
Qed.

Variables (n nD : nat) (A D : mat) (fer : seq nat).

Lemma gamma_evenE bm oc glynn :
  calc_batch_gamma_even pt sched n A nD D fer bm oc glynn
   = mkseq (fun k => calc_batch_even pt sched n A (D k) fer bm oc glynn) nD.
Proof.
apply: (@eq_from_nth _ [::]); rewrite ?size_mkseq // => k hk; rewrite !nth_mkseq // /calc_batch_even.
apply: (@eq_from_nth _ 0); rewrite ?size_mkseq // => i hi; rewrite !nth_mkseq //.
set F2 := (X in for_ _ (fun _ _ => 0) X); set F1 := (X in for_ _ (fun=> 0) X).
set l := sched _.
have e : for_ l (fun _ _ => 0) F2 k i = for_ l (fun=> 0) F1 i.
  etransitivity; last by apply/esym; exact: (for_add l (fun=> 0) _ i).
  apply: for_add_at2 => H j; rewrite /F2 /pyrange; cbv beta zeta; congr (_ + _).
  rewrite (for_updE _ _ _ (fun h N_det => h + _)) for_rows //.
  - by rewrite (for_upd2E _ _ _ (fun h N_det => h + _)) eqxx.
  - by move=> {}H r q qr q'; rewrite (for_upd2E _ _ _ (fun h N_det => h + _)); case: eqP.
  - by move=> {}H H' r hH; rewrite !(for_upd2E _ _ _ (fun h N_det => h + _)) !hH.
case: glynn @F1 @F2 e => F1 F2 e //; by rewrite glynn_scale2E // glynn_scaleE // e.
Qed.

Lemma cell_eq (b c : bool) (x T : K) k i : (i = 0%N -> c = false) ->
  (if c then (if b then upd2 (fun _ _ => 0) k 0%N (0 + x) else fun _ _ => 0) k i + T
   else (if b then upd2 (fun _ _ => 0) k 0%N (0 + x) else fun _ _ => 0) k i)
  = (if b then upd1 (fun=> 0) 0%N (0 + x) else fun=> 0) i + (if c then 0 + T else 0).
Proof.
move=> h; rewrite /upd1 /upd2; case: b; rewrite ?eqxx /=; last by case: c h; rewrite ?add0r.
by case: (i =P 0%N) h => [_ ->//|_ _]; rewrite ?addr0 //; case: c; rewrite ?add0r.
Qed.

Lemma gamma_oddE bm1 ec glynn :
  calc_batch_gamma_odd pt sched n A nD D fer bm1 ec glynn
   = mkseq (fun k => calc_batch_odd pt sched n A (D k) fer bm1 ec glynn) nD.
Proof.
apply: (@eq_from_nth _ [::]); rewrite ?size_mkseq // => k hk; rewrite !nth_mkseq // /calc_batch_odd.
apply: (@eq_from_nth _ 0); rewrite ?size_mkseq // => i hi; rewrite !nth_mkseq //.
set F2 := (X in for_ _ (fun _ _ => 0) X); set F1 := (X in for_ _ (fun=> 0) X).
set l := sched _.
have e : for_ l (fun _ _ => 0) F2 k i = for_ l (fun=> 0) F1 i.
  pose g j := (F1 (fun=> 0) j) i.
  rewrite (for_add_at2 _ _ (g := g)) ?(@for_add_at K _ _ _ _ g) //.
    move=> H j; rewrite /g /F1 /pyrange; cbv beta zeta.
    set T := (X in _ = _ + (_ + X)); rewrite -[X in _ + X = _]/T; move: T => T; case: (_ && _); last by rewrite add0r.
    by rewrite /upd1; case: (i =P 0%N) => [->|_]; rewrite ?add0r ?addrA.
  move=> H j; rewrite /F2 /g /F1 /pyrange; cbv beta zeta; congr (_ + _).
  rewrite (for_updE _ _ _ (fun h N_det => h + _)).
  rewrite for_rows //.
  - rewrite (for_upd2E _ _ _ (fun h N_det => h + _)) eqxx /=.
    by apply: cell_eq => i0; rewrite i0 addn1.
  - move=> {}H r q qr q'; rewrite (for_upd2E _ _ _ (fun h N_det => h + _)); case: eqP => //= _.
    by case: ifP => // _; rewrite /upd2; case: eqP.
  - move=> {}H H' r hH; rewrite !(for_upd2E _ _ _ (fun h N_det => h + _)) eqxx /=.
    by case: ifP => _; case: ifP => _; rewrite ?/upd2 ?eqxx /= ?hH.
case: glynn @F1 @F2 e => F1 F2 e //; by rewrite glynn_scale2E // glynn_scaleE // e.
Qed.
End Gamma.

(** ** The theorems (complex scalars, model of [charpoly.powertrace], any execution order) *)
Section Complex.
Variable C : numClosedFieldType.
Let char0 : [char C] =i pred0. Proof. exact: char_num. Qed.
Variable sched : nat -> seq nat.
Hypothesis sched_ok : forall s, perm_eq (sched s) (iota 0 s).
Variables (n : nat) (A : nat -> nat -> C).
Hypothesis symA : forall i j, (i < n)%N -> (j < n)%N -> A i j = A j i.

Theorem loop_hafnian_batch_correct D fixed_reps N_cutoff glynn :
  (size fixed_reps).+1 = n -> (odd (sumn fixed_reps) -> 0 < N_cutoff)%N ->
  loop_hafnian_batch (@powertrace C) sched n A D n fixed_reps N_cutoff glynn
   = Ok (mkseq (fun k => lhaf_rep_spec (rcons fixed_reps k) A D) N_cutoff.+1).
Proof.
move=> hs hN; subst n; rewrite /loop_hafnian_batch !eqxx /=.
set fz := map _ _; have hz : sumn fz = sumn fixed_reps by exact: sumn_nz.
have [EA [EB [er [o [hm [sA sB] _ hw hS]]]]] := matched_reps_correct fz; rewrite hm.
case: o hm hw hS => [w|] hm hw hS; congr Ok.
  have Nc : (0 < N_cutoff)%N by apply: hN; rewrite -hz hS /=; lia.
  exact: (batch_odd_main char0 (@pt_ok C) sched_ok symA sA sB D glynn Nc hm hw).
have hw0 i : nth 0%N fz i = ewt er EA EB i by rewrite hw addn0.
exact: (batch_even_main char0 (@pt_ok C) sched_ok symA sA sB D N_cutoff glynn hm hw0).
Qed.

Theorem loop_hafnian_batch_gamma_correct nD D fixed_reps N_cutoff glynn :
  (size fixed_reps).+1 = n -> (odd (sumn fixed_reps) -> 0 < N_cutoff)%N ->
  loop_hafnian_batch_gamma (@powertrace C) sched n A nD D n fixed_reps N_cutoff glynn
   = Ok (mkseq (fun d => mkseq (fun k => lhaf_rep_spec (rcons fixed_reps k) A (D d)) N_cutoff.+1) nD).
Proof.
move=> hs hN.
have h d := loop_hafnian_batch_correct (D d) glynn hs hN.
move: h; rewrite /loop_hafnian_batch /loop_hafnian_batch_gamma hs !eqxx /=.
have [EA [EB [er [o [hm [sA sB] _ hw hS]]]]] := matched_reps_correct [seq nth 0%N fixed_reps i | i <- take (size (batch_nz fixed_reps)).-1 (batch_nz fixed_reps)].
rewrite hm; case: (o) => [w|] h; congr Ok; rewrite ?gamma_oddE ?gamma_evenE.
  by apply: eq_mkseq => d; case: (h d).
by apply: eq_mkseq => d; case: (h d).
Qed.

Theorem loop_hafnian_batch_mismatch D lenD fixed_reps N_cutoff glynn :
  lenD <> n \/ (size fixed_reps).+1 <> n ->
  loop_hafnian_batch (@powertrace C) sched n A D lenD fixed_reps N_cutoff glynn = Err AssertionError.
Proof. by rewrite /loop_hafnian_batch; case: eqP => //= _ [//|]; case: eqP. Qed.

(** With an odd number of fixed photons and [N_cutoff = 0] the code returns 0, whatever the input. *)
Theorem loop_hafnian_batch_cutoff0 D fixed_reps glynn :
  (size fixed_reps).+1 = n -> odd (sumn fixed_reps) ->
  loop_hafnian_batch (@powertrace C) sched n A D n fixed_reps 0 glynn = Ok [:: 0].
Proof.
move=> hs ho; subst n; rewrite /loop_hafnian_batch !eqxx /=.
set fz := map _ _; have hz : sumn fz = sumn fixed_reps by exact: sumn_nz.
have [EA [EB [er [o [hm [sA sB] _ hw hS]]]]] := matched_reps_correct fz; rewrite hm.
case: o hm hw hS => [w|] hm hw hS; last by move: ho; rewrite -hz hS /=; lia.
congr Ok; rewrite /calc_batch_odd /= mul0n.
have -> : sched 0%N = [::] by apply: perm_small_eq => //; exact: sched_ok.
by case: glynn => //=; rewrite /glynn_scale /= /upd1 ?eqxx /= ?mul0r.
Qed.
End Complex.

(** One mode with 1 photon and loops D = 1: the requested value for 0 photons in the batched mode is 1. *)
Theorem loop_hafnian_batch_cutoff0_refuted :
  loop_hafnian_batch (@powertrace [numClosedFieldType of algC]) (iota 0) 2 (fun _ _ => 0) (fun=> 1) 2 [:: 1%N] 0 true
   <> Ok (mkseq (fun k => lhaf_rep_spec (rcons [:: 1%N] k) (fun _ _ => 0) (fun=> 1)) 1).
Proof.
rewrite loop_hafnian_batch_cutoff0 //= => -[]; rewrite lhaf_rep_lhq_lt // (_ : rep_index _ = [:: 0%N]) //.
by rewrite lhq_cons lhq_nil big_nil mulr1 addr0 => /esym/eqP; rewrite oner_eq0.
Qed.

(** A concrete run: all-ones matrix, D = 2, one mode with 1 photon; entries 0..2 of the batched mode are
    2, 2*2+1 = 5, 2^3 + 3*2 = 14. *)
Example loop_hafnian_batch_ex :
  loop_hafnian_batch (@powertrace [numClosedFieldType of algC]) (fun s => rev (iota 0 s)) 2 (fun _ _ => 1) (fun=> 2%:R) 2 [:: 1%N] 2 true
   = Ok [:: 2%:R; 5%:R; 14%:R].
Proof.
rewrite loop_hafnian_batch_correct // => [|s]; last by rewrite perm_rev.
congr Ok; rewrite /mkseq /= !lhaf_rep_lhq_lt //.
rewrite (_ : rep_index [:: 1; 0]%N = [:: 0]%N) // (_ : rep_index [:: 1; 1]%N = [:: 0; 1]%N) //.
rewrite (_ : rep_index [:: 1; 2]%N = [:: 0; 1; 1]%N) //.
by rewrite !(lhq_cons, lhq_nil, big_cons, big_nil) /=; congr [:: _; _; _]; rring.
Qed.
