(** The two sieves [calc_hafnian], [calc_loop_hafnian] compute loop hafnians of the matched edges. *)
From mathcomp Require Import all_ssreflect all_fingroup all_algebra zify.
From SsrMultinomials Require Import mpoly.
From Verif Require Import Prelude PyBase ArrLoop SpecHaf ThHaf ThTrace ThMpoly ThSieve ThHess MCharpoly PropCharpoly
  MPowerHaf PropKernels ThComb ThSub.
Set Implicit Arguments.
Unset Strict Implicit.
Unset Printing Implicit Defensive.
Import GRing.Theory.
Local Open Scope ring_scope.

Lemma maxn_seq_nth l i : (nth 0%N l i <= maxn_seq l)%N.
Proof. by elim: l i => [|x l IH] [|i] //=; rewrite leq_max ?leqnn // IH orbT. Qed.
Lemma sumn_nth l : sumn l = (\sum_(e < size l) nth 0%N l e)%N.
Proof. by rewrite sumnE (big_nth 0%N) big_mkord. Qed.

Lemma fke_in_box j rs : find_kept_edges j rs \in box rs.
Proof.
elim: rs => [|r rs IH] //; rewrite fke_cons boxP /=; move: IH; rewrite boxP eqSS => /andP[-> ->].
by rewrite andbT /= -ltnS ltn_pmod.
Qed.

Section Sieve.
Variable K : fieldType.
Hypothesis char0 : [char K] =i pred0.
Variables (sched : nat -> seq nat).
Hypothesis sched_ok : forall s, perm_eq (sched s) (iota 0 s).
Variable er : seq nat.
Let m := size er.

Definition pref (ks : seq nat) : K :=
  (-1) ^+ (sumn er - sumn ks) * binom_prod K (precompute_binoms (maxn_seq er).+1) er ks (m + m).

Lemma prefE ks : ks \in box er -> pref ks = sieve_wt K er ks.
Proof.
move=> hb; have hs := size_box hb; have hn e := nth_box e hb.
rewrite /pref /binom_prod /sieve_wt addnn -muln2 mulnK // for_prod mul1r.
have -> : (sumn er - sumn ks = \sum_(e < size er) (nth 0%N er e - nth 0%N ks e))%N.
  by rewrite !sumn_nth hs -sumnB.
have h : forall n, ((-1) ^+ (\sum_(e < n) (nth 0%N er e - nth 0%N ks e))%N * \prod_(i <- iota 0 n)
   (precompute_binoms (maxn_seq er).+1 (nth 0%N er i) (nth 0%N ks i))%:R : K)
   = \prod_(e < n) ((-1) ^+ (nth 0%N er e - nth 0%N ks e) *+ 'C(nth 0%N er e, nth 0%N ks e)).
  elim=> [|n IH]; first by rewrite !big_ord0 big_nil mulr1.
  have -> : iota 0 n.+1 = iota 0 n ++ [:: n] by rewrite -addn1 iotaD.
  rewrite !big_ord_recr /= -IH big_cat big_seq1 exprD.
  rewrite precompute_binoms_correct; last 2 first.
  - by apply: leqW; apply: maxn_seq_nth.
  - by apply: leqW; apply: (leq_trans (hn n)); apply: maxn_seq_nth.
  by rewrite -[X in _ = _ * X]mulr_natr /=; exact: mulrACA.
exact: h.
Qed.

Lemma sum_full (g : seq nat -> K) :
  for_ (sched (steps_of false er)) 0 (fun H j => H + g (find_kept_edges j er)) = \sum_(ks <- box er) g ks.
Proof.
rewrite for_sum add0r (perm_big _ (sched_ok _)) /= -(big_map (fun j => find_kept_edges j er) xpredT g).
by rewrite /steps_of find_kept_edges_enumerates.
Qed.

Lemma sum_half (g : seq nat -> K) : er != [::] ->
  for_ (sched (steps_of true er)) 0 (fun H j =>
     let ks := find_kept_edges j er in H + (if (2 * nth 0 ks 0 == nth 0 er 0)%N then 2%:R^-1 else 1) * g ks)
   = \sum_(ks <- box er) half_wt K er ks * g ks.
Proof.
rewrite (for_sum _ _ (fun j => let ks := find_kept_edges j er in
   (if (2 * nth 0 ks 0 == nth 0 er 0)%N then 2%:R^-1 else 1) * g ks)) add0r (perm_big _ (sched_ok _)) /=.
rewrite -(big_map (fun j => find_kept_edges j er) xpredT (fun ks =>
   (if (2 * nth 0 ks 0 == nth 0 er 0)%N then 2%:R^-1 else 1) * g ks)).
case: er => // r rs _; rewrite /steps_of /=.
have hr : ((r + 2) %/ 2 <= r.+1)%N by rewrite divn2; lia.
rewrite (fke_prefix rs hr) box_cons -(subnKC hr) iotaD allpairs_cat big_cat /= add0n.
rewrite [X in _ = _ + X]big1_seq ?addr0; last first.
  move=> ks /andP[_ /allpairsP[[k ks'] [/= hk _ ->]]]; move: hk; rewrite mem_iota divn2 => hk.
  rewrite /half_wt /=.
  have -> : (2 * k < r)%N = false by lia.
  by have -> : (2 * k == r)%N = false; [lia|rewrite mul0r].
apply: eq_big_seq => ks /allpairsP[[k ks'] [/= hk _ ->]]; move: hk; rewrite mem_iota divn2 => hk.
rewrite /half_wt /=; congr (_ * _); case: eqP => h; first by rewrite h ltnn.
by have -> : (2 * k < r)%N by lia.
Qed.

End Sieve.

Section Calc.
Variable K : fieldType.
Hypothesis char0 : [char K] =i pred0.
Notation mat := (nat -> nat -> K).
Notation vec := (nat -> K).
Variable pt : nat -> mat -> nat -> seq K.
Hypothesis pt_ok : forall s M n k, (k < n)%N -> nth 0 (pt s M n) k = \tr (mxpow (mx_of s M) k).
Variables (sched : nat -> seq nat).
Hypothesis sched_ok : forall s, perm_eq (sched s) (iota 0 s).
Variable er : seq nat.
Notation m := (size er).
Variables (A : mat) (D : vec) (ol oo : K) (oV : vec).
Hypothesis symA : forall i j, (i < m + m)%N -> (j < m + m)%N -> A i j = A j i.

Let two0 : 2%:R != 0 :> K. Proof. by move/charf0P: char0 => ->. Qed.

Definition Av (u v : vert m) : K :=
  match u, v with
  | Some _, Some _ => A (vidx u) (vidx v)
  | None, Some _ => oV (vidx v)
  | Some _, None => oV (vidx u)
  | None, None => oo
  end.
Definition Dv (u : vert m) : K := if u is Some _ then D (vidx u) else ol.

Lemma vidx_lt (v : vert m) : (0 < m)%N -> (vidx v < m + m)%N.
Proof. by case: v => [[e []]|] /=; [have := ltn_ord e; lia|have := ltn_ord e; lia|lia]. Qed.
Lemma Av_sym u v : Av u v = Av v u.
Proof.
case: u v => [u|] [v|] //=; apply: symA; apply: (@vidx_lt (Some _)); case: (u) => e _; apply: leq_trans (ltn_ord e) => //.
Qed.

Definition rer : 'X_{1..m} := [multinom nth 0%N er i | i < m].
Lemma mreps_rer : mreps rer = er.
Proof.
rewrite /mreps (eq_map (f2 := fun i : 'I_m => nth 0%N er i)); last by move=> i; rewrite mnmE.
by rewrite (map_comp (nth 0%N er) val) val_enum_ord map_nth_iota0 // take_size.
Qed.
Lemma mdeg_rer : mdeg rer = sumn er.
Proof. by rewrite mdegE sumn_nth; apply: eq_bigr => i _; rewrite mnmE. Qed.

Section Term.
Variables (glynn : bool) (ks : seq nat).
Hypothesis hb : ks \in box er.
Let kept := shift_kept glynn er ks.
Definition offs (glynn : bool) (e : nat) : K := if glynn then - (nth 0%N er e)%:R else 0.
Definition stp (glynn : bool) : K := if glynn then 2%:R else 1.

Lemma size_shift : size kept = m.
Proof. by rewrite /kept /shift_kept; case: glynn; rewrite size_map ?size_zip (size_box hb) ?minnn. Qed.
Lemma nth_shift e : (e < m)%N -> (nth 0 kept e)%:~R = offs glynn e + stp glynn *+ nth 0%N ks e :> K.
Proof.
have hs := size_box hb.
move=> he; rewrite /kept /shift_kept /offs /stp; case: glynn.
  rewrite (nth_map (0, 0)%N) ?size_zip ?hs ?minnn // nth_zip //=.
  rewrite mulrzBr intrM -!pmulrn.
  by rewrite [LHS]addrC mulr_natr.
by rewrite (nth_map 0%N) ?hs // -pmulrn add0r.
Qed.
Lemma kap_shift : @kapk K m kept =1 sieve_pt (offs glynn) (stp glynn) ks.
Proof. by move=> e; rewrite /kapk nth_shift. Qed.
Notation kap := (sieve_pt (offs glynn) (stp glynn) ks).

Let s := size (nonzero_rows kept).
Let AX := get_AX_S kept A.
Let hA e f b c : Av (Some (e, b)) (Some (f, c)) = A (vidx (Some (e, b))) (vidx (Some (f, c))).
Proof. by []. Qed.
Let hD e b : Dv (Some (e, b)) = D (vidx (Some (e, b))). Proof. by []. Qed.

Lemma tr_term k : \tr (mxpow (mx_of s AX) k.+1) = tw (@vpr m) Av (kapv kap) k.+1.
Proof.
rewrite (AX_trace size_shift hA) /tw; apply: eq_bigr => v _; congr (_ * _).
  by case: v => [eb|] //=; rewrite kap_shift.
exact/eq_Mw/kap_shift.
Qed.
Lemma vw_term (V : vec) (Vv : vert m -> K) k : (forall e b, Vv (Some (e, b)) = V (vidx (Some (e, b)))) ->
  fdot s (get_XV kept V) (iter k (matvec s AX) (get_V kept D))
   = \sum_u kapv kap u * Vv (vpr u) * vw (@vpr m) Av Dv (kapv kap) k u.
Proof.
move=> hV; rewrite (XD_vw size_shift hA hD k hV); apply: eq_bigr => u _; congr (_ * _ * _).
  by case: u => [eb|] //=; rewrite kap_shift.
exact/eq_vw/kap_shift.
Qed.

Lemma f_loop_term N k : (k <= N %/ 2)%N ->
  f_loop pt s AX AX (get_XV kept D) (get_V kept D) N k = Ev Av Dv kap k.
Proof.
move=> hN; rewrite (f_loopE char0 pt_ok) //; apply: eq_es => -[|i] // _.
rewrite tr_term fdot_adj /wv (vw_term _ hD) mulrC; congr (_ + _).
by rewrite mulrC.
Qed.
Lemma f_term N : (N %/ 2 = sumn er)%N -> Dv =1 (fun=> 0) ->
  f pt s AX N (N %/ 2)%N = Ev Av Dv kap (sumn er).
Proof.
move=> hN hD0; rewrite (fE char0 pt_ok) hN; apply: eq_es => -[|k] // _.
rewrite tr_term /wv /qw big1 ?mulr0 ?addr0 1?mulrC // => u _.
by rewrite hD0 mulr0 mul0r.
Qed.
Lemma f_loop_odd_term N k : (k <= N)%N ->
  f_loop_odd pt s AX AX (get_XV kept D) (get_V kept D) N ol (get_XV kept oV) k = Ov Av Dv kap k.
Proof.
move=> hN; rewrite (f_loop_oddE char0 pt_ok) //; apply: eq_es => -[|[|i]] // _.
rewrite [(_ == _)%N]/= /Wv.
have [ok|ok] := boolP (odd i.+2).
  rewrite (@vw_term oV (fun v => Av None v)) //.
  have -> : ((i.+2 - 3)./2 = i./2)%N by move: ok => /=; lia.
  have -> : (i.+2./2 = (i./2).+1)%N by move: ok => /=; lia.
  by rewrite vwS.
rewrite /wv.
have e2 : (i.+2./2 = (i./2).+1)%N by [].
have e1 : ((i.+2 - 2)./2 = i./2)%N by rewrite subSS subSS subn0.
have e3 : (2 * (i./2).+1 = i.+2)%N by move: ok => /=; lia.
rewrite e2 e1 e3 tr_term (vw_term _ hD) mulrC; congr (_ + _).
by rewrite mulrC.
Qed.
End Term.

Lemma sieve_pt_compl ks : ks \in box er ->
  (@sieve_pt K m (offs true) (stp true) (rcompl er ks)) =1 (fun e => -1 * sieve_pt (offs true) (stp true) ks e).
Proof.
move=> hb e; rewrite /sieve_pt /offs /stp nth_rcompl ?(size_box hb) //.
have := nth_box e hb; move: (nth 0%N ks e) (nth 0%N er e) => k r kr.
rewrite -![2%:R *+ _]mulr_natr natrB //; rring.
Qed.
Lemma sieve_wt_compl ks : ks \in box er -> sieve_wt K er (rcompl er ks) = (-1) ^+ sumn er * sieve_wt K er ks.
Proof.
move=> hb; rewrite /sieve_wt sumn_nth -prodrXr -big_split /=; apply: eq_bigr => e _.
rewrite nth_rcompl ?(size_box hb) //.
have := nth_box e hb; move: (nth 0%N ks e) (nth 0%N er e) => k r kr.
rewrite bin_sub // mulrnAr subKn // -exprD; congr (_ *+ _).
by rewrite -signr_odd -[RHS]signr_odd; congr (_ ^+ _); congr nat_of_bool; lia.
Qed.

Definition overt (o : bool) : seq (vert m) := if o then [:: None] else [::].

Lemma calc_even_gen glynn (F : seq int -> K) : (0 < sumn er)%N ->
  (forall ks, ks \in box er -> F (shift_kept glynn er ks) = Ev Av Dv (sieve_pt (offs glynn) (stp glynn) ks) (sumn er)) ->
  let H := for_ (sched (steps_of glynn er)) 0 (fun H j =>
    let kept := find_kept_edges j er in
    let prefac := pref K er kept in
    let kept_edges := shift_kept glynn er kept in
    let prefac := if glynn && (head 0 kept_edges == 0) then prefac * 2%:R^-1 else prefac in
    H + prefac * F kept_edges) in
  (if glynn then H * 2%:R^-1 ^+ (sumn er - 1) else H) = lhq Av Dv (mends rer).
Proof.
move=> s0 hF; set H := for_ _ _ _; rewrite /=.
have er0 : er != [::] by apply: contraTneq s0 => ->.
have S := sieve_even char0 Dv Av_sym (offs glynn) (stp glynn) rer.
rewrite mreps_rer mdeg_rer in S.
case: glynn @H hF S => H hF S.
  pose G ks : K := sieve_wt K er ks * Ev Av Dv (sieve_pt (offs true) (stp true) ks) (sumn er).
  have hG : H = \sum_(ks <- box er) half_wt K er ks * G ks.
    rewrite -(sum_half sched_ok G er0) /H; apply: eq_for => h j /=; congr (_ + _).
    have hb := fke_in_box j er; rewrite hF // /G prefE //; move: (find_kept_edges j er) hb => ks hb.
    have -> : (head 0 (shift_kept true er ks) == 0) = (2 * nth 0 ks 0 == nth 0 er 0)%N.
      have := size_box hb; rewrite /shift_kept /=.
      case: (er) er0 => // r rs _; case: (ks) => // k ks' _ /=; lia.
    by case: ifP => _; rewrite ?mul1r // [_ / _]mulrC -mulrA.
  have := glynn_half char0 (G := G) (rs := er); rewrite -hG => /(_ _) S2.
  have {}S2 : \sum_(ks <- box er) G ks = 2%:R * H.
    apply: S2 => ks hb; rewrite /G sieve_wt_compl // (eq_Ev _ _ _ (sieve_pt_compl hb)) Ev_scale.
    rewrite -mulrA [_ * (_ * Ev _ _ _ _)]mulrCA !mulrA -exprMn mulrN1 opprK expr1n mul1r //.
  move: S2; rewrite S /stp => S2.
  apply: (mulfI two0); rewrite [LHS]mulrA -S2 -[X in 2%:R ^+ X](prednK s0) exprS -subn1 exprVn.
  by rewrite -!mulrA; congr (_ * _); rewrite mulrCA mulfV ?mulr1 ?expf_neq0.
rewrite /stp expr1n mul1r in S.
rewrite -S -(sum_full sched_ok) /H; apply: eq_for => h j /=; congr (_ + _).
by rewrite prefE ?fke_in_box // hF ?fke_in_box.
Qed.

Lemma calc_odd_gen glynn (F : seq int -> K) :
  (forall ks, ks \in box er -> F (shift_kept glynn er ks)
     = Ov Av Dv (sieve_pt (offs glynn) (stp glynn) ks) (sumn er).*2.+1) ->
  let H := for_ (sched (steps_of false er)) 0 (fun H j =>
    let kept := find_kept_edges j er in
    H + pref K er kept * F (shift_kept glynn er kept)) in
  (if glynn then H * 2%:R^-1 ^+ sumn er else H) = lhq Av Dv (mends rer ++ [:: None]).
Proof.
move=> hF; set H := for_ _ _ _; rewrite /=.
have S := sieve_odd char0 Dv Av_sym (offs glynn) (stp glynn) rer.
rewrite mreps_rer mdeg_rer in S.
have hH : H = stp glynn ^+ sumn er * lhq Av Dv (mends rer ++ [:: None]).
  rewrite -S -(sum_full sched_ok) /H; apply: eq_for => h j /=; congr (_ + _).
  by rewrite prefE ?fke_in_box // hF ?fke_in_box.
rewrite hH /stp; case: (glynn); last by rewrite expr1n mul1r.
by rewrite mulrAC exprVn mulfV ?mul1r // expf_neq0.
Qed.

Lemma calc_hafnianE glynn : (0 < sumn er)%N -> Dv =1 (fun=> 0) ->
  calc_hafnian pt sched (m + m) A er glynn = lhq Av Dv (mends rer).
Proof.
move=> s0 hD; have hN : (2 * sumn er %/ 2 = sumn er)%N by rewrite mulKn.
rewrite -(calc_even_gen (glynn := glynn) (F := fun kept =>
   f pt (size (nonzero_rows kept)) (get_AX_S kept A) (2 * sumn er) (2 * sumn er %/ 2)%N)) //.
  by rewrite /calc_hafnian hN.
by move=> ks hb; rewrite (f_term glynn hb).
Qed.

Lemma calc_loop_hafnianE (o : bool) glynn : o || (0 < sumn er)%N ->
  calc_loop_hafnian pt sched (m + m) A D er (if o then Some (ol, oV) else None) glynn = lhq Av Dv (mends rer ++ overt o).
Proof.
case: o => /= s0.
  have hN : ((2 * sumn er + 1) %/ 2 = sumn er)%N by rewrite divn2; lia.
  rewrite -(calc_odd_gen (glynn := glynn) (F := fun kept =>
     f_loop_odd pt (size (nonzero_rows kept)) (get_AX_S kept A) (get_AX_S kept A) (get_XV kept D) (get_V kept D)
       (2 * sumn er + 1) ol (get_XV kept oV) (2 * sumn er + 1)%N)).
    by rewrite /calc_loop_hafnian /= hN andbF.
  by move=> ks hb; rewrite (f_loop_odd_term glynn hb) //; congr (Ov _ _ _ _); lia.
have hN : ((2 * sumn er + 0) %/ 2 = sumn er)%N by rewrite addn0 mulKn.
rewrite cats0 -(calc_even_gen (glynn := glynn) (F := fun kept =>
   f_loop pt (size (nonzero_rows kept)) (get_AX_S kept A) (get_AX_S kept A) (get_XV kept D) (get_V kept D)
      (2 * sumn er + 0) ((2 * sumn er + 0) %/ 2)%N)) //.
  by rewrite /calc_loop_hafnian /= hN andbT.
by move=> ks hb; rewrite (f_loop_term glynn hb) // hN.
Qed.
End Calc.
