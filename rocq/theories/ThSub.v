(** The submatrices built for one sieve term, and what [f], [f_loop], [f_loop_odd] return on them. *)
From mathcomp Require Import all_ssreflect all_fingroup all_algebra zify.
From Verif Require Import Prelude PyBase ArrLoop SpecHaf ThHaf ThTrace ThMpoly ThSieve ThHess MCharpoly PropCharpoly
  MPowerHaf ThComb.
Set Implicit Arguments.
Unset Strict Implicit.
Unset Printing Implicit Defensive.
Import GRing.Theory.
Local Open Scope ring_scope.

Arguments comb_pass : simpl never.

Section Loops.
Variable K : fieldType.
Hypothesis char0 : [char K] =i pred0.
Notation mat := (nat -> nat -> K).
Notation vec := (nat -> K).

(** a run of passes with a carried state: [w i] is the factor of pass i *)
Lemma passes S (M n : nat) (s0 : S) (fac : S -> nat -> K) (nxt : S -> nat -> S) (sq : nat -> S) (w : nat -> K) :
  sq 0%N = s0 -> (forall i, (i < n)%N -> nxt (sq i) i.+1 = sq i.+1) ->
  (forall i, (i < n)%N -> fac (sq i) i.+1 = w i.+1) ->
  let r := for_ (pyrange 1 n.+1) (comb0 K, s0)
     (fun sx i => (comb_pass M (M %/ i) i (fac sx.2 i) sx.1, nxt sx.2 i)) in
  [/\ r.2 = sq n, (r.1.1 <= 1)%N & forall b, (b <= M)%N -> r.1.2 r.1.1 b = crows M w n b].
Proof.
move=> e0; rewrite /pyrange subSS subn0; elim: n => [|n IH] en ew.
  by split=> // b bM /=; case: eqP.
rewrite for_iotaS add1n; have [||h1 h2 h3] := IH.
- by move=> i hi; apply: en; lia.
- by move=> i hi; apply: ew; lia.
move: h1 h2 h3; set r := for_ _ _ _; case: r => [[cnt cb] st] /= -> h2 h3.
have [q1 q2] := comb_passE M (fac (sq n) n.+1) cb h2 (ltn0Sn n).
move: q1 q2; set p := comb_pass _ _ _ _ _; case: p => cnt' cb' /= -> q2.
split; [exact: en|lia|move=> b bM]; rewrite q2 // -/(crow M n.+1 (fac (sq n) n.+1) (cb cnt) b) ew //.
exact: eq_crow.
Qed.

Variable pt : nat -> mat -> nat -> seq K.
Hypothesis pt_ok : forall s M n k, (k < n)%N -> nth 0 (pt s M n) k = \tr (mxpow (mx_of s M) k).
Notation ivK := (@ivK K).

Lemma eq_for X S (l : seq X) (s : S) (b1 b2 : S -> X -> S) : b1 =2 b2 -> for_ l s b1 = for_ l s b2.
Proof. by move=> h; rewrite /for_; elim: l s => [|x l IH] s //=; rewrite h IH. Qed.
Lemma for_proj X S S' (pj : S -> S') (l : seq X) (s : S) (s' : S') (b : S -> X -> S) (b' : S' -> X -> S') :
  pj s = s' -> (forall s x, pj (b s x) = b' (pj s) x) -> pj (for_ l s b) = for_ l s' b'.
Proof. by move=> h0 hb; rewrite /for_; elim: l s s' h0 => [|x l IH] s s' h0 //=; apply: IH; rewrite hb h0. Qed.

Lemma fE s (A : mat) n : let M := (n %/ 2)%N in
  f pt s A n M = es ivK (fun i => \tr (mxpow (mx_of s A) i) / (2 * i)%:R) M.
Proof.
move=> M; pose w i : K := \tr (mxpow (mx_of s A) i) / (2 * i)%:R.
rewrite -(crowsE char0 w (leqnn M)) /f.
have [//|//||_ _ h] := @passes unit M M tt (fun _ i => nth 0 (pt s A M.+1) i / (2 * i)%:R) (fun _ _ => tt) (fun=> tt) w.
  by move=> i hi; rewrite pt_ok.
set r := for_ _ _ _ in h; rewrite -h //.
rewrite (_ : for_ _ _ _ = r.1); first by case: (r.1).
rewrite /r; apply/esym; apply: (for_proj (pj := fst)) => // -[st u] i /=.
by rewrite divnMA.
Qed.

Lemma f_loopE s (AX : mat) (XD Dv : vec) n k : let M := (n %/ 2)%N in (k <= M)%N ->
  f_loop pt s AX AX XD Dv n k = es ivK (fun i => \tr (mxpow (mx_of s AX) i) / (2 * i)%:R
     + fdot s (iter i.-1 (fun u => vecmat s u AX) XD) Dv / 2%:R) k.
Proof.
move=> M kM; pose sq k := iter k (fun u => vecmat s u AX) XD.
pose w i : K := \tr (mxpow (mx_of s AX) i) / (2 * i)%:R + fdot s (sq i.-1) Dv / 2%:R.
rewrite -(crowsE char0 w kM) /f_loop.
have [//|//||_ _ h] := @passes _ M M XD (fun XD i => nth 0 (pt s AX M.+1) i / (2 * i)%:R + fdot s XD Dv / 2%:R)
  (fun XD _ => vecmat s XD AX) sq w.
  by move=> i hi; rewrite pt_ok.
set r := for_ _ _ _ in h; rewrite -h //.
rewrite (_ : for_ _ _ _ = r); first by case: (r) => [[]].
by apply: eq_for => -[st u] i /=; rewrite divnMA.
Qed.

Lemma f_loop_oddE s (AX : mat) (XD Dv : vec) n (ol : K) (oV : vec) k : (k <= n)%N ->
  f_loop_odd pt s AX AX XD Dv n ol oV k = es ivK (fun i =>
     if i == 1%N then ol
     else if odd i then fdot s oV (iter (i - 3)./2 (matvec s AX) Dv)
     else \tr (mxpow (mx_of s AX) i./2) / i%:R + fdot s XD (iter (i - 2)./2 (matvec s AX) Dv) / 2%:R) k.
Proof.
move=> kn; set w := (fun i => if _ then _ else _); pose sq k := iter k.-1./2 (matvec s AX) Dv.
rewrite -(crowsE char0 w kn) /f_loop_odd.
pose g (D_S : vec) i : K * vec :=
       if i == 1%N then (ol, D_S)
       else if (i %% 2 == 0)%N then (nth 0 (pt s AX (n %/ 2).+1) (i %/ 2) / i%:R + fdot s XD D_S / 2%:R, D_S)
       else (fdot s oV D_S, matvec s AX D_S).
have [//|||_ _ h] := @passes _ n n Dv (fun D i => (g D i).1) (fun D i => (g D i).2) sq w.
- move=> i hi; rewrite /g /sq; case: i hi => [|i] hi //.
  rewrite [(_ == 1)%N]/= modn2 [i.+1.-1]/= [i.+2.-1]/=.
  have [oi|oi] := boolP (odd i).
    have -> : odd i.+2 = true by lia.
    rewrite [X in X.2]/= -[matvec s AX _]/(iter (i./2).+1 (matvec s AX) Dv).
    by rewrite (_ : (i.+1)%N./2 = (i./2).+1) //; lia.
  have -> : odd i.+2 = false by lia.
  by rewrite /=; congr iter; lia.
- move=> i hi; rewrite /g /w /sq; case: i hi => [|i] hi //.
  rewrite [(_ == 1)%N]/= modn2 [i.+1.-1]/=.
  have [oi|oi] := boolP (odd i).
    have -> : odd i.+2 = true by lia.
    by rewrite /=; congr (fdot _ _ (iter _ _ _)); lia.
  have -> : odd i.+2 = false by lia.
  rewrite eqxx pt_ok; last by rewrite divn2; lia.
  by rewrite divn2 /=; congr (_ / _ + fdot _ _ (iter _ _ _) / _); lia.
set r := for_ _ _ _ in h; rewrite -h //.
rewrite (_ : for_ _ _ _ = r); first by case: (r) => [[]].
apply: eq_for => -[st u] i /=; rewrite -/(g u i); by case: (g u i).
Qed.
End Loops.

(** ** Submatrices of the kept edges *)
Section Kept.
Variable K : fieldType.
Hypothesis char0 : [char K] =i pred0.
Notation mat := (nat -> nat -> K).
Notation vec := (nat -> K).
Variables (m : nat) (kept : seq int).
Hypothesis size_kept : size kept = m.

Definition vidx (v : vert m) : nat := if v is Some eb then (eb.1 + eb.2 * m)%N else 0%N.
Definition kapk (e : 'I_m) : K := (nth 0 kept e)%:~R.
Definition R0 : seq 'I_m := [seq e <- enum 'I_m | nth 0 kept (e : 'I_m) != 0].
Definition VR : seq (vert m) := [seq Some (e, false) | e <- R0] ++ [seq Some (e, true) | e <- R0].
Definition vt (p : nat) : vert m := nth None VR p.

Lemma rowsE : nonzero_rows kept = map vidx VR.
Proof.
rewrite /nonzero_rows size_kept iotaD filter_cat add0n /VR map_cat -!map_comp; congr (_ ++ _).
  rewrite -val_enum_ord filter_map; rewrite (_ : filter _ _ = R0); last first.
    by apply: eq_filter => e /=; rewrite nth_cat size_kept ltn_ord.
  by apply: eq_map => e /=; rewrite addn0.
rewrite -{1}[m]addn0 iotaDl filter_map -val_enum_ord filter_map -map_comp.
rewrite (_ : filter _ _ = R0); last first.
  by apply: eq_filter => e /=; rewrite nth_cat size_kept ltnNge leq_addr /= addKn.
by apply: eq_map => e /=; rewrite mul1n addnC.
Qed.

Lemma size_rows : size (nonzero_rows kept) = (size R0 + size R0)%N.
Proof. by rewrite rowsE size_map size_cat !size_map. Qed.
Lemma n_nonzeroE : n_nonzero kept = size R0.
Proof. by rewrite /n_nonzero size_rows addnn -muln2 mulnK. Qed.
Lemma kept_nonzeroE : kept_nonzero kept = [seq nth 0 kept (e : 'I_m) | e <- R0].
Proof.
rewrite /kept_nonzero -{1}(mkseq_nth 0 kept) /mkseq size_kept -val_enum_ord -map_comp filter_map.
by congr map; apply: eq_filter => e.
Qed.

Lemma nth_rows p : (p < size (nonzero_rows kept))%N -> nth 0%N (nonzero_rows kept) p = vidx (vt p).
Proof. by rewrite rowsE size_map => h; rewrite (nth_map None). Qed.

(** pairing of positions *)
Lemma vt_pair q : (q < size (nonzero_rows kept))%N ->
  let q' := if (q < size R0)%N then (size R0 + q)%N else (q - size R0)%N in
  (q' < size (nonzero_rows kept))%N /\ vt q' = vpr (vt q).
Proof.
rewrite size_rows => hq q'; split; first by rewrite /q'; case: ifP; lia.
have sz (b : bool) : size [seq Some (e, b) | e <- R0] = size R0 by rewrite size_map.
have nn i (b : bool) : (i < size R0)%N -> exists e0 : 'I_m, nth None [seq Some (e, b) | e <- R0] i = Some (nth e0 R0 i, b)
     /\ forall b' : bool, nth None [seq Some (e, b') | e <- R0] i = Some (nth e0 R0 i, b').
  move=> hi; have e0 : 'I_m by case: (R0) hi => [|e0 l].
  by exists e0; rewrite !(nth_map e0) //; split=> // b'; rewrite (nth_map e0).
rewrite /q' /vt /VR !nth_cat !sz; case: (ltnP q (size R0)) => h.
  rewrite ltnNge leq_addr /= addKn; have [e0 [-> h']] := nn q false h.
  by rewrite h'.
rewrite (_ : (q - size R0 < size R0)%N); last by lia.
have [|e0 [-> h']] := nn (q - size R0)%N true; first by lia.
by rewrite h'.
Qed.

Lemma kap_pos q : (q < size (nonzero_rows kept))%N ->
  (nth 0 (kept_nonzero kept) (if (q < size R0)%N then q else (q - size R0)%N))%:~R = kapv kapk (vt q).
Proof.
rewrite size_rows => hq; rewrite kept_nonzeroE /vt /VR nth_cat size_map.
case: ltnP => h.
  have e0 : 'I_m by case: (R0) h => [|e0 l].
  by rewrite !(nth_map e0).
have h' : (q - size R0 < size R0)%N by lia.
have e0 : 'I_m by case: (R0) h' => [|e0 l].
by rewrite !(nth_map e0).
Qed.

Lemma AXE (A : mat) p q : (p < size (nonzero_rows kept))%N -> (q < size (nonzero_rows kept))%N ->
  get_AX_S kept A p q = kapv kapk (vt q) * A (vidx (vt p)) (vidx (vpr (vt q))).
Proof.
move=> hp hq; have [hq' <-] := vt_pair hq; rewrite -(kap_pos hq) /get_AX_S n_nonzeroE nth_rows //.
by case: ifP hq' => h hq'; rewrite nth_rows.
Qed.
Lemma XVE (V : vec) q : (q < size (nonzero_rows kept))%N ->
  get_XV kept V q = kapv kapk (vt q) * V (vidx (vpr (vt q))).
Proof.
move=> hq; have [hq' <-] := vt_pair hq; rewrite -(kap_pos hq) /get_XV n_nonzeroE.
by case: ifP hq' => h hq'; rewrite nth_rows.
Qed.
Lemma VE (V : vec) q : (q < size (nonzero_rows kept))%N -> get_V kept V q = V (vidx (vt q)).
Proof. by move=> hq; rewrite /get_V nth_rows. Qed.

Lemma sum_rows (G : vert m -> K) :
  \sum_(p < size (nonzero_rows kept)) kapv kapk (vt p) * G (vt p) = \sum_v kapv kapk v * G v.
Proof.
have -> : \sum_(p < size (nonzero_rows kept)) kapv kapk (vt p) * G (vt p) = \sum_(v <- VR) kapv kapk v * G v.
  by rewrite (big_nth None) big_mkord rowsE size_map.
have uR : uniq R0 by rewrite filter_uniq // enum_uniq.
have uV : uniq VR.
  rewrite cat_uniq !map_inj_uniq; try by move=> x y [].
  rewrite uR andbT /=; apply/hasPn => v /mapP[e _ ->]; by apply/mapP => -[e' _ []].
rewrite big_uniq //= big_mkcond; apply: eq_bigr => v _; case: ifP => // /negP h.
case: v h => [[e b]|] h /=; last by rewrite mul0r.
have : e \notin R0.
  by apply/negP => he; apply: h; rewrite mem_cat; case: b; rewrite (map_f _ he) ?orbT.
by rewrite mem_filter mem_enum andbT negbK /kapk => /eqP ->; rewrite mul0r.
Qed.

Section Walks.
Variables (A : mat) (D : vec) (Av : vert m -> vert m -> K) (Dv : vert m -> K).
Hypothesis hA : forall e f b c, Av (Some (e, b)) (Some (f, c)) = A (vidx (Some (e, b))) (vidx (Some (f, c))).
Hypothesis hD : forall e b, Dv (Some (e, b)) = D (vidx (Some (e, b))).
Let s := size (nonzero_rows kept).
Let AX := get_AX_S kept A.
Let kap := kapv kapk.

Let vt_some p : (p < s)%N -> exists e b, vt p = Some (e, b).
Proof.
rewrite /s rowsE size_map => hp; have := mem_nth None hp; rewrite -/(vt p) mem_cat.
by case/orP => /mapP[e _ ->]; [exists e, false|exists e, true].
Qed.
Let hA' p q : (p < s)%N -> (q < s)%N -> AX p q = kap (vt q) * Av (vt p) (vpr (vt q)).
Proof.
move=> hp hq; rewrite /AX AXE //; have [e [b ->]] := vt_some hp; have [f [c ->]] := vt_some hq.
by rewrite /= hA.
Qed.

Lemma AX_pow k (p q : 'I_s) : (mxpow (mx_of s AX) k.+1) p q = kap (vt q) * Mw (@vpr m) Av kap k (vt p) (vpr (vt q)).
Proof.
elim: k p => [|k IH] p; first by rewrite /mxpow /= mulmx1 mxE hA'.
rewrite -[mxpow _ _]/(mx_of s AX *m mxpow (mx_of s AX) k.+1) mxE MwS mulr_sumr.
rewrite [RHS](eq_bigr (fun v => kap v * (kap (vt q) * (Av (vt p) (vpr v) * Mw (@vpr m) Av kap k v (vpr (vt q)))))); last first.
  by move=> v _; rring.
rewrite -(sum_rows (fun v => kap (vt q) * (Av (vt p) (vpr v) * Mw (@vpr m) Av kap k v (vpr (vt q))))).
by apply: eq_bigr => j _; rewrite IH mxE hA' // /kap; rring.
Qed.

Lemma AX_trace k : \tr (mxpow (mx_of s AX) k.+1) = tw (@vpr m) Av kap k.+1.
Proof.
rewrite /mxtrace /tw -(sum_rows (fun v => Mw (@vpr m) Av kap k v (vpr v))).
by apply: eq_bigr => p _; rewrite AX_pow.
Qed.

Lemma AX_vw k p : (p < s)%N -> iter k (matvec s AX) (get_V kept D) p = vw (@vpr m) Av Dv kap k (vt p).
Proof.
elim: k p => [|k IH] p hp.
  by rewrite [LHS](VE D hp); have [e [b ->]] := vt_some hp; rewrite -hD.
rewrite vwS -[LHS]/(\sum_(j < s) AX p j * iter k (matvec s AX) (get_V kept D) j).
rewrite [RHS](eq_bigr (fun v => kap v * (Av (vt p) (vpr v) * vw (@vpr m) Av Dv kap k v))); last first.
  by move=> v _; rring.
rewrite -(sum_rows (fun v => Av (vt p) (vpr v) * vw (@vpr m) Av Dv kap k v)).
by apply: eq_bigr => j _; rewrite IH // hA' // /kap mulrA.
Qed.

Lemma XD_vw (V : vec) (Vv : vert m -> K) k : (forall e b, Vv (Some (e, b)) = V (vidx (Some (e, b)))) ->
  fdot s (get_XV kept V) (iter k (matvec s AX) (get_V kept D)) = \sum_u kap u * Vv (vpr u) * vw (@vpr m) Av Dv kap k u.
Proof.
move=> hV; rewrite [RHS](eq_bigr (fun u => kap u * (Vv (vpr u) * vw (@vpr m) Av Dv kap k u))); last first.
  by move=> v _; rring.
rewrite -(sum_rows (fun u => Vv (vpr u) * vw (@vpr m) Av Dv kap k u)) /fdot.
apply: eq_bigr => p _; rewrite AX_vw // XVE // -!mulrA; congr (_ * (_ * _)).
by have [e [b ->]] := vt_some (ltn_ord p); rewrite /= hV.
Qed.

Lemma fdot_adj (u v : vec) k : fdot s (iter k (fun u => vecmat s u AX) u) v = fdot s u (iter k (matvec s AX) v).
Proof.
elim: k v => [|k IH] v //; rewrite iterS iterSr -IH /fdot /vecmat /matvec.
under eq_bigr => i _ do rewrite mulr_suml.
rewrite exchange_big; apply: eq_bigr => i _; rewrite mulr_sumr.
by apply: eq_bigr => j _; rewrite mulrA.
Qed.
End Walks.
End Kept.
