(** Evaluated generating functions and the inclusion-exclusion / Glynn sieves for (loop) hafnians. *)
From mathcomp Require Import all_ssreflect all_fingroup all_algebra zify.
From SsrMultinomials Require Import mpoly.
From Verif Require Import Prelude SpecHaf ThHaf ThTrace ThMpoly.
Set Implicit Arguments.
Unset Strict Implicit.
Unset Printing Implicit Defensive.
Import GRing.Theory.
Local Open Scope ring_scope.

Section Hom.
Variables (P Q : comRingType) (phi : {rmorphism P -> Q}) (V : finType) (pr : V -> V).
Variables (A : V -> V -> P) (D : V -> P) (kap : V -> P) (A' : V -> V -> Q) (D' : V -> Q) (kap' : V -> Q).
Hypothesis hA : forall u v, phi (A u v) = A' u v.
Hypothesis hD : forall u, phi (D u) = D' u.
Hypothesis hk : forall u, phi (kap u) = kap' u.
Lemma Mw_hom k u v : phi (Mw pr A kap k u v) = Mw pr A' kap' k u v.
Proof.
elim: k u v => [|k IH] u v; first exact: hA.
by rewrite !MwS rmorph_sum; apply: eq_bigr => j _; rewrite !rmorphM hk hA IH.
Qed.
Lemma vw_hom k u : phi (vw pr A D kap k u) = vw pr A' D' kap' k u.
Proof.
elim: k u => [|k IH] u; first exact: hD.
by rewrite !vwS rmorph_sum; apply: eq_bigr => j _; rewrite !rmorphM hk hA IH.
Qed.
Lemma tw_hom k : phi (tw pr A kap k) = tw pr A' kap' k.
Proof. by rewrite /tw rmorph_sum; apply: eq_bigr => j _; rewrite rmorphM hk Mw_hom. Qed.
Lemma qw_hom k : phi (qw pr A D kap k) = qw pr A' D' kap' k.
Proof. by rewrite /qw rmorph_sum; apply: eq_bigr => j _; rewrite !rmorphM hk hD vw_hom. Qed.
End Hom.

Section Deg.
Variables (K : comRingType) (m : nat).
Implicit Types p q : {mpoly K[m]}.
Definition dlt d p := forall mn : 'X_{1..m}, mn \in msupp p -> (mdeg mn < d)%N.
Lemma dlt0 d : dlt d 0. Proof. by move=> mn; rewrite msupp0. Qed.
Lemma dltD d p q : dlt d p -> dlt d q -> dlt d (p + q).
Proof. by move=> hp hq mn /msuppD_le; rewrite mem_cat => /orP[/hp|/hq]. Qed.
Lemma dlt_sum d I (r : seq I) (Q : pred I) (F : I -> {mpoly K[m]}) :
  (forall i, Q i -> dlt d (F i)) -> dlt d (\sum_(i <- r | Q i) F i).
Proof. by move=> h; elim/big_rec: _ => [|i x Qi hx]; [exact: dlt0|apply: dltD => //; apply: h]. Qed.
Lemma dltM a b p q : dlt a p -> dlt b.+1 q -> dlt (a + b) (p * q).
Proof.
move=> hp hq mn /msuppM_le /allpairsP[[m1 m2] /= [/hp h1 /hq h2 ->]].
by rewrite mdegD; lia.
Qed.
Lemma dlt_homog d p : p \is d.-homog -> dlt d.+1 p.
Proof. by move/dhomogP => h mn /h /= ->. Qed.
Lemma dltMn d p k : dlt d p -> dlt d (p *+ k).
Proof. by move=> h; elim: k => [|k IH]; rewrite ?mulr0n ?mulrS; [exact: dlt0|exact: dltD]. Qed.
Lemma dltC d c : dlt d.+1 c%:MP.
Proof. by move=> mn; rewrite msuppC; case: eqP => // _; rewrite inE => /eqP->; rewrite mdeg0. Qed.
Lemma dltCM d c p : dlt d p -> dlt d (c%:MP * p).
Proof. by move=> h; rewrite mulrC -[d]addn0; apply: dltM => //; apply: dltC. Qed.
Lemma dlt_coef d p r : dlt d p -> (d <= mdeg r)%N -> p@_r = 0.
Proof. by move=> h dr; apply: memN_msupp_eq0; apply/negP => /h; lia. Qed.
Lemma dltS d d' p : (d <= d')%N -> dlt d p -> dlt d' p.
Proof. by move=> dd h mn /h; lia. Qed.
End Deg.

(** Splitting sums and the recursion of the top-degree parts, for abstract coefficient sequences. *)
Lemma split_parity (R : zmodType) n (g : nat -> R) :
  \sum_(i < n.+1) g i = \sum_(i < (n./2).+1) g i.*2 + \sum_(i < uphalf n) g (i.*2.+1).
Proof.
elim: n => [|n IH]; first by rewrite !big_ord_recr !big_ord0 /= !addr0.
have recr k (h : nat -> R) : \sum_(i < k.+1) h i = \sum_(i < k) h i + h k by exact: big_ord_recr.
rewrite recr IH; case: (boolP (odd n)) => on.
  have -> : (n.+1)./2.+1 = (n./2).+2 by lia.
  have -> : uphalf n.+1 = uphalf n by lia.
  rewrite [X in _ = X + _](recr _ (fun i => g i.*2)) -!addrA; congr (_ + _); rewrite addrC.
  by congr (g _ + _); lia.
have -> : (n.+1)./2 = n./2 by lia.
have -> : uphalf n.+1 = (uphalf n).+1 by lia.
by rewrite [X in _ = _ + X](recr _ (fun i => g i.*2.+1)) addrA; congr (_ + g _); lia.
Qed.

Lemma tri_swap (R : zmodType) k (g : nat -> nat -> R) :
  \sum_(a < k) \sum_(i < k - a) g a i = \sum_(i < k) \sum_(a < k - i) g a i.
Proof.
have w (f : nat -> nat -> R) (a : nat) : (a <= k)%N ->
    \sum_(i < k - a) f a i = \sum_(i < k) if (i + a < k)%N then f a i else 0.
  move=> ak; rewrite (big_ord_widen k (f a) (leq_subr a k)) big_mkcond.
  by apply: eq_bigr => i _; rewrite ltn_subRL addnC.
under eq_bigr => a _ do rewrite (w g) 1?ltnW //.
rewrite exchange_big; apply: eq_bigr => i _.
by rewrite (w (fun i a => g a i)) 1?ltnW //; apply: eq_bigr => a _; rewrite addnC.
Qed.


Section TopRec.
Variables (P : comRingType) (w v E : nat -> P).
Hypothesis E_rec : forall k, E k.+1 *+ k.+1 = \sum_(i < k.+1) (w i.+1 * E (k - i)%N *+ i.+1).
Definition hoq (k : nat) : P := \sum_(i < k.+1) v i * E (k - i)%N.
Definition topq (j : nat) : P := if odd j then hoq j./2 else E j./2.
Definition Wq (j : nat) : P := if odd j then v j./2 else w j./2.

Lemma hoq_rec k : \sum_(a < k) (w a.+1 * hoq (k.-1 - a) *+ a.+1) = \sum_(i < k.+1) (v i * E (k - i)%N *+ (k - i)).
Proof.
rewrite big_ord_recr /= subnn mulr0n addr0.
transitivity (\sum_(a < k) \sum_(i < k - a) (w a.+1 * (v i * E (k.-1 - a - i)%N) *+ a.+1)).
  apply: eq_bigr => a _; rewrite /hoq mulr_sumr -sumrMnl.
  by have -> : (k - a = (k.-1 - a).+1)%N by have := ltn_ord a; lia.
rewrite (tri_swap k (fun a i => w a.+1 * (v i * E (k.-1 - a - i)%N) *+ a.+1)).
apply: eq_bigr => i _; have ik := ltn_ord i.
have -> : (k - i = (k.-1 - i).+1)%N by lia.
rewrite -mulrnAr E_rec mulr_sumr; apply: eq_bigr => a _.
by rewrite mulrnAr mulrCA; congr (_ * (_ * E _) *+ _); lia.
Qed.

Lemma topq_rec_odd k : topq (k.*2).+1 *+ (k.*2).+1 = \sum_(i < (k.*2).+1) (Wq i.+1 * topq (k.*2 - i) *+ i.+1).
Proof.
rewrite (split_parity k.*2 (fun i => Wq i.+1 * topq (k.*2 - i) *+ i.+1)) doubleK.
rewrite (_ : uphalf k.*2 = k); last by rewrite uphalf_half odd_double doubleK.
have -> : \sum_(i < k) (Wq (i.*2.+1).+1 * topq (k.*2 - i.*2.+1) *+ (i.*2.+1).+1)
   = (\sum_(a < k) (w a.+1 * hoq (k.-1 - a) *+ a.+1)) *+ 2.
  rewrite -sumrMnl; apply: eq_bigr => a _; have ak := ltn_ord a; rewrite -mulrnA.
  have -> : ((a.*2.+2) = a.+1 * 2)%N by lia.
  have o1 : odd (a.+1 * 2) = false by lia.
  have o2 : odd (k.*2 - a.*2.+1) = true by lia.
  rewrite /Wq /topq o1 o2.
  by congr (_ * _ *+ _); [congr w|congr hoq]; lia.
rewrite hoq_rec -sumrMnl -big_split /= /topq /= odd_double /= (_ : uphalf k.*2 = k) ?/hoq; last by lia.
rewrite -sumrMnl; apply: eq_bigr => i _; have ik := ltn_ord i.
rewrite /Wq /= odd_double /= (_ : odd (k.*2 - i.*2) = false); last by lia.
have o1 : uphalf i.*2 = i by lia.
have o2 : (k.*2 - i.*2)./2 = (k - i)%N by lia.
rewrite o1 o2.
rewrite -mulrnA -mulrnDr; congr (_ *+ _); lia.
Qed.

Lemma topq_rec_even k : topq (k.*2).+2 *+ (k.*2).+2 =
  \sum_(i < (k.*2).+2) (Wq i.+1 * (if odd i then topq ((k.*2).+1 - i) else 0) *+ i.+1).
Proof.
rewrite (split_parity (k.*2).+1 (fun i => Wq i.+1 * (if odd i then topq ((k.*2).+1 - i) else 0) *+ i.+1)).
rewrite big1 ?add0r => [|i _]; last by rewrite odd_double mulr0 mul0rn.
rewrite (_ : uphalf (k.*2).+1 = k.+1); last by lia.
rewrite {1}/topq /= odd_double /= doubleK.
rewrite (_ : (k.*2).+2 = k.+1 * 2)%N; last by lia.
rewrite mulrnA E_rec -sumrMnl; apply: eq_bigr => a _; have ak := ltn_ord a.
rewrite -mulrnA (_ : ((a.*2.+2) = a.+1 * 2)%N); last by lia.
have o1 : odd (a.+1 * 2) = false by lia.
have o2 : odd ((k.*2).+1 - a.*2.+1) = false by lia.
have o3 : odd (a.*2.+1) = true by lia.
rewrite /Wq /topq o1 ?o2 ?o3 /= ?odd_double /= ?o2.
by congr (w _ * E _ *+ _); lia.
Qed.
End TopRec.

Section TopDeg.
Variables (K : fieldType) (m : nat).
Hypothesis char0 : [char K] =i pred0.
Variables (w v E e : nat -> {mpoly K[m]}).
Hypothesis E_rec : forall k, E k.+1 *+ k.+1 = \sum_(i < k.+1) (w i.+1 * E (k - i)%N *+ i.+1).
Hypothesis E0 : E 0%N = 1.
Hypothesis e0 : e 0%N = 1.
Hypothesis e_rec : forall k, e k.+1 *+ k.+1 = \sum_(i < k.+1) (Wq w v i.+1 * e (k - i)%N *+ i.+1).
Hypothesis dw : forall k, dlt k.+2 (w k.+1).
Hypothesis dv : forall k, dlt k.+1 (v k).
Hypothesis dE : forall k, dlt k.+1 (E k).

Lemma dlt_natreg d (p : {mpoly K[m]}) k : dlt d (p *+ k.+1) -> dlt d p.
Proof.
move=> h; have k0 : (k.+1)%:R != 0 :> K by move/charf0P: char0 => ->.
have -> : p = (k.+1%:R^-1)%:MP * (p *+ k.+1); last exact: dltCM.
by rewrite mulrnAr -mulrnAl -mpolyCMn -mulr_natr mulVf // mul1r.
Qed.

Lemma dW j : dlt (j.+1./2).+1 (Wq w v j.+1).
Proof.
rewrite /Wq; case: ifP => oj; first exact: dv.
by case: j oj => [|j] //= oj; apply: dw.
Qed.
Lemma dho k : dlt k.+1 (hoq v E k).
Proof.
apply: dlt_sum => i _; have ik := ltn_ord i.
apply: (@dltS _ _ (i.+1 + (k - i))); first by lia.
by apply: dltM.
Qed.

Lemma top_deg j : dlt j./2 (e j - topq v E j).
Proof.
elim: j {-2}j (leqnn j) => [|n IH] [|j] // jn; rewrite ?e0 ?E0 ?/topq ?/= ?E0 ?subrr; try exact: dlt0.
rewrite -/(topq v E j.+1); apply: (@dlt_natreg _ _ j); rewrite mulrnBl e_rec.
have split : forall X : {mpoly K[m]}, \sum_(i < j.+1) (Wq w v i.+1 * e (j - i)%N *+ i.+1) - X =
  \sum_(i < j.+1) (Wq w v i.+1 * (e (j - i)%N - topq v E (j - i)) *+ i.+1) +
  (\sum_(i < j.+1) (Wq w v i.+1 * topq v E (j - i) *+ i.+1) - X).
  move=> X; rewrite addrA; congr (_ - _); rewrite -big_split; apply: eq_bigr => i _ /=.
  by rewrite mulrBr mulrnBl subrK.
rewrite split; apply: dltD.
  apply: dlt_sum => i _; have ij := ltn_ord i; apply: dltMn; rewrite mulrC.
  apply: (@dltS _ _ ((j - i)./2 + i.+1./2)); first by lia.
  by apply: dltM; [apply: IH; lia|exact: dW].
have [oj|ej] := boolP (odd j); last first.
  have jE : j = (j./2).*2 by lia.
  have := topq_rec_odd v E_rec j./2; rewrite -jE => ->.
  by rewrite subrr; exact: dlt0.
have jE : j = (j./2).*2.+1 by lia.
have := topq_rec_even v E_rec j./2; rewrite (_ : (j./2).*2.+2 = j.+1) -?jE // => ->; rewrite -sumrB.
apply: dlt_sum => i _; have ij := ltn_ord i; rewrite -mulrnBl -mulrBr; apply: dltMn.
case: ifP => oi; first by rewrite subrr mulr0; apply: dlt0.
rewrite subr0 /topq (_ : odd (j - i)); last by lia.
rewrite mulrC; apply: (@dltS _ _ (((j - i)./2).+1 + i.+1./2)); first by lia.
by apply: dltM; [exact: dho|exact: dW].
Qed.
End TopDeg.

Section Gen.
Variables (K : fieldType) (m : nat).
Hypothesis char0 : [char K] =i pred0.
Variables (A : vert m -> vert m -> K) (D : vert m -> K).
Hypothesis symA : forall u v, A u v = A v u.
Notation P := {mpoly K[m]}.
Notation Ap := (Ap A). Notation Dp := (Dp D). Notation Ep := (Ep A D). Notation wp := (wp A D).
Notation kapp := (@kapp K m). Notation ivp := (@ivp K m).

(** values at the point [kap] *)
Definition kapv (kap : 'I_m -> K) (v : vert m) : K := if v is Some eb then kap eb.1 else 0.
Definition ivK (k : nat) : K := k%:R^-1.
Definition wv kap k : K :=
  (2 * k)%:R^-1 * tw (@vpr m) A (kapv kap) k + 2%:R^-1 * qw (@vpr m) A D (kapv kap) k.
Definition Ev kap k : K := es ivK (wv kap) k.

Section Ev.
Variable kap : 'I_m -> K.
Let phi := meval_rmorphism kap.
Let hA u v : phi (Ap u v) = A u v. Proof. exact: mevalC. Qed.
Let hD u : phi (Dp u) = D u. Proof. exact: mevalC. Qed.
Let hk u : phi (kapp u) = kapv kap u.
Proof. by case: u => [eb|]; rewrite /kapp /= ?mevalXU ?meval0. Qed.
Lemma wp_eval k : (wp k).@[kap] = wv kap k.
Proof.
rewrite /wp mevalD !mevalM !mevalC -/(phi _) (tw_hom _ hA hk).
by congr (_ + _ * _); apply: (qw_hom (phi := phi) _ hA hD hk).
Qed.
Lemma vwp_eval k u : (vw (@vpr m) Ap Dp kapp k u).@[kap] = vw (@vpr m) A D (kapv kap) k u.
Proof. exact: (vw_hom (phi := phi) _ hA hD hk). Qed.
Lemma Ep_eval n : (Ep n).@[kap] = Ev kap n.
Proof.
apply: (es_hom (phi := phi)) => [k|k _]; first exact: mevalC.
exact: wp_eval.
Qed.
End Ev.

(** *** The even case *)
Lemma sieve_even (a : nat -> K) c (r : 'X_{1..m}) :
  \sum_(ks <- box (mreps r)) sieve_wt K (mreps r) ks * Ev (sieve_pt a c ks) (mdeg r)
  = c ^+ mdeg r * lhq A D (mends r).
Proof.
rewrite -(Ep_coef char0) //.
transitivity (sieve a c (mreps r) (Ep (mdeg r))).
  by apply: eq_bigr => ks _; rewrite Ep_eval.
rewrite sieveE; last by move=> mn /(dlt_homog (Ep_homog _ _ _)); rewrite ltnS.
by rewrite !mulrnAr mulrC.
Qed.

Lemma Ep_rec k : Ep k.+1 *+ k.+1 = \sum_(i < k.+1) (wp i.+1 * Ep (k - i) *+ i.+1).
Proof. exact: (es_rec _ (ivpE _ char0)). Qed.

(** *** The odd case: vertex [None] is the unpaired one. *)
Notation vo := (vw (@vpr m) Ap Dp kapp ^~ None).
Definition Wp (j : nat) : P := Wq wp vo j.
Definition Wv kap (j : nat) : K := if odd j then vw (@vpr m) A D (kapv kap) j./2 None else wv kap j./2.
Definition Op (j : nat) : P := es ivp Wp j.
Definition Ov kap j : K := es ivK (Wv kap) j.

Lemma Op_eval kap n : (Op n).@[kap] = Ov kap n.
Proof.
apply: (es_hom (phi := meval_rmorphism kap)) => [k|k _]; first exact: mevalC.
by rewrite /Wp /Wq /Wv; case: ifP => _; [apply: vwp_eval|apply: wp_eval].
Qed.


Lemma sieve_odd (a : nat -> K) c (r : 'X_{1..m}) :
  \sum_(ks <- box (mreps r)) sieve_wt K (mreps r) ks * Ov (sieve_pt a c ks) (mdeg r).*2.+1
  = c ^+ mdeg r * lhq A D (mends r ++ [:: None]).
Proof.
rewrite -(Hp_coef char0 D symA [:: None] (leqnn (mdeg r))).
transitivity (sieve a c (mreps r) (Op (mdeg r).*2.+1)).
  by apply: eq_bigr => ks _; rewrite Op_eval.
have td : dlt (mdeg r) (Op (mdeg r).*2.+1 - hoq vo Ep (mdeg r)).
  have := @top_deg _ _ char0 wp vo Ep Op Ep_rec (es0 _ _) (es0 _ _) _ _ _ _ (mdeg r).*2.+1.
  rewrite /topq /= odd_double /= uphalf_double; apply.
  - by move=> k; apply: (es_rec _ (ivpE _ char0)).
  - by move=> k; apply: dlt_homog; apply: wp_homog.
  - by move=> k; apply: dlt_homog; apply: vw_homog.
  - by move=> k; apply: dlt_homog; apply: Ep_homog.
have -> : Hp A D (mdeg r) [:: None] (mdeg r) = hoq vo Ep (mdeg r).
  rewrite /Hp /Hz /Lz lhq_cons lhq_nil mulr1 big_nil addr0 mulrC coefM /hoq.
  by apply: eq_bigr => i _; rewrite coefvz ?coefEz //; have := ltn_ord i; lia.
rewrite sieveE; last first.
  move=> mn; rewrite -[Op _](subrK (hoq vo Ep (mdeg r))) => /msuppD_le; rewrite mem_cat => /orP[/td|]; first exact: ltnW.
  have h : dlt (mdeg r).+1 (hoq vo Ep (mdeg r)).
    by apply: dho => k; apply: dlt_homog; [apply: vw_homog|apply: Ep_homog].
  by move/h; rewrite ltnS.
rewrite -[X in mcoeff _ X](subrK (hoq vo Ep (mdeg r))) mcoeffD (dlt_coef td) // add0r.
by rewrite !mulrnAr mulrC.
Qed.

(** *** Homogeneity in the evaluation point, hence the halved Glynn sum *)
Lemma es_scale (w w' : nat -> K) (t : K) n : (forall k, (0 < k <= n)%N -> w' k = t ^+ k * w k) ->
  es ivK w' n = t ^+ n * es ivK w n.
Proof.
elim: n {-2}n (leqnn n) => [|n0 IH] [|n] // nm h; rewrite ?es0 ?expr0 ?mul1r //.
rewrite !esS mulrCA; congr (_ * _); rewrite mulr_sumr; apply: eq_bigr => i _.
have ij := ltn_ord i; rewrite h; last by lia.
rewrite IH; [|lia|by move=> k hk; apply: h; lia].
rewrite mulrnAr; congr (_ *+ _); rewrite mulrACA -exprD; congr (_ ^+ _ * _); lia.
Qed.

Section Scale.
Variables (t : K) (kap : 'I_m -> K).
Notation kapt := (kapv (fun e => t * kap e)).
Let kE u : kapt u = t * kapv kap u. Proof. by case: u => [eb|] //=; rewrite mulr0. Qed.
Lemma Mw_scale k u v : Mw (@vpr m) A kapt k u v = t ^+ k * Mw (@vpr m) A (kapv kap) k u v.
Proof.
elim: k u v => [|k IH] u v; first by rewrite expr0 mul1r.
by rewrite !MwS mulr_sumr; apply: eq_bigr => j _; rewrite IH kE exprS; rring.
Qed.
Lemma vw_scale k u : vw (@vpr m) A D kapt k u = t ^+ k * vw (@vpr m) A D (kapv kap) k u.
Proof.
elim: k u => [|k IH] u; first by rewrite expr0 mul1r.
by rewrite !vwS mulr_sumr; apply: eq_bigr => j _; rewrite IH kE exprS; rring.
Qed.
Lemma Ev_scale n : Ev (fun e => t * kap e) n = t ^+ n * Ev kap n.
Proof.
apply: es_scale => -[|k] // _; rewrite /wv mulrDr; congr (_ + _).
  rewrite mulrCA; congr (_ * _); rewrite /tw mulr_sumr; apply: eq_bigr => u _.
  by rewrite kE Mw_scale exprS; rring.
rewrite mulrCA; congr (_ * _); rewrite /qw mulr_sumr; apply: eq_bigr => u _.
by rewrite kE vw_scale exprS; rring.
Qed.
End Scale.

Lemma eq_Mw kap kap' k u v : kap =1 kap' -> Mw (@vpr m) A (kapv kap) k u v = Mw (@vpr m) A (kapv kap') k u v.
Proof.
move=> h; have hv x : kapv kap x = kapv kap' x by case: x => [eb|] //=.
elim: k u v => [|k IH] u v //; by rewrite !MwS; apply: eq_bigr => j _; rewrite hv IH.
Qed.
Lemma eq_vw kap kap' k u : kap =1 kap' -> vw (@vpr m) A D (kapv kap) k u = vw (@vpr m) A D (kapv kap') k u.
Proof.
move=> h; have hv x : kapv kap x = kapv kap' x by case: x => [eb|] //=.
elim: k u => [|k IH] u //; by rewrite !vwS; apply: eq_bigr => j _; rewrite hv IH.
Qed.
Lemma eq_Ev kap kap' n : kap =1 kap' -> Ev kap n = Ev kap' n.
Proof.
move=> h; have hv x : kapv kap x = kapv kap' x by case: x => [eb|] //=.
apply: eq_es => k _; rewrite /wv; congr (_ * _ + _ * _); apply: eq_bigr => u _; rewrite hv.
  by rewrite (eq_Mw _ _ _ h).
by rewrite (eq_vw _ _ h).
Qed.

(** *** The halved Glynn sum *)
Definition rcompl (rs ks : seq nat) : seq nat := [seq (rk.1 - rk.2)%N | rk <- zip rs ks].
Lemma size_box rs ks : ks \in box rs -> size ks = size rs.
Proof. by rewrite boxP => /andP[/eqP]. Qed.
Lemma nth_box rs ks e : ks \in box rs -> (nth 0%N ks e <= nth 0%N rs e)%N.
Proof.
rewrite boxP => /andP[_]; elim: ks rs e => [|k ks IH] [|r rs] [|e] //=; first by case/andP.
by case/andP => _ /IH; apply.
Qed.
Lemma nth_rcompl rs ks e : size ks = size rs -> nth 0%N (rcompl rs ks) e = (nth 0%N rs e - nth 0%N ks e)%N.
Proof.
elim: rs ks e => [|r rs IH] [|k ks] [|e] //= [] h; exact: IH.
Qed.
Lemma size_rcompl rs ks : size ks = size rs -> size (rcompl rs ks) = size rs.
Proof. by move=> h; rewrite size_map size_zip h minnn. Qed.
Lemma box_rcompl rs : perm_eq [seq rcompl rs ks | ks <- box rs] (box rs).
Proof.
have inbox ks : ks \in box rs -> rcompl rs ks \in box rs.
  move=> hk; rewrite boxP size_rcompl ?(size_box hk) // eqxx /=.
  move: (size_box hk); elim: (rs) (ks) => [|r rs' IH] [|k ks'] //= [] h.
  by rewrite leq_subr IH.
have inv ks : ks \in box rs -> rcompl rs (rcompl rs ks) = ks.
  move=> hk; have sk := size_box hk; apply: (@eq_from_nth _ 0%N); rewrite !size_rcompl ?size_rcompl //.
  move=> i _; rewrite !nth_rcompl ?size_rcompl // subKn //; exact: nth_box.
apply: uniq_perm; rewrite ?box_uniq //.
  rewrite map_inj_in_uniq ?box_uniq // => x y hx hy h.
  by rewrite -(inv x hx) h inv.
move=> ks; apply/mapP/idP => [[ks' h ->]|h]; first exact: inbox.
by exists (rcompl rs ks); rewrite ?inv // inbox.
Qed.

(** the weight used by the halved sum *)
Definition half_wt (rs ks : seq nat) : K :=
  if (2 * nth 0%N ks 0 < nth 0%N rs 0)%N then 1 else
  if (2 * nth 0%N ks 0 == nth 0%N rs 0)%N then 2%:R^-1 else 0.

Lemma glynn_half (rs : seq nat) (G : seq nat -> K) :
  (forall ks, ks \in box rs -> G (rcompl rs ks) = G ks) ->
  \sum_(ks <- box rs) G ks = 2%:R * \sum_(ks <- box rs) half_wt rs ks * G ks.
Proof.
move=> hG; have two0 : 2%:R != 0 :> K by move/charf0P: char0 => ->.
have hw ks : ks \in box rs -> half_wt rs ks + half_wt rs (rcompl rs ks) = 1.
  move=> hk; rewrite /half_wt nth_rcompl ?(size_box hk) //; have := nth_box 0 hk.
  set k := nth _ ks _; set r := nth _ rs _ => kr.
  case: (ltngtP (2 * k) r) => h.
  - have o1 : (2 * (r - k) < r)%N = false by lia.
    have o2 : (2 * (r - k) == r)%N = false by lia.
    by rewrite o1 o2 addr0.
  - have o1 : (2 * (r - k) < r)%N = true by lia.
    by rewrite o1 add0r.
  - have o1 : (2 * (r - k) < r)%N = false by lia.
    have o2 : (2 * (r - k) == r)%N = true by lia.
    by rewrite o1 o2 -mulr2n -[_ *+ 2]mulr_natr mulVf.
transitivity (\sum_(ks <- box rs) (half_wt rs ks * G ks + half_wt rs (rcompl rs ks) * G (rcompl rs ks))).
  by apply: eq_big_seq => ks hk; rewrite (hG ks hk) -mulrDl hw // mul1r.
rewrite big_split /=.
have -> : \sum_(ks <- box rs) half_wt rs (rcompl rs ks) * G (rcompl rs ks) = \sum_(ks <- box rs) half_wt rs ks * G ks.
  by rewrite -[RHS](perm_big _ (box_rcompl rs)) big_map.
by rewrite mulr_natl mulr2n.
Qed.
End Gen.
