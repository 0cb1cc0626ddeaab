(** Power-trace theory of the (loop) hafnian: derivations of the generating function
    [exp (sum_i z^i (tr B^i / 2i + D X B^(i-1) D / 2))]. *)
From mathcomp Require Import all_ssreflect all_fingroup all_algebra zify.
From Verif Require Import Prelude SpecHaf ThHaf.
Set Implicit Arguments.
Unset Strict Implicit.
Unset Printing Implicit Defensive.
Import GRing.Theory.
Local Open Scope ring_scope.

(** ** Walk matrices *)
Section Walk.
Variables (P : comRingType) (V : finType) (pr : V -> V) (A : V -> V -> P) (D : V -> P) (kap : V -> P).

(** [Mw k u v] = ((A X K)^k A)_{uv};  [vw k u] = ((A X K)^k D)_u. *)
Fixpoint Mw k u v : P :=
  if k is k'.+1 then \sum_j kap j * A u (pr j) * Mw k' j v else A u v.
Fixpoint vw k u : P :=
  if k is k'.+1 then \sum_j kap j * A u (pr j) * vw k' j else D u.
Arguments Mw : simpl never.
Arguments vw : simpl never.
Lemma MwS k u v : Mw k.+1 u v = \sum_j kap j * A u (pr j) * Mw k j v. Proof. by []. Qed.
Lemma vwS k u : vw k.+1 u = \sum_j kap j * A u (pr j) * vw k j. Proof. by []. Qed.
(** [tw k] = tr ((A X K)^k) for k >= 1;  [qw k] = (K X D)^T (A X K)^(k-1) D. *)
Definition tw k : P := \sum_u kap u * Mw k.-1 u (pr u).
Definition qw k : P := \sum_u kap u * D (pr u) * vw k.-1 u.

Hypothesis prK : involutive pr.
Hypothesis symA : forall u v, A u v = A v u.
Hypothesis kap_pr : forall j, kap (pr j) = kap j.

Lemma MwSr k u v : Mw k.+1 u v = \sum_j kap j * Mw k u (pr j) * A j v.
Proof.
elim: k u v => [|k IH] u v //.
rewrite -[LHS]/(\sum_j kap j * A u (pr j) * Mw k.+1 j v).
under eq_bigr => j _ do rewrite IH mulr_sumr.
rewrite exchange_big /=; apply: eq_bigr => l _.
rewrite mulr_sumr mulr_suml; apply: eq_bigr => j _; rring.
Qed.

Lemma Mw_sym k u v : Mw k u v = Mw k v u.
Proof.
elim: k u v => [|k IH] u v; first exact: symA.
rewrite MwSr MwS (reindex_inj (inv_inj prK)) /=; apply: eq_bigr => j _.
by rewrite kap_pr prK (IH u) (symA _ v) mulrAC.
Qed.

Lemma Mw_comp l i u v : \sum_j kap j * Mw l u (pr j) * Mw i j v = Mw (l + i).+1 u v.
Proof.
elim: l u => [|l IH] u //.
rewrite addSn -[RHS]/(\sum_j kap j * A u (pr j) * Mw (l + i).+1 j v).
under [RHS]eq_bigr => j _ do rewrite -IH mulr_sumr.
rewrite exchange_big /=; apply: eq_bigr => w _.
rewrite mulr_sumr mulr_suml; apply: eq_bigr => j _; rring.
Qed.

Lemma vwSr k u : vw k.+1 u = \sum_j kap j * Mw k u (pr j) * D j.
Proof.
elim: k u => [|k IH] u //.
rewrite -[LHS]/(\sum_j kap j * A u (pr j) * vw k.+1 j).
under eq_bigr => j _ do rewrite IH mulr_sumr.
rewrite exchange_big /=; apply: eq_bigr => w _.
rewrite mulr_sumr mulr_suml; apply: eq_bigr => j _; rring.
Qed.

(** ** Derivation in the direction of one edge {a, b} *)
Variable der : {additive P -> P}.
Hypothesis derM : forall x y, der (x * y) = der x * y + x * der y.
Variables a b : V.
Hypothesis prab : pr a = b.
Hypothesis nab : a != b.
Hypothesis derA : forall u v, der (A u v) = 0.
Hypothesis derD : forall u, der (D u) = 0.
Hypothesis derk : forall j, der (kap j) = ((j == a) || (j == b))%:R.

Lemma prba : pr b = a. Proof. by rewrite -prab prK. Qed.

Lemma sum_derk (f : V -> P) : \sum_j der (kap j) * f j = f a + f b.
Proof.
rewrite (bigD1 a) //= (bigD1 b) 1?eq_sym //= !derk !eqxx orbT !mul1r big1 ?addr0 // => j /andP[ja jb].
by rewrite derk (negPf ja) (negPf jb) mul0r.
Qed.

Lemma der_Mw k u v : der (Mw k u v) =
  \sum_(i < k) (Mw i u a * Mw (k - i.+1) b v + Mw i u b * Mw (k - i.+1) a v).
Proof.
elim: k u v => [|k IH] u v; first by rewrite big_ord0 derA.
rewrite MwS raddf_sum big_ord_recl /= subn1 /=.
under eq_bigr => j _ do rewrite derM derM derA mulr0 addr0.
rewrite big_split /=; congr (_ + _).
  under eq_bigr => j _ do rewrite -mulrA.
  by rewrite (sum_derk (fun j => A u (pr j) * Mw k j v)) prab prba addrC.
under eq_bigr => j _ do rewrite IH mulr_sumr.
rewrite exchange_big /=; apply: eq_bigr => i _.
rewrite !(MwS, vwS) /bump /= add1n subSS !mulr_suml -big_split /=; apply: eq_bigr => j _; rring.
Qed.

Lemma der_vw k u : der (vw k u) =
  \sum_(i < k) (Mw i u a * vw (k - i.+1) b + Mw i u b * vw (k - i.+1) a).
Proof.
elim: k u => [|k IH] u; first by rewrite big_ord0 derD.
rewrite vwS raddf_sum big_ord_recl /= subn1 /=.
under eq_bigr => j _ do rewrite derM derM derA mulr0 addr0.
rewrite big_split /=; congr (_ + _).
  under eq_bigr => j _ do rewrite -mulrA.
  by rewrite (sum_derk (fun j => A u (pr j) * vw k j)) prab prba addrC.
under eq_bigr => j _ do rewrite IH mulr_sumr.
rewrite exchange_big /=; apply: eq_bigr => i _.
rewrite !(MwS, vwS) /bump /= add1n subSS !mulr_suml -big_split /=; apply: eq_bigr => j _; rring.
Qed.

Lemma der_tw k : der (tw k.+1) = Mw k a b *+ (2 * k.+1).
Proof.
rewrite /tw raddf_sum /=.
under eq_bigr => j _ do rewrite derM.
rewrite big_split /= sum_derk prab prba (Mw_sym k b a) -mulr2n.
have -> : \sum_i kap i * der (Mw k i (pr i)) = \sum_(j < k) Mw k a b *+ 2.
  under eq_bigr => j _ do rewrite der_Mw mulr_sumr.
  rewrite exchange_big /=; apply: eq_bigr => i _.
  under eq_bigr => j _ do rewrite mulrDr.
  have e : (k - i.+1 + i).+1 = k by have := ltn_ord i; lia.
  rewrite big_split /= mulr2n; congr (_ + _).
    rewrite (Mw_sym k) -[in RHS]e -Mw_comp; apply: eq_bigr => j _.
    by rewrite -mulrA [Mw i j a * _]mulrC mulrA.
  rewrite -[in RHS]e -Mw_comp; apply: eq_bigr => j _.
  by rewrite -mulrA [Mw i j b * _]mulrC mulrA.
rewrite sumr_const card_ord -mulrnA -mulrnDr.
by congr (_ *+ _); lia.
Qed.

Lemma der_qw k : der (qw k.+1) = (\sum_(i < k.+1) vw i a * vw (k - i) b) *+ 2.
Proof.
rewrite /qw raddf_sum /=.
under eq_bigr => j _ do rewrite derM derM derD mulr0 addr0.
rewrite big_split /=.
under eq_bigr => j _ do rewrite -mulrA.
rewrite (sum_derk (fun j => D (pr j) * vw k j)) prab prba.
have -> : \sum_i kap i * D (pr i) * der (vw k i) =
   \sum_(i < k) (vw i.+1 a * vw (k - i.+1) b + vw i.+1 b * vw (k - i.+1) a).
  under eq_bigr => j _ do rewrite der_vw mulr_sumr.
  rewrite exchange_big /=; apply: eq_bigr => i _.
  under eq_bigr => j _ do rewrite mulrDr.
  have E u : vw i.+1 u = \sum_j kap j * D (pr j) * Mw i j u.
    rewrite vwSr (reindex_inj (inv_inj prK)) /=; apply: eq_bigr => j _.
    by rewrite kap_pr prK (Mw_sym i u) mulrAC.
  rewrite !E !mulr_suml big_split /=.
  by congr (_ + _); apply: eq_bigr => j _; rring.
rewrite big_split /= mulr2n.
have -> : \sum_(i < k.+1) vw i a * vw (k - i) b + \sum_(i < k.+1) vw i a * vw (k - i) b
   = \sum_(i < k.+1) vw i a * vw (k - i) b + \sum_(i < k.+1) vw i b * vw (k - i) a.
  congr (_ + _); rewrite [LHS](reindex_inj rev_ord_inj) /=; apply: eq_bigr => i _.
  by rewrite subSS subKn 1?mulrC // -ltnS.
rewrite !big_ord_recl /= subn0 /=.
rewrite -[D b]/(vw 0 b) -[D a]/(vw 0 a).
rewrite (eq_bigr (fun i : 'I_k => vw (lift ord0 i) a * vw (k - lift ord0 i) b)); last by move=> i _; rewrite /bump.
rewrite [X in _ + (_ + X) = _](eq_bigr (fun i : 'I_k => vw (lift ord0 i) b * vw (k - lift ord0 i) a)); last by move=> i _.
rring.
Qed.

(** ** The generating function and its derivative *)
Variable w : nat -> P.
Hypothesis w_def : forall k, w k.+1 *+ (2 * k.+1) = tw k.+1 + qw k.+1 *+ k.+1.
Hypothesis natreg : forall k (x y : P), x *+ k.+1 = y *+ k.+1 -> x = y.
Variable E : nat -> P.
Hypothesis E0 : E 0 = 1.
Hypothesis E_rec : forall k, E k.+1 *+ k.+1 = \sum_(i < k.+1) w i.+1 * E (k - i) *+ i.+1.

Lemma der_w k : der (w k.+1) = Mw k a b + \sum_(i < k.+1) vw i a * vw (k - i) b.
Proof.
have h2 : (2 * k.+1 = (2 * k + 1).+1)%N by lia.
apply: (@natreg (2 * k + 1)); rewrite -h2 -raddfMn /= w_def raddfD raddfMn /= der_tw der_qw.
by rewrite mulrnDl -mulrnA.
Qed.

Lemma der_E k : der (E k.+1) = \sum_(i < k.+1) der (w i.+1) * E (k - i).
Proof.
have der1 : der 1 = 0.
  by have := derM 1 1; rewrite !mulr1 mul1r => /eqP; rewrite -subr_eq0 opprD addrA subrr add0r oppr_eq0 => /eqP.
move: {2}k (leqnn k) => m; elim: m k => [|m IH] k km.
  have -> : k = 0%N by lia.
  rewrite !big_ord1; have := E_rec 0; rewrite big_ord1 !mulr1n subn0 E0 => ->.
  by rewrite derM der1 mulr0 addr0.
apply: (@natreg k); rewrite -raddfMn /= E_rec raddf_sum /=.
under eq_bigr => i _ do rewrite raddfMn /= derM mulrnDl.
rewrite big_split /=.
have -> : \sum_(i < k.+1) w i.+1 * der (E (k - i)) *+ i.+1 =
   \sum_(i < k.+1) \sum_(j < k.+1 | (i + j < k)%N) w i.+1 * der (w j.+1) * E (k - i - j.+1) *+ i.+1.
  apply: eq_bigr => i _.
  case ki : (k - i)%N => [|l].
    rewrite E0 der1 mulr0 mul0rn big1 // => j ij; lia.
  have lm : (l <= m)%N by lia.
  rewrite IH // mulr_sumr -sumrMnl.
  rewrite (big_ord_widen_cond k.+1 xpredT (fun j => w i.+1 * (der (w j.+1) * E (l - j)) *+ i.+1)) /=; last by lia.
  apply: eq_big => [j|j jl]; first by lia.
  by rewrite subSS mulrA.
rewrite (exchange_big_dep xpredT) //=.
have -> : \sum_(j < k.+1) \sum_(i < k.+1 | (i + j < k)%N) w i.+1 * der (w j.+1) * E (k - i - j.+1) *+ i.+1
  = \sum_(j < k.+1) der (w j.+1) * E (k - j) *+ (k - j).
  apply: eq_bigr => j _.
  case kj : (k - j)%N => [|l].
    rewrite mulr0n big1 // => i ij; lia.
  rewrite -mulrnAr E_rec mulr_sumr.
  rewrite [RHS](big_ord_widen_cond k.+1 xpredT (fun i => der (w j.+1) * (w i.+1 * E (l - i) *+ i.+1))) /=; last by lia.
  apply: eq_big => [i|i il]; first by lia.
  rewrite -!mulrnAr mulrA [w _ * der _]mulrC; congr (_ * _).
  by congr (E _ *+ _); lia.
rewrite -big_split /= -sumrMnl; apply: eq_bigr => i _.
by rewrite -mulrnDr; congr (_ *+ _); have := ltn_ord i; lia.
Qed.

(** ** Truncated generating polynomials *)
Variable N : nat.
Definition eqm (p q : {poly P}) := forall k, (k <= N)%N -> p`_k = q`_k.

Lemma eqm_refl p : eqm p p. Proof. by []. Qed.
Lemma eqm_trans p q r : eqm p q -> eqm q r -> eqm p r.
Proof. by move=> h1 h2 k kN; rewrite h1 // h2. Qed.
Lemma eqmD p q p' q' : eqm p p' -> eqm q q' -> eqm (p + q) (p' + q').
Proof. by move=> h1 h2 k kN; rewrite !coefD h1 // h2. Qed.
Lemma eqmM p q p' q' : eqm p p' -> eqm q q' -> eqm (p * q) (p' * q').
Proof.
move=> h1 h2 k kN; rewrite !coefM; apply: eq_bigr => i _.
by rewrite h1 ?h2 //; have := ltn_ord i; lia.
Qed.
Lemma eqm_sum (I : eqType) (r : seq I) (F G : I -> {poly P}) :
  {in r, forall i, eqm (F i) (G i)} -> eqm (\sum_(i <- r) F i) (\sum_(i <- r) G i).
Proof.
elim: r => [|i r IH] h; first by rewrite !big_nil.
rewrite !big_cons; apply: eqmD; first by apply: h; rewrite mem_head.
by apply: IH => j jr; apply: h; rewrite inE jr orbT.
Qed.

Definition derz (p : {poly P}) : {poly P} := \poly_(i < size p) der p`_i.
Lemma coef_derz p k : (derz p)`_k = der p`_k.
Proof.
rewrite coef_poly; case: ltnP => // h; by rewrite nth_default // raddf0.
Qed.
Lemma derzD p q : derz (p + q) = derz p + derz q.
Proof. by apply/polyP => k; rewrite coefD !coef_derz coefD raddfD. Qed.
Lemma derzM p q : derz (p * q) = derz p * q + p * derz q.
Proof.
apply/polyP => k; rewrite coefD !coef_derz !coefM raddf_sum -big_split /=.
by apply: eq_bigr => i _; rewrite derM !coef_derz.
Qed.
Lemma derz0 : derz 0 = 0.
Proof. by apply/polyP => k; rewrite coef_derz !coef0 raddf0. Qed.
Lemma derz_sum (I : Type) (r : seq I) (F : I -> {poly P}) :
  derz (\sum_(i <- r) F i) = \sum_(i <- r) derz (F i).
Proof.
elim: r => [|i r IH]; first by rewrite !big_nil derz0.
by rewrite !big_cons derzD IH.
Qed.
Lemma derz1 : derz 1 = 0.
Proof.
have := derzM 1 1; rewrite !mulr1 mul1r => /eqP.
by rewrite -subr_eq0 opprD addrA subrr add0r oppr_eq0 => /eqP.
Qed.

Definition Mz u v : {poly P} := \poly_(k < N.+1) Mw k u v.
Definition vz u : {poly P} := \poly_(k < N.+1) vw k u.
Definition Ez : {poly P} := \poly_(k < N.+1) E k.

Lemma coefMz k u v : (k <= N)%N -> (Mz u v)`_k = Mw k u v.
Proof. by move=> h; rewrite coef_poly ltnS h. Qed.
Lemma coefvz k u : (k <= N)%N -> (vz u)`_k = vw k u.
Proof. by move=> h; rewrite coef_poly ltnS h. Qed.
Lemma coefEz k : (k <= N)%N -> Ez`_k = E k.
Proof. by move=> h; rewrite coef_poly ltnS h. Qed.

Lemma Mz_sym u v : Mz u v = Mz v u.
Proof. by apply/polyP => k; rewrite !coef_poly Mw_sym. Qed.

Lemma derz_Mz u v : eqm (derz (Mz u v)) ('X * (Mz u a * Mz b v + Mz u b * Mz a v)).
Proof.
move=> k kN; rewrite coef_derz coefMz // coefXM der_Mw.
case: k kN => [|k] kN; first by rewrite big_ord0.
rewrite coefD !coefM /= -big_split /=; apply: eq_bigr => i _.
by rewrite !coefMz ?subSS //; have := ltn_ord i; lia.
Qed.

Lemma derz_vz u : eqm (derz (vz u)) ('X * (Mz u a * vz b + Mz u b * vz a)).
Proof.
move=> k kN; rewrite coef_derz coefvz // coefXM der_vw.
case: k kN => [|k] kN; first by rewrite big_ord0.
rewrite coefD !coefM /= -big_split /=; apply: eq_bigr => i _.
by rewrite !(coefMz, coefvz) ?subSS //; have := ltn_ord i; lia.
Qed.

Lemma derz_Ez : eqm (derz Ez) ('X * ((Mz a b + vz a * vz b) * Ez)).
Proof.
move=> k kN; rewrite coef_derz coefEz // coefXM.
case: k kN => [|k] kN.
  by have /polyP/(_ 0%N) := derz1; rewrite coef_derz coef1 coef0 /= E0.
rewrite der_E coefM /=; apply: eq_bigr => i _.
rewrite der_w coefD coefMz ?coefEz; try by have := ltn_ord i; lia.
congr ((_ + _) * _); rewrite coefM; apply: eq_bigr => j _.
by rewrite !coefvz //; have := ltn_ord i; have := ltn_ord j; lia.
Qed.

Definition Lz (s : seq V) : {poly P} := lhq Mz vz s.
Definition Hz (s : seq V) : {poly P} := Ez * Lz s.

Lemma Lz_perm s t : perm_eq s t -> Lz s = Lz t.
Proof. by apply: lhq_perm; exact: Mz_sym. Qed.

Lemma Lz_cons x s : Lz (x :: s) = vz x * Lz s + \sum_(z <- s) Mz x z * Lz (rem z s).
Proof. exact: lhq_cons. Qed.

Lemma derz_Lz s : eqm (derz (Lz s) + 'X * ((Mz a b + vz a * vz b) * Lz s)) ('X * Lz [:: a, b & s]).
Proof.
pose c := Mz a b + vz a * vz b.
have base : eqm (derz (Lz [::]) + 'X * (c * Lz [::])) ('X * Lz [:: a; b]).
  rewrite /Lz !lhq_cons !lhq_nil big_cons /= eqxx !big_nil lhq_nil derz1.
  rewrite (_ : 0 + 'X * (c * 1) = 'X * (vz a * (vz b * 1 + 0) + (Mz a b * 1 + 0))) //.
  by rewrite /c; rring.
move: {2}(size s) (leqnn (size s)) => n; elim: n s => [|n IH] [|x s] sz //.
have -> : Lz [:: a, b, x & s] = Lz [:: x, a, b & s].
  by apply: Lz_perm; apply/seq.permP => p /=; lia.
have -> : Lz [:: x, a, b & s] = vz x * Lz [:: a, b & s] + Mz x a * Lz (b :: s) + Mz x b * Lz (a :: s)
    + \sum_(z <- s) Mz x z * Lz [:: a, b & rem z s].
  rewrite Lz_cons !big_cons [rem a _]/= eqxx [rem b _]/= (negPf nab) eqxx.
  rewrite [in LHS](eq_big_seq (fun z => Mz x z * Lz [:: a, b & rem z s])); first by rring.
  move=> z zs; congr (_ * _); apply: Lz_perm.
  apply: (perm_trans (perm_rem_cons a _)); first by rewrite inE zs orbT.
  by rewrite perm_cons perm_rem_cons.
rewrite [Lz (x :: s)]Lz_cons derzD derzM derz_sum.
have -> : \sum_(i <- s) derz (Mz x i * Lz (rem i s)) =
   \sum_(i <- s) derz (Mz x i) * Lz (rem i s) + \sum_(i <- s) Mz x i * derz (Lz (rem i s)).
  by rewrite -big_split /=; apply: eq_bigr => i _; rewrite derzM.
have -> : derz (vz x) * Lz s + vz x * derz (Lz s) +
   (\sum_(i <- s) derz (Mz x i) * Lz (rem i s) + \sum_(i <- s) Mz x i * derz (Lz (rem i s))) +
   'X * (c * (vz x * Lz s + \sum_(z <- s) Mz x z * Lz (rem z s))) =
   derz (vz x) * Lz s + vz x * (derz (Lz s) + 'X * (c * Lz s)) + \sum_(i <- s) derz (Mz x i) * Lz (rem i s)
   + \sum_(i <- s) Mz x i * (derz (Lz (rem i s)) + 'X * (c * Lz (rem i s))).
  have -> : \sum_(i <- s) Mz x i * (derz (Lz (rem i s)) + 'X * (c * Lz (rem i s))) =
     \sum_(i <- s) Mz x i * derz (Lz (rem i s)) + 'X * (c * \sum_(z <- s) Mz x z * Lz (rem z s)).
    rewrite !mulr_sumr -big_split /=; apply: eq_bigr => i _; rring.
  rring.
apply: (@eqm_trans _ ('X * (Mz x a * vz b + Mz x b * vz a) * Lz s + vz x * ('X * Lz [:: a, b & s])
   + \sum_(i <- s) 'X * (Mz x a * Mz b i + Mz x b * Mz a i) * Lz (rem i s)
   + \sum_(i <- s) Mz x i * ('X * Lz [:: a, b & rem i s]))).
  apply: eqmD; first apply: eqmD; first apply: eqmD.
  - by apply: eqmM => //; apply: derz_vz.
  - by apply: eqmM => //; apply: IH.
  - by apply: eqm_sum => i _; apply: eqmM => //; apply: derz_Mz.
  - apply: eqm_sum => i si; apply: eqmM => //; apply: IH.
    by rewrite size_rem //; move: sz => /=; lia.
rewrite !Lz_cons.
have -> : \sum_(i <- s) 'X * (Mz x a * Mz b i + Mz x b * Mz a i) * Lz (rem i s)
  = 'X * (Mz x a * (\sum_(z <- s) Mz b z * Lz (rem z s)) + Mz x b * (\sum_(z <- s) Mz a z * Lz (rem z s))).
  rewrite !mulr_sumr -big_split mulr_sumr /=; apply: eq_bigr => i _; rring.
have -> : \sum_(i <- s) Mz x i * ('X * Lz [:: a, b & rem i s]) = 'X * \sum_(z <- s) Mz x z * Lz [:: a, b & rem z s].
  rewrite !mulr_sumr /=; apply: eq_bigr => i _; rring.
move=> k kN; apply: (congr1 (fun p : {poly P} => p`_k)); rring.
Qed.

Theorem derz_Hz s : eqm (derz (Hz s)) ('X * Hz [:: a, b & s]).
Proof.
rewrite /Hz derzM.
apply: (@eqm_trans _ (Ez * (derz (Lz s) + 'X * ((Mz a b + vz a * vz b) * Lz s)))).
  rewrite mulrDr addrC; apply: eqmD => //.
  rewrite (_ : Ez * _ = 'X * ((Mz a b + vz a * vz b) * Ez) * Lz s); last by rring.
  by apply: eqmM => //; apply: derz_Ez.
rewrite ['X * (Ez * _)]mulrCA; apply: eqmM => //; exact: derz_Lz.
Qed.

Theorem der_Hz s k : (k < N)%N -> der (Hz s)`_k.+1 = (Hz [:: a, b & s])`_k.
Proof. by move=> kN; have := @derz_Hz s _ kN; rewrite coef_derz coefXM. Qed.

End Walk.
