(** C64: the weight of the n-photon sector of a pure state with quadratic form B obeys Newton's recurrence. *)
From mathcomp Require Import all_ssreflect all_algebra zify.
From Verif Require Import Prelude PyBase SpecHaf SpecFock PropFock7 PropTor PropSpectral PropPnd.
Set Implicit Arguments.
Unset Strict Implicit.
Unset Printing Implicit Defensive.
Import Order.TTheory GRing.Theory Num.Theory.
Local Open Scope ring_scope.

Section Sum.
Variable C : numClosedFieldType.
(** sum over all k of length N with total n *)
Fixpoint psum (N n : nat) (F : seq nat -> C) : C :=
  if N is N'.+1 then \sum_(a < n.+1) psum N' (n - a) (fun k => F ((a : nat) :: k)) else if n == 0%N then F [::] else 0.
Lemma psum_ext N n F G : (forall k, size k = N -> sumn k = n -> F k = G k) -> psum N n F = psum N n G.
Proof.
elim: N n F G => [|N IH] n F G h /=; first by case: eqP => // e; apply: h; rewrite ?e.
apply: eq_bigr => a _; apply: IH => k sk sn; apply: h; rewrite /= ?sk // sn; have := ltn_ord a; lia.
Qed.
Lemma psum_sum N n (I : finType) (P : pred I) (F : I -> seq nat -> C) : psum N n (fun k => \sum_(i | P i) F i k) = \sum_(i | P i) psum N n (F i).
Proof.
elim: N n F => [|N IH] n F /=; first by case: eqP => // _; rewrite big1.
by rewrite exchange_big /=; apply: eq_bigr => a _; rewrite IH.
Qed.
Lemma psum_mul N n c F : psum N n (fun k => c * F k) = c * psum N n F.
Proof.
elim: N n F => [|N IH] n F /=; first by case: eqP => // _; rewrite mulr0.
by rewrite mulr_sumr; apply: eq_bigr => a _; rewrite IH.
Qed.
Lemma psum_add N n F G : psum N n (fun k => F k + G k) = psum N n F + psum N n G.
Proof.
elim: N n F G => [|N IH] n F G /=; first by case: eqP => // _; rewrite addr0.
by rewrite -big_split /=; apply: eq_bigr => a _; rewrite IH.
Qed.
Lemma psum0 N F : psum N 0 F = F (nseq N 0%N).
Proof. by elim: N F => [|N IH] F //=; rewrite big_ord1 /= IH. Qed.
Lemma psum_shift N n (F : nat -> seq nat -> C) :
  psum N n.+1 (fun k => \sum_(u < N | (0 < nth 0%N k u)%N) F u (drop1 k u)) = \sum_(u < N) psum N n (F u).
Proof.
elim: N n F => [|N IH] n F /=; first by rewrite big_ord0.
rewrite (eq_bigr (fun a : 'I_n.+2 => psum N (n.+1 - a) (fun k => (if (0 < a)%N then F 0%N (a.-1 :: k) else 0)) +
    psum N (n.+1 - a) (fun k => \sum_(u < N | (0 < nth 0%N k u)%N) F u.+1 ((a : nat) :: drop1 k u)))); last first.
  move=> a _; rewrite -psum_add; apply: psum_ext => k sk sn.
  by rewrite big_mkcond big_ord_recl /= -big_mkcond /=; congr (_ + _).
rewrite big_split /= big_ord_recl /= [RHS]big_ord_recl; congr (_ + _).
  rewrite (psum_ext (G := fun k => 0 * 0)) => [|k _ _]; last by rewrite mul0r.
  by rewrite psum_mul mul0r add0r; apply: eq_bigr => a _.
rewrite big_ord_recr /= subnn psum0 [X in _ + X]big_pred0 ?addr0 => [|u]; last by rewrite nth_nseq if_same.
rewrite [RHS](_ : _ = \sum_(u < N) \sum_(a < n.+1) psum N (n - a) (fun k => F u.+1 ((a : nat) :: k))) //.
rewrite exchange_big /=; apply: eq_bigr => a _; have ha := ltn_ord a.
rewrite subSn; last by rewrite -ltnS.
exact: (IH (n - a)%N (fun u k => F u.+1 ((a : nat) :: k))).
Qed.
End Sum.

Section Rec.
Variable C : numClosedFieldType.
Variables (N : nat) (B : 'M[C]_N) (Bf : nat -> nat -> C) (h : seq nat -> C).
Hypothesis BE : forall x y : 'I_N, Bf x y = B x y.
Hypothesis Bs : B^T = B.
Hypothesis hP : taylor_exp_quadratic N Bf (fun _ => 0) h.
Let w (k : seq nat) : C := (fact_prod k)%:R^-1.
Let hrec k (x : 'I_N) : size k = N -> h (bump k x) = \sum_(u < N) B x u * ((nth 0%N k u)%:R * h (drop1 k u)).
Proof.
move=> sk; have [_ e] := hP; rewrite e // mul0r add0r; apply: eq_bigr => u _; by rewrite BE mulrA.
Qed.
Lemma fact_prodE k : (fact_prod k)%:R = \prod_(u < size k) ((nth 0%N k u)`!)%:R :> C.
Proof. by rewrite /fact_prod (big_nth 0%N) big_mkord natr_prod. Qed.
Lemma size_drop k u : (u < size k)%N -> size (drop1 k u) = size k.
Proof. by move=> h'; rewrite size_set_nth; apply/maxn_idPr. Qed.
Lemma size_bump' k u : (u < size k)%N -> size (bump k u) = size k.
Proof. by move=> h'; rewrite size_set_nth; apply/maxn_idPr. Qed.
Lemma w_bump k (u : nat) : (u < size k)%N -> (nth 0%N k u).+1%:R * w (bump k u) = w k.
Proof.
move=> hu; rewrite /w !fact_prodE size_bump' // (bigD1 (Ordinal hu)) //= [in RHS](bigD1 (Ordinal hu)) //=.
rewrite /bump nth_set_nth /= eqxx factS natrM.
rewrite (eq_bigr (fun i : 'I_(size k) => ((nth 0%N k i)`!)%:R)) => [|i ne]; last first.
  by rewrite nth_set_nth /=; move: ne; rewrite -val_eqE /= => /negPf ->.
rewrite -mulrA invfM mulrA mulfV ?mul1r // pnatr_eq0 //.
Qed.
Lemma bump_drop k u : (u < size k)%N -> (0 < nth 0%N k u)%N -> bump (drop1 k u) u = k.
Proof.
move=> hu h0; rewrite /bump /drop1 nth_set_nth /= eqxx prednK //; apply: (@eq_from_nth _ 0%N); first by rewrite !size_set_nth; lia.
by move=> i _; rewrite nth_set_nth /= nth_set_nth /=; case: eqP => [->|].
Qed.
Lemma drop_bump k u : (u < size k)%N -> drop1 (bump k u) u = k.
Proof.
move=> hu; rewrite /bump /drop1 nth_set_nth /= eqxx; apply: (@eq_from_nth _ 0%N); first by rewrite !size_set_nth; lia.
by move=> i _; rewrite nth_set_nth /= nth_set_nth /=; case: eqP => [->|].
Qed.
Lemma drop_bump_ne k u v : (u < size k)%N -> (v < size k)%N -> u != v -> drop1 (bump k u) v = bump (drop1 k v) u.
Proof.
move=> hu hv ne; apply: (@eq_from_nth _ 0%N); first by rewrite !size_set_nth; lia.
by move=> i _; rewrite /bump /drop1 !(nth_set_nth, size_set_nth) /= !nth_set_nth /= [v == u]eq_sym (negPf ne); case: (eqVneq i v) => [->|]; rewrite ?[v == u]eq_sym ?(negPf ne).
Qed.
Lemma drop_bump_pos k u v : (u < size k)%N -> (v < size k)%N -> (0 < nth 0%N k v)%N -> drop1 (bump k u) v = bump (drop1 k v) u.
Proof.
move=> hu hv p; case: (eqVneq u v) => [e|ne]; last exact: drop_bump_ne.
by subst v; rewrite drop_bump // bump_drop.
Qed.
Lemma w_drop k (u : nat) : (u < size k)%N -> (0 < nth 0%N k u)%N -> (nth 0%N k u)%:R * w k = w (drop1 k u).
Proof.
move=> hu p; have := @w_bump (drop1 k u) u; rewrite size_drop // bump_drop // => <- //.
by rewrite /drop1 nth_set_nth /= eqxx prednK.
Qed.
(** summation by parts *)
Lemma parts n (F : nat -> seq nat -> C) :
  psum N n.+1 (fun k => \sum_(u < N) (nth 0%N k u)%:R * (w k * F u (drop1 k u))) = \sum_(u < N) psum N n (fun k => w k * F u k).
Proof.
rewrite -(psum_shift N n (fun u k => w k * F u k)); apply: psum_ext => k sk _; rewrite [RHS]big_mkcond /=; apply: eq_bigr => u _.
have hu : (u < size k)%N by rewrite sk.
by case: (posnP (nth 0%N k u)) => [->|p]; rewrite ?mul0r // mulrA w_drop.
Qed.
Lemma parts0 (F : nat -> seq nat -> C) : psum N 0 (fun k => \sum_(u < N) (nth 0%N k u)%:R * F u k) = 0.
Proof. by rewrite psum0 big1 // => u _; rewrite nth_nseq if_same mul0r. Qed.

Definition sector (n : nat) : C := psum N n (fun k => w k * `|h k| ^+ 2).
Let Phi (n : nat) (P : 'M[C]_N) : C := psum N n (fun k => w k * (\sum_(x < N) \sum_(y < N) h (bump k x) * P x y * (h (bump k y))^*)).
Lemma Phi1 n : Phi n 1%:M = n.+1%:R * sector n.+1.
Proof.
rewrite /sector -psum_mul.
transitivity (\sum_(u < N) psum N n (fun k => w k * `|h (bump k u)| ^+ 2)).
  rewrite -psum_sum; apply: psum_ext => k sk _; rewrite mulr_sumr; apply: eq_bigr => x _; congr (_ * _).
  rewrite (bigD1 x) //= big1 ?addr0 => [|y ne]; last by rewrite mxE eq_sym (negPf ne) mulr0 mul0r.
  by rewrite mxE eqxx mulr1 normCK.
rewrite -(parts n (fun u k => `|h (bump k u)| ^+ 2)); apply: psum_ext => k sk sn.
rewrite (eq_bigr (fun u : 'I_N => (nth 0%N k u)%:R * (w k * `|h k| ^+ 2))) => [|u _]; last first.
  have hu : (u < size k)%N by rewrite sk.
  by case: (posnP (nth 0%N k u)) => [->|p]; rewrite ?mul0r // bump_drop.
rewrite -mulr_suml -natr_sum; congr (_%:R * _).
by rewrite -sn sumnE (big_nth 0%N) sk big_mkord.
Qed.
Let nx (P : 'M[C]_N) : 'M[C]_N := ct B *m P^T *m B.
Lemma nxE P v u : nx P v u = \sum_(x < N) \sum_(y < N) (B y v)^* * P x y * B x u.
Proof.
by rewrite !mxE; apply: eq_bigr => x _; rewrite !mxE mulr_suml; apply: eq_bigr => y _; rewrite !mxE.
Qed.
Lemma hb2 k (u y : 'I_N) : size k = N -> h (bump (bump k u) y) = B y u * h k + \sum_(v < N) B y v * ((nth 0%N k v)%:R * h (bump (drop1 k v) u)).
Proof.
move=> sk; have hu : (u < size k)%N by rewrite sk.
rewrite hrec ?size_bump' //.
rewrite (eq_bigr (fun v : 'I_N => (v == u)%:R * (B y v * h k) + B y v * ((nth 0%N k v)%:R * h (bump (drop1 k v) u)))) => [|v _].
  rewrite big_split /=; congr (_ + _); rewrite (bigD1 u) //= eqxx mul1r big1 ?addr0 // => v /negPf ->; by rewrite mul0r.
have hv : (v < size k)%N by rewrite sk.
rewrite nth_bump // addnC natrD; case: (eqVneq v u) => [->|ne].
  rewrite drop_bump // eqxx; case: (posnP (nth 0%N k u)) => [->|p]; first by rewrite /= ?mulr1n ?mulr0n; rring.
  by rewrite bump_drop //= ?mulr1n; rring.
rewrite drop_bump_ne // 1?eq_sym //.
by rewrite -val_eqE /= in ne; rewrite ?[u == v :> nat]eq_sym (negPf ne) /=; rring.
Qed.
Lemma Phi_rec n P : Phi n.+1 P = \tr (nx P) * sector n + (if n is n'.+1 then Phi n' (nx P) else 0).
Proof.
pose F (u : nat) (k : seq nat) := \sum_(x < N) \sum_(y < N) Bf x u * P x y * (h k * (h (bump (bump k u) y))^*).
have -> : Phi n.+1 P = \sum_(u < N) psum N n (fun k => w k * F u k).
  rewrite -parts; apply: psum_ext => k sk _.
  rewrite [RHS](eq_bigr (fun u : 'I_N => \sum_(x < N) \sum_(y < N) w k * (B x u * ((nth 0%N k u)%:R * h (drop1 k u))) * P x y * (h (bump k y))^*)); last first.
    move=> u _; have hu : (u < size k)%N by rewrite sk.
    rewrite mulrCA /F !mulr_sumr; apply: eq_bigr => x _; rewrite !mulr_sumr; apply: eq_bigr => y _; rewrite BE.
    by case: (posnP (nth 0%N k u)) => [->|p]; [rewrite mulr0n|rewrite bump_drop //]; move: (_^*) => *; rring.
  rewrite [RHS]exchange_big /= mulr_sumr; apply: eq_bigr => x _; rewrite [RHS]exchange_big /= mulr_sumr; apply: eq_bigr => y _.
  by rewrite hrec // !mulr_suml mulr_sumr; apply: eq_bigr => u _; rewrite !mulrA.
pose G (v : nat) (k : seq nat) := \sum_(u < N) \sum_(x < N) \sum_(y < N) Bf x u * P x y * (Bf y v)^* * (h (bump k v) * (h (bump k u))^*).
have -> : \sum_(u < N) psum N n (fun k => w k * F u k) = \tr (nx P) * sector n + psum N n (fun k => \sum_(v < N) (nth 0%N k v)%:R * (w k * G v (drop1 k v))).
  rewrite -psum_sum /sector -psum_mul -psum_add; apply: psum_ext => k sk _.
  have tE : \tr (nx P) = \sum_(u < N) \sum_(x < N) \sum_(y < N) (B y u)^* * P x y * B x u by apply: eq_bigr => u _; rewrite nxE.
  rewrite [in RHS](eq_bigr (fun v : 'I_N => \sum_(u < N) \sum_(x < N) \sum_(y < N) w k * (B x u * P x y * (h k * ((B y v)^* * ((nth 0%N k v)%:R * h (bump (drop1 k v) u))^* ))))); last first.
    move=> v _; have hv : (v < size k)%N by rewrite sk.
    rewrite mulrCA /G !mulr_sumr; apply: eq_bigr => u _; rewrite !mulr_sumr; apply: eq_bigr => x _; rewrite !mulr_sumr; apply: eq_bigr => y _; rewrite !BE rmorphM /= conjC_nat.
    by case: (posnP (nth 0%N k v)) => [->|p]; [rewrite mulr0n|rewrite bump_drop //]; move: (_^*) => *; rring.
  rewrite [X in _ = _ + X]exchange_big /= tE mulr_suml -big_split /=; apply: eq_bigr => u _.
  rewrite [X in _ = _ + X]exchange_big /= /F mulr_suml mulr_sumr -big_split /=; apply: eq_bigr => x _.
  rewrite [X in _ = _ + X]exchange_big /= mulr_suml mulr_sumr -big_split /=; apply: eq_bigr => y _.
  rewrite hb2 // rmorphD rmorphM /= rmorph_sum /= BE normCK.
  rewrite [in RHS](eq_bigr (fun v : 'I_N => w k * (B x u * P x y * h k) * ((B y v)^* * ((nth 0%N k v)%:R * h (bump (drop1 k v) u))^*))) => [|v _]; last by rring.
  rewrite -mulr_sumr [in LHS](eq_bigr (fun v : 'I_N => (B y v)^* * ((nth 0%N k v)%:R * h (bump (drop1 k v) u))^*)) => [|v _]; last by rewrite rmorphM.
  by rring.
congr (_ + _); case: n => [|n]; first by rewrite (parts0 (fun v k => w k * G v (drop1 k v))).
rewrite parts /Phi -psum_sum; apply: psum_ext => k sk _; rewrite -mulr_sumr; congr (_ * _); apply: eq_bigr => v _.
rewrite /G; apply: eq_bigr => u _; rewrite nxE mulr_sumr mulr_suml; apply: eq_bigr => x _; rewrite mulr_sumr mulr_suml; apply: eq_bigr => y _.
by rewrite !BE; rring.
Qed.
Let G0 : 'M[C]_N := ct B *m B.
Fixpoint mpow (M : 'M[C]_N) (l : nat) : 'M[C]_N := if l is l'.+1 then mpow M l' *m M else 1%:M.
Lemma mpowC M l : M *m mpow M l = mpow M l *m M.
Proof. by elim: l => [|l IH] /=; rewrite ?mulmx1 ?mul1mx // mulmxA IH. Qed.
Lemma nx_pow l : nx (mpow G0 l) = mpow G0 l.+1.
Proof.
rewrite /nx; elim: l => [|l IH] /=; first by rewrite trmx1 mulmx1 mul1mx.
rewrite -[RHS]/(mpow G0 l.+1 *m G0) -mpowC -IH.
have e : G0^T = B *m ct B by rewrite /G0 trmx_mul Bs /ct map_trmx trmxK Bs.
by rewrite trmx_mul e /G0 !mulmxA.
Qed.
Lemma Phi0 P : Phi 0 P = 0.
Proof.
rewrite /Phi psum0; have sk : size (nseq N 0%N) = N by rewrite size_nseq.
have z (x : 'I_N) : h (bump (nseq N 0%N) x) = 0 by rewrite hrec // big1 // => u _; rewrite nth_nseq if_same mul0r mulr0.
by rewrite big1 ?mulr0 // => x _; rewrite big1 // => y _; rewrite z !mul0r.
Qed.
Lemma Phi_pow n l : Phi n (mpow G0 l) = \sum_(j < n | (2 * j.+1 <= n.+1)%N) \tr (mpow G0 (l + j.+1)) * sector (n.+1 - 2 * j.+1)%N.
Proof.
elim/ltn_ind: n l => -[|n] IH l; first by rewrite Phi0 big_ord0.
rewrite Phi_rec nx_pow [RHS]big_mkcond [RHS]big_ord_recl; congr (_ + _).
  by rewrite /= addn1; congr (_ * sector _); lia.
case: n IH => [|n] IH; first by rewrite big_ord0.
rewrite IH // -[RHS]big_mkcond.
rewrite (big_ord_widen_cond n.+1 (fun j => (2 * j.+1 <= n.+1)%N) (fun j => \tr (mpow G0 (l.+1 + j.+1)) * sector (n.+1 - 2 * j.+1)%N)) //.
apply: eq_big => [j|j _]; rewrite ?lift0; first by lia.
by congr (\tr (mpow G0 _) * sector _); lia.
Qed.
(** C64: Newton's recurrence *)
Lemma sector_newton : newton (fun l => \tr (mpow G0 l)) sector.
Proof.
split; first by have [e _] := hP; rewrite /sector psum0 e normr1 expr1n mulr1 /w /fact_prod big_nseq; elim: (N) => [|m IH] /=; rewrite ?invr1 // mul1n.
case=> [|n]; first by rewrite mul0r big_ord0.
rewrite -Phi1 -[1%:M]/(mpow G0 0) Phi_pow [RHS]big_mkcond big_ord_recr /=.
have -> : (2 * n.+1 <= n.+1)%N = false by lia.
by rewrite addr0 -big_mkcond.
Qed.
End Rec.
