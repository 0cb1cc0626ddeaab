(** C46: closed formulas of means_and_variances.py against the Gaussian moments. *)
From mathcomp Require Import all_ssreflect all_algebra algC zify.
From Verif Require Import Prelude PyBase ArrLoop SpecHaf ThHaf MHafnian PropPermanent PropPowerHaf PropHafnian MHermite SpecSymp MSymplectic
  PropSymplectic PropSymp2 PropGates PropChannels PropConversions MPartition PropPartition SpecGauss MMeans PropMeans.
Set Implicit Arguments.
Unset Strict Implicit.
Unset Printing Implicit Defensive.
Import Order.Theory GRing.Theory Num.Theory.
Local Open Scope ring_scope.

Section Closed.
Variable C : numClosedFieldType.
Notation mat := (nat -> nat -> C).
Notation vec := (nat -> C).

Lemma qm2 (mu : vec) (cov : mat) a b : qmoment mu cov [:: a; b] = mu a * mu b + cov a b.
Proof. by rewrite /qmoment lhaf_spec_lhq /= !(lhq_cons, lhq_nil, big_cons, big_nil) /=; rring. Qed.
Lemma qm4 (mu : vec) (cov : mat) a b c d : qmoment mu cov [:: a; b; c; d] =
  cov a b * cov c d + cov a c * cov b d + cov a d * cov b c
  + mu a * mu b * cov c d + mu a * mu c * cov b d + mu a * mu d * cov b c
  + mu b * mu c * cov a d + mu b * mu d * cov a c + mu c * mu d * cov a b + mu a * mu b * mu c * mu d.
Proof. by rewrite /qmoment lhaf_spec_lhq /= !(lhq_cons, lhq_nil, big_cons, big_nil) /=; rring. Qed.

Variables (N : nat) (mu : vec) (cov : mat) (hbar : C).
Hypothesis sym : forall i j, (i < 2 * N)%N -> (j < 2 * N)%N -> cov i j = cov j i.
Hypothesis hb0 : hbar != 0.
Let two0 : 2%:R != 0 :> C. Proof. by rewrite pnatr_eq0. Qed.
Let four0 : 4%:R != 0 :> C. Proof. by rewrite pnatr_eq0. Qed.
Ltac ff := ffield; rewrite ?mulf_neq0 ?expf_neq0 //.

(** C46: the mean photon number *)
Theorem photon_number_mean_correct j : (j < N)%N -> photon_number_mean N mu cov j hbar = Ok (E_n N mu cov hbar j).
Proof.
move=> hj; rewrite /photon_number_mean leqNgt; have -> : (j + N < 2 * N)%N by lia.
congr Ok; rewrite /E_n /E_abs2 !qm2 [(j + N)%N]addnC; ff.
Qed.
Theorem photon_number_mean_range j : (N <= j)%N -> photon_number_mean N mu cov j hbar = Err IndexError.
Proof. by move=> hj; rewrite /photon_number_mean ifT //; lia. Qed.
Theorem photon_number_mean_vector_correct :
  photon_number_mean_vector N mu cov hbar = Ok (mkseq (E_n N mu cov hbar) N).
Proof.
rewrite /photon_number_mean_vector /mkseq.
suff h l acc : all (fun j => j < N)%N l -> foldM (fun acc j => bind (photon_number_mean N mu cov j hbar) (fun x => Ok (rcons acc x))) acc l
    = Ok (acc ++ [seq E_n N mu cov hbar i | i <- l]).
  by rewrite h //; apply/allP => j; rewrite mem_iota.
elim: l acc => [|j l IH] acc /=; first by rewrite cats0.
by case/andP => hj hl; rewrite photon_number_mean_correct //= IH // cat_rcons.
Qed.

(** reduced states of one and two modes *)
Lemma red1 j : (j < N)%N -> exists mu' cov', reduced_gaussian N mu cov [:: j] = Ok (mu', cov') /\
  [/\ mu' 0%N = mu j, mu' 1%N = mu (N + j)%N, cov' 0%N 0%N = cov j j &
   [/\ cov' 0%N 1%N = cov j (N + j)%N, cov' 1%N 0%N = cov (N + j)%N j & cov' 1%N 1%N = cov (N + j)%N (N + j)%N]].
Proof.
move=> hj; rewrite /reduced_gaussian /=.
have -> : (N < j)%N || false = false by lia.
case: eqP => [e|ne].
  by have -> : j = 0%N by [lia]; rewrite -e; exists mu, cov.
rewrite /take_modes /=; have -> : (j < 2 * N)%N by lia. have -> : (j + N < 2 * N)%N by lia.
by eexists; eexists; split; first by []; rewrite /= [(j + N)%N]addnC.
Qed.
Lemma det2 (A : mat) : \det (mxof 2 2 A) = A 0%N 0%N * A 1%N 1%N - A 0%N 1%N * A 1%N 0%N.
Proof.
rewrite (expand_det_row _ ord0) !big_ord_recl big_ord0 /cofactor !det_mx11 !mxE /= /bump /= ?addn0 ?add0n ?addn1 ?expr0 ?expr1; rring.
Qed.

(** C46: the variance; the covariance of different modes *)
Theorem photon_number_variance_correct j : (j < N)%N ->
  photon_number_covar N mu cov j j hbar = Ok (E_nn N mu cov hbar j j - E_n N mu cov hbar j ^+ 2).
Proof.
move=> hj; rewrite /photon_number_covar eqxx.
have [mu' [cov' [-> [e0 e1 e2 [e3 e4 e5]]]]] := red1 hj; rewrite /bind; congr Ok.
have s : cov (N + j)%N j = cov j (N + j)%N by apply: sym; lia.
rewrite /mtrace /vdot /mvmul /= !(big_cons, big_nil) det2 e0 e1 e2 e3 e4 e5 s.
by rewrite /E_nn eqxx /E_n /E_abs2_abs2 /E_abs2 !qm2 !qm4 s; ff.
Qed.

Lemma red2 j k : (j < N)%N -> (k < N)%N -> j != k ->
  exists mu' cov', reduced_gaussian N mu cov [:: j; k] = Ok (mu', cov') /\
  let x0 := if N == 2%N then 0%N else j in let x1 := if N == 2%N then 1%N else k in
  [/\ mu' 0%N = mu x0, mu' 1%N = mu x1, mu' 2%N = mu (N + x0)%N, mu' 3%N = mu (N + x1)%N &
   [/\ cov' 0%N 1%N = cov x0 x1, cov' 0%N 3%N = cov x0 (N + x1)%N, cov' 2%N 1%N = cov (N + x0)%N x1 &
       cov' 2%N 3%N = cov (N + x0)%N (N + x1)%N]].
Proof.
move=> hj hk njk; rewrite /reduced_gaussian /=.
have -> : (N < j)%N || ((N < k)%N || false) = false by lia.
rewrite [2%N == N]eq_sym; case: eqP => [e|ne]; first by exists mu, cov; rewrite e.
rewrite /take_modes /=; have -> : (j < 2 * N)%N by lia. have -> : (j + N < 2 * N)%N by lia.
have -> : (k < 2 * N)%N by lia. have -> : (k + N < 2 * N)%N by lia.
by eexists; eexists; split; first by []; rewrite /= [(j + N)%N]addnC [(k + N)%N]addnC.
Qed.
Lemma covar_formula x0 x1 : (x0 < N)%N -> (x1 < N)%N -> x0 != x1 ->
  (cov x0 x1 ^+ 2 + cov x0 (N + x1)%N ^+ 2 + cov (N + x0)%N x1 ^+ 2 + cov (N + x0)%N (N + x1)%N ^+ 2 +
   2%:R * (cov x0 x1 * mu x0 * mu x1 + cov (N + x0)%N x1 * mu x1 * mu (N + x0)%N + cov x0 (N + x1)%N * mu x0 * mu (N + x1)%N
      + cov (N + x0)%N (N + x1)%N * mu (N + x0)%N * mu (N + x1)%N)) / (2%:R * hbar ^+ 2)
  = E_nn N mu cov hbar x0 x1 - E_n N mu cov hbar x0 * E_n N mu cov hbar x1.
Proof.
move=> h0 h1 nx; rewrite /E_nn (negPf nx) /E_n /E_abs2_abs2 /E_abs2 !qm2 !qm4; ff.
Qed.
Lemma E_nn_sym j k : (j < N)%N -> (k < N)%N -> E_nn N mu cov hbar j k = E_nn N mu cov hbar k j.
Proof.
move=> hj hk; rewrite /E_nn [k == j]eq_sym; case: eqP => [->|_] //.
rewrite /E_abs2_abs2 /E_abs2 !qm2 !qm4 (sym (i := k) (j := j)); try lia. 
rewrite (sym (i := k) (j := (N + j)%N)); try lia. rewrite (sym (i := (N + k)%N) (j := j)); try lia. 
rewrite (sym (i := (N + k)%N) (j := (N + j)%N)); try lia.
by ff.
Qed.
Theorem photon_number_covar_correct j k : (j < N)%N -> (k < N)%N -> j != k ->
  photon_number_covar N mu cov j k hbar = Ok (E_nn N mu cov hbar j k - E_n N mu cov hbar j * E_n N mu cov hbar k).
Proof.
move=> hj hk njk; rewrite /photon_number_covar (negPf njk).
have [mu' [cov' [-> [e0 e1 e2 e3 [f0 f1 f2 f3]]]]] := red2 hj hk njk; rewrite /bind; congr Ok.
rewrite e0 e1 e2 e3 f0 f1 f2 f3.
case: (eqVneq N 2%N) => [eN|_]; last exact: covar_formula.
rewrite covar_formula //; try by rewrite eN.
have [[-> ->]|[-> ->]] : (j = 0%N /\ k = 1%N) \/ (j = 1%N /\ k = 0%N) by move: hj hk njk; rewrite eN; clear; lia.
  by [].
by rewrite [E_nn _ _ _ _ 0%N 1%N]E_nn_sym ?[E_n _ _ _ _ 0%N * _]mulrC //; rewrite eN.
Qed.

(** the full covariance matrix *)
Definition cov_n j k : C := E_nn N mu cov hbar j k - E_n N mu cov hbar j * E_n N mu cov hbar k.
Lemma covar_any j k : (j < N)%N -> (k < N)%N -> photon_number_covar N mu cov j k hbar = Ok (cov_n j k).
Proof.
move=> hj hk; have [->|njk] := eqVneq j k; last exact: photon_number_covar_correct.
by rewrite photon_number_variance_correct // /cov_n expr2.
Qed.
Lemma cov_n_sym j k : (j < N)%N -> (k < N)%N -> cov_n j k = cov_n k j.
Proof. by move=> hj hk; rewrite /cov_n E_nn_sym // [E_n _ _ _ _ j * _]mulrC. Qed.

Theorem photon_number_covmat_correct :
  exists2 K, photon_number_covmat N mu cov hbar = Ok K &
   forall i j, (i < N)%N -> (j < N)%N -> K i j = E_nn N mu cov hbar i j - E_n N mu cov hbar i * E_n N mu cov hbar j.
Proof.
rewrite /photon_number_covmat.
pose Q (n : nat) (P : mat) := forall a b, (a < n)%N -> (b < n)%N -> P a b = cov_n a b.
pose body' i := fun (pnd : mat) (j : nat) => bind (photon_number_covar N mu cov i j hbar) (fun x =>
      let pnd := upd2 pnd i j x in Ok (upd2 pnd j i (pnd i j))).
pose body := fun (pnd : mat) (i : nat) => foldM (body' i) pnd (iota 0 i.+1).
rewrite -/body.
have [||K eK hK] := @foldM_inv _ 0 N (fun _ _ => 0) body Q; first by [].
  move=> i P /andP[_]; rewrite add0n => hi qP; rewrite /body.
  pose Q' (n : nat) (P : mat) := Q i P /\ forall b, (b < n)%N -> P i b = cov_n i b /\ P b i = cov_n i b.
  have [||P' eP [h1 h2]] := @foldM_inv _ 0 i.+1 P (body' i) Q'; first by split.
    move=> n P1 /andP[_]; rewrite add0n ltnS => hn [h1 h2].
    rewrite /body' covar_any //; last exact: leq_ltn_trans hn hi.
    rewrite /bind; eexists; first by [].
    have ni : (n == i) = false -> (n < i)%N by move=> e; rewrite ltn_neqAle e.
    split=> [a b ha hb|b hb]; rewrite /upd2 !eqxx /=.
      by rewrite (ltn_eqF hb) (ltn_eqF ha) !andbF h1.
    have [->|nb] := eqVneq b n; rewrite ?eqxx ?andbT ?andbF /=.
      by split=> //; case: ifP.
    have hb' : (b < n)%N by rewrite ltn_neqAle nb.
    have [e1 e2] := h2 b hb'; have nbi : b != i by rewrite ltn_eqF // (leq_trans hb').
    by rewrite (negPf nbi) ?andbF /= e1 e2.
  exists P' => // a b; rewrite !ltnS add0n in h2 * => ha hb.
  have [ea|na] := eqVneq a i; first by rewrite ea (proj1 (h2 b hb)).
  have [eb|nb] := eqVneq b i.
    by rewrite eb (proj2 (h2 a ha)) cov_n_sym //; exact: leq_ltn_trans ha hi.
  by apply: h1; rewrite ltn_neqAle ?na ?nb.
by exists K => // i j hi hj; apply: hK; rewrite add0n.
Qed.
End Closed.
