(** C61: complementary reduced states of a pure state have the same symplectic spectrum apart from 1. *)
From mathcomp Require Import all_ssreflect all_algebra zify.
From Verif Require Import Prelude PyBase ArrLoop MHafnian MHermite MSymplectic MDecomp SpecSymp SpecTor SpecDecomp PropTor PropTor5 PropThr3 PropSpectral PropChannels PropSymp2 PropCharpoly PropDecomp PropDecomp2 PropDecomp3 PropDecomp4 PropDecomp5 PropEnt.
Set Implicit Arguments.
Unset Strict Implicit.
Unset Printing Implicit Defensive.
Import Order.TTheory GRing.Theory Num.Theory.
Local Open Scope ring_scope.

Section Spec.
Variable C : numClosedFieldType.
Lemma poly_fun_eq (p q : {poly C}) : (forall t, p.[t] = q.[t]) -> p = q.
Proof.
move=> h; apply/eqP; rewrite -subr_eq0; apply/negPn/negP => nz.
have ur : uniq [seq (i%:R : C) | i <- iota 0 (size (p - q))].
  rewrite map_inj_uniq ?iota_uniq // => i j /eqP; by rewrite eqr_nat => /eqP.
have ar : all (root (p - q)) [seq (i%:R : C) | i <- iota 0 (size (p - q))].
  by apply/allP => x _; rewrite rootE hornerD hornerN h subrr.
by have := max_poly_roots nz ar ur; rewrite size_map size_iota ltnn.
Qed.
Lemma char_at n (A : 'M[C]_n) s : (char_poly A).[s] = \det (s%:M - A).
Proof.
rewrite /char_poly -horner_evalE -det_map_mx; congr (\det _); apply/matrixP => i j.
rewrite !mxE /= /horner_eval; by case: (i == j); rewrite ?mulr1n ?mulr0n !hornerE.
Qed.
Definition pm N (d : 'rV[C]_N) : seq C := [seq 'i * d 0 i | i <- enum 'I_N] ++ [seq - 'i * d 0 i | i <- enum 'I_N].
Lemma pm_at N (d : 'rV[C]_N) s : (\prod_(x <- pm d) ('X - x%:P)).[s] = \prod_(i < N) (s ^+ 2 + d 0 i ^+ 2).
Proof.
have ii : 'i * 'i = -1 :> C by rewrite -expr2 sqrCi.
rewrite horner_prod big_cat !big_map /= -!enumT !big_enum /= -big_split /=; apply: eq_bigr => i _.
rewrite !hornerD !hornerN !hornerC !hornerX !expr2 mulNr opprK mulrDr !mulrDl !mulNr.
have -> : 'i * d 0 i * ('i * d 0 i) = 'i * 'i * (d 0 i * d 0 i) by rring.
rewrite ii; rring.
Qed.
Lemma det_square N (A : 'M[C]_(N + N)) (d : 'rV[C]_N) t : char_poly A = \prod_(x <- pm d) ('X - x%:P) ->
  \det (t%:M - A *m A) = \prod_(i < N) (t + d 0 i ^+ 2) ^+ 2.
Proof.
move=> cA; pose s := sqrtC t; have st : s ^+ 2 = t by rewrite sqrtCK.
have -> : t%:M - A *m A = (s%:M - A) *m (- ((- s)%:M - A)).
  have -> : - ((- s)%:M - A) = s%:M + A by rewrite opprB raddfN /= opprK addrC.
  by rewrite mulmxDr !mulmxBl -scalar_mxM -expr2 st scalar_mxC addrA subrK.
rewrite det_mulmx -[X in _ * \det X]scaleN1r detZ -!char_at cA !pm_at sqrrN st -signr_odd addnn odd_double mul1r -big_split /=.
by apply: eq_bigr => i _; rewrite expr2.
Qed.
Lemma det_shift N (A : 'M[C]_(N + N)) (d : 'rV[C]_N) (B : 'M[C]_(N + N)) t : char_poly A = \prod_(x <- pm d) ('X - x%:P) ->
  A *m A + B = - 1%:M -> \det (t%:M - B) = \prod_(i < N) (t - (d 0 i ^+ 2 - 1)) ^+ 2.
Proof.
move=> cA e; have -> : t%:M - B = - ((- (t + 1))%:M - A *m A).
  have -> : B = - 1%:M - A *m A by rewrite -e addrC addKr.
  by apply/matrixP => i j; rewrite !mxE; case: (i == j); rewrite ?mulr1n ?mulr0n; rring.
rewrite -[X in \det X]scaleN1r detZ -signr_odd [in odd _]addnn odd_double mul1r (det_square _ cA); apply: eq_bigr => i _.
by rring.
Qed.
Theorem pure_spectra m n (a : 'M[C]_(m + m)) (b : 'M[C]_(m + m, n + n)) (c : 'M[C]_(n + n, m + m)) (d : 'M[C]_(n + n)) (x : 'rV[C]_m) (y : 'rV[C]_n) :
  a *m a + b *m c = - 1%:M -> d *m d + c *m b = - 1%:M ->
  char_poly a = \prod_(z <- pm x) ('X - z%:P) -> char_poly d = \prod_(z <- pm y) ('X - z%:P) ->
  (forall i, 0 < x 0 i) -> (forall i, 0 < y 0 i) ->
  perm_eq [seq z <- [seq x 0 i | i <- enum 'I_m] | z != 1] [seq z <- [seq y 0 i | i <- enum 'I_n] | z != 1].
Proof.
move=> e1 e2 ca cd px py.
pose rt k (w : 'rV[C]_k) := [seq w 0 i ^+ 2 - 1 | i <- enum 'I_k].
have at_ k l (w : 'rV[C]_k) t : (\prod_(z <- nseq (l + l) 0 ++ (rt k w ++ rt k w)) ('X - z%:P)).[t] = t ^+ (l + l) * \prod_(i < k) (t - (w 0 i ^+ 2 - 1)) ^+ 2.
  rewrite !big_cat /= !big_map /= -!enumT !big_enum /= big_nseq hornerM; congr (_ * _).
    by rewrite subr0 iter_mulr_1 hornerXn.
  by rewrite -big_split horner_prod /=; apply: eq_bigr => i _; rewrite -expr2 horner_exp !hornerE.
have : perm_eq (nseq (n + n) 0 ++ (rt m x ++ rt m x)) (nseq (m + m) 0 ++ (rt n y ++ rt n y)).
  apply: prod_XsubC_perm; apply: poly_fun_eq => t; rewrite !at_ -(det_shift t ca e1) -(det_shift t cd e2).
  exact: sylvester.
move=> /permP h; apply/permP => q.
pose q' z := (z != 0) && q (sqrtC (z + 1)).
have cn k : count q' (nseq k 0) = 0%N by elim: k => //= k ->; rewrite /q' eqxx.
have cr k (w : 'rV[C]_k) : (forall i, 0 < w 0 i) -> count q' (rt k w) = count q [seq z <- [seq w 0 i | i <- enum 'I_k] | z != 1].
  move=> pw; rewrite count_filter !count_map; apply: eq_count => i /=.
  rewrite /q' subrK sqrCK ?ltW // andbC; congr (_ && ~~ _); rewrite subr_eq0 -[1 in LHS](expr1n _ 2).
  by rewrite eqr_expn2 ?ler01 ?ltW.
have := h q'; rewrite !count_cat !cn !add0n !cr // => e; lia.
Qed.
End Spec.
