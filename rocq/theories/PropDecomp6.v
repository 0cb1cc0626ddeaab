(** The Takagi decomposition. *)
From mathcomp Require Import all_ssreflect all_algebra zify.
From Verif Require Import Prelude PyBase ArrLoop MHafnian MHermite MSymplectic MDecomp SpecSymp SpecTor SpecDecomp PropTor PropTor5 PropThr3 PropSpectral PropChannels PropSymp2 PropDecomp PropDecomp2 PropDecomp3 PropDecomp4.
Set Implicit Arguments.
Unset Strict Implicit.
Unset Printing Implicit Defensive.
Import Order.TTheory GRing.Theory Num.Theory.
Local Open Scope ring_scope.

Section Tak.
Variable C : numClosedFieldType.
Notation mat := (nat -> nat -> C).
Notation vec := (nat -> C).
Notation mxo n A := (mxof n n A).

Lemma unitary_mx n (U : mat) : unitary n U <-> ct (mxo n U) *m mxo n U = 1%:M.
Proof.
split=> [h|e i j hi hj].
  by apply/matrixP => i j; rewrite !mxE -h //; apply: eq_bigr => k _; rewrite !mxE.
move/matrixP: e => /(_ (Ordinal hi) (Ordinal hj)); rewrite !mxE -val_eqE /= => <-.
by apply: eq_bigr => k _; rewrite !mxE.
Qed.

(** polynomials in a matrix *)
Definition mpoly n (p : seq C) (Z : 'M[C]_n) : 'M[C]_n := \sum_(k < size p) p`_k *: iter k (mulmx Z) 1%:M.
Lemma mpoly_twine n (p : seq C) (K Y Z : 'M[C]_n) : K *m Y = Z *m K -> K *m mpoly p Y = mpoly p Z *m K.
Proof.
move=> e; rewrite /mpoly mulmx_sumr mulmx_suml; apply: eq_bigr => k _; rewrite -scalemxAr -scalemxAl; congr (_ *: _).
by elim: (nat_of_ord k) => [|m IH] /=; rewrite ?mulmx1 ?mul1mx // mulmxA e -[LHS]mulmxA IH mulmxA.
Qed.
Lemma iter_mulC n (Z : 'M[C]_n) k : iter k (mulmx Z) 1%:M *m Z = Z *m iter k (mulmx Z) 1%:M.
Proof. by elim: k => [|k IH] /=; rewrite ?mulmx1 ?mul1mx // -mulmxA IH. Qed.
Lemma mpoly_tr n (p : seq C) (Z : 'M[C]_n) : (mpoly p Z)^T = mpoly p Z^T.
Proof.
rewrite /mpoly raddf_sum; apply: eq_bigr => k _ /=.
have -> : forall a (M : 'M[C]_n), (a *: M)^T = a *: M^T by move=> a M; apply/matrixP => i j; rewrite !mxE.
congr (_ *: _).
by elim: (nat_of_ord k) => [|m IH] /=; rewrite ?trmx1 // trmx_mul IH iter_mulC.
Qed.
Lemma mpoly_ct n (p : seq C) (Z : 'M[C]_n) : ct (mpoly p Z) = mpoly [seq x^* | x <- p] (ct Z).
Proof.
have cts m (F : 'I_m -> 'M[C]_n) : ct (\sum_(k < m) F k) = \sum_(k < m) ct (F k).
  elim: m F => [|m IH] F; first by rewrite !big_ord0; apply/matrixP => i j; rewrite !mxE rmorph0.
  by rewrite !big_ord_recr ctD IH.
rewrite /mpoly size_map cts; apply: eq_bigr => k _ /=.
rewrite ctZ (nth_map 0) //; congr (_ *: _); rewrite /ct.
by elim: (nat_of_ord k) => [|m IH] /=; rewrite ?trmx1 ?map_mx1 // trmx_mul map_mxM IH iter_mulC.
Qed.

Section Svd.
Variables (n : nat) (u v A X : 'M[C]_n) (d : 'rV[C]_n) (p : seq C).
Hypotheses (uu : ct u *m u = 1%:M) (uv : ct v *m v = 1%:M) (d0 : forall i, 0 <= d 0 i).
Hypotheses (AE : A = u *m diag_mx d *m v) (sA : A^T = A).
Let Z := ct u *m v^T.
Hypotheses (XX : X *m X = Z) (Xp : X = mpoly p Z).
Let D := diag_mx d.
Let uu' : u *m ct u = 1%:M := mulmx1C uu.
Let vv' : v *m ct v = 1%:M := mulmx1C uv.
Lemma tr_ct m k (M : 'M[C]_(m, k)) : (ct M)^T = map_mx conjC M.
Proof. by apply/matrixP => i j; rewrite !mxE. Qed.
Lemma ct_tr m k (M : 'M[C]_(m, k)) : ct M^T = map_mx conjC M.
Proof. by apply/matrixP => i j; rewrite !mxE. Qed.
Lemma Dct : ct D = D.
Proof. by apply/matrixP => i j; rewrite !mxE eq_sym; case: eqP => [->|]; rewrite ?mulr1n ?mulr0n ?rmorph0 //; apply/CrealP/ger0_real. Qed.
Lemma utc : u^T *m map_mx conjC u = 1%:M.
Proof. by rewrite -tr_ct -trmx_mul uu trmx1. Qed.
Lemma vct : map_mx conjC v *m v^T = 1%:M.
Proof. by rewrite -tr_ct -trmx_mul vv' trmx1. Qed.
Lemma ZZ : ct Z *m Z = 1%:M.
Proof. by rewrite /Z ctM ctK ct_tr -mulmxA [u *m _]mulmxA uu' mul1mx vct. Qed.
Lemma ZZ' : Z *m ct Z = 1%:M. Proof. exact: mulmx1C ZZ. Qed.
Lemma ZD : Z *m D = D *m Z^T.
Proof.
have e : u *m D *m v = v^T *m D *m u^T.
  by rewrite -[LHS]AE -{1}sA AE !trmx_mul tr_diag_mx mulmxA.
rewrite /Z trmx_mul trmxK tr_ct.
have := congr1 (fun M => ct u *m M *m map_mx conjC u) e; rewrite -!mulmxA utc mulmx1 ![ct u *m (u *m _)]mulmxA uu mul1mx => ->.
by rewrite mulmxA.
Qed.
Lemma ZDC : Z *m D = D *m Z.
Proof.
have e1 : D = Z *m D *m map_mx conjC Z by rewrite ZD -mulmxA -tr_ct -trmx_mul ZZ trmx1 mulmx1.
have c : ct (map_mx conjC Z) = Z^T by apply/matrixP => i j; rewrite !mxE conjCK.
have e2 : D = Z^T *m D *m ct Z by rewrite -{1}Dct {1}e1 !ctM Dct c mulmxA.
have e3 : D *m D = Z *m (D *m D) *m ct Z.
  rewrite {1}e1 {2}e2 -!mulmxA [map_mx conjC Z *m _]mulmxA -tr_ct -trmx_mul ZZ' trmx1 mul1mx. by rewrite !mulmxA.
have e4 : Z *m (D *m D) = D *m D *m Z by rewrite {2}e3 -!mulmxA ZZ mulmx1.
apply/matrixP => i j; move/matrixP: e4 => /(_ i j).
rewrite /D mulmx_diag !mul_mx_diag !mul_diag_mx; rewrite mxE [RHS]mxE ![(\row__ _) _ _]mxE => e.
rewrite mxE [RHS]mxE; case: (Z i j =P 0) => [->|/eqP nz]; first by rewrite mul0r mulr0.
move: e; rewrite mulrC => /(mulIf nz)/eqP; rewrite -!expr2 eqr_expn2 // => /eqP->; exact: mulrC.
Qed.
Lemma XZ : X *m Z = Z *m X. Proof. by rewrite -XX mulmxA. Qed.
Lemma X_unitary : ct X *m X = 1%:M.
Proof.
have c1 : ct Z *m X = X *m ct Z by rewrite Xp; apply: mpoly_twine; rewrite ZZ ZZ'.
have c2 : X *m ct X = ct X *m X by rewrite {2 3}Xp mpoly_ct; apply: mpoly_twine; rewrite c1.
have uX : X \in unitmx.
  have : Z \in unitmx by case: (mulmx1_unit ZZ).
  by rewrite -XX unitmx_mul => /andP[].
apply: pos_sqrt_unique; [|exact: pos1|].
  by have := pos_congr (@pos1 C n) uX; rewrite mulmx1.
rewrite mulmx1 -mulmxA [X *m (ct X *m _)]mulmxA c2 -mulmxA mulmxA XX -ctM XX. exact: ZZ.
Qed.
Lemma svd_unitary : ct (u *m X) *m (u *m X) = 1%:M.
Proof. by rewrite ctM -mulmxA [ct u *m _]mulmxA uu mul1mx X_unitary. Qed.
Lemma svd_rec : u *m X *m D *m (u *m X)^T = A.
Proof.
have e1 : D *m X^T = X *m D.
  by rewrite Xp mpoly_tr; apply: mpoly_twine; rewrite ZD.
rewrite trmx_mul -!mulmxA [D *m _]mulmxA e1 ![X *m _]mulmxA XX.
by rewrite /Z !mulmxA uu' mul1mx -[RHS]sA AE !trmx_mul tr_diag_mx mulmxA.
Qed.
End Svd.

(** a Takagi factorisation entrywise *)
Lemma facE n (U : mat) (r : vec) i j : (i < n)%N -> (j < n)%N ->
  mprod n (mprod n U (diagm r)) (tr U) i j = \sum_(k < n) U i k * r k * U j k.
Proof.
move=> hi hj; apply: eq_bigr => k _; rewrite /tr; congr (_ * _).
rewrite /mprod (bigD1 k) //= /diagm eqxx big1 ?addr0 // => l nl.
by have /negPf -> : (l : nat) != k by []; rewrite mulr0.
Qed.
Lemma fact_ext n (A : mat) (r r' : vec) (U U' : mat) : takagi_fact n A r U ->
  (forall i, (i < n)%N -> r' i = r i) -> eqm n U' U -> takagi_fact n A r' U'.
Proof.
move=> [h1 h2 h3] er eU; split=> [i hi|i j hi hj|i j hi hj]; first by rewrite er // h1.
  by rewrite -h2 //; apply: eq_bigr => k _; rewrite !eU.
rewrite h3 // !facE //; apply: eq_bigr => k _; by rewrite !eU // er.
Qed.
Lemma fact_extA n (A A' : mat) (r : vec) (U : mat) : eqm n A A' -> takagi_fact n A r U -> takagi_fact n A' r U.
Proof. by move=> e [h1 h2 h3]; split=> // i j hi hj; rewrite -e // h3. Qed.
Lemma perm_iota_lt n (p : seq nat) i : perm_eq p (iota 0 n) -> (i < n)%N -> (nth 0%N p i < n)%N.
Proof.
move=> pe hi; have : nth 0%N p i \in iota 0 n by rewrite -(perm_mem pe) mem_nth // (perm_size pe) size_iota.
by rewrite mem_iota.
Qed.
Lemma sum_perm n (p : seq nat) (F : nat -> C) : perm_eq p (iota 0 n) -> \sum_(k < n) F (nth 0%N p k) = \sum_(k < n) F k.
Proof.
move=> pe; rewrite -(big_mkord xpredT F) -(big_mkord xpredT (fun k => F (nth 0%N p k))) /index_iota subn0.
rewrite -[RHS](perm_big _ pe) /= -(big_map (fun k => nth 0%N p k) xpredT F); congr (\sum_(k <- _) _).
by rewrite -[RHS](mkseq_nth 0%N) /mkseq (perm_size pe) size_iota.
Qed.
Lemma fact_perm n (A : mat) (r : vec) (U : mat) (p : seq nat) : perm_eq p (iota 0 n) -> takagi_fact n A r U ->
  takagi_fact n A (fun i => r (nth 0%N p i)) (fun i j => U i (nth 0%N p j)).
Proof.
move=> pe [h1 h2 h3]; split=> [i hi|i j hi hj|i j hi hj]; first by apply: h1; exact: perm_iota_lt.
  rewrite h2 ?(perm_iota_lt pe) // nth_uniq ?(perm_size pe) ?size_iota // (perm_uniq pe); exact: iota_uniq.
by rewrite h3 // !facE // (sum_perm (fun k => U i k * r k * U j k) pe).
Qed.
Lemma rev_iota_nth n i : (i < n)%N -> nth 0%N (rev (iota 0 n)) i = (n - 1 - i)%N.
Proof. by move=> hi; rewrite nth_rev ?size_iota // nth_iota; lia. Qed.
Lemma fact_rev n (A : mat) (r : vec) (U : mat) : takagi_fact n A r U ->
  takagi_fact n A (fun i => r (n - 1 - i)%N) (fun i j => U i (n - 1 - j)%N).
Proof.
move=> h; apply: (fact_ext (fact_perm (p := rev (iota 0 n)) _ h)); first by rewrite perm_rev.
  by move=> i hi; rewrite rev_iota_nth.
by move=> i j _ hj; rewrite rev_iota_nth.
Qed.
(** column phases *)
Lemma fact_phase n (A : mat) (r : vec) (U : mat) (w : C) : `|w| = 1 -> takagi_fact n A r U ->
  takagi_fact n (fun i j => w ^+ 2 * A i j) r (fun i j => U i j * w).
Proof.
move=> w1 [h1 h2 h3]; split=> // i j hi hj.
  rewrite -h2 //; apply: eq_bigr => k _; rewrite rmorphM mulrACA [w^* * w]mulrC -normCK w1 expr1n mulr1 //.
rewrite h3 // !facE // mulr_sumr; apply: eq_bigr => k _; rring.
Qed.

Lemma symmetriseE n (A : mat) : symm n A -> eqm n (symmetrise A) A.
Proof.
move=> sA i j hi hj; rewrite /symmetrise; case: (leqP i j) => h; first by rewrite addr0.
by rewrite add0r [RHS](sA i j).
Qed.

Variable eigh : nat -> mat -> vec * mat.
Variable svd : nat -> mat -> mat * vec * mat.
Variable sqrtm : nat -> mat -> mat.
Variable argsort : nat -> vec -> seq nat.
Variables angle expi : C -> C.
Hypotheses (eighP : eigh_ok eigh) (svdP : svd_ok svd) (sqrtmP : sqrtm_ok sqrtm) (argsortP : argsort_ok argsort).
Hypothesis angleP : angle_ok angle expi.

Lemma takagi_svd_ok n (A : mat) desc : symm n A ->
  let t := takagi_svd svd sqrtm n A desc in takagi_fact n A t.1 t.2 /\ ordered n desc t.1.
Proof.
move=> sA; rewrite /takagi_svd; have [] := svdP n A; case: (svd n A) => [[u d] v] /= uu uv AE d0 dd.
set Zf := trn _; set U := mmul _ _ _.
have tA : (mxo n A)^T = mxo n A by rewrite -mx_tr; apply/eqm_mx => i j hi hj; rewrite [RHS](sA i j).
have ZE : mxo n Zf = ct (mxo n u) *m (mxo n v)^T.
  rewrite /Zf mxof_trn mxof_mmul trmx_mul; congr (_ *m _); by apply/matrixP => i j; rewrite !mxE.
have uu' := proj1 (unitary_mx n u) uu; have uv' := proj1 (unitary_mx n v) uv.
have AE' : mxo n A = mxo n u *m diag_mx (\row_(i < n) d i) *m mxo n v by move/eqm_mx: AE; rewrite !mx_prod mx_diag.
have dr i : 0 <= (\row_(i < n) d i) 0 i by rewrite mxE d0.
have uZ : unitary n Zf by apply/unitary_mx; rewrite ZE; apply: ZZ.
have [/eqm_mx sq [p /eqm_mx pE] _] := sqrtmP (or_intror _ uZ).
set X := mxo n (sqrtm n Zf) in sq pE.
have XX : X *m X = ct (mxo n u) *m (mxo n v)^T by rewrite -ZE -sq mx_prod.
have Xp : X = mpoly p (ct (mxo n u) *m (mxo n v)^T).
  rewrite -ZE pE; apply/matrixP => i j; rewrite /mpoly summxE mxE; apply: eq_bigr => k _.
  by rewrite mxE -mx_pow mxE.
have UE : mxo n U = mxo n u *m X by rewrite mxof_mmul.
have F : takagi_fact n A d U.
  split=> //; first by apply/unitary_mx; rewrite UE; apply: svd_unitary XX Xp.
  by apply/eqm_mx; rewrite !mx_prod mx_tr mx_diag UE (svd_rec uu' AE' tA XX Xp).
case: desc => /=; split=> //.
  exact: fact_rev.
by move=> i j ij hj; apply: dd; lia.
Qed.

Lemma sign_phase (x : C) : x \is Num.real -> let s := sqrtC (if 0 <= x then 1 else - 1) in s ^+ 2 * `|x| = x /\ `|s| = 1.
Proof.
move=> rx; rewrite /= sqrtCK; split.
  case: ifP => h; first by rewrite mul1r ger0_norm.
  by rewrite mulN1r ler0_norm ?opprK //; have := rx; rewrite realE h.
apply/eqP; rewrite -(@eqr_expn2 _ 2) // expr1n -normrX sqrtCK.
by case: ifP => _; rewrite ?normrN normr1.
Qed.

Lemma takagi_eigh_ok n (A : mat) desc : realm n A -> symm n A ->
  let t := takagi_eigh eigh argsort n A desc in takagi_fact n A t.1 t.2 /\ ordered n desc t.1.
Proof.
move=> rA sA; rewrite /takagi_eigh; have [] := eighP rA sA; case: (eigh n A) => [ls U] /= rl [rU oU] AE.
set r : vec := fun i => `|ls i|; pose Uc : mat := fun i j => U i j * sqrtC (if 0 <= ls j then 1 else - 1).
have F : takagi_fact n A r Uc.
  split=> [i hi|i j hi hj|i j hi hj]; first exact: normr_ge0.
    rewrite -[RHS](oU i j hi hj) /mprod /tr; have [_ ni] := sign_phase (rl i hi); have [_ nj] := sign_phase (rl j hj).
    transitivity (\sum_(k < n) (U k i * U k j) * ((sqrtC (if 0 <= ls i then 1 else - 1))^* * sqrtC (if 0 <= ls j then 1 else - 1))).
      by apply: eq_bigr => k _; rewrite /Uc rmorphM (conj_Creal (rU k i (ltn_ord k) hi)) mulrACA.
    rewrite -mulr_suml; case: (i =P j) => [->|ne].
      by rewrite mulrC [_^* * _]mulrC -normCK nj expr1n mul1r.
    by have := oU i j hi hj; rewrite /mprod /tr /idm; have /eqP/negPf -> := ne; move=> ->; rewrite mul0r.
  rewrite AE // !facE //; apply: eq_bigr => k _; rewrite /Uc /r.
  have [e _] := sign_phase (rl k (ltn_ord k)); rewrite -{1}e expr2; set s := sqrtC _.
  by rewrite -!mulrA; congr (_ * _); congr (_ * _); rewrite mulrCA; congr (_ * _); exact: mulrC.
have rr i : (i < n)%N -> r i \is Num.real by move=> _; exact: normr_real.
have [pe so] := argsortP rr.
have pe' : perm_eq (if desc then rev (argsort n r) else argsort n r) (iota 0 n) by case: desc; rewrite ?perm_rev.
split; first exact: (fact_perm pe' F).
have sz : size (argsort n r) = n by rewrite (perm_size pe) size_iota.
move=> i j ij hj; case: desc {pe'} => /=; last exact: so.
by rewrite !nth_rev ?sz //; [apply: so|]; lia.
Qed.

Lemma fact_rows n (A : mat) (r : vec) (U : mat) : takagi_fact n A r U ->
  takagi_fact n (fun i j => A (n - 1 - i)%N (n - 1 - j)%N) r (fun i j => U (n - 1 - i)%N j).
Proof.
move=> [h1 h2 h3]; split=> // i j hi hj; last first.
  have hi' : (n - 1 - i < n)%N by lia.
  have hj' : (n - 1 - j < n)%N by lia.
  by rewrite h3 // !facE.
rewrite -h2 //; have pe : perm_eq (rev (iota 0 n)) (iota 0 n) by rewrite perm_rev.
rewrite -[RHS](sum_perm (fun k => (U k i)^* * U k j) pe); apply: eq_bigr => k _.
by rewrite rev_iota_nth.
Qed.
Lemma half_phase z : `|expi (2%:R^-1 * angle z)| = 1 /\ expi (2%:R^-1 * angle z) ^+ 2 * `|z| = z.
Proof.
have [h1 h2 _ h4] := angleP z; rewrite [2%:R^-1 * _]mulrC; split; last by rewrite h4 mulrC -h1.
by apply/eqP; rewrite -(@eqr_expn2 _ 2) // expr1n -normrX h4 h2.
Qed.

(** What the diagonal branch returns: a factorisation of the diagonal matrix whose entries are those of A sorted by descending modulus. *)
Lemma takagi_diag_sorted n (A : mat) desc : let idx := argsort n (fun i => `|A i i|) in
  let t := takagi_diag argsort angle expi n A desc in
  takagi_fact n (diagm (fun i => A (nth 0%N idx (n - 1 - i)%N) (nth 0%N idx (n - 1 - i)%N))) t.1 t.2 /\ ordered n desc t.1.
Proof.
move=> idx; rewrite /takagi_diag -/idx.
have rl i : (i < n)%N -> `|A i i| \is Num.real by move=> _; exact: normr_real.
have [pe so] := argsortP rl; rewrite -/idx in pe so.
pose e i := A (nth 0%N idx i) (nth 0%N idx i).
have F : takagi_fact n (diagm e) (fun i => `|e i|) (np_diag (fun i => expi (2%:R^-1 * angle (e i)))).
  split=> [i hi|i j hi hj|i j hi hj]; first exact: normr_ge0.
    rewrite (bigD1 (Ordinal hi)) //= /np_diag eqxx big1 ?addr0 => [|k nk]; last first.
      by have /negPf -> : (k : nat) != i by []; rewrite rmorph0 mul0r.
    case: (i =P j) => [->|_]; last by rewrite mulr0.
    by rewrite mulrC -normCK; have [-> _] := half_phase (e j); rewrite expr1n.
  rewrite facE // (bigD1 (Ordinal hi)) //= big1 ?addr0 => [|k nk]; last first.
    by rewrite /np_diag eq_sym; have /negPf -> : (k : nat) != i by []; rewrite !mul0r.
  rewrite /np_diag /diagm eqxx eq_sym; case: (j =P i) => [->|_]; last by rewrite mulr0.
  by have [_ {1}<-] := half_phase (e i); rring.
have G := fact_rows F.
have dE : eqm n (fun i j => diagm e (n - 1 - i)%N (n - 1 - j)%N) (diagm (fun i => e (n - 1 - i)%N)).
  move=> i j hi hj; rewrite /diagm; have -> // : (n - 1 - i == n - 1 - j)%N = (i == j) by lia.
have G' := fact_extA dE G; case: desc; split=> //=.
- exact: (fact_rev G').
- by move=> i j ij hj; apply: so; lia.
Qed.

Lemma takagi_diag_ok n (A : mat) desc : (forall i j, (i < n)%N -> (j < n)%N -> i != j -> A i j = 0) ->
  (forall i j, (i < j)%N -> (j < n)%N -> `|A j j| < `|A i i|) ->
  let t := takagi_diag argsort angle expi n A desc in takagi_fact n A t.1 t.2 /\ ordered n desc t.1.
Proof.
move=> dA dd; have := takagi_diag_sorted n A desc; set idx := argsort _ _ => /= -[F o]; split=> //; move: F; apply: fact_extA.
have rl i : (i < n)%N -> `|A i i| \is Num.real by move=> _; exact: normr_real.
have [pe so] := argsortP rl; rewrite -/idx in pe so.
have sz : size idx = n by rewrite (perm_size pe) size_iota.
pose g i := nth 0%N idx (n - 1 - i)%N.
have glt i : (i < n)%N -> (g i < n)%N by move=> hi; apply: (perm_iota_lt pe); lia.
have gmono i j : (i < j)%N -> (j < n)%N -> (g i < g j)%N.
  move=> ij hj; have le := so (n - 1 - j)%N (n - 1 - i)%N; rewrite ltnNge; apply/negP => h.
  have : g i != g j by rewrite /g nth_uniq ?sz ?(perm_uniq pe) ?iota_uniq //; lia.
  move=> ne; have hji : (g j < g i)%N by rewrite ltn_neqAle eq_sym ne h.
  have hi : (i < n)%N := ltn_trans ij hj.
  have := lt_le_trans (dd _ _ hji (glt i hi)) (le _ _); rewrite ltxx; move=> H; have : false; last by [].
  by apply: H; lia.
have gge k : (k < n)%N -> (k <= g k)%N.
  by elim: k => // k IH hk; have := gmono k k.+1 (ltnSn k) hk; have := IH (ltnW hk); lia.
have gle k : (k < n)%N -> (g (n - 1 - k) <= n - 1 - k)%N.
  elim: k => [|k IH] hk; first by rewrite subn0; have := glt (n - 1)%N; lia.
  have := gmono (n - 1 - k.+1)%N (n - 1 - k)%N; have := IH (ltnW hk); lia.
have gE k : (k < n)%N -> g k = k.
  move=> hk; have := gge k hk; have := gle (n - 1 - k)%N.
  have -> : (n - 1 - (n - 1 - k) = k)%N by lia.
  lia.
move=> i j hi hj; rewrite /diagm -/(g i) gE //; case: (i =P j) => [->|/eqP ne] //; by rewrite dA.
Qed.

Lemma allclose0 n (A : mat) : zero_exact n A -> allclose (rtol0 C) (atol0 C) n n A (fun _ _ => 0) ->
  forall i j, (i < n)%N -> (j < n)%N -> A i j = 0.
Proof.
move=> z /allP h; apply: z => i j hi hj.
have /h/allP/(_ j) : i \in iota 0 n by rewrite mem_iota.
by rewrite mem_iota => /(_ hj); rewrite /close subr0 normr0 mulr0 addr0.
Qed.
Lemma fact_zero n (A : mat) desc : (forall i j, (i < n)%N -> (j < n)%N -> A i j = 0) ->
  takagi_fact n A (fun=> 0) (eye C) /\ ordered n desc (fun=> 0 : C).
Proof.
move=> z; split; last by move=> i j _ _; case: desc.
split=> // i j hi hj; last by rewrite facE // big1 ?z // => k _; rewrite mulr0 mul0r.
rewrite (bigD1 (Ordinal hi)) //= /eye eqxx rmorph1 mul1r big1 ?addr0 // => k nk.
by have /negPf -> : (k : nat) != i by []; rewrite rmorph0 mul0r.
Qed.
Lemma symm_ext n (A B : mat) : eqm n A B -> symm n A -> symm n B.
Proof. by move=> e s i j hi hj; rewrite /tr -!e // s. Qed.
Lemma zero_ext n (A B : mat) : eqm n A B -> zero_exact n A -> zero_exact n B.
Proof. by move=> e z h i j hi hj; rewrite -e // z // => k l hk hl; rewrite e // h. Qed.
Lemma real_ext n (A B : mat) : eqm n A B -> realm n A -> realm n B.
Proof. by move=> e z i j hi hj; rewrite -e // z. Qed.

Lemma takagi_real_ok n (A : mat) desc : symm n A -> realm n A -> zero_exact n A ->
  let t := takagi_real eigh argsort n A desc in takagi_fact n A t.1 t.2 /\ ordered n desc t.1.
Proof.
move=> sA rA zA; rewrite /takagi_real; have sE := symmetriseE sA.
have sE' : eqm n A (symmetrise A) by move=> i j hi hj; rewrite sE.
case: ifP => [h|_].
  have zz := allclose0 (zero_ext sE' zA) h; apply: fact_zero => i j hi hj; by rewrite sE' // zz.
have [F o] := takagi_eigh_ok desc (real_ext sE' rA) (symm_ext sE' sA); split=> //; exact: fact_extA sE F.
Qed.

Lemma becomes_realP n (A : mat) : becomes_real n A -> real_exact n A -> realm n A.
Proof.
move=> /allP h; apply=> i j hi hj.
have /h/allP/(_ j) : i \in iota 0 n by rewrite mem_iota.
by rewrite mem_iota => /(_ hj).
Qed.
Lemma Re_eqm n (A : mat) : realm n A -> eqm n (fun i j => 'Re (A i j)) A.
Proof. by move=> r i j hi hj; apply/Creal_ReP; exact: r. Qed.

(** argmax finds an entry of largest modulus *)
Lemma argmax_absP n (A : mat) : (0 < n)%N -> let p := argmax_abs n A in
  [/\ (p.1 < n)%N, (p.2 < n)%N & forall i j, (i < n)%N -> (j < n)%N -> `|A i j| <= `|A p.1 p.2|].
Proof.
move=> n0; rewrite /argmax_abs; set ps := [seq _ | _ <- _, _ <- _].
have psE i j : ((i, j) \in ps) = (i < n)%N && (j < n)%N.
  apply/allpairsP/andP => [[[k l] /= []]|[hi hj]]; first by rewrite !mem_iota => ? ? [-> ->]; split; lia.
  by exists (i, j); rewrite /= !mem_iota.
have [q qm qM] : exists2 q, q \in ps & all (fun q' => `|A q'.1 q'.2| <= `|A q.1 q.2|) ps.
  have : ps != [::] by apply/eqP => e; have := psE 0%N 0%N; rewrite e in_nil n0.
  elim: ps {psE} => // a s IH _; case: (s =P [::]) => [->|/eqP ne]; first by exists a; rewrite ?mem_head //= lexx.
  have [q qs qM] := IH ne; have := real_leVge (normr_real (A a.1 a.2)) (normr_real (A q.1 q.2)); case/orP => le.
    by exists q; rewrite ?in_cons ?qs ?orbT //= le.
  exists a; rewrite ?mem_head //= lexx; apply/allP => x /(allP qM) h; exact: le_trans h le.
set fs := filter _ _; have : q \in fs by rewrite mem_filter qM.
have : forall x, x \in fs -> x \in ps /\ all (fun q' => `|A q'.1 q'.2| <= `|A x.1 x.2|) ps.
  by move=> x; rewrite mem_filter => /andP[].
case: fs => // x fs h _ /=; have [|xp /allP xM] := h x; first exact: mem_head.
move: xp xM; case: x h => a b _ /=; rewrite psE => /andP[ha hb] xM; split=> // i j hi hj.
by apply: (xM (i, j)); rewrite psE hi hj.
Qed.

(** Correctness of takagi for a symmetric matrix: [isreal] is the dtype; for a complex dtype all four shortcuts are covered. *)
Theorem takagi_correct rtol (isreal : bool) n (A : mat) (desc : bool) : 0 <= rtol -> symm n A -> (isreal -> realm n A) ->
  zero_exact n A -> real_exact n A -> phase_exact n A -> diag_exact n A ->
  exists r U, [/\ takagi eigh svd sqrtm argsort angle expi rtol isreal n n A desc = Ok (r, U),
    takagi_fact n A r U & ordered n desc r].
Proof.
move=> r0 sA; rewrite /takagi eqxx; cbv beta iota delta [negb]; case: isreal => [/(_ isT) rA|_] zA reA pA dA.
  have := takagi_real_ok desc sA rA zA; case: (takagi_real _ _ _ _ _) => r U /= [F o]; by exists r, U.
set B := symmetrise A; have sE : eqm n B A := symmetriseE sA.
have sE' : eqm n A B by move=> i j hi hj; rewrite sE.
have sB := symm_ext sE' sA.
have reB : real_exact n B.
  by move=> h; apply: (real_ext sE'); apply: reA => i j hi hj; rewrite -sE // h.
case: (boolP (becomes_real n B)) => [br|nbr].
  have rB := becomes_realP br reB; set B' := fun i j => 'Re (B i j); have eB : eqm n B' B := Re_eqm rB.
  have eB' : eqm n B B' by move=> i j hi hj; rewrite eB.
  have eA : eqm n A B' by move=> i j hi hj; rewrite eB // sE.
  case: ifP => [al|_].
    have zz := allclose0 (zero_ext eA zA) al; have [F o] := fact_zero desc zz.
    exists (fun=> 0), (eye C); split=> //; apply: fact_extA F => i j hi hj; by rewrite eA.
  have := takagi_eigh_ok desc (real_ext eB' rB) (symm_ext eB' sB); case: (takagi_eigh _ _ _ _ _) => r U /= [F o].
  exists r, U; split=> //; apply: fact_extA F => i j hi hj; by rewrite eA.
case: ifP => [al|nal].
  have zz := allclose0 (zero_ext sE' zA) al; have [F o] := fact_zero desc zz.
  exists (fun=> 0), (eye C); split=> //; exact: fact_extA F.
have n0 : (0 < n)%N by case: (n) nal => //.
have [p1 p2 pM] := argmax_absP B n0; set p := argmax_abs n B in p1 p2 pM *.
set z := B p.1 p.2 in pM *; have [z1 z2 z3 z4] := angleP z.
have zn : `|z| != 0.
  apply: contraFneq nal => z0; apply: allclose_ext; rewrite ?exprn_ge0 ?invr_ge0 ?ler0n // => i j hi hj.
  by apply/eqP; rewrite -normr_le0 -z0 pM.
set w := expi (- angle z) in z3 *; have wE : w = z^* / `|z|.
  apply: (@mulIf _ (expi (angle z))); first by rewrite -normr_eq0 z2 oner_eq0.
  rewrite z3 mulrAC; apply/eqP; rewrite eq_sym -(inj_eq (mulIf zn)) mulfVK // mul1r.
  by rewrite -(inj_eq (mulIf zn)) -mulrA [expi _ * _]mulrC -z1 mulrC -normCK expr2.
have nw : `|w| = 1 by have := congr1 Num.norm z3; rewrite normrM z2 mulr1 normr1.
case: ifP => [br|_].
  have rM : realm n (fun i j => w * B i j).
    apply: becomes_realP => // h; have := pA p.1 p.2 p1 p2; rewrite -!sE // -/z.
    move=> /(_ _)/(_ _) H; have {}H := H _ _; move: H; rewrite -wE => H.
    have R : realm n (fun i j => w * A i j).
      apply: H => i j hi hj; first by rewrite -sE // pM.
      by have := h i j hi hj; rewrite sE.
    by move=> i j hi hj; rewrite sE //; exact: R.
  set Am' := fun i j => 'Re (w * B i j); have eR : eqm n Am' (fun i j => w * B i j) := Re_eqm rM.
  have eR' : eqm n (fun i j => w * B i j) Am' by move=> i j hi hj; rewrite eR.
  have zR : zero_exact n Am'.
    move=> h i j hi hj; rewrite eR // sE // zA ?mulr0 // => k l hk hl.
    by have := h k l hk hl; rewrite eR // normrM nw mul1r sE.
  have sR : symm n Am' by apply: (symm_ext eR') => i j hi hj; rewrite /tr (sB i j).
  have hh : `|expi (angle z / 2%:R)| = 1 by apply/eqP; rewrite -(@eqr_expn2 _ 2) // expr1n -normrX z4 z2.
  have := takagi_real_ok desc sR (real_ext eR' rM) zR; case: (takagi_real _ _ _ _ _) => r U /= [F o].
  exists r, (fun i j => U i j * expi (angle z / 2%:R)); split=> //; apply: fact_extA (fact_phase hh F) => i j hi hj.
  by rewrite z4 eR // mulrA [expi _ * w]mulrC z3 mul1r sE.
case: ifP => [/allP al|_].
  have od i j : (i < n)%N -> (j < n)%N -> i != j -> `|A i j| <= tiny C.
    move=> hi hj ne; have /al/allP/(_ j) : i \in iota 0 n by rewrite mem_iota.
    by rewrite mem_iota => /(_ hj); rewrite /close /np_diag (negPf ne) subr0 normr0 mulr0 addr0 sE.
  have [off dd] := dA od.
  have h1 i j : (i < n)%N -> (j < n)%N -> i != j -> B i j = 0 by move=> hi hj ne; rewrite sE // off.
  have h2 i j : (i < j)%N -> (j < n)%N -> `|B j j| < `|B i i|.
    by move=> ij hj; have hi := ltn_trans ij hj; rewrite !sE // dd.
  have := takagi_diag_ok desc h1 h2; case: (takagi_diag _ _ _ _ _ _) => r U /= [F o]; exists r, U; split=> //; exact: fact_extA F.
have := takagi_svd_ok desc sB; case: (takagi_svd _ _ _ _ _) => r U /= [F o]; exists r, U; split=> //; exact: fact_extA F.
Qed.

Theorem takagi_rejects rtol isreal n m (A : mat) desc : n != m ->
  takagi eigh svd sqrtm argsort angle expi rtol isreal n m A desc = Err ValueError.
Proof. by move=> nm; rewrite /takagi nm. Qed.
End Tak.
