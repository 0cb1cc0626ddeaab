(** The Williamson decomposition. *)
From mathcomp Require Import all_ssreflect all_algebra zify.
From Verif Require Import Prelude PyBase ArrLoop MHafnian MHermite MSymplectic MDecomp SpecSymp SpecTor SpecDecomp PropTor PropTor5 PropThr3 PropSpectral PropChannels PropSymp2 PropDecomp PropDecomp2 PropDecomp3.
Set Implicit Arguments.
Unset Strict Implicit.
Unset Printing Implicit Defensive.
Import Order.TTheory GRing.Theory Num.Theory.
Local Open Scope ring_scope.

Section Will.
Variable C : numClosedFieldType.
Notation mat := (nat -> nat -> C).
Notation vec := (nat -> C).
Notation mxo n A := (mxof n n A).

Lemma mx_sympmat N : mxo (N + N) (sympmat C N) = J C N.
Proof. by rewrite /sympmat mx_block mx_zero mxof_eye /J; congr block_mx; apply/matrixP => i j; rewrite !mxE /eye. Qed.

(** a positive definite matrix has positive eigenvalues, and conversely *)
Lemma eig_pos n (A : mat) vals : is_eigvals n A vals -> hermitian n A -> all (fun v => 0 < v) vals <-> posdef n A.
Proof.
move=> [sv rv [U [uU ME]]] hA; have UU := mulmx1C uU.
set d := (\row_i _ : 'rV[C]_n) in ME.
split=> [h|p].
  have pd : pos (diag_mx d) by apply: pos_diag => i; rewrite mxE; apply: (allP h); rewrite mem_nth // sv.
  have uC : ct U \in unitmx by case: (mulmx1_unit uU).
  have : posd n A by apply/pos_mx; rewrite ME -{1}(ctK U); apply: pos_congr.
  by case.
apply/(all_nthP 0) => i; rewrite sv => hi.
pose e := U *m delta_mx (Ordinal hi) 0 : 'cV[C]_n.
have en : e != 0.
  apply/eqP => e0; have : ct U *m e = 0 by rewrite e0 mulmx0.
  rewrite /e mulmxA uU mul1mx => /matrixP/(_ (Ordinal hi) 0); rewrite !mxE !eqxx => /eqP; by rewrite oner_eq0.
have := posdef_mx p en; rewrite ME /e ctM -!mulmxA (mulmxA (ct U) U) uU mul1mx (mulmxA (ct U)) uU mul1mx mulmxA diag_qform.
rewrite (bigD1 (Ordinal hi)) //= !mxE !eqxx normr1 expr1n mulr1 big1 ?addr0 // => j nj.
by rewrite !mxE (negPf nj) normr0 expr0n mulr0.
Qed.

(** the permutation built by the loop *)
Lemma perm_loop N (sw : nat -> bool) k :
  for_ (iota 0 N) (fun i => i) (fun perm i => if sw i then upd1 (upd1 perm (2 * i)%N (perm (2 * i + 1)%N)) (2 * i + 1)%N (perm (2 * i)%N) else perm) k
  = if (k < 2 * N)%N && sw k./2 then (if odd k then k.-1 else k.+1) else k.
Proof.
elim: N k => [|N IH] k; first by rewrite muln0.
rewrite for_iotaS add0n; set f := for_ _ _ _ in IH *.
have fN i : (2 * N <= i)%N -> f i = i by move=> hi; rewrite IH ltnNge hi.
case: ifP => hs; last first.
  rewrite IH; case: (ltnP k (2 * N)) => h1; first by have -> : (k < 2 * N.+1)%N by lia.
  case: ltnP => h2 //=; have -> : k./2 = N by lia.
  by rewrite hs.
rewrite /upd1; case: (k =P _) => [->|n1]; first by rewrite fN //; have -> : (2 * N + 1 < 2 * N.+1)%N; [lia|]; have -> : (2 * N + 1)./2 = N; [lia|]; rewrite hs /=; have -> : odd (2 * N + 1); lia.
case: (k =P _) => [->|n2]; first by rewrite fN ?leq_addr //; have -> : (2 * N < 2 * N.+1)%N; [lia|]; have -> : (2 * N)./2 = N; [lia|]; rewrite hs /=; have -> : odd (2 * N) = false; lia.
by rewrite IH; have -> : (k < 2 * N.+1)%N = (k < 2 * N)%N by lia.
Qed.

(** an invertible real antisymmetric quasi-triangular matrix is made of 2 x 2 blocks *)
Section Blocks.
Variables (N : nat) (a : mat).
Hypothesis anti : forall i j, (i < N + N)%N -> (j < N + N)%N -> a i j = - a j i.
Hypothesis quasi1 : forall i j, (i < N + N)%N -> (j.+1 < i)%N -> a i j = 0.
Hypothesis quasi2 : forall i, (i.+2 < N + N)%N -> a i.+1 i = 0 \/ a i.+2 i.+1 = 0.
Hypothesis inv : mxo (N + N) a \in unitmx.

Lemma row_nz i : (i < N + N)%N -> exists2 j, (j < N + N)%N & a i j != 0.
Proof.
move=> hi; case: (boolP [exists j : 'I_(N + N), a i j != 0]) => [/existsP[j hj]|/existsPn h]; first by exists j.
have z : delta_mx 0 (Ordinal hi) *m mxo (N + N) a = 0 :> 'rV_(N + N).
  by rewrite -rowE; apply/rowP => j; rewrite !mxE /=; apply/eqP; have := h j; rewrite negbK.
have := congr1 (mulmx^~ (invmx (mxo (N + N) a))) z; rewrite -mulmxA mulmxV // mulmx1 mul0mx.
by move=> /rowP/(_ (Ordinal hi)); rewrite !mxE !eqxx => /eqP; rewrite oner_eq0.
Qed.
Lemma a_diag i : (i < N + N)%N -> a i i = 0.
Proof. by move=> hi; apply/eqP; have := anti hi hi => /eqP; rewrite -addr_eq0 -mulr2n mulrn_eq0. Qed.
Lemma a_far i j : (i < N + N)%N -> (j < N + N)%N -> (j.+1 < i)%N || (i.+1 < j)%N -> a i j = 0.
Proof. by move=> hi hj /orP[h|h]; [exact: quasi1|rewrite anti // quasi1 ?oppr0]. Qed.
Lemma a_step i : (i < N)%N -> a (2 * i)%N (2 * i + 1)%N != 0 /\ (forall j, (j < N + N)%N -> (j < 2 * i)%N -> a (2 * i)%N j = 0).
Proof.
elim: i => [|i IH] hi.
  split=> //; have h0 : (2 * 0 < N + N)%N by lia.
  have [j hj nz] := row_nz h0; suff <- : j = (2 * 0 + 1)%N by [].
  apply/eqP; apply: contraNT nz => nj; case: (j =P 0%N) => [->|j0]; first by rewrite a_diag.
  by rewrite a_far //; lia.
have [|nz z] := IH; first lia.
have up : a (2 * i.+1)%N (2 * i + 1)%N = 0.
  have h2 : ((2 * i).+2 < N + N)%N by lia.
  have e1 : (2 * i.+1)%N = (2 * i).+2 by lia. have e2 : (2 * i + 1)%N = (2 * i).+1 by lia.
  case: (quasi2 h2) => e; rewrite e1 e2 //.
  by move: nz; rewrite e2 anti ?e ?oppr0 ?eqxx //; lia.
have low j : (j < N + N)%N -> (j < 2 * i.+1)%N -> a (2 * i.+1)%N j = 0.
  move=> hj hj2; case: (j =P (2 * i + 1)%N) => [->//|nj]; rewrite a_far //; lia.
split=> //; have h0 : (2 * i.+1 < N + N)%N by lia.
have [j hj nzj] := row_nz h0; suff <- : j = (2 * i.+1 + 1)%N by [].
apply/eqP; apply: contraNT nzj => nj; case: (j =P (2 * i.+1)%N) => [->|j0]; first by rewrite a_diag.
case: (ltnP j (2 * i.+1)) => hl; first by rewrite low.
by rewrite a_far //; lia.
Qed.
Let b i := a (2 * i)%N (2 * i + 1)%N.
Lemma aE x y : (x < N + N)%N -> (y < N + N)%N ->
  a x y = if x./2 == y./2 then (if x == y then 0 else if odd y then b y./2 else - b y./2) else 0.
Proof.
move=> hx hy; case: (x =P y) => [->|nxy]; first by rewrite eqxx a_diag.
case: eqP => e; last first.
  case: (ltnP x y) => hxy.
    case: (ltnP x.+1 y) => h1; first by rewrite a_far // h1 orbT.
    have [k ek] : exists k, y = (2 * k)%N by exists y./2; lia.
    have hk : (k < N)%N by lia.
    by rewrite anti // ek (proj2 (a_step hk)) ?oppr0 //; lia.
  case: (ltnP y.+1 x) => h1; first by rewrite a_far // h1.
  have [k ek] : exists k, x = (2 * k)%N by exists x./2; lia.
  have hk : (k < N)%N by lia.
  by rewrite ek (proj2 (a_step hk)) //; lia.
case: (boolP (odd y)) => oy.
  have ey : y = (2 * y./2 + 1)%N by lia. have ex : x = (2 * y./2)%N by lia.
  by rewrite /b -ey -ex.
have ey : y = (2 * y./2)%N by lia. have ex : x = (2 * y./2 + 1)%N by lia.
by rewrite anti // /b -ex -ey.
Qed.
Lemma b_nz i : (i < N)%N -> b i != 0. Proof. by move=> /a_step[]. Qed.
End Blocks.


(** the permutation built by the code, and the Schur form in the permuted basis *)
Section Perm.
Variables (N : nat) (a : mat).
Let b i := a (2 * i)%N (2 * i + 1)%N.
Hypothesis AE : forall x y, (x < N + N)%N -> (y < N + N)%N ->
  a x y = if x./2 == y./2 then (if x == y then 0 else if odd y then b y./2 else - b y./2) else 0.
Hypothesis breal : forall i, (i < N)%N -> b i \is Num.real.
Let pf := for_ (iota 0 N) (fun i => i) (fun perm i =>
    if a (2 * i)%N (2 * i + 1)%N <= 0 then upd1 (upd1 perm (2 * i)%N (perm (2 * i + 1)%N)) (2 * i + 1)%N (perm (2 * i)%N) else perm).
Definition wperm := fun i => if (i < N)%N then pf (2 * i)%N else pf (2 * (i - N) + 1)%N.
Notation p := wperm.
Let phi i := `|a (2 * i)%N (2 * i + 1)%N|.
Lemma pfE k : pf k = if (k < 2 * N)%N && (b k./2 <= 0) then (if odd k then k.-1 else k.+1) else k.
Proof. exact: (perm_loop N (fun i => b i <= 0)). Qed.
Lemma p1 i : (i < N)%N -> p i = (2 * i + (b i <= 0)%R)%N.
Proof.
move=> hi; rewrite /p hi pfE; have -> : (2 * i < 2 * N)%N by lia.
  have -> : (2 * i)./2 = i by lia.
  have -> : odd (2 * i) = false by lia.
  by case: (b i <= 0); rewrite /=; lia.
Qed.
Lemma p2 i : (i < N)%N -> p (N + i)%N = (2 * i + ~~ (b i <= 0)%R)%N.
Proof.
move=> hi; rewrite /p ltnNge leq_addr /= addKn pfE; have -> : (2 * i + 1 < 2 * N)%N by lia.
  have -> : (2 * i + 1)./2 = i by lia.
  have -> : odd (2 * i + 1) by lia.
  by case: (b i <= 0); rewrite /=; lia.
Qed.
Lemma plt i : (i < N + N)%N -> (p i < N + N)%N.
Proof.
move=> hi; case: (ltnP i N) => h; first by rewrite p1 //; case: (b i <= 0); lia.
  have -> : i = (N + (i - N))%N by lia.
  by rewrite p2; [case: (b (i - N)%N <= 0); lia|lia].
Qed.
Lemma apE i j : (i < N + N)%N -> (j < N + N)%N ->
   a (p i) (p j) = if j == (N + i)%N then phi i else if i == (N + j)%N then - phi j else 0.
Proof.
move=> hi hj; rewrite AE ?plt //.
  have same k : (k < N)%N -> [/\ (p k)./2 = k, (p (N + k)%N)./2 = k, odd (p k) = (b k <= 0) & odd (p (N + k)%N) = ~~ (b k <= 0)].
    by move=> hk; rewrite p1 // p2 //; case: (b k <= 0); split; lia.
  have nb k : (k < N)%N -> (if b k <= 0 then - b k else b k) = phi k.
    move=> hk; rewrite /phi -/(b k); by case: (real_ltgt0P (breal hk)) => // ->; rewrite oppr0.
  case: (ltnP i N) => hiN; case: (ltnP j N) => hjN.
  - have [-> _ _ _] := same i hiN; have [-> _ _ _] := same j hjN.
    have -> : (j == N + i)%N = false by lia. have -> : (i == N + j)%N = false by lia.
    by case: eqP => // ->; rewrite eqxx.
  - have [j' hj' ej] : exists2 j', (j' < N)%N & j = (N + j')%N by exists (j - N)%N; lia.
    rewrite ej; have [-> _ o1 _] := same i hiN; have [_ -> _ o2'] := same j' hj'.
    rewrite eqn_add2l (eq_sym j'); have -> : (i == N + (N + j'))%N = false by lia.
    case: eqP => // e; rewrite -e in o2' *; rewrite o2' -nb //.
    case: eqP => [e2|_]; first by move: o2'; rewrite -e2 o1; case: (b i <= 0).
    by case: (b i <= 0).
  - have [i' hi' ei] : exists2 i', (i' < N)%N & i = (N + i')%N by exists (i - N)%N; lia.
    rewrite ei; have [_ -> _ o1] := same i' hi'; have [-> _ o2' _] := same j hjN.
    rewrite eqn_add2l; have -> : (j == N + (N + i'))%N = false by lia.
    case: eqP => // e; rewrite e in o1 *; rewrite o2' -nb //.
    case: eqP => [e2|_]; first by move: o1; rewrite e2 o2'; case: (b j <= 0).
    by case: (b j <= 0); rewrite ?opprK.
  have [i' hi' ei] : exists2 i', (i' < N)%N & i = (N + i')%N by exists (i - N)%N; lia.
  have [j' hj' ej] : exists2 j', (j' < N)%N & j = (N + j')%N by exists (j - N)%N; lia.
  rewrite ei ej; have [_ -> _ _] := same i' hi'; have [_ -> _ _] := same j' hj'.
  have -> : (N + j' == N + (N + i'))%N = false by lia. have -> : (N + i' == N + (N + j'))%N = false by lia.
  by case: eqP => // ->; rewrite eqxx.
Qed.
Lemma pinj i j : (i < N + N)%N -> (j < N + N)%N -> p i = p j -> i = j.
Proof.
move=> hi hj; case: (ltnP i N) => hiN; case: (ltnP j N) => hjN.
  - by rewrite p1 // p1 //; case: (b i <= 0); case: (b j <= 0); lia.
  - have -> : j = (N + (j - N))%N by lia. have hj' : (j - N < N)%N by lia.
    rewrite p1 // p2 //; move: (hj'); case e : (b i <= 0); case e2 : (b (j - N)%N <= 0) => /= _ e3; try lia.
      by have ee : i = (j - N)%N by [lia]; rewrite ee e2 in e.
    by have ee : i = (j - N)%N by [lia]; rewrite ee e2 in e.
  - have -> : i = (N + (i - N))%N by lia. have hi' : (i - N < N)%N by lia.
    rewrite p2 // p1 //; case e : (b j <= 0); case e2 : (b (i - N)%N <= 0) => /= e3; try lia.
      by have ee : j = (i - N)%N by [lia]; rewrite ee e2 in e.
    by have ee : j = (i - N)%N by [lia]; rewrite ee e2 in e.
  have -> : i = (N + (i - N))%N by lia. have hi' : (i - N < N)%N by lia.
  have -> : j = (N + (j - N))%N by lia. have hj' : (j - N < N)%N by lia.
  by rewrite !p2 //; case: (b (i - N)%N <= 0); case: (b (j - N)%N <= 0); lia.
Qed.
End Perm.

Variable sqrtm : nat -> mat -> mat.
Hypothesis sqrtmP : sqrtm_ok sqrtm.
Variable schur : nat -> mat -> mat * mat.
Hypothesis schurP : schur_ok schur.
Variable eigvalsh : nat -> mat -> seq C.
Hypothesis eigP : eigvalsh_ok eigvalsh.

Lemma ric_real n (A : mat) : realm n A -> mxo n (real_if_close_mat n A) = mxo n A.
Proof.
move=> r; apply/eqm_mx => i j hi hj; rewrite /real_if_close_mat ifT; first by apply/Creal_ReP/r.
apply/allP => k; rewrite mem_iota => hk; apply/allP => l; rewrite mem_iota => hl.
have /Creal_ImP -> : A k l \is Num.real by apply: r; lia.
by rewrite normr0 /ric_tol mulr_gt0 ?ltr0n // invr_gt0 exprn_gt0 ?ltr0n.
Qed.

(** C43: for every real symmetric positive definite V, williamson(V) returns (D, S) with D = diag(d, d), d > 0, S real and
    symplectic, and V = S D S^T. *)
Theorem williamson_correct rtol atol N (V : mat) : 0 <= rtol -> 0 <= atol -> realm (2 * N) V -> symm (2 * N) V -> posdef (2 * N) V ->
  exists D S, [/\ williamson eigvalsh sqrtm schur rtol atol (2 * N) (2 * N) V = Ok (D, S),
    eqm (2 * N) (mprod (2 * N) (mprod (2 * N) S D) (tr S)) V,
    exists d : vec, eqm (2 * N) D (diag2 N d d) /\ forall i, (i < N)%N -> 0 < d i,
    realm (2 * N) S & symplectic N S].
Proof.
move=> r0 a0 rV sV pV; have hV : hermitian (2 * N) V.
  by move=> i j hi hj; rewrite (conj_Creal (rV i j hi hj)) -[RHS](sV j i).
have o2 : odd (2 * N) = false by lia.
have al : allclose rtol atol (2 * N) (2 * N) V (trn V) by apply: allclose_ext => // i j hi hj; rewrite (sV i j).
have vp : all (fun v => 0 < v) (eigvalsh (2 * N) V) by apply/(eig_pos (eigP hV) hV).
rewrite /williamson eqxx al o2 vp half_double; cbv beta iota zeta delta [negb].
move: rV sV pV hV; rewrite twoE => rV sV pV hV.
have posV : posd (N + N) V by [].
have [/eqm_mx sq _ /(_ posV) pM] := sqrtmP (or_introl _ posV); rewrite mx_prod in sq.
have pM' := proj1 (pos_mx _ _) pM; have uM := pos_unit pM'.
have rV' : rmx (mxo (N + N) V) by apply/rmx_real.
have rM : rmx (mxo (N + N) (sqrtm (N + N) V)) by apply: pos_sqrt_real => //; rewrite sq.
set M := real_if_close_mat _ _; have ME : mxo (N + N) M = mxo (N + N) (sqrtm (N + N) V) by apply: ric_real; apply/rmx_real.
rewrite -ME in sq pM' uM rM; set m := mxo (N + N) M in sq pM' uM rM.
have tm : m^T = m by case: pM' => h _; rewrite -[RHS]h (rmx_ct rM).
rewrite (np_inv_ok uM) -/m; cbv beta iota delta [bind]; set Mi := ofmx _; have MiE : mxo (N + N) Mi = invmx m by rewrite mxof_ofmx.
set Gam := mmul _ _ Mi; have GE : mxo (N + N) Gam = invmx m *m J C N *m invmx m by rewrite !mxof_mmul MiE mx_sympmat.
have rG : realm (N + N) Gam by apply/rmx_real; rewrite GE; apply: rmxM (rmxV rM); apply: rmxM (rmxV rM) (Jreal C N).
have [ra oZ /eqm_mx GZ q1 q2] := schurP rG; case scE : (schur (N + N) Gam) => [a Z]; rewrite scE /= in ra oZ GZ q1 q2.
move: oZ GZ => /orth_mx[rZ oZ]; rewrite !mx_prod mx_tr; set z := mxo _ Z in rZ oZ *; set am := mxo _ a => GZ.
have oZ' := mulmx1C oZ.
have aE0 : am = z^T *m mxo (N + N) Gam *m z by rewrite GZ !mulmxA oZ mul1mx -mulmxA oZ mulmx1.
have tG : (mxo (N + N) Gam)^T = - mxo (N + N) Gam by rewrite GE !trmx_mul trmx_inv tm Jt mulNmx mulmxN mulmxA.
have ta : am^T = - am by rewrite aE0 !trmx_mul trmxK tG mulNmx mulmxN mulmxA.
have anti i j : (i < N + N)%N -> (j < N + N)%N -> a i j = - a j i.
  by move=> hi hj; have /matrixP/(_ (Ordinal hj) (Ordinal hi)) := ta; rewrite !mxE.
have uJ : J C N \in unitmx by have [] : J C N \in unitmx /\ - J C N \in unitmx by apply: mulmx1_unit; rewrite mulmxN JJ opprK.
have ua : am \in unitmx.
  have [uz uz'] := mulmx1_unit oZ.
  by rewrite aE0 unitmx_mul unitmx_mul uz' uz GE !unitmx_mul !unitmx_inv uM uJ.
have AE := aE anti q1 q2 ua; have bnz := b_nz anti q1 q2 ua.
set b := fun i => a (2 * i)%N (2 * i + 1)%N in AE bnz.
have {}AE x y : (x < N + N)%N -> (y < N + N)%N -> a x y = if x./2 == y./2 then (if x == y then 0 else if odd y then b y./2 else - b y./2) else 0 by exact: AE.
have breal i : (i < N)%N -> b i \is Num.real by move=> hi; apply: ra; lia.
pose p := wperm N a.
pose phi i := `|a (2 * i)%N (2 * i + 1)%N|.
have phi0 i : (i < N)%N -> 0 < phi i by move=> hi; rewrite normr_gt0 bnz.
pose dd i := if (i < N)%N then 1 / phi i else 1 / phi (i - N)%N.
have dd0 i : (i < N + N)%N -> 0 < dd i.
  by move=> hi; rewrite /dd; case: ltnP => h; apply: divr_gt0; rewrite ?ltr01 //; apply: phi0; lia.
have plt' i : (i < N + N)%N -> (p i < N + N)%N by exact: plt.
have apE' i j : (i < N + N)%N -> (j < N + N)%N ->
   a (p i) (p j) = if j == (N + i)%N then phi i else if i == (N + j)%N then - phi j else 0 by exact: apE.
have pinj' i j : (i < N + N)%N -> (j < N + N)%N -> p i = p j -> i = j by exact: pinj.
pose P : 'M[C]_(N + N) := \matrix_(i, j) (i == p j :> nat)%:R.
have pick (X : nat -> C) j : (j < N + N)%N -> \sum_(k < N + N) X k * (k == p j :> nat)%:R = X (p j).
  move=> hj; rewrite (bigD1 (Ordinal (plt' j hj))) //= eqxx mulr1 big1 ?addr0 // => k nk.
  have -> : (k == p j :> nat) = false by apply: contraNF nk => /eqP e; apply/eqP/val_inj.
  by rewrite mulr0.
have PP : P^T *m P = 1%:M.
  apply/matrixP => i j; rewrite !mxE -[RHS]/((i == j :> nat)%:R).
  transitivity (\sum_(k < N + N) (k == p i :> nat)%:R * (k == p j :> nat)%:R : C); first by apply: eq_bigr => k _; rewrite !mxE.
  rewrite (pick (fun k => (k == p i)%:R)) //; congr (nat_of_bool _)%:R; apply/eqP/eqP => [h|->//]; apply/esym/pinj' => //.
have rP : rmx P by apply/matrixP => i j; rewrite !mxE conjC_nat.
pose Op : mat := fun i j => Z i (p j).
have OpE : mxo (N + N) Op = z *m P.
  apply/matrixP => i j; rewrite !mxE -[LHS](pick (fun k => Z i k)) //; by apply: eq_bigr => k _; rewrite !mxE.
have PaP : P^T *m am *m P = \matrix_(i, j) a (p i) (p j).
  apply/matrixP => i j; rewrite !mxE -[RHS](pick (fun k => a (p i) k)) //; apply: eq_bigr => k _; rewrite !mxE; congr (_ * _).
  rewrite -[RHS](pick (fun l => a l k)) //; by apply: eq_bigr => l _; rewrite !mxE mulrC.
pose S : mat := fun i j => mmul (N + N) M Op i j * (1 / sqrtC (dd j)); set o := mxo (N + N) Op in OpE.
pose sq1 : 'M[C]_(N + N) := diag_mx (\row_(i < N + N) (1 / sqrtC (dd i))).
have SE : mxo (N + N) S = m *m o *m sq1.
  by apply/matrixP => i j; rewrite /sq1 mul_mx_diag /m /o -mxof_mmul !mxE.
have oo : o^T *m o = 1%:M by rewrite OpE trmx_mul -mulmxA (mulmxA z^T) oZ mul1mx PP.
have oo' := mulmx1C oo.
have ro : rmx o by rewrite OpE; apply: rmxM.
have sdd i : (i < N + N)%N -> sqrtC (dd i) \is Num.real by move=> hi; apply: ger0_real; rewrite sqrtC_ge0 ltW ?dd0.
have rS : rmx (mxo (N + N) S).
  rewrite SE; apply: rmxM; first exact: rmxM.
  by apply/matrixP => i j; rewrite !mxE rmorphMn /= fmorph_div rmorph1 conj_Creal ?sdd.
have tsq : sq1^T = sq1 by rewrite tr_diag_mx.
exists (np_diag dd), S; rewrite ?twoE; split=> //.
- apply/eqm_mx; rewrite !mx_prod mx_tr SE !trmx_mul tm tsq mx_npdiag -!mulmxA (mulmxA sq1 (diag_mx _)) diag_mul (mulmxA (diag_mx _) sq1) diag_mul diag_one ?mul1mx.
    by rewrite (mulmxA o) oo' mul1mx sq.
  move=> i; rewrite !mxE; have nz : sqrtC (dd i) != 0 by rewrite sqrtC_eq0 gt_eqF // dd0.
  by rewrite -{2}[dd i]sqrtCK mul1r expr2 mulrA mulVf // mul1r mulfV.
- exists (fun i => 1 / phi i); split=> [i j hi hj|i hi]; last by apply: divr_gt0; rewrite ?ltr01 // phi0.
  by rewrite /np_diag /diag2 /diagm.
- exact/rmx_real.
apply/symplectic_mx; rewrite -[mxo _ S]trmxK; apply: symp_tr; rewrite /symp trmxK SE !trmx_mul tm tsq.
have -> : m *m o *m sq1 *m J C N *m (sq1 *m (o^T *m m)) = m *m o *m (sq1 *m J C N *m sq1) *m o^T *m m by rewrite !mulmxA.
have -> : sq1 *m J C N *m sq1 = o^T *m mxo (N + N) Gam *m o.
  have -> : o^T *m mxo (N + N) Gam *m o = P^T *m am *m P by rewrite OpE trmx_mul aE0 !mulmxA.
  rewrite PaP -mx_Omega; apply/matrixP => i j; rewrite /sq1 mul_mx_diag [LHS]mxE mul_diag_mx !mxE /Omega apE' //.
  have ij : (j == N + i :> nat)%N && (i == N + j :> nat)%N = false by clear -i j; have := ltn_ord i; lia.
  have sqr k : (k < N)%N -> 1 / sqrtC (dd k) * (1 / sqrtC (dd (N + k)%N)) = phi k.
    move=> hk; rewrite /dd hk ltnNge leq_addr /= addKn !mul1r -invfM -expr2 sqrtCK invrK //.
  case: (j =P (N + i)%N :> nat) ij => [e /negbT|ne _].
    rewrite andTb => h; rewrite (negPf h) subr0 mulr1 e sqr //; have := ltn_ord j; lia.
  case: (i =P (N + j)%N :> nat) => [e|_]; last by rewrite subr0 mulr0 mul0r.
  by rewrite sub0r mulrN1 mulNr e mulrC sqr //; have := ltn_ord i; lia.
rewrite !mulmxA -(mulmxA m o) oo' mulmx1 -(mulmxA (m *m _) o) oo' mulmx1 GE !mulmxA mulmxV // mul1mx -mulmxA mulVmx // mulmx1 //.
Qed.

(** invalid inputs are rejected: wrong shapes, asymmetric matrices (beyond the tolerances), symmetric matrices that are not
    positive definite *)
Theorem williamson_rejects rtol atol n m (V : mat) :
  n != m \/ allclose rtol atol n n V (trn V) = false \/ odd n \/ (realm n V /\ symm n V /\ ~ posdef n V) ->
  williamson eigvalsh sqrtm schur rtol atol n m V = Err ValueError.
Proof.
rewrite /williamson; case: eqP => // e; case: (boolP (allclose _ _ _ _ _ _)) => // al; case: (boolP (odd n)) => // o.
move=> [//|[//|[//|[rV [sV np]]]]]; have hV : hermitian n V.
  by move=> i j hi hj; rewrite (conj_Creal (rV i j hi hj)) -[RHS](sV j i).
rewrite ifT //; apply/negP => h; apply: np; exact/(eig_pos (eigP hV) hV).
Qed.
End Will.
