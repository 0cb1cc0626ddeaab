(** Theorems about thewalrus/charpoly.py: C28 (La Budde), C29 (Householder), C30 (power traces). *)
From mathcomp Require Import all_ssreflect all_fingroup all_algebra zify.
From Verif Require Import Prelude PyBase ArrLoop ThHess MCharpoly.
Set Implicit Arguments.
Unset Strict Implicit.
Unset Printing Implicit Defensive.
Import GRing.Theory Num.Theory.
Local Open Scope ring_scope.

Lemma big_pyrange (R : zmodType) a b (g : nat -> R) : \sum_(m <- pyrange a b) g m = \sum_(a <= m < b) g m.
Proof. by []. Qed.

Section Labudde.
Variables (K : comRingType) (n : nat) (H : nat -> nat -> K).
Hypothesis hess : forall i j, (i < n)%N -> (j.+1 < i)%N -> H i j = 0.

Lemma get_set (c : nat -> nat -> K) i j v i' j' : (0 < i)%N -> (0 < j)%N -> (0 < i')%N -> (0 < j')%N ->
  get (set c i j v) i' j' = if (i' == i) && (j' == j) then v else get c i' j'.
Proof.
move=> hi hj hi' hj'; rewrite /get /set /upd2.
by have -> : (i' - 1 == i - 1)%N && (j' - 1 == j - 1)%N = (i' == i) && (j' == j) by lia.
Qed.

Lemma beta_prodE i m : (m < i)%N -> beta_prod H i m = \prod_(l < m) H (i - 1 - l)%N (i - 1 - l - 1)%N.
Proof.
move=> mi; rewrite /beta_prod for_prod mul1r /range_down big_map subKn; last by lia.
rewrite prod_iota; apply: eq_bigr => l _; rewrite /beta; congr H; lia.
Qed.

Lemma lbc_recP i j : (0 < i <= n)%N -> (1 <= j <= i)%N ->
  lbc H i j = (if (j <= i - 1)%N then lbc H (i - 1) j else 0) - H (i - 1)%N (i - 1)%N * lbc H (i - 1) (j - 1)
   - \sum_(1 <= m < j) H (i - 1 - m)%N (i - 1)%N * (\prod_(l < m) H (i - 1 - l)%N (i - 1 - l - 1)%N) * lbc H (i - 1 - m) (j - m - 1).
Proof. by case: i => // i hi hj; rewrite subn1 /=; apply: (lbc_rec hess). Qed.

Lemma lb_sumaE c i j : (2 <= j <= i)%N -> (i <= n)%N ->
  (forall i' j', (0 < j' <= i')%N -> (i' < i)%N -> (j' < j)%N -> get c i' j' = lbc H i' j') ->
  lb_suma H c i j + hij H (i - j + 1) i * beta_prod H i (j - 1) =
  \sum_(1 <= m < j) H (i - 1 - m)%N (i - 1)%N * (\prod_(l < m) H (i - 1 - l)%N (i - 1 - l - 1)%N) * lbc H (i - 1 - m) (j - m - 1).
Proof.
move=> hj hi hc; rewrite /lb_suma for_sum add0r big_pyrange.
have -> : j = (j - 1).+1 by lia.
rewrite [RHS]big_nat_recr /=; last by lia.
rewrite subn1 /=; congr (_ + _).
  rewrite [LHS]big_nat_cond [RHS]big_nat_cond; apply: eq_bigr => m /andP[hm _].
  rewrite hc; [|lia|lia|lia]; rewrite beta_prodE; last by lia.
  by congr (_ * _ * lbc _ _ _); [rewrite /hij; congr H; lia|lia].
rewrite beta_prodE; last by lia.
have -> : ((j - 1).+1 - (j - 1) - 1 = 0)%N by lia.
by rewrite lbc0 mulr1 /hij; congr (H _ _ * _); lia.
Qed.

Lemma lb_coefE c i j : (2 <= j < i)%N -> (i <= n)%N ->
  (forall i' j', (0 < j' <= i')%N -> (i' < i)%N -> (j' <= j)%N -> get c i' j' = lbc H i' j') ->
  lb_coef H c i j = lbc H i j.
Proof.
move=> hj hi hc; rewrite /lb_coef -addrA -opprD lb_sumaE //; [|lia|by move=> i' j' h1 h2 h3; apply: hc; lia].
rewrite lbc_recP; [|lia|lia].
rewrite !hc; [|lia|lia|lia|lia|lia|lia].
have -> : (j <= i - 1)%N by lia.
by rewrite /alpha !subn1.
Qed.

(** correctness of the table after the first [i - 1] rows, columns up to [k] *)
Definition tab_ok k i (c : nat -> nat -> K) :=
  forall i' j', (0 < j' <= i')%N -> (i' < i)%N -> (i' <= n)%N -> (j' <= k)%N -> get c i' j' = lbc H i' j'.

Lemma lbc1 i : (0 < i <= n)%N -> lbc H i 1 = (if (1 < i)%N then lbc H (i - 1) 1 else 0) - alpha H i.
Proof.
move=> hi; rewrite lbc_recP; [|lia|lia].
rewrite big_geq // subr0 subnn lbc0 mulr1 /alpha.
by have -> : (0 < i - 1)%N = (1 < i)%N by lia.
Qed.

Lemma inner_loop c i k top : (2 <= i <= n)%N -> (top <= i)%N -> (top <= k.+1)%N -> tab_ok k i c ->
  get c i 1 = lbc H i 1 ->
  let c' := for_ (pyrange 2 top) c (fun c j => set c i j (lb_coef H c i j)) in
  [/\ tab_ok k i c', get c' i 1 = lbc H i 1 & forall j, (2 <= j < top)%N -> get c' i j = lbc H i j].
Proof.
move=> hi ti tk ok c1 /=; rewrite /pyrange.
case: (leqP top 2) => t2.
  have -> : (top - 2 = 0)%N by lia. by split => // j; lia.
pose Q t (c' : nat -> nat -> K) := [/\ tab_ok k i c', get c' i 1 = lbc H i 1 & forall j, (2 <= j < t)%N -> get c' i j = lbc H i j].
have : Q (2 + (top - 2))%N (for_ (iota 2 (top - 2)) c (fun c j => set c i j (lb_coef H c i j))).
  apply: for_inv => [|j c' hj [ok' c1' IH]]; first by split => // j; lia.
  split.
  - by move=> i' j' h1 h2 h3 h4; rewrite get_set; [|lia..]; rewrite (_ : i' == i = false) /=; [apply: ok'|lia].
  - by rewrite get_set; [|lia..]; rewrite (_ : 1 == j = false)%N ?andbF //; lia.
  move=> j' hj'; rewrite get_set; [|lia..]; rewrite eqxx /=; case: eqP => [->|ne]; last by apply: IH; lia.
  by apply: lb_coefE => [||i' j'' h1 h2 h3]; [lia|lia|apply: ok'; lia].
by rewrite (_ : (2 + (top - 2) = top)%N) //; lia.
Qed.

Lemma tab_init k : (0 < k)%N -> (1 < n)%N ->
  tab_ok k.+1 3 (set (set (set (fun _ _ => 0) 1 1 (- alpha H 1)) 2 1
     (get (set (fun _ _ => 0) 1 1 (- alpha H 1)) 1 1 - alpha H 2)) 2 2
     (alpha H 1 * alpha H 2 - hij H 1 2 * beta H 2)).
Proof.
move=> k0 n1 i j hij_ hi hin hjk; rewrite !get_set //; try lia; rewrite !eqxx /=.
have l1 : lbc H 1 1 = - alpha H 1 by rewrite lbc1 ?sub0r //; lia.
case: i j hij_ hi hin hjk => [|[|[|i]]] [|[|[|j]]] //= _ _ _ _; try lia.
  by rewrite lbc1 // l1.
rewrite (lbc_rec hess) // ltnn sub0r big_nat1 /= !subn1 /= big_ord1 lbc0 mulr1 l1.
by rewrite /alpha /hij /beta /= mulrN opprK mulrC.
Qed.
End Labudde.

Section LabuddeThm.
Variables (K : comRingType) (n : nat) (H : nat -> nat -> K).
Hypothesis hess : forall i j, (i < n)%N -> (j.+1 < i)%N -> H i j = 0.

(** C28: for every upper Hessenberg matrix of every size n >= 1 and every k <= n, the first k numbers returned
    by [_charpoly(H, k)] are the coefficients of x^(n-1), ..., x^(n-k) of det(x - H). *)
Theorem labudde_correct k : (0 < k <= n)%N ->
  size (labudde n H k) = n /\
  forall j, (0 < j <= k)%N -> nth 0 (labudde n H k) (j - 1) = (char_poly (mx_of n H))`_(n - j).
Proof.
move=> hk; rewrite /labudde.
set c0 := set _ 2 2 _; set c1 := for_ (pyrange 3 _) _ _; set c2 := for_ _ c1 _.
split; first by rewrite size_map size_iota; lia.
move=> j hj; rewrite (nth_map 0%N); last by rewrite size_iota; lia.
rewrite nth_iota; last by lia.
have -> : (1 + (j - 1) = j)%N by lia.
rewrite -[c2 _ _]/(get c2 n j) -[RHS]/(lbc H n j).
case: (leqP n 1) => n1.
  have [en ek ej] : [/\ n = 1, k = 1 & j = 1]%N by split; lia.
  rewrite en ej (lbc1 hess) //; last by lia.
  rewrite /c2 /c1 /pyrange en ek /= /c0 !get_set //= sub0r //.
have T1 : tab_ok n H k (maxn 3 k.+1) c1.
  have T0 : tab_ok n H k 3 c0.
    by move=> i' j' h1 h2 h3 h4; apply: (@tab_init _ _ _ hess k) => //; lia.
  have [k3|k3] : (k.+1 <= 3)%N \/ (3 < k.+1)%N by lia.
    rewrite (_ : maxn 3 k.+1 = 3%N); last by lia.
    by rewrite /c1 /pyrange (_ : (k.+1 - 3 = 0)%N) //; lia.
  rewrite (_ : maxn 3 k.+1 = 3 + (k.+1 - 3))%N; last by lia.
  apply: for_inv => // i c hi ok.
  set ca := set c i 1 _.
  have oka : tab_ok n H k i ca.
    by move=> i' j' h1 h2 h3 h4; rewrite get_set; [|lia..]; rewrite (_ : i' == i = false) /=; [apply: ok|lia].
  have a1 : get ca i 1 = lbc H i 1.
    rewrite get_set; [|lia..]; rewrite !eqxx /= (lbc1 hess); last by lia.
    by rewrite (_ : (1 < i)%N) ?ok //; lia.
  have := @inner_loop _ _ _ hess ca i k i _ (leqnn i) _ oka a1.
  set cb := for_ _ _ _ => /(_ _ _)[]; [lia|lia|move=> okb b1 hb].
  have hb' j' : (1 <= j' < i)%N -> get cb i j' = lbc H i j'.
    by move=> h; case: (ltnP 1 j') => h'; [apply: hb; lia|rewrite (_ : j' = 1%N) //; lia].
  move=> i' j' h1 h2 h3 h4; rewrite get_set; [|lia..].
  case: (i' =P i) => [ei|ne] /=; last by apply: okb => //; lia.
  case: (j' =P i) => [ej|ne]; last by rewrite ei; apply: hb'; lia.
  rewrite ei ej -addrA -opprD.
  have -> : hij H 1 i = hij H (i - i + 1) i by rewrite subnn.
  rewrite (@lb_sumaE _ n); [|lia|lia|by move=> i'' j'' *; apply: okb; lia].
  rewrite (lbc_recP hess); [|lia|lia].
  rewrite (_ : (i <= i - 1)%N = false); last by lia.
  by rewrite sub0r okb; [|lia..]; rewrite mulNr /alpha.
suff T2 : tab_ok n H k n.+1 c2 by apply: T2; lia.
rewrite /c2 /pyrange; case: (leqP n.+1 k.+1) => nk.
  rewrite (_ : (n.+1 - k.+1 = 0)%N) /=; last by lia.
  by move=> i' j' h1 h2 h3 h4; apply: T1 => //; lia.
pose Q t c := tab_ok n H k t c /\ (get c 1 1 = lbc H 1 1 /\ (k < 2 -> get c 2 1 = lbc H 2 1)%N).
suff [] : Q (k.+1 + (n.+1 - k.+1))%N (for_ (iota k.+1 (n.+1 - k.+1)) c1 (fun c i =>
   let c := set c i 1 (get c (i - 1) 1 - alpha H i) in
   if (1 < k)%N then for_ (iota 2 (k.+1 - 2)) c (fun c j => set c i j (lb_coef H c i j)) else c)).
  by rewrite (_ : (k.+1 + (n.+1 - k.+1) = n.+1)%N) //; lia.
apply: for_inv.
  split; first by move=> i' j' h1 h2 h3 h4; apply: T1 => //; lia.
  by split => [|k2]; apply: T1; lia.
move=> i c hi [ok [ok1 ok2]] /=; set ca := set c i 1 _.
have oka : tab_ok n H k i ca.
  by move=> i' j' h1 h2 h3 h4; rewrite get_set; [|lia..]; rewrite (_ : i' == i = false) /=; [apply: ok|lia].
have a1 : get ca i 1 = lbc H i 1.
  rewrite get_set; [|lia..]; rewrite !eqxx /= (lbc1 hess); last by lia.
  by rewrite (_ : (1 < i)%N) ?ok //; lia.
have := @inner_loop _ _ _ hess ca i k k.+1 _ _ (leqnn _) oka a1; rewrite /pyrange.
set cb := for_ _ _ _ => /(_ _ _)[]; [lia|lia|move=> okb b1 hb].
have res : tab_ok n H k i.+1 (if (1 < k)%N then cb else ca).
  move=> i' j' h1 h2 h3 h4; case: ifP => k1; last first.
    case: (i' =P i) => [ei|ne]; last by apply: oka => //; lia.
    by rewrite ei (_ : j' = 1%N) //; lia.
  case: (i' =P i) => [ei|ne]; last by apply: okb => //; lia.
  by rewrite ei; case: (ltnP 1 j') => h'; [apply: hb; lia|rewrite (_ : j' = 1%N) //; lia].
split => //; split; first by apply: res; lia.
move=> k2; case: (i =P 1%N) => [|ne]; first by lia.
by apply: res; lia.
Qed.
End LabuddeThm.

(** *** C29: Householder reduction *)
Lemma char_poly_conj (K : comRingType) n (P Q A : 'M[K]_n) :
  P *m Q = 1%:M -> char_poly (P *m A *m Q) = char_poly A.
Proof.
move=> PQ; pose P' := map_mx polyC P; pose Q' := map_mx polyC Q.
have PQ' : P' *m Q' = 1%:M by rewrite -map_mxM PQ map_mx1.
rewrite /char_poly; have -> : char_poly_mx (P *m A *m Q) = P' *m char_poly_mx A *m Q'.
  rewrite /char_poly_mx mulmxBr mulmxBl !map_mxM -/P' -/Q'; congr (_ - _).
  by rewrite scalar_mxC -mulmxA PQ' mulmx1.
rewrite !det_mulmx mulrAC -det_mulmx PQ' det1 mul1r //.
Qed.

Section Householder.
Variable C : numClosedFieldType.
Implicit Types (A : nat -> nat -> C) (v : nat -> C).

Definition ctr m n (M : 'M[C]_(m, n)) : 'M[C]_(n, m) := (map_mx conjC M)^T.

Section Step.
Variables (n k : nat) (v : nat -> C).
Hypotheses (k0 : (0 < k)%N) (kn : (k <= n)%N).
Let nv : C := \sum_(i < n - k) `|v i| ^+ 2.

(** the reflection [1 - 2 v v^* / |v|^2], [v] living on the indices [k..n-1] *)
Definition hvec : 'cV[C]_n := \col_(i < n) (if (k <= i)%N then v (i - k)%N else 0).
Definition hrefl : 'M[C]_n := 1%:M - (2%:R / nv) *: (hvec *m ctr hvec).

Lemma sum_shift (g : nat -> C) :
  \sum_(i < n) (if (k <= i)%N then g (i - k)%N else 0) = \sum_(l < n - k) g l.
Proof.
rewrite -(big_mkord xpredT (fun i => if (k <= i)%N then g (i - k)%N else 0)) (@big_cat_nat _ _ _ k) //=.
rewrite big_nat_cond big1 ?add0r => [|i /andP[/andP[_ h] _]]; last by rewrite leqNgt h.
rewrite -{1}[k]add0n big_addn big_mkord; apply: eq_bigr => i _.
by rewrite leq_addl addnK.
Qed.

Lemma fnorm_sqr s (w : nat -> C) : fnorm s w ^+ 2 = \sum_(i < s) `|w i| ^+ 2.
Proof. by rewrite /fnorm sqrtCK. Qed.

Lemma hvec_norm : ctr hvec *m hvec = nv%:M.
Proof.
apply/matrixP => a b; rewrite !mxE !ord1 eqxx mulr1n /nv -(@sum_shift (fun l => `|v l| ^+ 2)).
apply: eq_bigr => i _; rewrite !mxE; case: ifP => _; last by rewrite mulr0.
by rewrite normCK mulrC.
Qed.

Lemma hrefl_inv : nv != 0 -> hrefl *m hrefl = 1%:M.
Proof.
move=> nz; rewrite /hrefl mulmxBl mul1mx mulmxBr mulmx1.
set W := hvec *m ctr hvec; have WW : W *m W = nv *: W.
  by rewrite /W mulmxA -[_ *m ctr _ *m _]mulmxA hvec_norm mul_mx_scalar -scalemxAl.
rewrite -scalemxAl -scalemxAr WW !scalerA.
have -> : 2%:R / nv * (2%:R / nv) * nv = 2%:R / nv + 2%:R / nv.
  by rewrite -mulrA divfK // mulr_natr mulr2n.
rewrite scalerDl; move: (_ *: W) => X; by rewrite opprB addrK subrK.
Qed.

Lemma hrefl_herm : ctr hrefl = hrefl.
Proof.
have nvr : nv^* = nv.
  by rewrite rmorph_sum; apply: eq_bigr => i _; rewrite rmorphX conj_normC.
apply/matrixP => a b; rewrite !mxE rmorphB rmorphM rmorph_sum rmorphM fmorphV /= nvr !conjC_nat eq_sym.
congr (_ - _ * _); apply: eq_bigr => i _; rewrite !mxE rmorphM mulrC conjCK.
by congr (_ * _); case: ifP; rewrite ?conjC0.
Qed.

Lemma vHAE A j : for_ (iota 0 (n - k + 1)) (fun=> 0) (fun a j =>
      for_ (iota 0 (n - k)) a (fun a l => upd1 a j (a j + (v l)^* * A (k + l)%N (k - 1 + j)%N))) j
  = if (j < n - k + 1)%N then \sum_(l < n - k) (v l)^* * A (k + l)%N (k - 1 + j)%N else 0.
Proof.
elim: (n - k + 1)%N j => [|m IH] j //.
rewrite for_iotaS add0n for_cell sum_iota; case: eqP => [->|ne].
  by rewrite IH ltnn add0r ltnSn.
by rewrite IH; congr (if _ then _ else _); lia.
Qed.

Lemma AvE A m i : for_ (iota 0 m) (fun=> 0) (fun a i =>
      for_ (iota 0 (n - k)) a (fun a l => upd1 a i (a i + A i (k + l)%N * v l))) i
  = if (i < m)%N then \sum_(l < n - k) A i (k + l)%N * v l else 0.
Proof.
elim: m i => [|m IH] i //.
rewrite for_iotaS add0n for_cell sum_iota; case: eqP => [->|ne].
  by rewrite IH ltnn add0r ltnSn.
by rewrite IH; congr (if _ then _ else _); lia.
Qed.

(** Entry-wise effect of [apply_householder]. *)
Definition hstep1 A a b : C :=
  if (k <= a < n)%N && (k - 1 <= b < n)%N then
    A a b - 2%:R * v (a - k)%N * (\sum_(l < n - k) (v l)^* * A (k + l)%N b) / nv else A a b.
Definition hstep2 A a b : C :=
  if (a < n)%N && (k <= b < n)%N then
    A a b - 2%:R * (\sum_(l < n - k) A a (k + l)%N * v l) * (v (b - k)%N)^* / nv else A a b.

Lemma apply_householderE A : nv != 0 -> apply_householder n A v k =2 hstep2 (hstep1 A).
Proof.
move=> nz a b; rewrite /apply_householder fnorm_sqr -/nv (negPf nz).
set A1 := for_ (iota 0 (n - k)) A _.
have A1E : A1 =2 hstep1 A.
  move=> a' b'; rewrite /A1 for_sub2 /hstep1.
  have -> : (k <= a' < k + (n - k))%N && (k - 1 <= b' < k - 1 + (n - k + 1))%N
          = (k <= a' < n)%N && (k - 1 <= b' < n)%N by lia.
  case: ifP => // h; rewrite vHAE (_ : (b' - (k - 1) < n - k + 1)%N); last by lia.
  by have -> : (k - 1 + (b' - (k - 1)) = b')%N by lia.
transitivity (for_ (iota 0 n) A1 (fun A i => for_ (iota 0 (n - k)) A (fun A j =>
   upd2 A (0 + i) (k + j) (A (0 + i)%N (k + j)%N - 2%:R * (for_ (iota 0 n) (fun=> 0) (fun a i =>
      for_ (iota 0 (n - k)) a (fun a l => upd1 a i (a i + A1 i (k + l)%N * v l))) i) * (v j)^* / nv))) a b) => //.
rewrite for_sub2 /hstep2 subn0.
have -> : (0 <= a < 0 + n)%N && (k <= b < k + (n - k))%N = (a < n)%N && (k <= b < n)%N by lia.
rewrite A1E; case: ifP => // h; rewrite AvE (_ : (a < n)%N); last by lia.
by congr (_ - _ * _ * _ / _); apply: eq_bigr => l _; rewrite A1E.
Qed.

Lemma hstep1_mx A : (forall a b, (k <= a < n)%N -> (b < k - 1)%N -> A a b = 0) ->
  mx_of n (hstep1 A) = hrefl *m mx_of n A.
Proof.
move=> hA; rewrite /hrefl mulmxBl mul1mx -scalemxAl -mulmxA; apply/matrixP => a b.
rewrite !mxE big_ord1 !mxE /hstep1 (ltn_ord a) (ltn_ord b) !andbT.
have -> : \sum_j ctr hvec ord0 j * mx_of n A j b = \sum_(l < n - k) (v l)^* * A (k + l)%N b.
  rewrite -(@sum_shift (fun l => (v l)^* * A (k + l)%N b)); apply: eq_bigr => i _; rewrite !mxE.
  by case: ifP => h; rewrite ?conjC0 ?mul0r // subnKC.
case: (leqP k a) => ka /=; last by rewrite mul0r mulr0 subr0.
case: leqP => kb; first by rewrite -!mulrA [nv^-1 * _]mulrC !mulrA.
rewrite big1 ?mulr0 ?subr0 // => l _; rewrite hA ?mulr0 //; have := ltn_ord l; lia.
Qed.

Lemma hstep2_mx A : mx_of n (hstep2 A) = mx_of n A *m hrefl.
Proof.
rewrite /hrefl mulmxBr mulmx1 -scalemxAr mulmxA; apply/matrixP => a b.
rewrite !mxE big_ord1 !mxE /hstep2 (ltn_ord a) (ltn_ord b) !andbT /=.
have -> : \sum_j mx_of n A a j * hvec j ord0 = \sum_(l < n - k) A a (k + l)%N * v l.
  rewrite -(@sum_shift (fun l => A a (k + l)%N * v l)); apply: eq_bigr => i _; rewrite !mxE.
  by case: ifP => h; rewrite ?mulr0 // subnKC.
case: (leqP k b) => kb /=; last by rewrite conjC0 !mulr0 subr0.
by rewrite -!mulrA [nv^-1 * _]mulrC !mulrA.
Qed.

(** C29, one step: [apply_householder] replaces the matrix by [P A P] with [P] an involutory Hermitian
    reflection, provided the columns before [k - 1] are already reduced. *)
Theorem apply_householder_similar A :
  (forall a b, (k <= a < n)%N -> (b < k - 1)%N -> A a b = 0) ->
  exists P : 'M[C]_n, [/\ P *m P = 1%:M, ctr P = P &
    mx_of n (apply_householder n A v k) = P *m mx_of n A *m P].
Proof.
move=> hA; case: (eqVneq nv 0) => nz.
  exists 1%:M; split; rewrite ?mulmx1 ?mul1mx //.
    by apply/matrixP => a b; rewrite !mxE conjC_nat eq_sym.
  by rewrite /apply_householder fnorm_sqr -/nv nz eqxx.
exists hrefl; split; [exact: hrefl_inv|exact: hrefl_herm|].
rewrite -hstep1_mx // -hstep2_mx; apply/matrixP => a b; by rewrite !mxE apply_householderE.
Qed.
End Step.

Section Refl.
Variables (n k : nat) (A : nat -> nat -> C).
Hypothesis (kn : (k < n)%N).
Let s := (n - k)%N.
Let x l : C := A (k + l)%N (k - 1)%N.
Let nx : C := fnorm s x.
Let sigma : C := if x 0%N != 0 then nx * (x 0%N / `|x 0%N|) else nx.

Lemma col_loop m (g : nat -> C) l : for_ (iota 0 m) (fun=> 0) (fun a i => upd1 a i (g i)) l = if (l < m)%N then g l else 0.
Proof.
elim: m => [|m IH] //; rewrite for_iotaS add0n /upd1; case: eqP => [->|ne]; first by rewrite ltnSn.
by rewrite IH; congr (if _ then _ else _); lia.
Qed.

Lemma eq_fnorm m (v w : nat -> C) : (forall l, (l < m)%N -> v l = w l) -> fnorm m v = fnorm m w.
Proof. by move=> h; rewrite /fnorm; congr sqrtC; apply: eq_bigr => i _; rewrite h. Qed.

Lemma get_reflection_vectorE l : (l < s)%N -> get_reflection_vector n A k l = x l + (if l == 0%N then sigma else 0).
Proof.
move=> ls; rewrite /get_reflection_vector -/s /upd1 !col_loop ls.
have s0 : (0 < s)%N by rewrite /s; lia.
rewrite s0 (@eq_fnorm s _ x); last by move=> l' h; rewrite col_loop h.
by case: eqP => [->|_]; rewrite ?addr0.
Qed.

Let nx_ge0 : 0 <= nx.
Proof. by rewrite /nx /fnorm sqrtC_ge0 sumr_ge0 // => i _; rewrite exprn_ge0. Qed.

Lemma nx_conj : nx^* = nx. Proof. by apply/CrealP; rewrite ger0_real. Qed.
Lemma nx_sqr : \sum_(l < s) `|x l| ^+ 2 = nx ^+ 2. Proof. by rewrite /nx /fnorm sqrtCK. Qed.

Lemma sigma_x : sigma^* * x 0%N = (x 0%N)^* * sigma.
Proof.
rewrite /sigma; case: eqP => [->|_] /=; first by rewrite conjC0 mul0r mulr0.
rewrite !rmorphM fmorphV /= conj_normC nx_conj; rring.
Qed.

Lemma sigma_norm : `|sigma| ^+ 2 = nx ^+ 2.
Proof.
rewrite /sigma; case: eqP => [_|/eqP x0] /=; first by rewrite ger0_norm.
by rewrite normrM normrM normfV normr_id divff ?normr_eq0 // mulr1 ger0_norm.
Qed.

Let v := get_reflection_vector n A k.

Lemma refl_half : \sum_(l < n - k) `|v l| ^+ 2 = (\sum_(l < n - k) (v l)^* * A (k + l)%N (k - 1)%N) *+ 2.
Proof.
have s0 : (0 < s)%N by rewrite /s; lia.
rewrite -/s (eq_bigr (fun l : 'I_s => `|x l + (if l == 0%N :> nat then sigma else 0)| ^+ 2)); last first.
  by move=> l _; rewrite /v get_reflection_vectorE.
rewrite [X in _ = X *+ 2](eq_bigr (fun l : 'I_s => (x l + (if l == 0%N :> nat then sigma else 0))^* * x l)); last first.
  by move=> l _; rewrite /v get_reflection_vectorE.
have pick (g : C) : \sum_(l < s) (if l == 0%N :> nat then g else 0) = g.
  rewrite (bigD1 (Ordinal s0)) //= big1 ?addr0 // => i; rewrite -val_eqE /= => /negPf -> //.
have e1 : \sum_(l < s) `|x l + (if l == 0%N :> nat then sigma else 0)| ^+ 2
  = nx ^+ 2 + (x 0%N)^* * sigma + sigma^* * x 0%N + nx ^+ 2.
  rewrite -{1}nx_sqr -(pick ((x 0%N)^* * sigma)) -(pick (sigma^* * x 0%N)) -sigma_norm -(pick (`|sigma| ^+ 2)) -!big_split.
  apply: eq_bigr => l _ /=; rewrite !normCK; case: eqP => [->|_]; last by rewrite !addr0.
  rewrite rmorphD /=; rring.
have e2 : \sum_(l < s) (x l + (if l == 0%N :> nat then sigma else 0))^* * x l = nx ^+ 2 + sigma^* * x 0%N.
  rewrite -nx_sqr -(pick (sigma^* * x 0%N)) -big_split.
  apply: eq_bigr => l _ /=; rewrite normCK; case: eqP => [->|_]; last by rewrite !addr0 mulrC.
  rewrite rmorphD /=; rring.
rewrite e1 e2 -sigma_x; rring.
Qed.
End Refl.

(** Hessenberg in the first [k] columns. *)
Definition hess_upto n k A := forall a b, (a < n)%N -> (b < k)%N -> (b.+1 < a)%N -> A a b = 0.

Lemma step_hess n k A : (0 < k)%N -> (k < n)%N -> hess_upto n (k - 1) A ->
  hess_upto n k (apply_householder n A (get_reflection_vector n A k) k).
Proof.
move=> k0 kn hA; set v := get_reflection_vector n A k.
case: (eqVneq (\sum_(l < n - k) `|v l| ^+ 2) 0) => nz.
  rewrite /apply_householder fnorm_sqr nz eqxx => a b an bk ba.
  case: (ltnP b (k - 1)) => bk'; first exact: hA.
  have hb : b = (k - 1)%N by lia.
  have /eqP : (`|v (a - k)%N| ^+ 2 = 0).
    have la : (a - k < n - k)%N by lia.
    have := psumr_eq0P (P := xpredT) (F := fun l : 'I_(n - k) => `|v l| ^+ 2) _ nz (i := Ordinal la).
    by apply => // i _; rewrite exprn_ge0.
  rewrite expf_eq0 /= normr_eq0 /v get_reflection_vectorE; [|lia|lia].
  rewrite (_ : a - k == 0 = false)%N; last by lia.
  by rewrite addr0 hb => /eqP; rewrite subnKC //; lia.
move=> a b an bk ba; rewrite apply_householderE // /hstep2.
rewrite (_ : (k <= b < n)%N = false) ?andbF; last by lia.
rewrite /hstep1; case: ifP => h; last first.
  by apply: hA; lia.
have hb : b = (k - 1)%N by lia.
have := refl_half A kn; rewrite -/v => e.
set S := \sum_(l < n - k) (v l)^* * A (k + l)%N b.
have e' : \sum_(l < n - k) `|v l| ^+ 2 = S *+ 2 by rewrite e /S hb.
have -> : 2%:R * v (a - k)%N * S / (\sum_(l < n - k) `|v l| ^+ 2) = v (a - k)%N.
  rewrite e'; rewrite e' in nz.
  have -> : 2%:R * v (a - k)%N * S = v (a - k)%N * (S *+ 2) by rring.
  by rewrite mulfK.
rewrite /v get_reflection_vectorE; [|lia|lia].
rewrite (_ : a - k == 0 = false)%N; last by lia.
by rewrite addr0 hb subnKC ?subrr //; lia.
exact: ltnW.
Qed.

(** C29: the whole in-place reduction is a unitary similarity and its result is upper Hessenberg. *)
Theorem reduce_hessenberg_correct n A : let H := reduce_matrix_to_hessenberg n A in
  (forall i j, (i < n)%N -> (j.+1 < i)%N -> H i j = 0) /\
  exists U : 'M[C]_n, [/\ U *m ctr U = 1%:M, ctr U *m U = 1%:M & mx_of n H = U *m mx_of n A *m ctr U].
Proof.
rewrite /=.
have ctrM (P Q : 'M[C]_n) : ctr (P *m Q) = ctr Q *m ctr P by rewrite /ctr map_mxM trmx_mul.
have ctr1 : ctr (1%:M : 'M[C]_n) = 1%:M.
  by apply/matrixP => a b; rewrite !mxE conjC_nat eq_sym.
pose Q k B := hess_upto n (k - 1) B /\ exists U : 'M[C]_n,
  [/\ U *m ctr U = 1%:M, ctr U *m U = 1%:M & mx_of n B = U *m mx_of n A *m ctr U].
have : Q (1 + (n - 1 - 1))%N (reduce_matrix_to_hessenberg n A).
  apply: for_inv => [|i B hi [hB [U [U1 U2 U3]]]].
    split; first by move=> a b _; lia.
    by exists 1%:M; rewrite ctr1 !mulmx1 !mul1mx.
  split; first by rewrite subn1 /=; apply: step_hess => //; lia.
  have [|||P [P1 P2 P3]] := @apply_householder_similar n i (get_reflection_vector n B i) _ _ B; [lia|lia| |].
    by move=> a b ha hb; apply: hB; lia.
  exists (P *m U); rewrite ctrM P2; split.
  - by rewrite mulmxA -[P *m U *m _]mulmxA U1 mulmx1 P1.
  - by rewrite mulmxA -[ctr U *m P *m P]mulmxA P1 mulmx1 U2.
  by rewrite P3 U3 !mulmxA.
case=> hH hU; split => // i j hi hj; apply: hH => //; lia.
Qed.

(** C28 for [charpoly]: for every matrix of size n >= 1 the result lists the coefficients of
    x^(n-1), ..., x^0 of det(x - A). *)
Theorem charpoly_correct n A : (0 < n)%N ->
  size (charpoly n A) = n /\
  forall j, (0 < j <= n)%N -> nth 0 (charpoly n A) (j - 1) = (char_poly (mx_of n A))`_(n - j).
Proof.
move=> n0; have [hH [U [U1 _ U3]]] := reduce_hessenberg_correct n A.
have [] := labudde_correct hH (k := n); first by rewrite n0 leqnn.
by rewrite U3 char_poly_conj.
Qed.
End Householder.


(** *** C30: power traces *)
(** Specification: the k-th power of a square matrix (any size, including 0). *)
Definition mxpow (K : ringType) m (M : 'M[K]_m) k : 'M[K]_m := iter k (mulmx M) 1%:M.
Arguments mxpow : simpl never.

Section Powertrace.
Variable K : comRingType.
Implicit Types (H : nat -> nat -> K).

Lemma mxpowE n (M : 'M[K]_n.+1) k : mxpow M k = M ^+ k.
Proof. by elim: k => [|k IH]; rewrite /mxpow /= ?expr0 // -/(mxpow M k) IH exprS. Qed.

Lemma mxpowSr m (M : 'M[K]_m) k : mxpow M k.+1 = mxpow M k *m M.
Proof. by elim: k => [|k IH]; [rewrite /mxpow /= mul1mx mulmx1|rewrite {1}/mxpow iterS -/(mxpow M _) {1}IH mulmxA]. Qed.

(** Cayley-Hamilton, as the recurrence the code uses. *)
Lemma power_rec m (M : 'M[K]_m) s : (m <= s)%N ->
  \tr (mxpow M s) = - \sum_(k < m) (char_poly M)`_(m - 1 - k) * \tr (mxpow M (s - k - 1)).
Proof.
case: m M => [|m] M ms; first by rewrite /mxtrace !big_ord0 oppr0.
have e : M ^+ m.+1 = - \sum_(i < m.+1) (char_poly M)`_i *: M ^+ i.
  apply/eqP; rewrite -addr_eq0 -[X in _ == X](Cayley_Hamilton M) /horner_mx /horner_morph.
  rewrite (@horner_coef_wide _ m.+2); last first.
    by apply: leq_trans (size_poly _ _) _; rewrite size_char_poly.
  rewrite [X in _ == X]big_ord_recr /= addrC; apply/eqP; congr (_ + _).
    by apply: eq_bigr => i _; rewrite coef_map /= -mul_scalar_mx.
  have := char_poly_monic M; rewrite monicE lead_coefE size_char_poly /= coef_map /= => /eqP ->.
  by rewrite mul1r.
rewrite mxpowE -{1}(subnK ms) exprD e mulrN -scaleN1r mxtraceZ mulN1r; congr (- _).
rewrite mulr_sumr (@raddf_sum _ _ (mxtrace_additive _ _)).
rewrite (reindex_inj rev_ord_inj); apply: eq_bigr => i _.
rewrite -scalerAr; transitivity (\tr ((char_poly M)`_(rev_ord i) *: (M ^+ (s - m.+1) * M ^+ rev_ord i))); first by [].
rewrite mxtraceZ mxpowE -exprD /=; congr (_`_ _ * \tr (M ^+ _)); have := ltn_ord i; lia.
Qed.

Lemma ftraceE m (A : nat -> nat -> K) : ftrace m A = \tr (mx_of m A).
Proof. by rewrite /ftrace /mxtrace; apply: eq_bigr => i _; rewrite mxE. Qed.
Lemma fmulE m (A B : nat -> nat -> K) : mx_of m (fmul m A B) = mx_of m A *m mx_of m B :> 'M[K]_m.
Proof. by apply/matrixP => a b; rewrite !mxE; apply: eq_bigr => i _; rewrite !mxE. Qed.

(** Power traces from any correct characteristic polynomial routine. *)
Lemma powertrace_withE cpoly m H n :
  (forall j, (0 < j <= m)%N -> nth 0 (cpoly m H) (j - 1) = (char_poly (mx_of m H))`_(m - j)) ->
  exists2 s, (n <= s)%N & powertrace_with cpoly m H n = mkseq (fun k => \tr (mxpow (mx_of m H) k)) s.
Proof.
move=> hc; set M := mx_of m H; pose T k := \tr (mxpow M k).
rewrite /powertrace_with.
have inv : let st := for_ (iota 0 (minn n m - 2)) (H, [:: m%:R; ftrace m H])
     (fun st _ => let: (A, pt) := st in let A := fmul m A H in (A, rcons pt (ftrace m A))) in
   mx_of m st.1 = mxpow M (minn n m - 2).+1 /\ st.2 = mkseq T (minn n m - 2).+2.
  elim: (minn n m - 2)%N => [|k IH]; last first.
    rewrite for_iotaS; move: IH => /=; set st := for_ _ _ _; case: st => A pt /= [IH1 IH2].
    rewrite ftraceE fmulE IH1 -/M -mxpowSr; split => //.
    by rewrite IH2 [RHS]/mkseq -[in RHS]addn1 iotaD map_cat cats1.
  by rewrite /= /mxpow /= mulmx1 /mkseq /= /T /mxpow /= mxtrace1 mulmx1 ftraceE.
move: inv => /=; set st := for_ _ _ _; case: st => A pt /= [_ ->].
case: ifP => nm; first by exists (minn n m - 2).+2 => //; lia.
pose Q k (pt : seq K) := exists s, [/\ (m <= s)%N, (k <= s)%N & pt = mkseq T s].
have : Q (minn n m + (n - minn n m))%N (for_ (iota (minn n m) (n - minn n m)) (mkseq T (minn n m - 2).+2)
   (fun pt _ => rcons pt (for_ (iota 0 m) 0 (fun s k => s - nth 0 (cpoly m H) k * nth 0 pt (size pt - k - 1)%N)))).
  apply: for_inv; first by exists (minn n m - 2).+2; split => //; lia.
  move=> i pt' hi [s [ms ks ->]]; exists s.+1; split; [lia|lia|].
  rewrite [RHS]/mkseq -[in RHS]addn1 iotaD map_cat cats1; congr rcons.
  rewrite (for_sum _ _ (fun k => - (nth 0 (cpoly m H) k * nth 0 (mkseq T s) (size (mkseq T s) - k - 1)))) add0r.
  rewrite sum_iota sumrN add0n (_ : T s = \tr (mxpow M s)) // power_rec //; congr (- _); apply: eq_bigr => k _.
  have km := ltn_ord k.
  rewrite size_mkseq nth_mkseq; last by lia.
  congr (_ * _); have := hc k.+1; rewrite subn1 => -> //.
  by congr (_`_ _); lia.
by case=> s [_ hs ->]; exists s => //; lia.
Qed.
End Powertrace.

(** C30: [powertrace H n] returns (at least) n entries and its k-th entry is tr(H^k), for every size of H
    (also 0 and 1) and every n (also n larger than the size of H). *)
Theorem powertrace_correct (C : numClosedFieldType) m (H : nat -> nat -> C) n :
  (n <= size (powertrace m H n))%N /\
  forall k, (k < size (powertrace m H n))%N -> nth 0 (powertrace m H n) k = \tr (mxpow (mx_of m H) k).
Proof.
rewrite /powertrace; have [|s ns ->] := @powertrace_withE _ (@charpoly C) m H n.
  by case: m H => [|m] H j hj; [lia|have [] := charpoly_correct H (ltn0Sn m) => _; apply].
by rewrite size_mkseq; split => // k ks; rewrite nth_mkseq.
Qed.

(** Concrete cases: the La Budde routine and the power traces computed by the model on the 3 x 3 integer
    Hessenberg matrix [[1,2,3],[4,5,6],[0,7,8]], det(x - H) = x^3 - 14 x^2 + 3 x - 18. *)
Definition ex_hess (i j : nat) : int :=
  nth 0 (nth [::] [:: [:: 1; 2%:Z; 3%:Z]; [:: 4%:Z; 5%:Z; 6%:Z]; [:: 0; 7%:Z; 8%:Z]] i) j.
Example ex_hess_ok : forall i j, (i < 3)%N -> (j.+1 < i)%N -> ex_hess i j = 0.
Proof. by case=> [|[|[|i]]] // [|j]. Qed.
Example labudde_ex : labudde 3 ex_hess 3 = [:: -14; 3; -18].
Proof. by vm_compute. Qed.
Example powertrace_ex : powertrace_with (fun m H => labudde m H m) 3 ex_hess 4 = [:: 3; 14; 190; 2672].
Proof. by rewrite /powertrace_with /ftrace /fmul /= !big_ord_recr !big_ord0; vm_compute. Qed.
