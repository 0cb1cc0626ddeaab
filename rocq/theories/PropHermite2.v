(** C20-C23 at the API: hermite_multidimensional, hafnian_batched, interferometer, grad_hermite_multidimensional. *)
From mathcomp Require Import all_ssreflect all_algebra zify ring.
From Verif Require Import Prelude PyBase ArrLoop SpecHaf ThHaf ThPerm2 PropPowerHaf MHafnian PropHafnian MHermite PropHermite.
Set Implicit Arguments.
Unset Strict Implicit.
Unset Printing Implicit Defensive.
Import Order.Theory GRing.Theory Num.Theory.
Local Open Scope ring_scope.

Section API.
Variable C : numClosedFieldType.
Variables (oob : nat -> C) (trunc : C -> C).
Implicit Types (R A : nat -> nat -> C) (y mu : nat -> C).

Theorem interferometer_renorm_kernel_correct n R sh (c : C) (G : seq nat -> C) : size sh = n ->
  all (fun v => v <= 1000)%N sh ->
  G (nseq n 0%N) = c -> (forall k, below k sh -> k != nseq n 0%N -> G k = 0) ->
  forall k, below k sh ->
  interferometer_renorm_kernel oob trunc false n R sh G k
  = c * haf_rep_spec k (fun i j => - (if (i < n./2)%N == (j < n./2)%N then 0 else R i j))
     / \prod_(v <- k) sqrtC (v`!)%:R.
Proof.
move=> sz h1000 G0 Gz k; rewrite -mem_ndindex haf_rep_lhaf -/(offblock n./2 R) -/(herm (offblock n./2 R) (fun=> 0) k).
rewrite -/(hoff n./2 R k) -/(snorm C k).
apply: (fill (P := fun k v => v = c * hoff n./2 R k / snorm C k)).
3: { rewrite sz G0 {1}/hoff herm0 mulr1 /snorm big1_seq ?divr1 // => v; rewrite mem_nseq => /and3P[_ _ /eqP ->].
     by rewrite fact0 sqrtC1. }
  by move=> G' idx j ne; cbv beta zeta; case: ifP => // _; rewrite /updG (negbTE ne).
move=> G' idx hi dep Gi; cbv beta zeta; have [hb hp] := behead_pos hi.
have [h1 h2 h3] := first_posP hp.
have szi : size idx = n by case/belowP: hb => ->.
have hm : (n./2 <= size idx)%N by rewrite szi; lia.
rewrite bran_cnt // (_ : for_ (pyrange _ n) _ _ = cnt n./2 false (rep_index idx)); last by rewrite -ketn_cnt // szi.
case: eqP => bal; last first.
  rewrite Gi Gz ?hoff_unb ?mulr0 ?mul0r //; first exact/eqP.
  by apply: contraTneq hp => ->; rewrite -all_predC; apply/allP => x; rewrite mem_nseq => /andP[_ /eqP ->].
rewrite /updG eqxx /store.
have hki : below (dec idx (first_pos idx)) sh by exact: below_dec.
rewrite (hoff_rec R hp bal).
set i := first_pos idx in hki h1 h2 h3 *; set ki := dec idx i in hki *.
rewrite (for_remove _ _ (fun l kl => SQRT oob (nth 0%N ki l) * R i l * G' kl)) size_dec // sub0r.
rewrite SQRTE ?(below1000 _ h1000) // (snorm_dec C h2) -/ki.
have -> : \sum_(l < size idx | (0 < nth 0 ki l)%N) SQRT oob (nth 0%N ki l) * R i l * G' (dec ki l)
  = c * (\sum_(l < size idx | (0 < nth 0 ki l)%N) (nth 0%N ki l)%:R * R i l * hoff n./2 R (dec ki l)) / snorm C ki.
  rewrite mulr_sumr mulr_suml; apply: eq_bigr => l hl; rewrite dep; last 2 first.
  - by rewrite mem_ndindex; apply: below_dec.
  - by apply: (lexlt_trans (dec_lexlt hl)); apply: dec_lexlt.
  rewrite SQRTE ?(below1000 _ h1000) // (snorm_dec C hl).
  have n1 := sqrtC_nat_neq0 C hl; have n2 := snorm_neq0 C (dec ki l).
  have e : (nth 0%N ki l)%:R = sqrtC (nth 0%N ki l)%:R * sqrtC (nth 0%N ki l)%:R :> C by rewrite -expr2 sqrtCK.
  move: (sqrtC _) n1 e (snorm _ _) n2 => s n1 e t n2; move: (hoff _ _ _) => h; rewrite e.
  by ffield; rewrite mulf_neq0.
have n1 := sqrtC_nat_neq0 C h2; have n2 := snorm_neq0 C ki.
move: (sqrtC _) n1 (snorm _ _) n2 => s n1 t n2; move: (\sum_(_ < _ | _) _) => S.
by ffield; rewrite mulf_neq0.
Qed.

(** ** Entry points *)
(** the factor the values are divided by *)
Definition norm_of (renorm : bool) (k : seq nat) : C := if renorm then \prod_(v <- k) sqrtC (v`!)%:R else 1.
(** an array is exactly representable after np.real_if_close: all entries real, or some imaginary part not negligible *)
Definition ric_exact1 n y := (forall i, (i < n)%N -> y i \is Num.real) \/
   exists i, (i < n)%N /\ ric_tol C <= `|'Im (y i)|.
Definition ric_exact2 n R := (forall i j, (i < n)%N -> (j < n)%N -> R i j \is Num.real) \/
   exists i j, [/\ (i < n)%N, (j < n)%N & ric_tol C <= `|'Im (R i j)|].
Lemma ric_vec n y : ric_exact1 n y -> forall i, (i < n)%N -> real_if_close_vec n y i = y i.
Proof.
rewrite /real_if_close_vec => -[h|[a [ha hi]]] i hin; case: ifP => // hall.
  by rewrite /=; have /Creal_ReP := h i hin.
by move/allP: hall => /(_ a); rewrite mem_iota => /(_ ha); rewrite (le_gtF hi).
Qed.
Lemma ric_mat n R : ric_exact2 n R -> forall i j, (i < n)%N -> (j < n)%N -> real_if_close_mat n R i j = R i j.
Proof.
rewrite /real_if_close_mat => -[h|[a [b [ha hb hi]]]] i j hin hjn; case: ifP => // hall.
  by rewrite /=; have /Creal_ReP := h i j hin hjn.
move/allP: hall => /(_ a); rewrite mem_iota => /(_ ha) /allP /(_ b); rewrite mem_iota => /(_ hb).
by rewrite (le_gtF hi).
Qed.

(** row-major position of a multi-index *)
Fixpoint row_major (sh k : seq nat) (acc : nat) : nat :=
  match sh, k with c :: sh', x :: k' => row_major sh' k' (acc * c + x) | _, _ => acc end.

Lemma size_ndindex sh : size (ndindex sh) = foldr muln 1%N sh.
Proof. by elim: sh => //= c sh IH; rewrite size_allpairs size_iota IH. Qed.
Lemma row_major_acc sh k acc : size k = size sh ->
  row_major sh k acc = (acc * foldr muln 1 sh + row_major sh k 0)%N.
Proof.
elim: sh k acc => [|c sh IH] [|x k] acc //= ; first by rewrite muln1 addn0.
by case=> sz; rewrite IH // [in RHS]IH //; lia.
Qed.
Lemma nth_row_major sh k : below k sh -> nth [::] (ndindex sh) (row_major sh k 0) = k.
Proof.
case/belowP; elim: sh k => [|c sh IH] [|x k] //= [sz] h.
have hx : (x < c)%N by exact: (h 0%N).
have hk : forall i, (i < size sh)%N -> (nth 0 k i < nth 0 sh i)%N by move=> i; exact: (h i.+1).
have hn := IH k sz hk.
have hlt : (row_major sh k 0 < size (ndindex sh))%N.
  rewrite ltnNge; apply/negP => hge; move: hn; rewrite nth_default // => e; move: sz hge; rewrite -e size_ndindex.
  by clear; case: sh.
rewrite row_major_acc // -size_ndindex.
have E m : nth [::] [seq i :: r | i <- iota m c, r <- ndindex sh] (x * size (ndindex sh) + row_major sh k 0) = (m + x)%N :: k.
  elim: c x m hx {h} => //= c IHc x m; case: x => [_|x hx].
    by rewrite mul0n add0n nth_cat size_map hlt (nth_map [::]) // hn addn0.
  rewrite nth_cat size_map ifF; last by rewrite mulSn -addnA ltnNge leq_addr.
  by rewrite mulSn -addnA addKn IHc // addSnnS.
by rewrite E.
Qed.

Lemma all0_take n (k : seq nat) : size k = n -> all (fun x => x == 0%N) (take n k) = (k == nseq n 0%N).
Proof.
move=> sz; rewrite take_oversize ?sz //; apply/idP/eqP => [/all_pred1P|->]; first by rewrite sz.
by apply/allP => x; rewrite mem_nseq => /andP[].
Qed.

Lemma valid_ok n R (rtol atol : C) : 0 <= rtol -> 0 <= atol -> (forall i j, (i < n)%N -> (j < n)%N -> R i j = R j i) ->
  input_validation (PyArr (arr_of n n R)) rtol atol = Ok (arr_of n n R).
Proof.
move=> r0 a0 sym; rewrite /input_validation /= eqxx /=.
have -> : has (fun i => has (fun j => Some (R i j) == None) (iota 0 n)) (iota 0 n) = false.
  by apply/negP => /hasP[i _ /hasP[j _]].
rewrite ifF //; apply/negbF; apply/allP => i; rewrite mem_iota /= => hi; apply/allP => j; rewrite mem_iota /= => hj.
by rewrite /vals /= sym // /close subrr normr0 addr_ge0 // mulr_ge0.
Qed.

(** C20: what hermite_main computes for exactly represented data *)
Lemma hermite_main_ok n R cutoff y c (renorm : bool) it : let cs := cutoffs_of n cutoff in
  size cs = n -> all (fun v => 0 < v)%N cs -> (renorm -> all (fun v => v <= 1000)%N cs) ->
  (renorm -> ~~ [&& int_R it, int_y it & int_C it]) ->
  ric_exact2 n R -> ric_exact1 n y ->
  exists t : tensor C, [/\ tshape t = cs, (forall mt : bool, hermite_main oob trunc n R cutoff (Some (n, y)) c renorm mt it
     = Ok (if mt then t else flatten_tensor t)) &
  forall k, below k cs -> tent t k = c * lhaf_rep_spec k (fun i j => - R i j) y / norm_of renorm k].
Proof.
move=> cs szc pos le1000 hint hR hy.
set Rt := real_if_close_mat n R; set yt := real_if_close_vec n y.
pose arr := fun k : seq nat => if all (fun x => x == 0%N) (take n k) then c else 0.
have seedE : seed_array n cs c = Ok arr.
  rewrite /seed_array szc ltnn /= ifF //; apply/negP => /hasP[x hx /eqP x0].
  by have := allP pos x (mem_take hx); rewrite x0.
exists (Tensor cs (if renorm then hermite_renorm_kernel oob trunc false Rt yt cs arr else hermite_kernel Rt yt cs arr)).
split=> //.
  move=> mt; rewrite /hermite_main eqxx /= -/cs seedE /= andbT.
  by case: renorm hint le1000 => // /(_ isT)/negbTE -> _.
have e0 : arr (nseq (size cs) 0%N) = c by rewrite szc /arr all0_take ?size_nseq // eqxx.
move=> k hk; rewrite /= /norm_of.
have szk : size k = n by case/belowP: hk => ->.
have eqH : lhaf_rep_spec k (fun i j => - Rt i j) yt = lhaf_rep_spec k (fun i j => - R i j) y.
  apply: lhaf_rep_spec_ext => [i j|i]; rewrite szk => *; first by rewrite /Rt ric_mat.
  by rewrite /yt ric_vec.
case: renorm le1000 hint => [/(_ isT) h1000 _|_ _].
  by rewrite (hermite_renorm_kernel_correct _ _ _ _ h1000 e0) // eqH.
by rewrite (hermite_kernel_correct _ _ e0) // eqH divr1.
Qed.

(** flattened results list the values in row-major order *)
Lemma flatten_tensor_ok (t : tensor C) k : below k (tshape t) ->
  tent (flatten_tensor t) [:: row_major (tshape t) k 0] = tent t k.
Proof. by move=> hk; rewrite /= nth_row_major. Qed.

(** C20: hermite_multidimensional.  [y'] is the vector actually used: y itself when modified=True, R y otherwise *)
Theorem hermite_multidimensional_correct n R cutoff y c (renorm modified : bool) rtol atol it :
  let cs := cutoffs_of n cutoff in
  let y' := if modified then y else (fun i => \sum_(j < n) R i j * y j) in
  0 <= rtol -> 0 <= atol -> (forall i j, (i < n)%N -> (j < n)%N -> R i j = R j i) ->
  size cs = n -> all (fun v => 0 < v)%N cs -> (renorm -> all (fun v => v <= 1000)%N cs) ->
  (renorm -> ~~ [&& int_R it, int_y it & int_C it]) ->
  ric_exact2 n R -> ric_exact1 n y' ->
  exists t : tensor C, [/\ tshape t = cs,
    hermite_multidimensional oob trunc (PyArr (arr_of n n R)) cutoff (Some (n, y)) c renorm true modified rtol atol it = Ok t,
    (forall k, below k cs -> tent t k = c * lhaf_rep_spec k (fun i j => - R i j) y' / norm_of renorm k) &
    exists f, [/\ hermite_multidimensional oob trunc (PyArr (arr_of n n R)) cutoff (Some (n, y)) c renorm false modified rtol atol it = Ok f,
      tshape f = [:: foldr muln 1%N cs] &
      forall k, below k cs -> tent f [:: row_major cs k 0] = tent t k]].
Proof.
move=> cs y' r0 a0 sym szc pos le hint hR hy.
have [t [tsh tok tval]] := @hermite_main_ok n R cutoff y' c renorm (if modified then it else IntTypes (int_R it) (int_R it && int_y it) (int_C it)) szc pos le
  (ltac:(by move: hint; case: modified {y' hy} => //= h /h; case: (int_R it))) hR hy.
have E mt : hermite_multidimensional oob trunc (PyArr (arr_of n n R)) cutoff (Some (n, y)) c renorm mt modified rtol atol it
   = Ok (if mt then t else flatten_tensor t).
  have r0' : 0 <= rtol0 C by rewrite exprn_ge0 // invr_ge0 ler0n.
  have a0' : 0 <= atol0 C by rewrite exprn_ge0 // invr_ge0 ler0n.
  rewrite /hermite_multidimensional (valid_ok r0' a0' sym) (valid_ok r0 a0 sym) /= eqxx andbT -(tok mt).
  by case: modified @y' {hy tval tok hint}.
exists t; split=> //; first exact: (E true).
exists (flatten_tensor t); split; first exact: (E false).
  by rewrite /= tsh size_ndindex.
by move=> k hk; rewrite -(flatten_tensor_ok (t := t)) tsh.
Qed.

(** C20: hafnian_batched with and without a displacement *)
Theorem hafnian_batched_correct n A cutoff mu (renorm : bool) rtol atol it :
  let cs := cutoffs_of n cutoff in
  0 <= rtol -> 0 <= atol -> (forall i j, (i < n)%N -> (j < n)%N -> A i j = A j i) ->
  size cs = n -> all (fun v => 0 < v)%N cs -> (renorm -> all (fun v => v <= 1000)%N cs) ->
  (renorm -> ~~ (int_R it && int_y it)) ->
  ric_exact2 n A -> ric_exact1 n mu ->
  exists t : tensor C, [/\ tshape t = cs,
    hafnian_batched oob trunc (PyArr (arr_of n n A)) cutoff (Some (n, mu)) rtol atol renorm true it = Ok t,
    (forall k, below k cs -> tent t k = lhaf_rep_spec k A mu / norm_of renorm k) &
    exists f, [/\ hafnian_batched oob trunc (PyArr (arr_of n n A)) cutoff (Some (n, mu)) rtol atol renorm false it = Ok f,
      tshape f = [:: foldr muln 1%N cs] &
      forall k, below k cs -> tent f [:: row_major cs k 0] = tent t k]].
Proof.
move=> cs r0 a0 sym szc pos le hint hA hm.
have r0' : 0 <= rtol0 C by rewrite exprn_ge0 // invr_ge0 ler0n.
have a0' : 0 <= atol0 C by rewrite exprn_ge0 // invr_ge0 ler0n.
have hN : ric_exact2 n (fun i j => - A i j).
  case: hA => [h|[i [j [hi hj h]]]]; [left=> i j hi hj | right; exists i, j; split=> //].
    by rewrite rpredN; apply: h.
  by rewrite raddfN normrN.
have [t [tsh tok tval [f [fok fsh fval]]]] := @hermite_multidimensional_correct n (fun i j => - A i j) cutoff mu 1 renorm true
  (rtol0 C) (atol0 C) (IntTypes (int_R it) (int_y it && true) true) r0' a0'
  (fun i j hi hj => congr1 -%R (sym i j hi hj)) szc pos le (ltac:(by move=> /hint /=; rewrite !andbT)) hN hm.
exists t; split=> //; first by rewrite /hafnian_batched valid_ok.
  move=> k hk; rewrite tval // mul1r; congr (_ / _); apply: lhaf_rep_spec_ext => // i j _ _; by rewrite opprK.
by exists f; split=> //; rewrite /hafnian_batched valid_ok.
Qed.

Theorem hafnian_batched_nomu n A cutoff (renorm : bool) rtol atol it :
  let cs := cutoffs_of n cutoff in
  0 <= rtol -> 0 <= atol -> (forall i j, (i < n)%N -> (j < n)%N -> A i j = A j i) ->
  size cs = n -> all (fun v => 0 < v)%N cs -> (renorm -> all (fun v => v <= 1000)%N cs) ->
  ric_exact2 n A ->
  exists t : tensor C, [/\ tshape t = cs,
    hafnian_batched oob trunc (PyArr (arr_of n n A)) cutoff None rtol atol renorm true it = Ok t &
    forall k, below k cs -> tent t k = haf_rep_spec k A / norm_of renorm k].
Proof.
move=> cs r0 a0 sym szc pos le hA.
have [t [tsh tok tval _]] := @hafnian_batched_correct n A cutoff (fun=> 0) renorm rtol atol (IntTypes (int_R it) false (int_C it))
  r0 a0 sym szc pos le (ltac:(by move=> _; rewrite /= andbF)) hA (or_introl (fun i _ => rpred0 _)).
exists t; split=> //; last by move=> k hk; rewrite tval // haf_rep_lhaf.
by rewrite -tok /hafnian_batched (valid_ok r0 a0 sym) /bind andbF.
Qed.

(** C20: rejected arguments *)
Theorem hermite_multidimensional_errors n R cutoff m y c (renorm mt modified : bool) rtol atol it :
  0 <= rtol -> 0 <= atol -> (forall i j, (i < n)%N -> (j < n)%N -> R i j = R j i) ->
  (m != n -> hermite_multidimensional oob trunc (PyArr (arr_of n n R)) cutoff (Some (m, y)) c renorm mt modified rtol atol it
     = Err ValueError) /\
  (m = n -> (size (cutoffs_of n cutoff) < n)%N || has (fun v => v == 0%N) (take n (cutoffs_of n cutoff)) ->
   hermite_multidimensional oob trunc (PyArr (arr_of n n R)) cutoff (Some (m, y)) c renorm mt modified rtol atol it
     = Err IndexError).
Proof.
move=> r0 a0 sym.
have r0' : 0 <= rtol0 C by rewrite exprn_ge0 // invr_ge0 ler0n.
have a0' : 0 <= atol0 C by rewrite exprn_ge0 // invr_ge0 ler0n.
rewrite /hermite_multidimensional (valid_ok r0' a0' sym) (valid_ok r0 a0 sym) /=; split=> [hm|-> bad].
  by rewrite (negbTE hm) andbF /hermite_main hm.
rewrite eqxx andbT; case: modified; rewrite /= /hermite_main eqxx /= /seed_array bad //.
Qed.

(** C23: interferometer.  For R = - [[0, U], [U^T, 0]] the entry at (p, q) is the permanent of U with rows repeated p and
    columns repeated q if p and q have the same total, and 0 otherwise *)
Theorem interferometer_correct m U cutoff c (renorm mt : bool) rtol atol it :
  let n := (m + m)%N in
  let cs := cutoffs_of n cutoff in
  let R := fun i j => - bip m U i j in
  0 <= rtol -> 0 <= atol ->
  size cs = n -> all (fun v => 0 < v)%N cs -> (renorm -> all (fun v => v <= 1000)%N cs) ->
  (renorm -> ~~ (int_R it && int_C it)) ->
  ric_exact2 n R ->
  exists t : tensor C, [/\ tshape t = cs,
    interferometer oob trunc (PyArr (arr_of n n R)) cutoff c renorm mt rtol atol it = Ok t &
    forall p q, size p = m -> size q = m -> below (p ++ q) cs -> tent t (p ++ q) =
      c * (if sumn p == sumn q
           then perm_spec (sumn p) (fun i j => U (nth 0%N (rep_index p) i) (nth 0%N (rep_index q) j)) else 0)
        / norm_of renorm (p ++ q)].
Proof.
move=> n cs R r0 a0 szc pos le hint hR.
have sym i j : (i < n)%N -> (j < n)%N -> R i j = R j i.
  by move=> _ _; rewrite /R /bip; case: (i < m)%N; case: (j < m)%N.
set Rt := real_if_close_mat n R.
pose arr := fun k : seq nat => if all (fun x => x == 0%N) (take n k) then c else 0.
have seedE : seed_array n cs c = Ok arr.
  rewrite /seed_array szc ltnn /= ifF //; apply/negP => /hasP[x hx /eqP x0].
  by have := allP pos x (mem_take hx); rewrite x0.
exists (Tensor cs (if renorm then interferometer_renorm_kernel oob trunc false n Rt cs arr else interferometer_kernel n Rt cs arr)).
split=> //.
  rewrite /interferometer valid_ok //= -/cs seedE /= szc eqxx andbF.
  by case: renorm hint le => // /(_ isT)/negbTE -> _.
have e0 : arr (nseq n 0%N) = c by rewrite /arr all0_take ?size_nseq // eqxx.
have hn2 : n./2 = m by rewrite /n addnn doubleK.
move=> p q szp szq hk; rewrite /= /norm_of.
have ext : haf_rep_spec (p ++ q) (fun i j => - (if (i < n./2)%N == (j < n./2)%N then 0 else Rt i j))
  = haf_rep_spec (p ++ q) (fun i j => - (if (i < m)%N == (j < m)%N then 0 else - bip m U i j)).
  rewrite !haf_rep_lhaf hn2; apply: lhaf_rep_spec_ext => // i j; rewrite size_cat szp szq => hi hj.
  by rewrite /Rt ric_mat.
rewrite -(haf_bip_perm U szp szq) -ext.
have ez k : below k cs -> k != nseq n 0%N -> arr k = 0.
  by move=> /belowP[sz _] ne; rewrite /arr all0_take ?sz // (negbTE ne).
case: renorm le hint => [/(_ isT) h1000 _|_ _].
  by rewrite (interferometer_renorm_kernel_correct _ szc h1000 e0 ez).
by rewrite (interferometer_kernel_correct _ szc e0 ez) // divr1.
Qed.

(** C22: grad_hermite_multidimensional.  Given the array G of values at (c, R, y), the returned arrays are the derivatives:
    dG_dC is the value with c = 1, and for every direction (E, v) the contraction of (dG_dR, dG_dy) with (E, v) is the
    coefficient of t in the value at (c, R + t E, y + t v). *)
Theorem grad_hermite_correct n sh G R y c (renorm : bool) : size sh = n -> (renorm -> all (fun v => v <= 1000)%N sh) ->
  c != 0 ->
  (forall k, below k sh -> G k = c * lhaf_rep_spec k (fun i j => - R i j) y / norm_of renorm k) ->
  exists dC dR dy, grad_hermite_multidimensional oob sh G n R n y c renorm = Ok (dC, dR, dy) /\
  forall k, below k sh ->
    dC k = lhaf_rep_spec k (fun i j => - R i j) y / norm_of renorm k /\
    forall (E : nat -> nat -> C) (v : nat -> C),
      \sum_(a < n) \sum_(b < n) dR k a b * E a b + \sum_(j < n) dy k j * v j
      = c * (lhaf_rep_spec k (fun i j => - ((R i j)%:P + (E i j)%:P * 'X)) (fun i => (y i)%:P + (v i)%:P * 'X))`_1
          / norm_of renorm k.
Proof.
move=> szn le c0 hG; rewrite /grad_hermite_multidimensional eqxx /=.
set d := if renorm then _ else _; exists (fun k => G k / c), d.1, d.2; split=> // k hk; split.
  by rewrite hG //; move: (norm_of _ _)^-1 => z; ffield.
move=> E v; move: hG le; rewrite /norm_of /d; case: renorm {d} => hG le.
  exact: (@grad_renorm_kernel_contr C oob n R E y v sh c G szn (le isT) hG k hk).
rewrite divr1; apply: (@grad_kernel_contr C n R E y v sh c G szn _ k hk).
by move=> k' hk'; rewrite hG // divr1.
Qed.

(** componentwise form *)
Corollary grad_hermite_dy n sh G R y c (renorm : bool) j : size sh = n -> (renorm -> all (fun v => v <= 1000)%N sh) ->
  c != 0 -> (forall k, below k sh -> G k = c * lhaf_rep_spec k (fun i j => - R i j) y / norm_of renorm k) ->
  (j < n)%N ->
  exists dC dR dy, grad_hermite_multidimensional oob sh G n R n y c renorm = Ok (dC, dR, dy) /\
  forall k, below k sh -> dy k j
      = c * (lhaf_rep_spec k (fun a b => - ((R a b)%:P : {poly C})) (fun i => (y i)%:P + (i == j)%:R%:P * 'X))`_1 / norm_of renorm k.
Proof.
move=> szn le c0 hG hj; have [dC [dR [dy [ok H]]]] := grad_hermite_correct szn le c0 hG.
exists dC, dR, dy; split=> // k hk; have [_ /(_ (fun _ _ => 0) (fun i => (i == j)%:R))] := H k hk.
rewrite big1 ?add0r => [|a _]; last by rewrite big1 // => b _; rewrite mulr0.
rewrite (bigD1 (Ordinal hj)) //= eqxx mulr1 big1 ?addr0 => [->|i ne]; last first.
  by have -> : (val i == j) = false by [exact: negbTE ne]; rewrite mulr0.
congr (_ * (polyseq _)`_1 / _); apply: lhaf_rep_spec_ext => // a b _ _; by rewrite mul0r addr0.
Qed.
Corollary grad_hermite_dR n sh G R y c (renorm : bool) i l : size sh = n -> (renorm -> all (fun v => v <= 1000)%N sh) ->
  c != 0 -> (forall k, below k sh -> G k = c * lhaf_rep_spec k (fun i j => - R i j) y / norm_of renorm k) ->
  (i < n)%N -> (l < n)%N ->
  exists dC dR dy, grad_hermite_multidimensional oob sh G n R n y c renorm = Ok (dC, dR, dy) /\
  forall k, below k sh -> dR k i l
      = c * (lhaf_rep_spec k (fun a b => - ((R a b)%:P + ((a == i) && (b == l))%:R%:P * 'X)) (fun j => (y j)%:P))`_1 / norm_of renorm k.
Proof.
move=> szn le c0 hG hi hl; have [dC [dR [dy [ok H]]]] := grad_hermite_correct szn le c0 hG.
exists dC, dR, dy; split=> // k hk; have [_ /(_ (fun a b => ((a == i) && (b == l))%:R) (fun=> 0))] := H k hk.
rewrite [X in _ + X]big1 ?addr0 => [|a _]; last by rewrite mulr0.
rewrite (bigD1 (Ordinal hi)) //= (bigD1 (Ordinal hl)) //= !eqxx mulr1 big1 ?addr0 => [|b ne]; last first.
  by have -> : (val b == l) = false by [exact: negbTE ne]; rewrite mulr0.
rewrite big1 ?addr0 => [->|a ne]; last first.
  by rewrite big1 // => b _; have -> : (val a == i) = false by [exact: negbTE ne]; rewrite mulr0.
congr (_ * (polyseq _)`_1 / _); apply: lhaf_rep_spec_ext => // a _; by rewrite mul0r addr0.
Qed.

Lemma rtol0_ge0 : 0 <= rtol0 C. Proof. by rewrite exprn_ge0 // invr_ge0 ler0n. Qed.
Lemma atol0_ge0 : 0 <= atol0 C. Proof. by rewrite exprn_ge0 // invr_ge0 ler0n. Qed.
(** ** Where the documented values are not returned *)
Lemma ndindex2 : behead (ndindex [:: 3%N]) = [:: [:: 1%N]; [:: 2%N]]. Proof. by []. Qed.

(** (a) imaginary parts below 100 * 2^-52 are dropped: for R = (0), y = (z) with 0 < Im z small, the first Hermite
    polynomial is z but a real number is returned *)
Theorem hermite_real_if_close_refuted (z : C) : 'Re z = 0 -> 0 < 'Im z < ric_tol C ->
  exists t, hermite_multidimensional oob trunc (PyArr (arr_of 1 1 (fun _ _ => 0))) (CInt 2) (Some (1%N, fun=> z)) 1
    false true true (rtol0 C) (atol0 C) (IntTypes false false true) = Ok t
  /\ tent t [:: 1%N] = 0 /\ 1 * lhaf_rep_spec [:: 1%N] (fun _ _ => - 0) (fun=> z) / norm_of false [:: 1%N] = z /\ z != 0.
Proof.
move=> re /andP[im0 im]; eexists; split.
  rewrite /hermite_multidimensional (valid_ok rtol0_ge0 atol0_ge0); last by [].
  by rewrite /bind [nrows _]/= /hermite_main [_ != _]/=; reflexivity.
split.
  rewrite /tent (@hermite_kernel_correct _ _ _ _ 1) // lhaf_rep_spec_lhq_any (_ : rep_index _ = [:: 0%N]) //.
  rewrite lhq_cons lhq_nil big_nil addr0 /real_if_close_vec /= ger0_norm ?im ?(ltW im0) //= re !(mul0r, mulr0) //.
split; last by apply: contraTneq im0 => ->; rewrite raddf0 ltxx.
rewrite lhaf_rep_spec_lhq_any (_ : rep_index _ = [:: 0%N]) // lhq_cons lhq_nil big_nil addr0 /norm_of.
by rewrite divr1 mul1r mulr1.
Qed.

(** (b) with integer arrays and renorm=True the stored values are truncated: H_2 / sqrt 2! for R = (0), y = (1) is 1/sqrt 2,
    but 0 is returned.  Only that the cast maps 1 to 1 and numbers in [0,1) to 0 is used. *)
Theorem hermite_int_renorm_refuted : trunc 1 = 1 -> (forall x, 0 <= x < 1 -> trunc x = 0) ->
  exists t, hermite_multidimensional oob trunc (PyArr (arr_of 1 1 (fun _ _ => 0))) (CInt 3) (Some (1%N, fun=> 1)) 1
    true true true (rtol0 C) (atol0 C) (IntTypes true true true) = Ok t
  /\ tent t [:: 2%N] = 0 /\ 1 * lhaf_rep_spec [:: 2%N] (fun _ _ => - 0) (fun=> 1) / norm_of true [:: 2%N] = (sqrtC 2%:R)^-1 :> C.
Proof.
move=> t1 tr; eexists; split.
  rewrite /hermite_multidimensional (valid_ok rtol0_ge0 atol0_ge0); last by [].
  by rewrite /bind [nrows _]/= /hermite_main [_ != _]/=; reflexivity.
have ric1 : real_if_close_vec 1 (fun=> 1 : C) 0 = 1.
  by rewrite ric_vec //; left=> i _; rewrite rpred1.
have ric0 i j : real_if_close_mat 1 (fun _ _ => 0 : C) i j = 0 by rewrite /real_if_close_mat; case: ifP => // _; rewrite raddf0.
have s1 : SQRT oob 1 = 1 by rewrite SQRTE // sqrtC1.
have s2 : SQRT oob 2 = sqrtC 2%:R by rewrite SQRTE.
have gt1 : 1 < sqrtC 2%:R :> C by rewrite -[X in X < _](@sqrCK _ 1) ?ler01 // expr1n ltr_sqrtC ?ltr1n // ?qualifE ?ler01 ?ler0n.
split; last first.
  rewrite lhaf_rep_spec_lhq_any (_ : rep_index _ = [:: 0; 0]%N) // !lhq_cons !big_cons lhq_nil !big_nil /norm_of big_cons big_nil.
  by rewrite !(oppr0, mul0r, addr0, mulr1, mul1r, div1r).
rewrite /tent /hermite_renorm_kernel; move: (SQRT oob) s1 s2 => S s1 s2.
set Rt := real_if_close_mat _ _; set yt := real_if_close_vec _ _.
have y1 : yt 0%N = 1 by exact: ric1.
have r0 i j : Rt i j = 0 by exact: ric0.
move: Rt r0 yt y1 => Rt r0 yt y1; rewrite ndindex2 /for_ /= /updG /= y1 r0 s1 s2 /store /= !(mulr0, mul0r, subr0, mulr1, divr1) t1.
rewrite !(mulr0, mul0r, subr0, mulr1, mul1r) tr //.
by rewrite invr_ge0 sqrtC_ge0 ler0n /= invf_lt1 // (lt_trans ltr01 gt1).
Qed.

(** (c) interferometer with make_tensor=False returns the tensor, not a flattened vector *)
Theorem interferometer_make_tensor_refuted U cutoff c (renorm : bool) rtol atol it : 0 <= rtol -> 0 <= atol ->
  let n := 2%N in let cs := cutoffs_of n cutoff in
  size cs = n -> all (fun v => 0 < v)%N cs ->
  exists t, interferometer oob trunc (PyArr (arr_of n n (fun i j => - bip 1 U i j))) cutoff c renorm false rtol atol it = Ok t
   /\ tshape t = cs /\ size (tshape t) = 2%N.
Proof.
move=> r0 a0 n cs szc pos; eexists; split.
  rewrite /interferometer valid_ok //; last by move=> i j _ _; rewrite /bip; case: (i < 1)%N; case: (j < 1)%N.
  rewrite /bind [nrows _]/= -/cs /seed_array szc /= ifF; first by reflexivity.
  by apply/negP => /hasP[x hx /eqP x0]; have := allP pos x (mem_take hx); rewrite x0.
by [].
Qed.
End API.

(** Instance: the hypotheses hold for the real symmetric 2x2 matrix with entries i+j, y = (1, 2), cutoffs (3, 2) *)
Example hermite_instance (C : numClosedFieldType) :
  let R : nat -> nat -> C := fun i j => (i + j)%:R in
  [/\ forall i j, (i < 2)%N -> (j < 2)%N -> R i j = R j i, ric_exact2 2 R, ric_exact1 2 (fun i => i.+1%:R : C)
    & below [:: 2; 1]%N (cutoffs_of 2 (CSeq [:: 3; 2]%N))].
Proof.
split=> //; first by move=> i j _ _; rewrite addnC.
- by left=> i j _ _; rewrite realn.
- by left=> i _; rewrite realn.
Qed.

(** In one dimension the values are the classical Hermite polynomials: with R = (r) and the vector argument R y = (r y),
    H_0 = 1, H_1 = r y and H_(k+2) = r y H_(k+1) - r (k+1) H_k: the probabilists' polynomials for r = 1 and the physicists'
    for r = 2. *)
Theorem hermite_1d (T : comRingType) (r y : T) :
  let H k := lhaf_rep_spec [:: k] (fun _ _ => - r) (fun=> r * y) in
  [/\ H 0%N = 1, H 1%N = r * y & forall k, H k.+2 = r * y * H k.+1 - r * k.+1%:R * H k].
Proof.
have h0 : herm (fun _ _ => r) (fun=> r * y) [:: 0%N] = 1 by exact: (@herm0 _ _ _ 1).
split=> //.
  rewrite -/(herm (fun _ _ => r) (fun=> r * y) [:: 1%N]) herm_rec // /first_pos /= -[dec _ _]/[:: 0%N] h0 mulr1.
  by rewrite big_mkcond big_ord_recl big_ord0 /= addr0 subr0.
move=> k; rewrite -/(herm (fun _ _ => r) (fun=> r * y) [:: k.+2]) herm_rec //.
rewrite (_ : first_pos _ = 0%N) // (_ : dec _ _ = [:: k.+1]); last by rewrite /dec /= subn1.
rewrite big_mkcond big_ord_recl big_ord0 /= addr0 (_ : dec _ _ = [:: k]); last by rewrite /dec /= subn1.
by congr (_ - _); rring.
Qed.
