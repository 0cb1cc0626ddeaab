(** C61: positivity of the entropy, and concrete states. *)
From mathcomp Require Import all_ssreflect all_algebra zify.
From Verif Require Import Prelude PyBase ArrLoop MHafnian MHermite MSymplectic MTor MFock MDecomp MMisc MEntangle SpecSymp SpecTor SpecThr SpecFock SpecDecomp SpecEnt PropTor PropTor2 PropTor3 PropTor5 PropThr PropThr2 PropThr3 PropThr5 PropSpectral PropChannels PropSymp2 PropCharpoly PropConversions PropMisc PropChecks PropPure PropDecomp PropDecomp2 PropDecomp3 PropDecomp4 PropDecomp5 PropEnt PropEnt2 PropEnt3 PropEnt4 PropEnt5 PropEnt6 PropEnt7.
Set Implicit Arguments.
Unset Strict Implicit.
Unset Printing Implicit Defensive.
Import Order.TTheory GRing.Theory Num.Theory.
Local Open Scope ring_scope.

Section Ent.
Variable C : numClosedFieldType.
Notation mat := (nat -> nat -> C).
Notation vec := (nat -> C).
Notation mxo n A := (mxof n n A).
Variable eigvalsh : nat -> mat -> seq C.
Hypothesis eig : eigvalsh_ok eigvalsh.
Variable eigvals : nat -> mat -> seq C.
Hypothesis eigP : eigvals_ok eigvals.
Variable log : C -> C.
Variables rtol atol : C.
Hypotheses (r0 : 0 <= rtol) (a0 : 0 <= atol).
Notation vne := (vonneumann_entropy eigvalsh eigvals log rtol atol).

Lemma thermal_ge0 nu : log_ok log -> 1 < nu -> 0 <= thermal_entropy log nu.
Proof.
move=> [l1 lm] n1; rewrite /thermal_entropy subr_ge0.
have t2 : 0 < 2%:R :> C by rewrite ltr0n.
set a := (nu + 1) / _; set b := (nu - 1) / _.
have b0 : 0 < b by rewrite divr_gt0 // subr_gt0.
have ab : b <= a by rewrite ler_pmul2r ?invr_gt0 // ler_add2l; apply: (le_trans (y := 0)); rewrite ?oppr_le0 ler01.
have a1 : 1 <= a by rewrite ler_pdivl_mulr // mul1r mulr2n ler_add2r ltW.
have la : 0 <= log a by rewrite -l1 lm ?ltr01.
have a0' : 0 <= a by apply: le_trans a1; exact: ler01.
have rb : b \is Num.real by rewrite gtr0_real.
have [b1|b1] := real_leP rb (real1 C).
  apply: (le_trans (y := 0)); last exact: mulr_ge0.
  by rewrite pmulr_rle0 // -l1 lm.
apply: ler_pmul => //; first exact: ltW.
  by rewrite -l1 lm ?ltr01 // ltW.
exact: lm.
Qed.
Theorem vonneumann_entropy_ge0 N (cov : mat) hbar x : log_ok log -> real_sym (2 * N) cov -> 0 < hbar -> possemi (2 * N) (uncertainty N cov hbar) ->
  vne (2 * N) cov hbar = Ok x -> 0 <= x.
Proof.
move=> lg rs h0 u; rewrite vne_nus ?(u_valid eig r0 a0 rs h0 u) // => -[<-].
have /allP g1 := state_spectrum_ge1 eigP rs h0 u.
rewrite big_seq_cond; apply: sumr_ge0 => nu /andP[/g1 h nc]; apply: thermal_ge0 => //.
rewrite lt_neqAle h andbT eq_sym; apply: contraNneq nc => ->; exact: close1.
Qed.

Lemma symplectic_idm N : symplectic N (@idm C).
Proof. by apply/symplectic_mx; rewrite mx_idm /symp trmx1 mul1mx mulmx1. Qed.
Lemma thermal_unc N (nu : C) : 1 <= nu -> real_sym (2 * N) (fun i j => (i == j)%:R * nu) /\ possemi (2 * N) (uncertainty N (fun i j => (i == j)%:R * nu) 2%:R).
Proof.
move=> n1; have n0 : 0 < nu by apply: lt_le_trans n1; exact: ltr01.
have rs : real_sym (2 * N) (fun i j => (i == j)%:R * nu).
  by move=> i j _ _; rewrite [(j == i)%N]eq_sym; split=> //; rewrite realM ?realn ?gtr0_real.
split=> //; apply/psd_upto0; apply: classical_valid => //; first by rewrite ltr0n.
move=> v _; left; rewrite /qform; apply: sumr_ge0 => i _; rewrite (bigD1 i) //= big1 ?addr0 => [|j ji].
  by rewrite /above_vacuum eqxx divff ?pnatr_eq0 // mulr1 mul1r mulrAC mulr_ge0 ?subr_ge0 // mulrC mul_conjC_ge0.
rewrite /above_vacuum [(val i == val j)](_ : _ = false) ?mul0r ?mulr0 ?subrr ?mulr0 ?mul0r //.
by apply/negbTE; rewrite eq_sym.
Qed.
(** N thermal modes *)
Theorem thermal_example N : atol + rtol < 2%:R ->
  vne (2 * N) (fun i j => (i == j)%:R * 3%:R) 2%:R = Ok (N%:R * thermal_entropy log 3%:R).
Proof.
move=> tol; have [rs u] := thermal_unc N (ler1n C 3).
have t2 : 0 < 2%:R :> C by rewrite ltr0n.
rewrite (vonneumann_entropy_correct eig eigP log r0 a0 rs t2 (nu := fun=> 3%:R)).
- rewrite (eq_bigl predT) ?sumr_const ?card_ord ?mulr_natl // => i; rewrite /near_one /=.
  have -> : 3%:R - 1 = 2%:R :> C by rewrite -(natrB C (isT : 1 <= 3)%N).
  by rewrite ger0_norm ?ler0n // lt_geF.
- by move=> v _; left; exact: u.
split=> [i _|]; first by rewrite ltr0n.
exists (@idm C); first by split; [move=> i j _ _; rewrite /idm realn | exact: symplectic_idm].
apply/eqm_mx; rewrite !mx_prod mx_tr mx_idm trmx1 mul1mx mulmx1; apply/matrixP => i j.
rewrite !mxE /natural /diag2 /diagm; case: (_ == _); rewrite ?mul1r ?mul0r ?mulr0 ?mul0r // mulrAC divff ?mul1r ?pnatr_eq0 //.
by case: ifP.
Qed.

(** a two-mode squeezed vacuum: pure, entangled, logarithmic negativity log 3 *)
Definition tmsv : mat := fun i j =>
  if i == j then 5%:R / 3%:R else if [|| (i, j) == (0, 1)%N | (i, j) == (1, 0)%N] then 4%:R / 3%:R
  else if [|| (i, j) == (2, 3)%N | (i, j) == (3, 2)%N] then - (4%:R / 3%:R) else 0.
Section Tmsv.
Let r : C := sqrtC 3%:R.
Let a := 2%:R / r.
Let b := r^-1.
Let r2 : r * r = 3%:R. Proof. by rewrite -expr2 sqrtCK. Qed.
Let rn : r != 0. Proof. by rewrite sqrtC_eq0 pnatr_eq0. Qed.
Let aa : a * a = 4%:R / 3%:R. Proof. by rewrite /a mulf_div r2 -natrM. Qed.
Let bb : b * b = 3%:R^-1. Proof. by rewrite /b -invfM r2. Qed.
Let ab : a * b = 2%:R / 3%:R. Proof. by rewrite /a /b -mulrA -invfM r2. Qed.
Let t3 : 3%:R != 0 :> C. Proof. by rewrite pnatr_eq0. Qed.
Let ab1 : a * a - b * b = 1.
Proof. by rewrite aa bb; ffield. Qed.
Let ab2 : a * a + b * b = 5%:R / 3%:R.
Proof. by rewrite aa bb; ffield. Qed.
Let ab4 : a * b + a * b = 4%:R / 3%:R.
Proof. by rewrite ab; ffield. Qed.
Definition sq2 : mat := fun i j =>
  if i == j then a else if [|| (i, j) == (0, 1)%N | (i, j) == (1, 0)%N] then b
  else if [|| (i, j) == (2, 3)%N | (i, j) == (3, 2)%N] then - b else 0.
Let four (P : nat -> nat -> Prop) : P 0%N 0%N -> P 0%N 1%N -> P 0%N 2%N -> P 0%N 3%N -> P 1%N 0%N -> P 1%N 1%N -> P 1%N 2%N -> P 1%N 3%N ->
  P 2%N 0%N -> P 2%N 1%N -> P 2%N 2%N -> P 2%N 3%N -> P 3%N 0%N -> P 3%N 1%N -> P 3%N 2%N -> P 3%N 3%N -> forall i j, (i < 2 * 2)%N -> (j < 2 * 2)%N -> P i j.
Proof. by do 16!move=> ?; move=> -[|[|[|[|i]]]] [|[|[|[|j]]]]. Qed.
Lemma sq2_symplectic : symplectic 2 sq2.
Proof.
by apply: four; rewrite !big_ord_recr !big_ord0 /sq2 /Omega /=; rewrite ?mulr0n ?mulr1n ?subr0 ?sub0r ?oppr0;
  first [rring | rewrite -[RHS]ab1; rring | apply: oppr_inj; rewrite opprK -[RHS]ab1; rring].
Qed.
Lemma real_ab : a \is Num.real /\ b \is Num.real.
Proof.
have rr : 0 < r by rewrite sqrtC_gt0 ltr0n.
by split; apply: gtr0_real; [apply: divr_gt0; rewrite ?ltr0n | rewrite invr_gt0]. Qed.
Lemma sq2_real : realm (2 * 2) sq2.
Proof.
have [ra rb] := real_ab; move=> i j _ _; rewrite /sq2; do ![case: ifP => _] => //; by rewrite ?rpredN ?real0.
Qed.
Lemma tmsv_sq : eqm (2 * 2) tmsv (mprod (2 * 2) (mprod (2 * 2) sq2 (fun i j => (i == j)%:R * 1)) (tr sq2)).
Proof.
by apply: four; rewrite /mprod /tr !big_ord_recr !big_ord0 /= ?big_ord_recr ?big_ord0 /tmsv /sq2 /=; rewrite ?mulr0n ?mulr1n;
  first [rring | rewrite -ab2; rring | rewrite -ab4; rring].
Qed.
Lemma tmsv_state : real_sym (2 * 2) tmsv /\ possemi (2 * 2) (uncertainty 2 tmsv 2%:R).
Proof.
have t2 : 0 < 2%:R :> C by rewrite ltr0n.
have [rs u] := thermal_unc 2 (lexx (1 : C)).
by split; [exact: (@rs' _ _ _ rs _ _ sq2_real tmsv_sq) | exact: (@u' _ _ _ _ u _ _ sq2_symplectic sq2_real tmsv_sq)].
Qed.
(** partial transposition turns the squeezing into a correlation with symplectic eigenvalues 3 and 1/3 *)
Let s : C := sqrtC 2%:R^-1.
Let ss : s * s = 2%:R^-1. Proof. by rewrite -expr2 sqrtCK. Qed.
Definition bs2 : mat := fun i j =>
  if (i, j) \in [:: (0, 0); (0, 1); (1, 0); (2, 2); (2, 3); (3, 2)]%N then s else if (i, j) \in [:: (1, 1); (3, 3)]%N then - s else 0.
Definition nu2 : vec := fun i => if i == 0%N then 3%:R else 3%:R^-1.
Let t2 : 2%:R != 0 :> C. Proof. by rewrite pnatr_eq0. Qed.
Let ss1 : s * s + s * s = 1. Proof. by rewrite ss; ffield. Qed.
Lemma bs2_symplectic : symplectic 2 bs2.
Proof.
by apply: four; rewrite !big_ord_recr !big_ord0 /bs2 /Omega /=; rewrite ?mulr0n ?mulr1n ?subr0 ?sub0r ?oppr0;
  first [rring | rewrite -[RHS]ss1; rring | apply: oppr_inj; rewrite opprK -[RHS]ss1; rring].
Qed.
Let ss5 : s * s * 3%:R + s * s * 3%:R^-1 = 5%:R / 3%:R. Proof. by rewrite ss; ffield. Qed.
Let ss4 : s * s * 3%:R - s * s * 3%:R^-1 = 4%:R / 3%:R. Proof. by rewrite ss; ffield. Qed.
Lemma tmsv_pt : symplectic_spectrum 2 (partial_transpose 2 [:: 0%N] (natural tmsv 2%:R)) nu2.
Proof.
split=> [i _|]; first by rewrite /nu2; case: ifP; rewrite ?invr_gt0 ltr0n.
exists bs2; first split; [|exact: bs2_symplectic|].
  have rs_ : s \is Num.real by rewrite gtr0_real // sqrtC_gt0 invr_gt0 ltr0n.
  by move=> i j _ _; rewrite /bs2; do ![case: ifP => _] => //; rewrite ?rpredN ?real0.
have e i j : natural tmsv 2%:R i j = tmsv i j by rewrite /natural mulrAC divff ?mul1r.
by apply: four; rewrite /mprod /tr !big_ord_recr !big_ord0 /= ?big_ord_recr ?big_ord0 /partial_transpose /mom_sign e /tmsv /bs2 /diag2 /diagm /nu2 /=; rewrite ?mulr0n ?mulr1n;
  first [rring | rewrite -ss5; rring | rewrite -ss4; rring].
Qed.
Theorem tmsv_log_negativity : log_negativity eigvalsh eigvals log rtol atol (2 * 2) tmsv (MList [:: PyInt 0]) None 2%:R = Ok (- log (3%:R^-1)).
Proof.
have t2' : 0 < 2%:R :> C by rewrite ltr0n.
have [rs u] := tmsv_state.
have mA : get_partition (MList [:: PyInt 0]) None 2 = Ok [seq PyInt (Posz m) | m <- [:: 0%N]] by [].
rewrite (log_negativity_correct eig eigP log r0 a0 rs t2' mA _ tmsv_pt).
  by rewrite big_mkcond !big_ord_recr big_ord0 /= /nu2 /= (ltr_nat C 3 1) invf_lt1 ?ltr0n // (ltr_nat C 1 3) !add0r.
by move=> v _; left; exact: u.
Qed.
(** pure, and split into modes 0 and 1: the hypotheses of the two-sided theorems *)
Theorem bipartite_example : [/\ real_sym (2 * 2) tmsv, possemi (2 * 2) (uncertainty 2 tmsv 2%:R), pure_cov 2 tmsv 2%:R, bipartition 2 [:: 0%N] [:: 1%N] &
    get_partition (MList [:: PyInt 0]) None 2 = Ok [seq PyInt (Posz m) | m <- [:: 0%N]] /\
    get_partition (MTuple [:: PyInt 1]) None 2 = Ok [seq PyInt (Posz m) | m <- [:: 1%N]]].
Proof.
have [rs u] := tmsv_state; split=> //=.
have e i j : 2%:R * tmsv i j / 2%:R = tmsv i j by rewrite mulrAC divff ?mul1r.
have sq : (5%:R / 3%:R) * (5%:R / 3%:R) - (4%:R / 3%:R) * (4%:R / 3%:R) = 1 :> C by ffield.
rewrite /pure_cov; apply: four; rewrite !big_ord_recr !big_ord0 /Omega /= !e /tmsv /=; rewrite ?mulr0n ?mulr1n ?subr0 ?sub0r ?oppr0;
  first [rring | rewrite -[RHS]sq; rring | apply: oppr_inj; rewrite opprK -[RHS]sq; rring].
Qed.
End Tmsv.
End Ent.
