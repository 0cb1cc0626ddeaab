(** C54, part 7: the specification's loop hafnians are the Taylor coefficients of exp(1/2 v^T A v + g^T v); coherent states. *)
From mathcomp Require Import all_ssreflect all_algebra algC zify.
From Verif Require Import Prelude PyBase ArrLoop SpecHaf ThHaf MHafnian PropPowerHaf PropHafnian MHermite PropHermite PropHermite2 SpecSymp MSymplectic
  PropSymplectic PropSymp2 PropGates PropChannels PropConversions SpecGauss MMeans PropMeans PropMeans3 SpecTor PropTor5 PropThr4 PropThr5 SpecFock MFock PropFock PropFock2 PropFock3 PropFock4 PropFock5 PropFock6.
Set Implicit Arguments.
Unset Strict Implicit.
Unset Printing Implicit Defensive.
Import Order.Theory GRing.Theory Num.Theory.
Local Open Scope ring_scope.

Lemma nth_bump r t x : (t < size r)%N -> nth 0%N (bump r t) x = (nth 0%N r x + (x == t))%N.
Proof. by move=> h; rewrite /bump nth_set_nth /=; case: eqP => [->|_]; rewrite ?addn1 ?addn0. Qed.
Lemma nth_drop1 r t x : nth 0%N (drop1 r t) x = (nth 0%N r x - (x == t))%N.
Proof. by rewrite /drop1 nth_set_nth /=; case: eqP => [->|_]; rewrite ?subn1 ?subn0. Qed.
Lemma size_drop1 r t : (t < size r)%N -> size (drop1 r t) = size r.
Proof. by move=> h; rewrite /drop1 size_set_nth; lia. Qed.
Lemma size_bump r t : (t < size r)%N -> size (bump r t) = size r.
Proof. by move=> h; rewrite /bump size_set_nth; lia. Qed.
Lemma big_rep_index (R : zmodType) (r : seq nat) (f : nat -> R) :
  \sum_(x <- rep_index r) f x = \sum_(u < size r) f u *+ nth 0%N r u.
Proof.
rewrite /rep_index big_flatten big_map -(big_mkord xpredT (fun u => f u *+ nth 0%N r u)) /index_iota subn0; apply: eq_bigr => u _.
by rewrite big_nseq; elim: (nth 0%N r u) => // n IH; rewrite mulrS -IH.
Qed.
Lemma prod_rep_index (R : comRingType) (r : seq nat) (f : nat -> R) :
  \prod_(x <- rep_index r) f x = \prod_(u < size r) f u ^+ nth 0%N r u.
Proof.
rewrite /rep_index big_flatten big_map -(big_mkord xpredT (fun u => f u ^+ nth 0%N r u)) /index_iota subn0; apply: eq_bigr => u _.
by rewrite big_nseq; elim: (nth 0%N r u) => // n IH; rewrite exprS -IH.
Qed.

(** the loop hafnian with repetitions is the Taylor coefficient ... *)
Theorem lhaf_rep_taylor (R : comRingType) n (A : nat -> nat -> R) g : (forall i j, (i < n)%N -> (j < n)%N -> A i j = A j i) ->
  taylor_exp_quadratic n A g (fun r => lhaf_rep_spec r A g).
Proof.
move=> sA; split.
  rewrite lhaf_rep_spec_lhq_any (_ : rep_index _ = [::]) ?lhq_nil //.
  by apply/eqP; rewrite -size_eq0 size_rep_index sumn_nseq.
move=> r t sr ht; rewrite !lhaf_rep_spec_lhq_any.
have lt x q : size q = n -> x \in rep_index q -> (x < n)%N by move=> <-; exact: rep_index_lt.
have tr : (t < size r)%N by rewrite sr.
rewrite (@lhq_perm_in _ _ _ _ _ (t :: rep_index r)).
- rewrite lhq_cons big_rep_index sr; congr (_ + _); apply: eq_bigr => u _.
  rewrite lhaf_rep_spec_lhq_any.
  case E : (nth 0%N r u) => [|m]; first by rewrite mulr0n mulr0 mul0r.
  rewrite -mulrnAl -[in LHS]mulr_natr; congr (_ * _); apply: lhq_perm_in.
    by move=> x y /mem_rem /(lt _ _ sr) hx /mem_rem /(lt _ _ sr) hy; exact: sA.
  rewrite perm_sym; apply: rep_index_permP => x; rewrite nth_drop1 -count_rep_index.
  have ur : nat_of_ord u \in rep_index r by rewrite mem_rep_index E.
  have /permP/(_ (pred1 x)) := perm_to_rem ur.
  by rewrite /= [in _ == x]eq_sym => ->; rewrite addKn.
- move=> x y; have sb : size (bump r t) = n by rewrite size_bump.
  by move=> /(lt _ _ sb) hx /(lt _ _ sb) hy; exact: sA.
- by apply: rep_index_permP => x; rewrite /= count_rep_index nth_bump // addnC eq_sym.
Qed.
(** ... and these are determined by the differential equation *)
Theorem taylor_unique (R : comRingType) n (A : nat -> nat -> R) g T1 T2 :
  taylor_exp_quadratic n A g T1 -> taylor_exp_quadratic n A g T2 -> forall r, size r = n -> T1 r = T2 r.
Proof.
move=> [z1 e1] [z2 e2] r; move: {2}(sumn r) (leqnn (sumn r)) => m; elim: m r => [|m IH] r hm sr.
  have -> : r = nseq n 0%N by rewrite -sr; apply/all_pred1P; elim: (r) hm => //= x s IHs; rewrite leqn0 addn_eq0 => /andP[-> /eqP h]; rewrite IHs ?h.
  by rewrite z1 z2.
case: (boolP (has (fun x => 0 < x)%N r)) => [/(hasP) [x xr x0]|h0]; last first.
  apply: IH => //; have -> : sumn r = 0%N; last by [].
  by elim: (r) h0 => //= x s IHs; rewrite negb_or -eqn0Ngt => /andP[/eqP -> /IHs ->].
have ht : (index x r < size r)%N by rewrite index_mem.
have nx : nth 0%N r (index x r) = x by rewrite nth_index.
set t := index x r in ht nx.
have sd : size (drop1 r t) = size r by rewrite size_drop1.
have er : r = bump (drop1 r t) t.
  apply: (@eq_from_nth _ 0%N); first by rewrite size_bump ?sd.
  by move=> i hi; rewrite nth_bump ?sd // nth_drop1; case: eqP => [->|_]; rewrite ?nx; lia.
have sumd q u : (u < size q)%N -> (0 < nth 0%N q u)%N -> (sumn (drop1 q u)).+1 = sumn q.
  elim: q u => // w q IHq [|u] /=; first by rewrite -addSn => _ /prednK ->.
  by move=> hu p; rewrite -addnS; congr addn; exact: IHq.
have m1 : (sumn (drop1 r t) <= m)%N by have := sumd r t ht; rewrite nx => /(_ x0); lia.
clearbody t; have sn : size (drop1 r t) = n by rewrite sd.
have tn : (t < n)%N by rewrite -sr.
have E1 := e1 _ _ sn tn; have E2 := e2 _ _ sn tn; rewrite -er in E1 E2; rewrite E1 E2.
congr (_ * _ + _); first exact: IH.
apply: eq_bigr => u _; case E : (nth 0%N (drop1 r t) u) => [|v]; first by rewrite mulr0 !mul0r.
congr (_ * _); have hu : (u < size (drop1 r t))%N by rewrite sn.
apply: IH; last by rewrite size_drop1.
by have := sumd (drop1 r t) u hu; rewrite E => /(_ isT); lia.
Qed.

(** what fock_rho is: the coefficients of the generating function of SpecFock *)
Theorem fock_rho_generating (C : numClosedFieldType) (exp : C -> C) N mu cov (hbar : C) T k l :
  real_sym (2 * N) cov -> 0 < hbar -> possemi (2 * N) cov -> 
  taylor_exp_quadratic (2 * N) (rho_quad N cov hbar) (rho_lin N mu cov hbar) T -> size k = N -> size l = N ->
  fock_rho exp N mu cov hbar k l = rho_vac exp N mu cov hbar * T (k ++ l) / sqrtC (fact_prod k * fact_prod l)%:R.
Proof.
move=> rs h0 ps hT sk sl; rewrite /fock_rho; congr (_ * _ / _).
have skl : size (k ++ l) = (2 * N)%N by rewrite size_cat sk sl; lia.
have sym t u : (t < 2 * N)%N -> (u < 2 * N)%N -> rho_quad N cov hbar t u = rho_quad N cov hbar u t.
  by move=> ht hu; rewrite !rho_quad_conj // (AQ_sym rs h0 ps).
exact: (taylor_unique (lhaf_rep_taylor (rho_lin N mu cov hbar) sym) hT skl).
Qed.

Lemma prod_halves (R : comRingType) N (f : nat -> R) : \prod_(i < 2 * N) f i = \prod_(i < N) (f i * f (N + i)%N).
Proof.
rewrite -(big_mkord xpredT f) (big_cat_nat _ _ _ (leq0n N)) /=; last by lia.
rewrite -{2}[N]add0n big_addn (_ : (2 * N - N = N)%N); last by lia.
rewrite !big_mkord big_split /=; congr (_ * _).
by apply: eq_bigr => i _; rewrite addnC.
Qed.
(** ** coherent states: covariance hbar/2, any displacement *)
Section Coherent.
Variable C : numClosedFieldType.
Notation mat := (nat -> nat -> C).
Notation vec := (nat -> C).
Variable exp : C -> C.
Variables (N : nat) (mu : vec) (hbar : C).
Hypothesis N0 : (0 < N)%N.
Hypothesis rmu : forall a, (a < 2 * N)%N -> mu a \is Num.real.
Hypothesis h0 : 0 < hbar.
Definition vac_cov : mat := fun i j => (i == j)%:R * (hbar / 2%:R).
Let rs : real_sym (2 * N) vac_cov. Proof. by case: (vacuum_cov_ok N h0). Qed.
Let ps : possemi (2 * N) vac_cov. Proof. by case: (vacuum_cov_ok N h0). Qed.
Let hn : hbar != 0. Proof. by rewrite gt_eqF. Qed.
Notation alpha := (displ N mu hbar).

Lemma vac_Q : mxof (2 * N) (2 * N) (Qmat N vac_cov hbar) = 1%:M.
Proof.
have one : hbar / 2%:R * 2%:R / hbar = 1 by rewrite divfK ?divff // pnatr_eq0.
have e (b : bool) : b%:R * (hbar / 2%:R) * 2%:R / hbar = b%:R :> C.
  by rewrite -[RHS]mulr1 -[X in _ = _ * X]one !mulrA.
rewrite -mxof_eye; apply/mxofP => i j hi hj; rewrite /Qmat /madd /npblock /mshift /vac_cov !e.
have ne a b : (a < N)%N -> (a == N + b)%N = false by move=> h; apply/negbTE/eqP; lia.
have D a b : (a < N)%N -> (b < N)%N -> ((a == b)%:R + (N + a == N + b)%N%:R + 'i * ((0 + a == N + b)%N%:R - (0 + b == N + a)%N%:R) - 2%:R * eye C a b) / 4%:R = 0.
  move=> ha hb; rewrite !add0n eqn_add2l !ne // /eye subrr mulr0 addr0 -mulr2n mulr_natl subrr mul0r //.
have O a b : (a < N)%N -> (b < N)%N -> ((a == b)%:R - (N + a == N + b)%N%:R + 'i * ((0 + a == N + b)%N%:R + (0 + b == N + a)%N%:R)) / 4%:R = 0 :> C.
  by move=> ha hb; rewrite !add0n eqn_add2l !ne // subrr addr0 mulr0 addr0 mul0r.
have sN x : (x < 2 * N)%N -> (x < N)%N = false -> (x - N < N)%N by lia.
case E1 : (i < N)%N; case E2 : (j < N)%N; rewrite ?D ?O ?conjC0 ?add0r ?sN //.
Qed.
Lemma vac_quad t u : (t < 2 * N)%N -> (u < 2 * N)%N -> rho_quad N vac_cov hbar t u = 0.
Proof.
move=> ht hu; rewrite rho_quad_conj // /AQ vac_Q invmx1 /mmul sum_iota big1 ?conjC0 // => i _.
by rewrite ofmxE mxE /eye subrr conjC0 mulr0.
Qed.
Lemma vac_lin t : (t < 2 * N)%N -> rho_lin N mu vac_cov hbar t = if (t < N)%N then alpha t else (alpha (t - N))^*.
Proof.
have hl s : (s < N)%N -> rho_lin N mu vac_cov hbar s = alpha s.
  move=> hs; have s2 : (s < 2 * N)%N by lia.
  rewrite rho_linE // gammaQ_conj // /gammaQ rmorphB /= conjCK displE // /mvmul sum_iota big1 ?conjC0 ?subr0 // => u _.
  by rewrite -[AQ _ _ _ _ _]conjCK -rho_quad_conj // vac_quad // conjC0 mul0r.
move=> ht; case: (ltnP t N) => h; first exact: hl.
have h' : (t - N < N)%N by lia.
have e : t = partner N (t - N) by rewrite /partner h'; lia.
by rewrite {1}e rho_lin_conj ?hl //; lia.
Qed.
Lemma vac_pure : pure_cov N vac_cov hbar.
Proof.
have t0 : 2%:R != 0 :> C by rewrite pnatr_eq0.
have e (b : bool) : 2%:R * (b%:R * (hbar / 2%:R)) / hbar = b%:R :> C.
  by rewrite mulrCA -mulrA [2%:R * _]mulrC divfK // divff // mulr1.
move=> i j hi hj; rewrite (bigD1 (Ordinal hi)) //= [X in _ + X]big1 ?addr0 => [|k ki].
  rewrite (bigD1 (Ordinal hj)) //= [X in _ + X]big1 ?addr0 => [|l lj].
    by rewrite /vac_cov !e !eqxx mul1r mulr1.
  by rewrite /vac_cov !e [(l == j :> nat)](_ : _ = false) ?mulr0 //; apply: contraNF lj => /eqP h; apply/eqP/val_inj.
rewrite big1 // => l _; rewrite /vac_cov !e [(k == i :> nat)](_ : _ = false) ?mul0r //.
by apply: contraNF ki => /eqP h; apply/eqP/val_inj.
Qed.
(** <k| rho |l> = exp(-sum |alpha_t|^2) prod alpha_t^k_t conj(alpha_t)^l_t / sqrt(k! l!) *)
Theorem coherent_rho k l : size k = N -> size l = N ->
  fock_rho exp N mu vac_cov hbar k l = exp (- \sum_(t < N) `|alpha t| ^+ 2) *
    (\prod_(t < N) (alpha t ^+ nth 0%N k t * (alpha t)^* ^+ nth 0%N l t)) / sqrtC (fact_prod k * fact_prod l)%:R.
Proof.
move=> sk sl; rewrite /fock_rho; congr (_ * _ / _).
  rewrite /rho_vac norm_absdet // vac_Q det1 sqrtC1 divr1; congr exp.
  rewrite (sum_halves N (fun t => amp_mean N mu hbar t * rho_lin N mu vac_cov hbar t)).
  rewrite mulNr; congr (- _); rewrite mulr_sumr; apply: eq_bigr => t _.
  have ht := ltn_ord t; have t2 : (t < 2 * N)%N by lia. have t3 : (N + t < 2 * N)%N by lia.
  rewrite !vac_lin // ht ltnNge leq_addr /= addKn amp_mean_beta // partner_conj // -displE // -/(alpha t).
  rewrite normCK [(alpha t)^* * _]mulrC; set x := alpha t * _.
  by rewrite -[x + x]mulr2n -[x *+ 2]mulr_natl mulKf ?pnatr_eq0.
have skl : size (k ++ l) = (2 * N)%N by rewrite size_cat sk sl; lia.
rewrite lhaf_rep_spec_lhq_any lhq_zero; last first.
  by move=> x y /rep_index_lt hx /rep_index_lt hy; rewrite vac_quad // -skl.
rewrite prod_rep_index skl (prod_halves N (fun u => rho_lin N mu vac_cov hbar u ^+ nth 0%N (k ++ l) u)).
apply: eq_bigr => t _; have ht := ltn_ord t; have t2 : (t < 2 * N)%N by lia. have t3 : (N + t < 2 * N)%N by lia.
by rewrite !vac_lin // ht ltnNge leq_addr /= addKn !nth_cat sk ht ltnNge leq_addr /= addKn.
Qed.
End Coherent.

(** ** a concrete case: one mode, hbar = 2, displacement alpha = i *)
Section Instance.
Variable C : numClosedFieldType.
Variable exp : C -> C.
Definition mu_i : nat -> C := fun a => if a == 1%N then 2%:R else 0.
Notation cov1 := (vac_cov (2%:R : C)).
Lemma sqrt4 : sqrtC (2%:R * 2%:R) = 2%:R :> C.
Proof. by rewrite -expr2 sqrCK // ler0n. Qed.
Lemma two_gt0 : 0 < 2%:R :> C. Proof. by rewrite ltr0n. Qed.
Lemma mu_i_real a : mu_i a \is Num.real. Proof. by rewrite /mu_i; case: ifP => _; rewrite ?realn ?rpred0. Qed.
Lemma beta_i : complex_to_real_displacements 1 mu_i 2%:R 0%N = 'i :> C.
Proof. by rewrite /complex_to_real_displacements /= /mu_i /= add0r sqrt4 mulfK // pnatr_eq0. Qed.
Lemma displ_i : displ 1 mu_i 2%:R 0%N = 'i :> C.
Proof. by rewrite displE ?beta_i // => [a _|]; rewrite ?mu_i_real ?two_gt0. Qed.
Lemma norm_i : np_norm 1 (complex_to_real_displacements 1 mu_i 2%:R) = 1 :> C.
Proof. by rewrite /np_norm big_seq1 beta_i normCi expr1n sqrtC1. Qed.
Lemma norm_i2 : 1 <= np_norm 2 (complex_to_real_displacements 1 mu_i 2%:R) :> C.
Proof.
rewrite /np_norm /= big_cons big_seq1 beta_i normCi expr1n -[X in X <= _]sqrtC1.
by rewrite ler_sqrtC ?ler_paddr // ?qualifE /= ?ler01 ?addr_ge0 ?exprn_ge0.
Qed.
Lemma tol_lt1 : tol10 C < 1.
Proof. by rewrite /tol10 exprn_ilt1 ?invr_ge0 ?ler0n // invf_lt1 ?ltr1n ?ltr0n. Qed.
Lemma ric_le1 : ric_tol C <= 1.
Proof. by rewrite /ric_tol ler_pdivr_mulr ?exprn_gt0 ?ltr0n // mul1r -natrX ler_nat; lia. Qed.
Lemma im_i : `|'Im ('i : C)| = 1. Proof. by rewrite Im_i normr1. Qed.
(** it meets the hypotheses of all theorems above *)
Theorem coherent_instance :
  [/\ real_sym (2 * 1) cov1, possemi (2 * 1) cov1, quad_ok 1 cov1 2%:R & disp_ok 1 mu_i 2%:R (tol10 C)] /\
  [/\ disp_ok_pure 1 mu_i 2%:R (tol10 C), quad_ok_pure 1 cov1 2%:R, means_ok 1 mu_i, pure_cov 1 cov1 2%:R &
      ric_ok_pure 1 mu_i cov1 2%:R /\ ric_ok 1 mu_i cov1 2%:R].
Proof.
have [rs ps] := vacuum_cov_ok 1 two_gt0.
have rm a : (a < 2 * 1)%N -> mu_i a \is Num.real by move=> _; exact: mu_i_real.
have vq t u : (t < 2)%N -> (u < 2)%N -> rho_quad 1 cov1 2%:R t u = 0 by exact: (@vac_quad _ 1 _ isT two_gt0).
split; split=> //.
- by move=> t u ht hu _; exact: vq.
- by move=> h; have := le_lt_trans norm_i2 (lt_trans h tol_lt1); rewrite ltxx.
- by rewrite /disp_ok_pure norm_i => h; have := lt_trans h tol_lt1; rewrite ltxx.
- by move=> t u ht hu _; apply: vq; lia.
- move=> /(_ 1%N isT); rewrite /mu_i /= normr_nat => h.
  have : atol0 C < 2%:R by apply: lt_trans (_ : 1 < _); rewrite ?ltr1n // /atol0 exprn_ilt1 ?invr_ge0 ?ler0n // invf_lt1 ?ltr1n ?ltr0n.
  by move=> h2; have := le_lt_trans h h2; rewrite ltxx.
- exact: vac_pure two_gt0.
- split; split.
  + by left=> i j hi hj; rewrite vq ?rpred0 //; lia.
  + right; exists 0%N; split=> //.
    by rewrite /psi_lin big_ord1 vq // mul0r subr0 displ_i im_i ric_le1.
  + by left=> i j hi hj; rewrite vq ?rpred0 //.
  + right; exists 0%N; split=> //.
    by rewrite (@vac_lin _ 1 _ _ isT rm two_gt0) //= displ_i im_i ric_le1.
Qed.
(** the matrix element is <j| rho |i>, not the documented <i| rho |j> *)
Theorem density_matrix_element_order_refuted sched oracle : (forall n, perm_eq (sched n) (iota 0 n)) -> exp_ok exp ->
  exists2 v, density_matrix_element sched oracle exp 1 mu_i cov1 [:: 1%N] [:: 0%N] true (tol10 C) 2%:R = Ok v &
    v != fock_rho exp 1 mu_i cov1 2%:R [:: 1%N] [:: 0%N].
Proof.
move=> so eo; have [[rs ps qo dok] _] := coherent_instance.
have rm a : (a < 2 * 1)%N -> mu_i a \is Num.real by move=> _; exact: mu_i_real.
have [-> _] := density_matrix_element_correct oracle so exp (isT : (0 < 1)%N) rs rm two_gt0 ps (i := [:: 1%N]) (j := [:: 0%N]) qo dok erefl erefl.
eexists; first by reflexivity.
rewrite !(coherent_rho _ _ rm two_gt0) // !big_ord1 displ_i /= !expr0 !expr1 mulr1 mul1r conjCi /fact_prod !big_seq1 /= sqrtC1 !divr1.
have [e0 eD _] := eo; set a := - _.
have ea : exp a != 0 by apply/eqP => z; have := oner_neq0 C; rewrite -e0 -{1}(subrr a) eD z mul0r eqxx.
rewrite -subr_eq0 -mulrBr mulf_eq0 negb_or ea /= -opprD oppr_eq0 -mulr2n mulrn_eq0 /=.
exact: neq0Ci.
Qed.
End Instance.
