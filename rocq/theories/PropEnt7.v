(** C61: entropies and logarithmic negativity. *)
From mathcomp Require Import all_ssreflect all_algebra zify.
From Verif Require Import Prelude PyBase ArrLoop MHafnian MHermite MSymplectic MTor MFock MDecomp MMisc MEntangle SpecSymp SpecTor SpecThr SpecFock SpecDecomp SpecEnt PropTor PropTor2 PropTor3 PropTor5 PropThr PropThr2 PropThr3 PropThr5 PropSpectral PropChannels PropSymp2 PropCharpoly PropConversions PropMisc PropChecks PropPure PropDecomp PropDecomp2 PropDecomp3 PropDecomp4 PropDecomp5 PropEnt PropEnt2 PropEnt3 PropEnt4 PropEnt5 PropEnt6.
Set Implicit Arguments.
Unset Strict Implicit.
Unset Printing Implicit Defensive.
Import Order.TTheory GRing.Theory Num.Theory.
Local Open Scope ring_scope.

Section Ent.
Variable C : numClosedFieldType.
Notation mat := (nat -> nat -> C).
Notation vec := (nat -> C).
Notation mxo n A := (mxof n n A).
Variable eigvalsh : nat -> mat -> seq C.
Hypothesis eig : eigvalsh_ok eigvalsh.
Variable eigvals : nat -> mat -> seq C.
Hypothesis eigP : eigvals_ok eigvals.
Variable log : C -> C.
Variables rtol atol : C.
Hypotheses (r0 : 0 <= rtol) (a0 : 0 <= atol).
Notation ln := (log_negativity eigvalsh eigvals log rtol atol).
Notation nus := (symplectic_eigenvals eigvals).

Definition dz N A : 'M[C]_(N + N) := diag_mx (\row_(i < N + N) mom_sign C N A i).
Lemma mom_real N A i : mom_sign C N A i \is Num.real.
Proof. by rewrite /mom_sign; case: ifP; rewrite ?realn ?rpredN ?real1. Qed.
Lemma mom_sq N A i : mom_sign C N A i * mom_sign C N A i = 1.
Proof. by rewrite /mom_sign; case: ifP; rewrite ?mulrNN mulr1. Qed.
Lemma dz2 N A : dz N A *m dz N A = 1%:M.
Proof.
apply/matrixP => i j; rewrite mul_diag_mx !mxE; case: eqP => [->|_]; rewrite ?mulr0 //= mulr1n; exact: mom_sq.
Qed.
Lemma dz_unit N A : dz N A \in unitmx. Proof. by have /mulmx1_unit[] := dz2 N A. Qed.
Lemma dz_ct N A : ct (dz N A) = dz N A.
Proof.
apply/matrixP => i j; rewrite !mxE [j == i]eq_sym; case: eqP => [->|_]; last by rewrite !mulr0n conjC0.
by rewrite !mulr1n; apply: conj_Creal; exact: mom_real.
Qed.
Lemma pt_mx N A (M : mat) : mxo (N + N) (partial_transpose N A M) = dz N A *m mxo (N + N) M *m dz N A.
Proof. by apply/matrixP => i j; rewrite mul_mx_diag mul_diag_mx !mxE. Qed.

Section State.
Variables (N : nat) (cov : mat) (hbar : C).
Hypothesis rs : real_sym (2 * N) cov.
Hypothesis h0 : 0 < hbar.
Lemma pt_rs A (M : mat) : real_sym (2 * N) M -> real_sym (2 * N) (partial_transpose N A M).
Proof.
move=> rsM i j hi hj; rewrite /partial_transpose; have [r ->] := rsM i j hi hj.
have [r' _] := rsM j i hj hi; split; last by rring.
by rewrite !realM ?mom_real.
Qed.
Definition tilde (A : seq nat) : mat :=
  let S := np_diag (fun i => if (i < N)%N then 1 else (fun i => if i \in A then -1 else 1 : C) (i - N)%N) in mmul (2 * N) (mmul (2 * N) S (sc cov hbar)) S.
Lemma tilde_mx A : mxo (2 * N) (tilde A) = mxo (2 * N) (partial_transpose N A (sc cov hbar)).
Proof.
have e k : (if (k < N)%N then 1 else if (k - N)%N \in A then -1 else 1) = mom_sign C N A k.
  by rewrite /mom_sign; case: ltnP.
rewrite /tilde !mxof_mmul mx_npdiag; apply/matrixP => i j; rewrite mul_mx_diag mul_diag_mx !mxE /partial_transpose.
by rewrite -!e.
Qed.
Lemma tilde_eq A i j : (i < 2 * N)%N -> (j < 2 * N)%N -> tilde A i j = partial_transpose N A (sc cov hbar) i j.
Proof. by move=> hi hj; have /matrixP/(_ (Ordinal hi) (Ordinal hj)) := tilde_mx A; rewrite !mxE. Qed.
Lemma tilde_rs A : real_sym (2 * N) (tilde A).
Proof.
move=> i j hi hj; rewrite !tilde_eq //; exact: (pt_rs A (sc_rs rs h0)).
Qed.
Variables (A : seq nat) (modes : pymodes) (split : option pyelt).
Hypothesis mA : get_partition modes split N = Ok [seq PyInt (Posz m) | m <- A].
Lemma ln_nus : is_valid_cov eigvalsh (2 * N) (2 * N) cov hbar rtol atol ->
  ln (2 * N) cov modes split hbar = Ok (\sum_(nu <- nus (2 * N) (tilde A) | nu < 1) - log nu).
Proof.
move=> v; rewrite /log_negativity v /= mul2n doubleK mA /=.
by rewrite index_A -mul2n.
Qed.
Lemma nat_pt i j : natural (partial_transpose N A cov) hbar i j = partial_transpose N A (natural cov hbar) i j.
Proof. by rewrite /natural /partial_transpose; rring. Qed.
Theorem log_negativity_correct nu : psd_upto atol (2 * N) (uncertainty N cov hbar) ->
  symplectic_spectrum N (partial_transpose N A (natural cov hbar)) nu ->
  ln (2 * N) cov modes split hbar = Ok (\sum_(i < N | nu i < 1) - log (nu i)).
Proof.
move=> u [p [S [rS sS] e]]; rewrite ln_nus; last exact/(is_valid_cov_correct eig rs h0 r0 a0).
have pe : perm_eq (nus (2 * N) (tilde A)) (mkseq nu N).
  apply: symplectic_eigenvals_correct sS p _ => //; first by move=> i j hi hj; case: (tilde_rs A hi hj).
  by move=> i j hi hj; rewrite -e // tilde_eq // /partial_transpose /sc natE.
by congr Ok; rewrite (perm_big _ pe) /= /mkseq big_map -{1}(subn0 N) big_mkord.
Qed.
Theorem log_negativity_rejects : ~ psd_upto atol (2 * N) (uncertainty N cov hbar) -> ln (2 * N) cov modes split hbar = Err ValueError.
Proof.
move=> u; rewrite /log_negativity; case: (boolP (is_valid_cov _ _ _ _ _ _ _)) => //= h.
by case: u; apply/(is_valid_cov_correct eig rs h0 r0 a0).
Qed.
Hypothesis u : possemi (2 * N) (uncertainty N cov hbar).
Lemma tilde_pd D : posdef (2 * N) (tilde D).
Proof.
have h : pos (mxo (N + N) (tilde D)).
  have := pos_congr (sc_pos rs h0 u) (dz_unit N D); rewrite dz_ct -pt_mx.
  by have := tilde_mx D; rewrite twoE => ->.
by have /pos_mx[_] := h; rewrite twoE.
Qed.
(** the PPT criterion, one half: a state whose partial transpose is a state has no logarithmic negativity *)
Theorem log_negativity_ppt : possemi (2 * N) (uncertainty N (partial_transpose N A cov) hbar) -> ln (2 * N) cov modes split hbar = Ok 0.
Proof.
move=> u'; rewrite ln_nus; last exact: (u_valid eig r0 a0 rs h0 u).
have rs' := pt_rs A rs; have g1 := state_spectrum_ge1 eigP rs' h0 u'.
have pe : perm_eq (nus (2 * N) (tilde A)) (nus (2 * N) (sc (partial_transpose N A cov) hbar)).
  apply: nus_perm => //; [exact: sc_rs rs' h0 | exact: sc_pd rs' h0 u' | exact: tilde_rs |].
  congr char_poly; congr (_ *m _); have := tilde_mx A; rewrite twoE => ->.
  by apply/matrixP => i j; rewrite !mxE /sc /partial_transpose; rring.
congr Ok; rewrite (perm_big _ pe) /= big_seq_cond big1 // => nu /andP[/(allP g1) /= h /lt_geF]; by rewrite h.
Qed.

(** the converse: without logarithmic negativity the partial transpose is a state *)
Theorem log_negativity_detects nu : log_neg_below1 log -> symplectic_spectrum N (partial_transpose N A (natural cov hbar)) nu ->
  ln (2 * N) cov modes split hbar = Ok 0 <-> possemi (2 * N) (uncertainty N (partial_transpose N A cov) hbar).
Proof.
move=> lg sp; split; last exact: log_negativity_ppt.
rewrite (log_negativity_correct _ sp); last by move=> v _; left; exact: u.
have [p [S [rS sS] e]] := sp; case=> z.
have g1 i : (i < N)%N -> 1 <= nu i.
  move=> hi; have rn : nu i \is Num.real by rewrite gtr0_real // p.
  rewrite real_leNgt ?real1 //; apply/negP => l1.
  have : 0 < \sum_(i < N | nu i < 1) - log (nu i).
    rewrite (bigD1 (Ordinal hi)) //= ltr_paddr ?oppr_gt0 ?lg ?p //.
    by apply: sumr_ge0 => j /andP[lj _]; rewrite oppr_ge0 ltW // lg // p.
  by rewrite z ltxx.
have t2 : 0 < 2%:R :> C by rewrite ltr0n.
have rD : real_sym (2 * N) (diag2 N nu nu).
  move=> i j hi hj; rewrite /diag2 /diagm; case: (eqVneq i j) => [->|ij]; last by split; rewrite ?real0 // eq_sym (negbTE ij).
  by split=> //; case: ifP => // h; rewrite gtr0_real // p //; lia.
have uD : possemi (2 * N) (uncertainty N (diag2 N nu nu) 2%:R).
  apply/psd_upto0; apply: classical_valid => // v _; left; rewrite /qform; apply: sumr_ge0 => i _.
  rewrite (bigD1 i) //= big1 ?addr0 => [|j ji].
    rewrite /above_vacuum /diag2 /diagm eqxx divff ?pnatr_eq0 // mulr1 mulrAC mulr_ge0 //.
      by rewrite mulrC mul_conjC_ge0.
    by rewrite subr_ge0; have := ltn_ord i; case: ifP => [h _|h h']; apply: g1 => //; lia.
  rewrite /above_vacuum /diag2 /diagm [(val i == val j)](_ : _ = false) ?subrr ?mulr0 ?sub0r ?oppr0 ?mulr0 ?mul0r //.
  by apply/negbTE; rewrite eq_sym.
have um M h : mxo (N + N) (uncertainty N M h) = mxo (N + N) M + ('i * (h / 2%:R)) *: J C N.
  by rewrite -mx_Omega; apply/matrixP => i j; rewrite !mxE.
apply/possemi_PS; have /possemi_PS := uD; rewrite !twoE !um divff ?pnatr_eq0 // mulr1 => q.
have := PS_congr (ct (mxo (N + N) S)) q; rewrite ctK.
have -> : ct (mxo (N + N) S) = (mxo (N + N) S)^T by apply: rmx_ct; apply/rmx_real; rewrite -twoE.
rewrite mulmxDr mulmxDl -scalemxAr -scalemxAl.
have /symplectic_mx/symp_tr := sS; rewrite {1}/symp trmxK => ->.
have := e; rewrite twoE => /eqm_mx; rewrite !mx_prod mx_tr => <-.
have -> : mxo (N + N) (partial_transpose N A (natural cov hbar)) = (2%:R / hbar) *: mxo (N + N) (partial_transpose N A cov).
  by apply/matrixP => i j; rewrite !mxE /natural /partial_transpose; rring.
move=> w v; have := w v.
have -> : (2%:R / hbar) *: mxo (N + N) (partial_transpose N A cov) + 'i *: J C N = (2%:R / hbar) *: (mxo (N + N) (partial_transpose N A cov) + ('i * (hbar / 2%:R)) *: J C N).
  rewrite scalerDr scalerA; congr (_ + _ *: _); rewrite mulrCA; rewrite [2%:R / hbar * _](_ : _ = 1) ?mulr1 //.
  by rewrite mulf_div [hbar * _]mulrC divff // mulf_neq0 ?pnatr_eq0 ?gt_eqF.
rewrite -scalemxAr -scalemxAl mxE pmulr_rge0 //; by rewrite divr_gt0.
Qed.
(** uncorrelated modes have no logarithmic negativity *)
Theorem log_negativity_uncorrelated : (forall i j, (i < N)%N -> (j < N)%N -> i \in A -> j \notin A ->
    [/\ cov i j = 0, cov i (N + j)%N = 0, cov (N + i)%N j = 0 & cov (N + i)%N (N + j)%N = 0]) ->
  ln (2 * N) cov modes split hbar = Ok 0.
Proof.
move=> unc; apply: log_negativity_ppt.
pose md k := if (k < N)%N then k else (k - N)%N.
pose a k : C := (md k \in A)%:R; pose b k : C := (md k \notin A)%:R.
pose DA : 'M[C]_(N + N) := diag_mx (\row_(i < N + N) a i); pose DB : 'M[C]_(N + N) := diag_mx (\row_(i < N + N) b i).
have [p1 p2 hV] := u_PS rs h0 u; set V := mxo (N + N) (sc cov hbar) in p1 p2 hV.
have dct (f : nat -> C) : (forall k, f k \is Num.real) -> ct (diag_mx (\row_(i < N + N) f i)) = diag_mx (\row_(i < N + N) f i).
  move=> fr; apply/matrixP => i j; rewrite !mxE [j == i]eq_sym; case: eqP => [->|_]; last by rewrite !mulr0n conjC0.
  by rewrite !mulr1n; apply: conj_Creal.
have cA : ct DA = DA by apply: dct => k; exact: realn.
have cB : ct DB = DB by apply: dct => k; exact: realn.
have q1 := PS_congr DA p2; have q2 := PS_congr DB p1; rewrite cA in q1; rewrite cB in q2.
have q : PS (DA *m (V - 'i *: J C N) *m DA + DB *m (V + 'i *: J C N) *m DB).
  by move=> v; rewrite mulmxDr mulmxDl mxE addr_ge0.
have := PS_congr (dz N A) q; rewrite dz_ct => q'.
apply/possemi_PS; rewrite twoE => v; have := q' v.
have hn : hbar != 0 by rewrite gt_eqF.
have -> : mxo (N + N) (uncertainty N (partial_transpose N A cov) hbar) = (hbar / 2%:R) *: (dz N A *m (DA *m (V - 'i *: J C N) *m DA + DB *m (V + 'i *: J C N) *m DB) *m dz N A).
  have dd (f : nat -> C) (M : 'M[C]_(N + N)) i j : (diag_mx (\row_(i < N + N) f i) *m M *m diag_mx (\row_(i < N + N) f i)) i j = f i * M i j * f j.
    by rewrite mul_mx_diag mul_diag_mx !mxE.
  have ad (X Y : 'M[C]_(N + N)) i j : (X + Y) i j = X i j + Y i j by rewrite mxE.
  have sb (X Y : 'M[C]_(N + N)) i j : (X - Y) i j = X i j - Y i j by rewrite !mxE.
  have zz c (Y : 'M[C]_(N + N)) i j : (c *: Y) i j = c * Y i j by rewrite mxE.
  have en (M : mat) (i j : 'I_(N + N)) : mxo (N + N) M i j = M i j by rewrite mxE.
  apply/matrixP => i j; rewrite -mx_Omega en zz /dz /DA /DB dd ad !dd sb ad zz /V !en /uncertainty /sc /partial_transpose.
  have vz : (a i * a j + b i * b j) * cov i j = cov i j.
    have hi : (i < 2 * N)%N by rewrite twoE. have hj : (j < 2 * N)%N by rewrite twoE.
    have sym k l : (k < 2 * N)%N -> (l < 2 * N)%N -> cov k l = cov l k by move=> hk hl; have [] := rs hk hl.
    have zero (k l : nat) : (k < 2 * N)%N -> (l < 2 * N)%N -> md k \in A -> md l \notin A -> cov k l = 0.
      rewrite /md => hk hl; case: (ltnP k N) => ck; case: (ltnP l N) => cl kA lA.
      - by have [] := unc k l ck cl kA lA.
      - have l' : (l - N < N)%N by lia. have [_ + _ _] := unc k (l - N)%N ck l' kA lA; by rewrite subnKC.
      - have k' : (k - N < N)%N by lia. have [_ _ + _] := unc (k - N)%N l k' cl kA lA; by rewrite subnKC.
      - have k' : (k - N < N)%N by lia. have l' : (l - N < N)%N by lia. have [_ _ _] := unc (k - N)%N (l - N)%N k' l' kA lA; by rewrite !subnKC.
    rewrite /a /b; case: (boolP (md i \in A)) => iA; case: (boolP (md j \in A)) => jA; rewrite /= ?(mulr0, mul0r, mulr1, addr0, add0r, mul1r) //.
    - by rewrite zero.
    - by rewrite sym // zero.
  have oz : mom_sign C N A i * mom_sign C N A j * (b i * b j - a i * a j) * Omega C N i j = Omega C N i j.
    rewrite /Omega /a /b /md /mom_sign; have := ltn_ord i; have := ltn_ord j; move: (nat_of_ord i) (nat_of_ord j) => x y hy hx.
    have [ij|ij] := eqVneq y (N + x)%N.
      have iN : (x < N)%N by move: hy; rewrite ij ltn_add2l.
      have -> : (x == N + y)%N = false by apply/eqP; lia.
      rewrite ij iN leqNgt iN ltnNge leq_addr /= addKn subr0 mulr1.
      by case: (x \in A); rewrite /= !mul1r ?mulr0 ?mulr1 ?sub0r ?subr0 ?mulrNN ?mulr1.
    have [ji|ji] := eqVneq x (N + y)%N; last by rewrite subrr mulr0.
    have jN : (y < N)%N by move: hx; rewrite ji ltn_add2l.
    rewrite ji jN [(N <= y)%N]leqNgt jN ltnNge leq_addr /= addKn sub0r mulrN mulr1.
    by case: (y \in A); rewrite /= ?mul1r ?mulr1 ?mulr0 ?sub0r ?subr0 ?mulrNN ?mulr1.
  rewrite -{1}vz -{1}oz; have t2 : 2%:R != 0 :> C by rewrite pnatr_eq0.
  move: (mom_sign C N A i) (mom_sign C N A j) (a i) (a j) (b i) (b j) (cov i j) (Omega C N i j) => s1 s2 a1 a2 b1 b2 c o.
  by ffield; rewrite ?mulf_neq0.
have z1 c (Y : 'M[C]_1) : (c *: Y) 0 0 = c * Y 0 0 by rewrite mxE.
by move=> h; rewrite -scalemxAr -scalemxAl z1 mulr_ge0 // divr_ge0 ?ler0n // ltW.
Qed.
End State.

(** both sides of a bipartition give the same logarithmic negativity *)
Lemma char_opp N (M : 'M[C]_(N + N)) (d : 'rV[C]_N) : char_poly M = \prod_(x <- pm d) ('X - x%:P) -> char_poly (- M) = char_poly M.
Proof.
move=> e; apply: poly_fun_eq => t; rewrite [in RHS]e pm_at char_at.
have -> : t%:M - - M = - ((- t)%:M - M) by rewrite opprK raddfN /= opprB opprK addrC.
by rewrite -[X in \det X]scaleN1r detZ -signr_odd [in odd _]addnn odd_double mul1r -char_at e pm_at sqrrN.
Qed.
Theorem log_negativity_symmetric N cov hbar A B modes split modes' split' :
  real_sym (2 * N) cov -> 0 < hbar -> possemi (2 * N) (uncertainty N cov hbar) -> bipartition N A B ->
  get_partition modes split N = Ok [seq PyInt (Posz m) | m <- A] -> get_partition modes' split' N = Ok [seq PyInt (Posz m) | m <- B] ->
  ln (2 * N) cov modes split hbar = ln (2 * N) cov modes' split' hbar.
Proof.
move=> rs h0 u p mA mB; rewrite (ln_nus mA) ?(ln_nus mB) ?(u_valid eig r0 a0 rs h0 u) //.
congr Ok; apply: perm_big; rewrite perm_sym; apply: (nus_perm eigP); [exact: (tilde_rs rs h0)|exact: (tilde_pd rs h0 u)|exact: (tilde_rs rs h0)|].
have [d [d0 cd _]] := spectrum eigP (tilde_rs rs h0 A) (tilde_pd rs h0 u A).
rewrite -(char_opp cd); have tm D : mxo (N + N) (tilde N cov hbar D) = dz N D *m mxo (N + N) (sc cov hbar) *m dz N D.
  by have := tilde_mx N cov hbar D; rewrite twoE => ->; rewrite pt_mx.
pose Z := dz N A *m dz N B.
have comm : dz N A *m dz N B = dz N B *m dz N A.
  by apply/matrixP => i j; rewrite !mul_diag_mx !mxE; case: eqP => [->|_]; rewrite ?mulr0n ?mulr0 // !mulr1n mulrC.
have ZZ : Z *m Z = 1%:M.
  by rewrite /Z {1}comm -mulmxA [dz N A *m (_ *m _)]mulmxA dz2 mul1mx dz2.
have BE : mxo (N + N) (tilde N cov hbar B) = Z *m mxo (N + N) (tilde N cov hbar A) *m Z.
  have z1 : Z *m dz N A = dz N B by rewrite /Z comm -mulmxA dz2 mulmx1.
  have z2 : dz N A *m Z = dz N B by rewrite /Z mulmxA dz2 mul1mx.
  by clear ZZ; move: Z z1 z2 => Z' z1 z2; rewrite !tm !mulmxA z1 -[_ *m Z' in RHS]mulmxA z2.
have uAB : uniq (A ++ B) by rewrite (perm_uniq p) iota_uniq.
have JZ : J C N *m Z = - Z *m J C N.
  rewrite /Z -mx_Omega; apply/matrixP => i j; rewrite mulNmx /dz mulmxA.
  have dR (f : nat -> C) (M : 'M[C]_(N + N)) k l : (M *m diag_mx (\row_(i < N + N) f i)) k l = M k l * f l by rewrite mul_mx_diag !mxE.
  have dL (f : nat -> C) (M : 'M[C]_(N + N)) k l : (diag_mx (\row_(i < N + N) f i) *m M) k l = f k * M k l by rewrite mul_diag_mx !mxE.
  rewrite !dR [RHS]mxE -mulmxA !dL !mxE.
  have ms x : (x < N + N)%N -> mom_sign C N A x * mom_sign C N B x = if (x < N)%N then 1 else -1.
    move=> hx; rewrite /mom_sign; case: ltnP => xN; first by rewrite mulr1.
    have : (x - N)%N \in A ++ B by rewrite (perm_mem p) mem_iota; lia.
    move: uAB; rewrite mem_cat cat_uniq => /and3P[_ /hasPn nAB _].
    case: (boolP (_ \in A)) => xA /=; case: (boolP (_ \in B)) => xB //=; rewrite ?mulr1 ?mul1r //.
    by have := nAB _ xB; rewrite /= xA.
  rewrite -mulrA ms ?ltn_ord // mulrA ms ?ltn_ord //.
  rewrite /Omega; have := ltn_ord i; have := ltn_ord j; move: (nat_of_ord i) (nat_of_ord j) => x y hy hx.
  case: (ltnP x N) => xN; case: (ltnP y N) => yN; rewrite ?mulr1 ?mul1r ?mulrN1 ?mulN1r ?opprK //.
    have -> : (y == N + x)%N = false by apply/eqP; lia.
    have -> : (x == N + y)%N = false by apply/eqP; lia.
    by rewrite subrr oppr0.
  have -> : (y == N + x)%N = false by apply/eqP; lia.
  have -> : (x == N + y)%N = false by apply/eqP; lia.
  by rewrite subrr oppr0.
rewrite BE mulmxA [J C N *m (Z *m _)]mulmxA JZ -[RHS](char_poly_conj _ ZZ); congr char_poly.
by rewrite !mulNmx mulmxN mulNmx !mulmxA.
Qed.
End Ent.
