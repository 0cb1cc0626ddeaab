(** C61: entropies and logarithmic negativity. *)
From mathcomp Require Import all_ssreflect all_algebra zify.
From Verif Require Import Prelude PyBase ArrLoop MHafnian MHermite MSymplectic MTor MFock MDecomp MMisc MEntangle SpecSymp SpecTor SpecThr SpecFock SpecDecomp SpecEnt PropTor PropTor2 PropTor3 PropTor5 PropThr PropThr2 PropThr3 PropThr5 PropSpectral PropChannels PropSymp2 PropCharpoly PropConversions PropMisc PropChecks PropPure PropDecomp PropDecomp2 PropDecomp3 PropDecomp4 PropDecomp5 PropEnt PropEnt2 PropEnt3 PropEnt4 PropEnt5.
Set Implicit Arguments.
Unset Strict Implicit.
Unset Printing Implicit Defensive.
Import Order.TTheory GRing.Theory Num.Theory.
Local Open Scope ring_scope.

Section Ent.
Variable C : numClosedFieldType.
Notation mat := (nat -> nat -> C).
Notation vec := (nat -> C).
Notation mxo n A := (mxof n n A).
Variable eigvalsh : nat -> mat -> seq C.
Hypothesis eig : eigvalsh_ok eigvalsh.
Variable eigvals : nat -> mat -> seq C.
Hypothesis eigP : eigvals_ok eigvals.
Variable log : C -> C.
Variables rtol atol : C.
Hypotheses (r0 : 0 <= rtol) (a0 : 0 <= atol).
Notation vne := (vonneumann_entropy eigvalsh eigvals log rtol atol).
Notation ee := (entanglement_entropy eigvalsh eigvals log rtol atol).
Notation nus := (symplectic_eigenvals eigvals).

Lemma nus_perm N (V V' : mat) : real_sym (2 * N) V -> posdef (2 * N) V -> real_sym (2 * N) V' ->
  char_poly (J C N *m mxo (N + N) V') = char_poly (J C N *m mxo (N + N) V) -> perm_eq (nus (2 * N) V') (nus (2 * N) V).
Proof.
move=> rs pd rs' e; have [d [d0 cd pe]] := spectrum eigP rs pd.
apply: (perm_trans (y := [seq d 0 i | i <- enum 'I_N])); last by rewrite perm_sym.
apply: symplectic_eigenvals_spectrum => //; last by rewrite e.
by move=> i j hi hj; case: (rs' i j hi hj).
Qed.
Lemma vne_nus N (cov : mat) hbar : is_valid_cov eigvalsh (2 * N) (2 * N) cov hbar rtol atol ->
  vne (2 * N) cov hbar = Ok (\sum_(nu <- nus (2 * N) (sc cov hbar) | ~~ close rtol atol nu 1) entropy_term log nu).
Proof. by move=> h; rewrite /vonneumann_entropy h /= for_if. Qed.
Lemma close1 : close rtol atol 1 1. Proof. by rewrite /close subrr normr0 normr1 mulr1 addr_ge0. Qed.
Lemma sum_neq1 (l : seq C) (f : C -> C) : \sum_(nu <- l | ~~ close rtol atol nu 1) f nu = \sum_(nu <- [seq z <- l | z != 1] | ~~ close rtol atol nu 1) f nu.
Proof. by rewrite big_filter_cond; apply: eq_bigl => nu; case: eqP => //= ->; rewrite close1. Qed.

Section State.
Variables (N : nat) (cov : mat) (hbar : C).
Hypothesis rs : real_sym (2 * N) cov.
Hypothesis h0 : 0 < hbar.
Hypothesis u : possemi (2 * N) (uncertainty N cov hbar).
Let hn : hbar != 0. Proof. by rewrite gt_eqF. Qed.

(** ** Gaussian unitaries do not change the entropy *)
Section Invariant.
Variables (S cov' : mat).
Hypothesis sS : symplectic N S.
Hypothesis rS : realm (2 * N) S.
Hypothesis e : eqm (2 * N) cov' (mprod (2 * N) (mprod (2 * N) S cov) (tr S)).
Lemma cov'_mx : mxo (N + N) cov' = mxo (N + N) S *m mxo (N + N) cov *m (mxo (N + N) S)^T.
Proof. by have /eqm_mx := e; rewrite !twoE => ->; rewrite !mx_prod mx_tr. Qed.
Lemma scZ (M : mat) n : mxof n n (sc M hbar) = (hbar / 2%:R)^-1 *: mxof n n M.
Proof. by apply/matrixP => i j; rewrite !mxE /sc mulrC. Qed.
Lemma S_ct : ct (mxo (N + N) S) = (mxo (N + N) S)^T.
Proof. by apply: rmx_ct; apply/rmx_real; rewrite -twoE. Qed.
Lemma rs' : real_sym (2 * N) cov'.
Proof.
have sc' : (mxo (N + N) cov)^T = mxo (N + N) cov.
  by apply/matrixP => i j; rewrite !mxE; have [||_ ->] := rs (i := j) (j := i); rewrite ?twoE.
have rc : rmx (mxo (N + N) cov) by apply/rmx_real; rewrite -twoE => i j hi hj; case: (rs hi hj).
have rS' : rmx (mxo (N + N) S) by apply/rmx_real; rewrite -twoE.
have rc' : realm (N + N) cov'.
  apply/rmx_real; rewrite cov'_mx; apply: rmxM; first exact: rmxM.
  by rewrite /rmx -map_trmx rS'.
move=> i j; rewrite twoE => hi hj; split; first exact: rc'.
have : (mxo (N + N) cov')^T = mxo (N + N) cov' by rewrite cov'_mx !trmx_mul trmxK sc' mulmxA.
by move=> /matrixP/(_ (Ordinal hj) (Ordinal hi)); rewrite !mxE.
Qed.
Lemma u' : possemi (2 * N) (uncertainty N cov' hbar).
Proof.
have um M : mxo (N + N) (uncertainty N M hbar) = mxo (N + N) M + ('i * (hbar / 2%:R)) *: J C N.
  by rewrite -mx_Omega; apply/matrixP => i j; rewrite !mxE.
apply/possemi_PS; have /possemi_PS := u; rewrite !twoE !um cov'_mx => p.
have := PS_congr (ct (mxo (N + N) S)) p; rewrite ctK S_ct.
rewrite mulmxDr mulmxDl -scalemxAr -scalemxAl.
by have /symplectic_mx/symp_tr := sS; rewrite /symp trmxK => ->.
Qed.
Theorem entropy_symplectic_invariant : vne (2 * N) cov' hbar = vne (2 * N) cov hbar.
Proof.
rewrite !vne_nus ?(u_valid eig r0 a0 rs) ?(u_valid eig r0 a0 rs') //; last exact: u'.
congr Ok; apply: perm_big; apply: nus_perm; [exact: sc_rs|exact: sc_pd|exact: sc_rs rs' h0|].
have /symplectic_mx sS' := sS; have uS := symp_unit (symp_tr sS').
rewrite !scZ cov'_mx; set s := mxo _ S in uS sS' *; set V := mxo _ cov.
have sJ : J C N *m s = invmx s^T *m J C N.
  by rewrite -[in RHS](sS' : s^T *m J C N *m s = J C N) !mulmxA mulVmx // mul1mx.
rewrite -[RHS](char_poly_conj (J C N *m ((hbar / 2%:R)^-1 *: V)) (mulVmx uS)); congr char_poly.
by rewrite -!scalemxAr -!scalemxAl; congr (_ *: _); rewrite !mulmxA sJ.
Qed.
End Invariant.

(** ** Pure states *)
Hypothesis pure : pure_cov N cov hbar.
Lemma sc_sp : symplectic N (sc cov hbar).
Proof.
move=> i j hi hj; rewrite -(pure hi hj); apply: eq_bigr => k _; apply: eq_bigr => l _.
by rewrite /sc !natE.
Qed.
Theorem pure_entropy_zero : vne (2 * N) cov hbar = Ok 0.
Proof.
rewrite vne_nus ?(u_valid eig r0 a0 rs) //; congr Ok; rewrite sum_neq1.
have [d [d0 cd pe]] := spectrum eigP (sc_rs rs h0) (sc_pd rs h0 u).
rewrite (perm_big _ (perm_filter _ pe)) /=.
have := @pure_spectra C N 0 (J C N *m mxo (N + N) (sc cov hbar)) 0 0 0 d 0.
rewrite mulmx0 addr0 => /(_ _ _ cd _ d0) h.
have q : perm_eq [seq z <- [seq d 0 i | i <- enum 'I_N] | z != 1] [seq z <- [seq (0 : 'rV[C]_0) 0 i | i <- enum 'I_0] | z != 1].
  apply: h => //; last by case.
  - have sV : (mxo (N + N) (sc cov hbar))^T = mxo (N + N) (sc cov hbar).
      by apply/matrixP => a b; rewrite !mxE; apply: (proj2 (sc_rs rs h0 _ _)); rewrite twoE ltn_ord.
    have /symplectic_mx := sc_sp; rewrite /symp sV => s.
    by rewrite -mulmxA [mxo _ _ *m _]mulmxA s JJ.
  - by apply/matrixP => -[].
  by rewrite /pm [enum 'I_0](size0nil (size_enum_ord 0)) big_nil /char_poly det_mx00.
by rewrite (perm_big _ q) /= [enum 'I_0](size0nil (size_enum_ord 0)) big_nil.
Qed.

Definition restrict (M : mat) (A : seq nat) : mat := fun i j => M (nth 0%N (A ++ [seq (m + N)%N | m <- A]) i) (nth 0%N (A ++ [seq (m + N)%N | m <- A]) j).
Lemma restrictE M A : restrict M A = ix M (rowsl N A).
Proof. by rewrite /restrict /rowsl /ix; under eq_map => x do rewrite addnC. Qed.
Section Sub.
Variable A : seq nat.
Hypothesis uA : uniq A.
Hypothesis aA : all (fun m => m < N)%N A.
Hypothesis nA : size A != N.
Lemma sub_unc : possemi (2 * size A) (uncertainty (size A) (restrict (sc cov hbar) A) 2%:R).
Proof.
have q : psd_upto 0 (2 * N) (uncertainty N (sc cov hbar) 2%:R).
  apply/psd_upto0; apply/possemi_PS; rewrite twoE.
  have [p _ _] := u_PS rs h0 u; move: p; congr PS.
  by rewrite -mx_Omega; apply/matrixP => i j; rewrite !mxE /uncertainty divff ?mulr1 ?pnatr_eq0.
apply/psd_upto0; have := psd_upto_ix q (rA_uniq uA aA) (rA_lt aA); rewrite size_rA; apply: psd_upto_ext => i j hi hj.
rewrite restrictE /ix /uncertainty; congr (_ + _ * _).
have nl k : (k < size A)%N -> (nth 0%N A k < N)%N by move=> h; apply: (allP aA); exact: mem_nth.
have lo k : (k < size A)%N -> nth 0%N (rowsl N A) k = nth 0%N A k by move=> h; rewrite nth_cat h.
have hi' k : (size A <= k)%N -> (k < 2 * size A)%N -> nth 0%N (rowsl N A) k = (N + nth 0%N A (k - size A))%N.
  by move=> h1 h2; rewrite nth_cat ltnNge h1 /= (nth_map 0%N) //; lia.
have nu k l : (k < size A)%N -> (l < size A)%N -> (nth 0%N A k == nth 0%N A l) = (k == l) by move=> *; rewrite nth_uniq.
rewrite /Omega; case: (ltnP i (size A)) => ci; case: (ltnP j (size A)) => cj.
- rewrite !lo //; have := nl _ ci; have := nl _ cj; move: (nth 0%N A i) (nth 0%N A j) => x y hx hy.
  by congr (_ - _); congr (_%:R); congr nat_of_bool; apply/eqP/eqP; lia.
- rewrite (lo i) // (hi' j) //; have cj' : (j - size A < size A)%N by lia.
  have := nl _ ci; have := nl _ cj'; have := nu i (j - size A)%N ci cj'; move: (nth 0%N A i) (nth 0%N A _) => x y e hx hy.
  congr (_ - _); congr (_%:R); congr nat_of_bool; first by rewrite eqn_add2l eq_sym e; apply/eqP/eqP; lia.
  by apply/eqP/eqP; lia.
- rewrite (lo j) // (hi' i) //; have ci' : (i - size A < size A)%N by lia.
  have := nl _ cj; have := nl _ ci'; have := nu j (i - size A)%N cj ci'; move: (nth 0%N A j) (nth 0%N A _) => x y e hx hy.
  congr (_ - _); congr (_%:R); congr nat_of_bool; last by rewrite eqn_add2l eq_sym e; apply/eqP/eqP; lia.
  by apply/eqP/eqP; lia.
rewrite (hi' i) // (hi' j) //; have ci' : (i - size A < size A)%N by lia.
have cj' : (j - size A < size A)%N by lia.
have := nl _ ci'; have := nl _ cj'; move: (nth 0%N A _) (nth 0%N A _) => x y hx hy.
by congr (_ - _); congr (_%:R); congr nat_of_bool; apply/eqP/eqP; lia.
Qed.
Lemma sub_rs' : real_sym (2 * size A) (restrict (sc cov hbar) A).
Proof. rewrite restrictE; exact: (@sub_rs _ _ _ (sc_rs rs h0) A aA). Qed.
Lemma two_sc (M : mat) : mxo (size A + size A) (sc M 2%:R) = mxo (size A + size A) M.
Proof. by apply/matrixP => i j; rewrite !mxE /sc divff ?divr1 ?pnatr_eq0. Qed.
Variables (modes : pymodes) (split : option pyelt).
Hypothesis mA : get_partition modes split N = Ok [seq PyInt (Posz m) | m <- A].
Lemma index_A : [seq index_of x | x <- [seq PyInt (Posz m) | m <- A]] = A.
Proof. by rewrite -map_comp map_id. Qed.
Lemma pure_check : is_pure_cov eigvalsh (2 * N) (2 * N) cov hbar rtol atol.
Proof. exact: is_pure_cov_accepts. Qed.
Lemma ee_vne : ee (2 * N) cov modes split hbar = vne (2 * size A) (restrict (sc cov hbar) A) 2%:R.
Proof.
rewrite /entanglement_entropy pure_check /= mul2n doubleK mA /= index_A /reduced_gaussian (negbTE nA).
have -> : has (fun m => (N < m)%N) A = false by apply/hasP => -[m /(allP aA)] h; rewrite ltnNge ltnW.
rewrite /take_modes; have -> : all (fun i => (i < 2 * N)%N) (A ++ [seq (m + N)%N | m <- A]).
  by have := rA_lt aA; rewrite /rowsl; under eq_map => x do rewrite addnC.
by [].
Qed.
Lemma ee_nus : ee (2 * N) cov modes split hbar = Ok (\sum_(nu <- nus (2 * size A) (subV N (sc cov hbar) A) | ~~ close rtol atol nu 1) entropy_term log nu).
Proof.
have t2 : 0 < 2%:R :> C by rewrite ltr0n.
rewrite ee_vne vne_nus ?(u_valid eig r0 a0 sub_rs' t2 sub_unc) //; congr Ok; apply: perm_big; apply: nus_perm.
- exact: (@sub_rs _ _ _ (sc_rs rs h0) A aA).
- exact: (@sub_pd _ _ _ (sc_pd rs h0 u) A uA aA).
- exact: sc_rs sub_rs' t2.
by rewrite two_sc restrictE.
Qed.
Theorem entanglement_entropy_correct nu : symplectic_spectrum (size A) (restrict (natural cov hbar) A) nu ->
  ee (2 * N) cov modes split hbar = Ok (\sum_(i < size A | ~~ near_one rtol atol (nu i)) thermal_entropy log (nu i)).
Proof.
have t2 : 0 < 2%:R :> C by rewrite ltr0n.
move=> [p [S [rS sS] e]]; rewrite ee_vne; apply: (vonneumann_entropy_correct eig eigP log r0 a0 sub_rs' t2).
  by move=> v _; left; exact: sub_unc.
split=> //; exists S => // i j hi hj; rewrite -e // /natural mulrAC divff ?mul1r ?pnatr_eq0 //.
by rewrite /restrict /sc natE.
Qed.
End Sub.
(** the two parts of a pure state have the same entanglement entropy *)
Theorem entanglement_entropy_symmetric A B modes split modes' split' : bipartition N A B -> (0 < size A)%N -> (0 < size B)%N ->
  get_partition modes split N = Ok [seq PyInt (Posz m) | m <- A] -> get_partition modes' split' N = Ok [seq PyInt (Posz m) | m <- B] ->
  ee (2 * N) cov modes split hbar = ee (2 * N) cov modes' split' hbar.
Proof.
move=> p sA sB mA mB; have uAB : uniq (A ++ B) by rewrite (perm_uniq p) iota_uniq.
have aAB : all (fun m => m < N)%N (A ++ B) by rewrite (perm_all _ p); apply/allP => x; rewrite mem_iota.
have sz := perm_size p; rewrite size_cat size_iota in sz.
move: uAB aAB; rewrite cat_uniq all_cat => /and3P[uA _ uB] /andP[aA aB].
have nA : size A != N by rewrite -sz -[X in X != _]addn0 eqn_add2l eq_sym -lt0n.
have nB : size B != N by rewrite -sz -[X in X != _]add0n eqn_add2r eq_sym -lt0n.
rewrite (ee_nus uA aA nA mA) (ee_nus uB aB nB mB); congr Ok.
rewrite sum_neq1 [RHS]sum_neq1; apply: perm_big.
apply: (complement_spectra eigP (sc_rs rs h0) (sc_pd rs h0 u) sc_sp p).
Qed.
End State.
End Ent.
