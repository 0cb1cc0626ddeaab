(** C61: entropies and logarithmic negativity. *)
From mathcomp Require Import all_ssreflect all_algebra zify.
From Verif Require Import Prelude PyBase ArrLoop MHafnian MHermite MSymplectic MTor MFock MDecomp MMisc MEntangle SpecSymp SpecTor SpecThr SpecFock SpecDecomp SpecEnt PropTor PropTor2 PropTor3 PropTor5 PropThr PropThr2 PropThr3 PropThr5 PropSpectral PropChannels PropSymp2 PropCharpoly PropConversions PropMisc PropChecks PropPure PropDecomp PropDecomp2 PropDecomp3 PropDecomp4 PropDecomp5 PropEnt PropEnt2 PropEnt3 PropEnt4.
Set Implicit Arguments.
Unset Strict Implicit.
Unset Printing Implicit Defensive.
Import Order.TTheory GRing.Theory Num.Theory.
Local Open Scope ring_scope.

Section Ent.
Variable C : numClosedFieldType.
Notation mat := (nat -> nat -> C).
Notation vec := (nat -> C).
Notation mxo n A := (mxof n n A).
Variable eigvalsh : nat -> mat -> seq C.
Hypothesis eig : eigvalsh_ok eigvalsh.
Variable eigvals : nat -> mat -> seq C.
Hypothesis eigP : eigvals_ok eigvals.
Variable log : C -> C.
Variables rtol atol : C.
Hypotheses (r0 : 0 <= rtol) (a0 : 0 <= atol).
Notation vne := (vonneumann_entropy eigvalsh eigvals log rtol atol).
Notation ee := (entanglement_entropy eigvalsh eigvals log rtol atol).
Notation ln := (log_negativity eigvalsh eigvals log rtol atol).
Notation nus := (symplectic_eigenvals eigvals).

Lemma for_if (l : seq C) (c : pred C) (f : C -> C) : for_ l 0 (fun S nu => if c nu then S + f nu else S) = \sum_(nu <- l | c nu) f nu.
Proof.
have e s : for_ l s (fun S nu => if c nu then S + f nu else S) = for_ l s (fun S nu => S + (if c nu then f nu else 0)).
  by rewrite /for_; elim: l s => [|x l IH] s //=; rewrite -IH; case: ifP; rewrite ?addr0.
by rewrite e for_sum add0r [RHS]big_mkcond.
Qed.
Lemma near_oneE nu : close rtol atol nu 1 = near_one rtol atol nu.
Proof. by rewrite /close normr1 mulr1. Qed.

Section State.
Variables (N : nat) (cov : mat) (hbar : C).
Hypothesis rs : real_sym (2 * N) cov.
Hypothesis h0 : 0 < hbar.
Lemma natE i j : cov i j / (hbar / 2%:R) = natural cov hbar i j.
Proof. by rewrite /natural invfM invrK; rring. Qed.
Definition sc : mat := fun i j => cov i j / (hbar / 2%:R).
Lemma sc_mx n : mxof n n sc = mxof n n (natural cov hbar).
Proof. by apply/matrixP => i j; rewrite !mxE /sc natE. Qed.
Lemma sc_rs : real_sym (2 * N) sc.
Proof.
move=> i j hi hj; rewrite /sc; have [r ->] := rs hi hj; split=> //; have [r' _] := rs hj hi.
by rewrite rpredM // realV realM ?realV ?realn // gtr0_real.
Qed.
Definition spec_pos nu := symplectic_spectrum N (natural cov hbar) nu.
Lemma nus_spec nu : spec_pos nu -> perm_eq (nus (2 * N) sc) (mkseq nu N).
Proof.
move=> [p [S [rS sS] e]]; apply: symplectic_eigenvals_correct sS p _ => //.
  by move=> i j hi hj; case: (sc_rs hi hj).
by move=> i j hi hj; rewrite -e // /sc natE.
Qed.
Theorem vonneumann_entropy_correct nu : psd_upto atol (2 * N) (uncertainty N cov hbar) -> symplectic_spectrum N (natural cov hbar) nu ->
  vne (2 * N) cov hbar = Ok (\sum_(i < N | ~~ near_one rtol atol (nu i)) thermal_entropy log (nu i)).
Proof.
move=> u s; rewrite /vonneumann_entropy (introT idP (proj2 (is_valid_cov_correct eig rs h0 r0 a0) u)) /=; congr Ok.
rewrite (for_if _ (fun nu => ~~ close rtol atol nu 1)) (perm_big _ (nus_spec s)) /= /mkseq big_map -{1}(subn0 N) big_mkord.
by apply: eq_big => [i|i _] //; rewrite near_oneE.
Qed.
Theorem vonneumann_entropy_rejects : ~ psd_upto atol (2 * N) (uncertainty N cov hbar) -> vne (2 * N) cov hbar = Err ValueError.
Proof.
move=> u; rewrite /vonneumann_entropy; case: (boolP (is_valid_cov _ _ _ _ _ _ _)) => //= h.
by case: u; apply/(is_valid_cov_correct eig rs h0 r0 a0).
Qed.

(** states: positive semidefinite uncertainty *)
Hypothesis u : possemi (2 * N) (uncertainty N cov hbar).
Lemma u_PS : [/\ PS (mxo (N + N) sc + 'i *: J C N), PS (mxo (N + N) sc - 'i *: J C N) & ct (mxo (N + N) sc) = mxo (N + N) sc].
Proof.
have [p1 p2 _] := unc_PS rs h0 u; rewrite sc_mx -mx_Omega.
have hS : ct (mxo (N + N) (natural cov hbar)) = mxo (N + N) (natural cov hbar).
  rewrite -sc_mx; apply/matrixP => i j; rewrite !mxE; have [||r ->] := @sc_rs j i; rewrite ?twoE //; apply: conj_Creal.
  by have [||r' _] := @sc_rs i j; rewrite ?twoE.
by split=> //; rewrite -twoE.
Qed.
Lemma iJ : ct ('i *: J C N) = 'i *: J C N /\ 'i *: J C N \in unitmx.
Proof.
have aJ : ct (J C N) = - J C N by rewrite (rmx_ct (Jreal C N)) Jt.
split; first by rewrite ctZ aJ conjCi scaleNr scalerN opprK.
apply: (proj1 (mulmx1_unit (A := 'i *: J C N) (B := 'i *: J C N) _)).
by rewrite -scalemxAl -scalemxAr scalerA -expr2 sqrCi JJ scaleN1r opprK.
Qed.
Lemma sc_pos : pos (mxo (N + N) sc).
Proof. have [p1 p2 h] := u_PS; have [k uk] := iJ; exact: unc_pos p1 p2. Qed.
Lemma sc_pd : posdef (2 * N) sc.
Proof. by have /pos_mx[_] := sc_pos; rewrite twoE. Qed.
Lemma u_valid : is_valid_cov eigvalsh (2 * N) (2 * N) cov hbar rtol atol.
Proof. by apply/(is_valid_cov_correct eig rs h0 r0 a0) => v _; left; exact: u. Qed.
(** every symplectic eigenvalue of a state is at least 1 *)
Theorem state_spectrum_ge1 : all (fun x => 1 <= x) (nus (2 * N) sc).
Proof.
have [d [d0 cd pe]] := spectrum eigP sc_rs sc_pd; have [p1 p2 _] := u_PS.
rewrite (perm_all _ pe); apply/allP => x /mapP[i _ ->]; apply: (eig_ge1 sc_pos p1 p2 (d0 i)).
by rewrite cd root_prod_XsubC mem_cat; apply/orP; left; apply/mapP; exists i; rewrite // mem_enum.
Qed.
End State.
End Ent.
