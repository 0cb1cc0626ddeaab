(** C61: entropies and logarithmic negativity, matrix lemmas. *)
From mathcomp Require Import all_ssreflect all_algebra zify.
From Verif Require Import Prelude PyBase ArrLoop MHafnian MHermite MSymplectic MTor MFock MDecomp MMisc MEntangle SpecSymp SpecTor SpecThr SpecFock SpecDecomp PropTor PropTor2 PropTor5 PropThr PropThr2 PropThr3 PropThr5 PropSpectral PropChannels PropSymp2 PropCharpoly PropConversions PropMisc PropChecks PropPure PropDecomp PropDecomp2 PropDecomp3 PropDecomp4 PropDecomp5 PropEnt PropEnt2 PropEnt3.
Set Implicit Arguments.
Unset Strict Implicit.
Unset Printing Implicit Defensive.
Import Order.TTheory GRing.Theory Num.Theory.
Local Open Scope ring_scope.

Section Mx.
Variable C : numClosedFieldType.
Lemma PS_ker n (M : 'M[C]_n) (v : 'cV[C]_n) : ct M = M -> PS M -> (ct v *m M *m v) 0 0 = 0 -> M *m v = 0.
Proof.
move=> hM pM; have [R hR RR] := PS_sqrt hM pM; rewrite -RR => h; rewrite -mulmxA.
have := ct_row_eq0 (ct v *m R); rewrite ctM ctK hR mulmxA -[_ *m R *m R]mulmxA h eqxx => /esym/eqP w.
have -> : R *m v = ct (ct v *m R) by rewrite ctM ctK hR.
by rewrite w /ct trmx0 map_mx0 mulmx0.
Qed.
(** positive semidefinite uncertainty implies a positive definite covariance *)
Lemma unc_pos n (S K : 'M[C]_n) : ct S = S -> ct K = K -> K \in unitmx -> PS (S + K) -> PS (S - K) -> pos S.
Proof.
move=> hS hK uK p1 p2; split=> // v v0.
have e : (ct v *m S *m v) 0 0 + (ct v *m S *m v) 0 0 = (ct v *m (S + K) *m v) 0 0 + (ct v *m (S - K) *m v) 0 0.
  rewrite !mulmxDr !mulmxDl mulmxN mulNmx; move: (ct v *m S *m v) (ct v *m K *m v) => X Y.
  by rewrite [(X + Y) 0 0]mxE [(X - Y) 0 0]mxE [(- Y) 0 0]mxE addrACA subrr addr0.
rewrite lt_neqAle; apply/andP; split; last first.
  by have := addr_ge0 (p1 v) (p2 v); rewrite -e -mulr2n pmulrn_lge0.
apply: contra v0; rewrite eq_sym => /eqP z; move: e; rewrite z addr0 => /esym/eqP.
rewrite paddr_eq0 // => /andP[/eqP e1 /eqP e2].
have k1 : (S + K) *m v = 0 by apply: PS_ker e1 => //; rewrite ctD hS hK.
have k2 : (S - K) *m v = 0 by apply: PS_ker e2 => //; rewrite ctD ctN hS hK.
have : K *m v + K *m v = 0.
  have : (S + K) *m v - (S - K) *m v = 0 by rewrite k1 k2 subr0.
  by rewrite -mulmxBl -mulmxDl; move=> <-; congr (_ *m _); rewrite opprB [S + K]addrC addrACA subrr addr0.
rewrite -mulr2n => /eqP; rewrite -scaler_nat scaler_eq0 pnatr_eq0 /= => /eqP kv.
by rewrite -[v](mulKmx uK) kv mulmx0.
Qed.
(** every symplectic eigenvalue of a state is at least 1 *)
Lemma eig_ge1 N (V : 'M[C]_(N + N)) (d : C) : pos V -> PS (V + 'i *: J C N) -> PS (V - 'i *: J C N) -> 0 < d -> root (char_poly (J C N *m V)) ('i * d) -> 1 <= d.
Proof.
move=> pV p1 p2 d0 /char_root_eigen[v e v0]; pose u := ct (v *m J C N).
have aJ : ct (J C N) = - J C N.
  by rewrite (rmx_ct (Jreal C N)) Jt.
have uJ : J C N \in unitmx by apply: (proj1 (mulmx1_unit (A := J C N) (B := - J C N) _)); rewrite mulmxN JJ opprK.
have u0 : u != 0.
  apply: contraNneq v0 => h; rewrite -[v](mulmxK uJ); have : ct u = 0 by rewrite h /ct trmx0 map_mx0.
  by rewrite ctK => ->; rewrite mul0mx.
have vu : v = - (ct u *m J C N) by rewrite ctK -mulmxA JJ mulmxN mulmx1 opprK.
have e1 : ct u *m V = ('i * d) *: - (ct u *m J C N) by rewrite -vu ctK -mulmxA.
have q := (proj2 pV) _ u0.
pose z := (ct u *m J C N *m u) 0 0.
have qz : (ct u *m V *m u) 0 0 = - ('i * d) * z.
  by rewrite e1 scalerN -scaleNr -scalemxAl mxE.
have q1 : 0 <= (ct u *m (V + 'i *: J C N) *m u) 0 0 := p1 u.
have : 0 <= (d - 1) * (ct u *m V *m u) 0 0.
  have -> : (d - 1) * (ct u *m V *m u) 0 0 = d * (ct u *m (V + 'i *: J C N) *m u) 0 0.
    rewrite mulmxDr mulmxDl -scalemxAr -scalemxAl mulrBl mul1r -/z; have zE : (ct u *m J C N *m u) 0 0 = z by [].
    move: zE qz; move: (ct u *m V *m u) (ct u *m J C N *m u) => X Y zE qz; rewrite [(X + 'i *: Y) 0 0]mxE [('i *: Y) 0 0]mxE zE mulrDr; congr (_ + _).
    by rewrite qz; rring.
  by rewrite mulr_ge0 // ltW.
by rewrite pmulr_lge0 // subr_ge0.
Qed.
End Mx.
