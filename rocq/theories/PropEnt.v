(** C61: symplectic spectra (linear algebra). *)
From mathcomp Require Import all_ssreflect all_algebra zify.
From Verif Require Import Prelude PyBase ArrLoop MHafnian MHermite MSymplectic MDecomp SpecSymp SpecTor SpecDecomp PropTor PropTor5 PropThr3 PropSpectral PropChannels PropSymp2 PropCharpoly PropDecomp PropDecomp2 PropDecomp3 PropDecomp4 PropDecomp5.
Set Implicit Arguments.
Unset Strict Implicit.
Unset Printing Implicit Defensive.
Import Order.TTheory GRing.Theory Num.Theory.
Local Open Scope ring_scope.

Section Spec.
Variable C : numClosedFieldType.

(** Sylvester's determinant identity *)
Lemma sylvester m n (t : C) (b : 'M[C]_(m, n)) (c : 'M[C]_(n, m)) :
  t ^+ n * \det (t%:M - b *m c) = t ^+ m * \det (t%:M - c *m b).
Proof.
have e1 : block_mx (t%:M : 'M_m) b c (1%:M : 'M_n) *m block_mx 1%:M 0 (- c) 1%:M = block_mx (t%:M - b *m c) b 0 1%:M.
  by rewrite mulmx_block !mulmx1 !mulmx0 mul1mx !add0r mulmxN subrr.
have e2 : block_mx (1%:M : 'M_m) 0 (- c) t%:M *m block_mx t%:M b c 1%:M = block_mx t%:M b 0 (t%:M - c *m b).
  by rewrite mulmx_block !mul1mx !mul0mx !addr0 mul_scalar_mx mulNmx mul_mx_scalar addNr mulmx1 addrC mulNmx.
have d1 := congr1 determinant e1; rewrite det_mulmx det_lblock det_ublock !det1 !mulr1 in d1.
have d2 := congr1 determinant e2; rewrite det_mulmx det_lblock det_ublock det1 mul1r !det_scalar in d2.
by rewrite -d2 d1.
Qed.

(** eigenvalues of a product of an antisymmetric and a positive definite real matrix are imaginary *)
Lemma char_root_eigen n (A : 'M[C]_n) x : root (char_poly A) x -> exists2 v : 'rV_n, v *m A = x *: v & v != 0.
Proof. by rewrite -eigenvalue_root_char => /eigenvalueP. Qed.

Lemma eigen_imag n (K V : 'M[C]_n) (x : C) : ct K = - K -> K \in unitmx -> pos V -> root (char_poly (K *m V)) x -> x != 0 /\ x^* = - x.
Proof.
move=> aK uK pV /char_root_eigen[v e v0]; pose u := v *m K.
have u0 : u != 0 by apply: contraNneq v0 => h; rewrite -[v](mulmxK uK) -/u h mul0mx.
have cu0 : ct u != 0 by apply: contraNneq u0 => h; rewrite -[u]ctK h /ct trmx0 map_mx0.
have p := (proj2 pV) _ cu0; rewrite ctK in p.
have eu : u *m V = x *: v by rewrite -mulmxA.
pose z := (v *m K *m ct v) 0 0.
have pz : 0 < - (x * z).
  have -> : - (x * z) = (u *m V *m ct u) 0 0; last exact: p.
  by rewrite eu /u ctM aK mulNmx mulmxN -scalemxAl [RHS]mxE [in RHS]mxE mulmxA.
have zc : z^* = - z.
  have -> : z^* = (ct (v *m K *m ct v)) 0 0 by rewrite /ct [RHS]mxE [in RHS]mxE.
  by rewrite !ctM ctK aK mulNmx mulmxN mulmxA [LHS]mxE.
have xz0 : x * z != 0 by rewrite -oppr_eq0 gt_eqF.
have [x0 z0] : x != 0 /\ z != 0 by apply/andP; rewrite -negb_or -mulf_eq0.
split=> //; have := conj_Creal (gtr0_real pz); rewrite rmorphN rmorphM /= zc mulrN opprK => h.
by apply: (mulIf z0); rewrite mulNr.
Qed.

(** the spectrum of Omega V, for V real symmetric and positive definite: pairs i d, -i d with d > 0 *)
Theorem spectrum_exists N (V : 'M[C]_(N + N)) : rmx V -> pos V ->
  exists2 d : 'rV[C]_N, (forall i, 0 < d 0 i) &
    char_poly (J C N *m V) = \prod_(x <- [seq 'i * d 0 i | i <- enum 'I_N] ++ [seq - 'i * d 0 i | i <- enum 'I_N]) ('X - x%:P).
Proof.
move=> rV pV; set A := J C N *m V.
have rA : rmx A by apply: rmxM => //; exact: Jreal.
have [r cr] := closed_field_poly_normal (char_poly A).
rewrite (monicP (char_poly_monic A)) scale1r in cr.
have aJ : ct (J C N) = - J C N by rewrite rmx_ct ?Jt //; exact: Jreal.
have uJ : J C N \in unitmx by apply: (proj1 (mulmx1_unit (A := J C N) (B := - J C N) _)); rewrite mulmxN JJ opprK.
have rP x : x \in r -> x != 0 /\ x^* = - x.
  by rewrite -root_prod_XsubC -cr => h; exact: (eigen_imag aJ uJ pV h).
have imP x : x \in r -> x = 'i * 'Im x.
  move=> /rP[_ e]; rewrite {1}[x]Crect (_ : 'Re x = 0) ?add0r //.
  by rewrite ReE e subrr mul0r.
have pc : perm_eq r [seq x^* | x <- r].
  apply: prod_XsubC_perm; rewrite -cr -{1}rA -map_char_poly cr rmorph_prod big_map /=.
  by apply: eq_bigr => x _; rewrite rmorphB /= map_polyX map_polyC.
pose f := [seq x <- r | 0 < 'Im x]; pose g := [seq x <- r | ~~ (0 < 'Im x)].
have gE : perm_eq g [seq x^* | x <- f].
  rewrite (perm_trans (perm_filter _ pc)) // filter_map; apply/permP => a; congr (count a (map _ _)).
  apply: eq_in_filter => x xr /=; have [x0 xc] := rP x xr; have xi := imP x xr; rewrite Im_conj.
  have ri : 'Im x \is Num.real := Creal_Im x.
  have i0 : 'Im x != 0 by apply: contraNneq x0 => h; rewrite xi h mulr0.
  rewrite oppr_gt0; case: (real_ltgt0P ri) i0 => //.
have pf : perm_eq r (f ++ [seq x^* | x <- f]).
  have h : perm_eq r (f ++ g) by have := perm_filterC (fun x : C => 0 < 'Im x) r r; rewrite perm_refl perm_sym.
  by apply: (perm_trans h); rewrite perm_cat2l.
have sr : size r = (N + N)%N.
  by have := size_char_poly A; rewrite cr size_prod_XsubC => -[].
have sf : size f = N by have := perm_size pf; rewrite sr size_cat size_map; clearbody f; move: (size f) => k h; clear -h; lia.
pose d : 'rV[C]_N := \row_i 'Im (nth 0 f i).
have fE : f = [seq 'i * d 0 i | i <- enum 'I_N].
  apply: (@eq_from_nth _ 0); rewrite ?size_map -?enumT ?size_enum_ord // sf => k hk.
  rewrite (nth_map (Ordinal hk)) ?size_enum_ord // mxE nth_enum_ord //; apply: imP.
  have : nth 0 f k \in f by rewrite mem_nth ?sf.
  by rewrite mem_filter => /andP[].
exists d => [i|].
  have : nth 0 f i \in f by rewrite mem_nth ?sf.
  by rewrite mem_filter mxE => /andP[].
rewrite cr (perm_big _ pf) /=; congr (bigop _ _ _); rewrite {1}fE; congr (_ ++ _).
rewrite fE -map_comp; apply: eq_map => i /=; rewrite rmorphM conjCi; congr (_ * _).
by rewrite mxE; apply: conj_Creal; exact: Creal_Im.
Qed.
End Spec.
