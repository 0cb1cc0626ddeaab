(** C61: entropies and logarithmic negativity. *)
From mathcomp Require Import all_ssreflect all_algebra zify.
From Verif Require Import Prelude PyBase ArrLoop MHafnian MHermite MSymplectic MTor MFock MDecomp MMisc MEntangle SpecSymp SpecTor SpecThr SpecFock SpecDecomp PropTor PropTor2 PropTor5 PropThr PropThr2 PropThr3 PropThr5 PropSpectral PropChannels PropSymp2 PropCharpoly PropConversions PropMisc PropChecks PropPure PropDecomp PropDecomp2 PropDecomp3 PropDecomp4 PropDecomp5 PropEnt PropEnt2.
Set Implicit Arguments.
Unset Strict Implicit.
Unset Printing Implicit Defensive.
Import Order.TTheory GRing.Theory Num.Theory.
Local Open Scope ring_scope.

Section Ent.
Variable C : numClosedFieldType.
Notation mat := (nat -> nat -> C).
Notation vec := (nat -> C).
Notation mxo n A := (mxof n n A).
Variable eigvals : nat -> mat -> seq C.
Hypothesis eigP : eigvals_ok eigvals.
Notation dl N d := [seq (d : 'rV[C]_N) 0 i | i <- enum 'I_N].

(** the symplectic spectrum of a real symmetric positive definite matrix *)
Lemma spectrum N (V : mat) : real_sym (2 * N) V -> posdef (2 * N) V ->
  exists d : 'rV[C]_N, [/\ forall i, 0 < d 0 i, char_poly (J C N *m mxo (N + N) V) = \prod_(x <- pm d) ('X - x%:P) &
    perm_eq (symplectic_eigenvals eigvals (2 * N) V) (dl N d)].
Proof.
move=> rs pd.
have rV : realm (2 * N) V by move=> i j hi hj; case: (rs i j hi hj).
have hV : hermitian (2 * N) V by move=> i j hi hj; have [r <-] := rs i j hi hj; rewrite (conj_Creal r).
have pV : pos (mxo (N + N) V) by apply/pos_mx; rewrite -twoE; split.
have rV' : rmx (mxo (N + N) V) by apply/rmx_real; rewrite -twoE.
have [d d0 cd] := spectrum_exists rV' pV.
by exists d; split=> //; apply: symplectic_eigenvals_spectrum.
Qed.

(** ** Reduced states of a pure state *)
Section Pure.
Variables (N : nat) (V : mat).
Hypothesis rs : real_sym (2 * N) V.
Hypothesis pd : posdef (2 * N) V.
Hypothesis sp : symplectic N V.
(** Omega V, with Omega = [[0, 1], [-1, 0]] *)
Definition OV : mat := fun i j => if (i < N)%N then V (N + i)%N j else - V (i - N)%N j.
Lemma OV_mx : mxo (N + N) OV = J C N *m mxo (N + N) V.
Proof.
rewrite (mx_split N V) /J mulmx_block !mul0mx !mul1mx !add0r !mulNmx !mul1mx !addr0 (mx_split N OV).
congr block_mx; apply/matrixP => i j; rewrite !mxE /mshift /OV ?add0n ?addn0 ?ltn_ord ?(ltnNge (N + _)) ?leq_addr //= ?addKn //.
Qed.
Lemma OV2 i j : (i < 2 * N)%N -> (j < 2 * N)%N -> \sum_(q < 2 * N) OV i q * OV q j = - (i == j)%:R.
Proof.
rewrite twoE => hi hj.
have sV : (mxo (N + N) V)^T = mxo (N + N) V by apply/matrixP => a b; rewrite !mxE; apply: (proj2 (rs _ _)); rewrite twoE ltn_ord.
have e : mxo (N + N) OV *m mxo (N + N) OV = - 1%:M.
  have /symplectic_mx := sp; rewrite /symp sV => s.
  by rewrite OV_mx -mulmxA [mxo _ V *m _]mulmxA s JJ.
have := congr1 (fun A : 'M[C]_(N + N) => A (Ordinal hi) (Ordinal hj)) e; rewrite !mxE => <-.
by apply: eq_bigr => q _; rewrite !mxE.
Qed.
Definition subV (A : seq nat) : mat := ix V (rowsl N A).
Section Sub.
Variable A : seq nat.
Hypothesis uA : uniq A.
Hypothesis aA : all (fun m => m < N)%N A.
Lemma rA_lt : all (fun i => i < 2 * N)%N (rowsl N A).
Proof. by clear uA; rewrite all_cat all_map; apply/andP; split; apply/allP => x /(allP aA) /=; lia. Qed.
Lemma rA_uniq : uniq (rowsl N A).
Proof.
rewrite cat_uniq uA map_inj_uniq ?uA ?andbT //=; last by move=> x y; lia.
apply/hasPn => x /mapP[y /(allP aA) h ->]; apply/negP => /(allP aA); lia.
Qed.
Lemma size_rA : size (rowsl N A) = (2 * size A)%N. Proof. by rewrite size_cat size_map mul2n addnn. Qed.
Lemma sub_rs : real_sym (2 * size A) (subV A).
Proof. by rewrite -size_rA => i j hi hj; apply: rs; apply: (allP rA_lt); exact: mem_nth. Qed.
Lemma sub_pd : posdef (2 * size A) (subV A).
Proof. rewrite -size_rA; exact: posdef_ix pd rA_uniq rA_lt. Qed.
Lemma OV_sub : mxof (size A + size A) (size A + size A) (fun i j => OV (nth 0%N (rowsl N A) i) (nth 0%N (rowsl N A) j)) = J C (size A) *m mxo (size A + size A) (subV A).
Proof.
rewrite (mx_split (size A) (subV A)) /J mulmx_block !mul0mx !mul1mx !add0r !mulNmx !mul1mx !addr0 mx_split.
have lo (i : 'I_(size A)) : nth 0%N (rowsl N A) i = nth 0%N A i by rewrite nth_cat ltn_ord.
have hi (i : 'I_(size A)) : nth 0%N (rowsl N A) (size A + i) = (N + nth 0%N A i)%N by rewrite nth_cat ltnNge leq_addr /= addKn (nth_map 0%N).
have lt (i : 'I_(size A)) : (nth 0%N A i < N)%N by apply: (allP aA); exact: mem_nth.
congr block_mx; apply/matrixP => i j; rewrite !mxE /mshift /subV /ix ?add0n ?addn0 !(lo, hi) /OV ?lt ?(ltnNge (N + _)) ?leq_addr //= ?addKn //.
Qed.
End Sub.
Theorem complement_spectra (A B : seq nat) : perm_eq (A ++ B) (iota 0 N) ->
  perm_eq [seq z <- symplectic_eigenvals eigvals (2 * size A) (subV A) | z != 1] [seq z <- symplectic_eigenvals eigvals (2 * size B) (subV B) | z != 1].
Proof.
move=> p; have uAB : uniq (A ++ B) by rewrite (perm_uniq p) iota_uniq.
have aAB : all (fun m => m < N)%N (A ++ B) by rewrite (perm_all _ p); apply/allP => x; rewrite mem_iota.
move: uAB aAB; rewrite cat_uniq all_cat => /and3P[uA _ uB] /andP[aA aB].
have [x [x0 cx px]] := spectrum (sub_rs aA) (sub_pd uA aA).
have [y [y0 cy py]] := spectrum (sub_rs aB) (sub_pd uB aB).
rewrite (permPl (perm_filter _ px)) (permPr (perm_filter _ py)).
have pr : perm_eq (rowsl N A ++ rowsl N B) (iota 0 (2 * N)).
  rewrite /rowsl; have -> : iota 0 (2 * N) = iota 0 N ++ [seq (N + x)%N | x <- iota 0 N].
    by have := iotaDl N 0 N; rewrite addn0 => <-; rewrite twoE iotaD.
  by rewrite perm_catACA -map_cat perm_cat // perm_map.
pose R A B := mxof (size A + size A) (size B + size B) (fun i j => OV (nth 0%N (rowsl N A) i) (nth 0%N (rowsl N B) j)).
have sumE (f : nat -> C) : \sum_(s < size A + size A) f (nth 0%N (rowsl N A) s) + \sum_(s < size B + size B) f (nth 0%N (rowsl N B) s) = \sum_(q < 2 * N) f q.
  have one (D : seq nat) : \sum_(s < size D + size D) f (nth 0%N (rowsl N D) s) = \sum_(q <- rowsl N D) f q.
    by rewrite (big_nth 0%N) size_rA twoE big_mkord.
  by rewrite !one -big_cat (perm_big _ pr) /= sum_iota.
have nthlt D (i : 'I_(size D + size D)) : all (fun m => m < N)%N D -> (nth 0%N (rowsl N D) i < 2 * N)%N.
  by move=> aD; apply: (allP (rA_lt aD)); apply: mem_nth; rewrite size_rA twoE.
have diag D (i j : 'I_(size D + size D)) : uniq D -> all (fun m => m < N)%N D -> (nth 0%N (rowsl N D) i == nth 0%N (rowsl N D) j) = (i == j).
  by move=> uD aD; rewrite nth_uniq ?size_rA ?twoE ?rA_uniq.
apply: (@pure_spectra _ _ _ (R A A) (R A B) (R B A) (R B B)) => //.
- apply/matrixP => i j; rewrite !mxE -(diag A) // -OV2 ?nthlt // -(sumE (fun q => OV (nth 0%N (rowsl N A) i) q * OV q (nth 0%N (rowsl N A) j))); congr (_ + _); by apply: eq_bigr => q _; rewrite !mxE.
- apply/matrixP => i j; rewrite !mxE -(diag B) // -OV2 ?nthlt // -(sumE (fun q => OV (nth 0%N (rowsl N B) i) q * OV q (nth 0%N (rowsl N B) j))) addrC; congr (_ + _); by apply: eq_bigr => q _; rewrite !mxE.
- by rewrite -cx /R OV_sub.
by rewrite -cy /R OV_sub.
Qed.
End Pure.
End Ent.
