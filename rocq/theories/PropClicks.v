(** C60: means, variances and cumulants of clicks: combinatorial part. *)
From mathcomp Require Import all_ssreflect all_algebra zify.
From Verif Require Import Prelude ThPerm SpecTor SpecThr.
Set Implicit Arguments.
Unset Strict Implicit.
Unset Printing Implicit Defensive.
Import Order.TTheory GRing.Theory Num.Theory.
Local Open Scope ring_scope.

Section Moments.
Variable C : numClosedFieldType.
Variable n : nat.
Variable v : {set 'I_n} -> C.
Lemma disjointsU1 (x : 'I_n) (A B : {set 'I_n}) : [disjoint x |: A & B] = (x \notin B) && [disjoint A & B].
Proof. by rewrite -!setI_eq0 setIUl setU_eq0 !setI_eq0 disjoints_subset sub1set inE. Qed.
(** the probability that no detector of T clicks *)
Theorem exactly_silent (T : {set 'I_n}) : \sum_(D : {set 'I_n} | [disjoint D & T]) exactly v D = v T.
Proof.
rewrite /exactly (exchange_big_dep xpredT) //= (bigD1 (~: T)) //= [X in _ + X]big1 ?addr0 => [|Z ZT].
  rewrite (big_pred1 (~: T)) ?subnn ?mul1r ?setCK // => D /=.
  by rewrite disjoints_subset -eqEsubset.
case: (boolP [exists x, (x \notin Z) && (x \notin T)]) => [/existsP[x /andP[xZ xT]]|/existsPn h]; last first.
  rewrite big1 // => D /andP[dj ZD]; exfalso; move/negP: ZT; apply; rewrite eqEsubset; apply/andP; split.
    by apply: (subset_trans ZD); rewrite -disjoints_subset.
  by apply/subsetP => x; rewrite inE => xT; have := h x; rewrite xT andbT negbK.
rewrite big_mkcond /= (toggle_sum (r := x)) // => D xD.
have -> : (Z \subset x |: D) = (Z \subset D).
  apply/subsetP/subsetP => h y yZ; have := h y yZ; rewrite in_setU1; last by move=> ->; rewrite orbT.
  by case: (y =P x) => // e; rewrite -e yZ in xZ.
have -> : [disjoint x |: D & T] = [disjoint D & T] by rewrite disjointsU1 xT.
case: [disjoint D & T]; rewrite ?oppr0 //=.
case: (boolP (Z \subset D)) => [/subset_leq_card ZD|_]; last by rewrite oppr0.
by rewrite cardsU1 xD /= subSn // exprS !mulN1r mulNr.
Qed.
Lemma indicator (S D : {set 'I_n}) : \sum_(T : {set 'I_n} | T \subset S) (-1) ^+ #|T| * [disjoint D & T]%:R = (S \subset D)%:R :> C.
Proof.
case: (boolP (S \subset D)) => [SD|/subsetPn[x xS xD]].
  rewrite (bigD1 set0) ?sub0set //= cards0 mul1r disjoint_sym -setI_eq0 set0I eqxx big1 ?addr0 // => T /andP[TS T0].
  have -> : [disjoint D & T] = false; last by rewrite mulr0.
  by apply/negbTE; rewrite disjoint_sym -setI_eq0 (setIidPl (subset_trans TS SD)).
rewrite big_mkcond /= (toggle_sum (r := x)) // => T xT.
rewrite subUset sub1set xS /= [in [disjoint D & x |: T]]disjoint_sym disjointsU1 xD /= [in [disjoint T & D]]disjoint_sym.
by case: (T \subset S); rewrite ?oppr0 // cardsU1 xT /= exprS !mulN1r mulNr.
Qed.
(** the probability that all detectors of S click *)
Theorem exactly_clicked (S : {set 'I_n}) : \sum_(D : {set 'I_n} | S \subset D) exactly v D = \sum_(T : {set 'I_n} | T \subset S) (-1) ^+ #|T| * v T.
Proof.
rewrite big_mkcond /= (eq_bigr (fun D : {set 'I_n} => \sum_(T : {set 'I_n} | T \subset S) (-1) ^+ #|T| * ([disjoint D & T]%:R * exactly v D))); last first.
  move=> D _; rewrite (eq_bigr (fun T : {set 'I_n} => (-1) ^+ #|T| * [disjoint D & T]%:R * exactly v D)) => [|T _]; last by rewrite mulrA.
  by rewrite -mulr_suml indicator; case: (S \subset D); rewrite ?mul1r ?mul0r.
rewrite exchange_big /=; apply: eq_bigr => T _; rewrite -mulr_sumr -exactly_silent; congr (_ * _).
by rewrite [RHS]big_mkcond /=; apply: eq_bigr => D _; case: [disjoint D & T]; rewrite ?mul1r ?mul0r.
Qed.
Lemma clicked1 i : \sum_(D : {set 'I_n} | i \in D) exactly v D = v set0 - v [set i].
Proof.
rewrite (eq_bigl (fun D : {set 'I_n} => [set i] \subset D)) => [|D]; last by rewrite sub1set.
rewrite exactly_clicked (bigD1 set0) ?sub0set //= cards0 mul1r.
rewrite (big_pred1 [set i]) => [|T] /=; first by rewrite cards1 expr1 mulN1r.
rewrite subset1; case: (T =P set0) => [->|_]; rewrite ?orbF ?andbT ?andbF //.
by apply/esym/negbTE; apply/eqP => /setP/(_ i); rewrite !inE eqxx.
Qed.
Lemma clicked2 i j : i != j -> \sum_(D : {set 'I_n} | (i \in D) && (j \in D)) exactly v D = v set0 - v [set i] - v [set j] + v [set i; j].
Proof.
move=> ij.
have c (A : {set 'I_n}) : \sum_(D : {set 'I_n} | [disjoint D & A]) exactly v D = \sum_(D : {set 'I_n}) [disjoint D & A]%:R * exactly v D.
  by rewrite big_mkcond /=; apply: eq_bigr => D _; case: [disjoint D & A]; rewrite ?mul1r ?mul0r.
rewrite -!exactly_silent !c -!sumrN -!big_split /= big_mkcond /=; apply: eq_bigr => D _.
have d1 k : [disjoint D & [set k]] = (k \notin D) by rewrite disjoint_sym disjoints_subset sub1set inE.
have d2 : [disjoint D & [set i; j]] = (i \notin D) && (j \notin D) by rewrite disjoint_sym disjoints_subset subUset !sub1set !inE.
have d0 : [disjoint D & set0] by rewrite -setI_eq0 setI0.
rewrite !d1 d2 d0.
by case: (i \in D); case: (j \in D); rewrite /=; rring.
Qed.
(** first and second moments of the number of clicks *)
Theorem exactly_mean : \sum_(D : {set 'I_n}) #|D|%:R * exactly v D = \sum_(i < n) (v set0 - v [set i]).
Proof.
rewrite (eq_bigr (fun i => \sum_(D : {set 'I_n} | i \in D) exactly v D)) => [|i _]; last by rewrite clicked1.
rewrite (exchange_big_dep xpredT) //=; apply: eq_bigr => D _.
by rewrite sumr_const mulr_natl.
Qed.
Theorem exactly_square : \sum_(D : {set 'I_n}) #|D|%:R ^+ 2 * exactly v D =
  \sum_(i < n) (v set0 - v [set i]) + \sum_(i < n) \sum_(j < n | j != i) (v set0 - v [set i] - v [set j] + v [set i; j]).
Proof.
rewrite -big_split /= (eq_bigr (fun i => \sum_(j < n) \sum_(D : {set 'I_n} | (i \in D) && (j \in D)) exactly v D)) => [|i _]; last first.
  rewrite [RHS](bigD1 i) //=; congr (_ + _); last by apply: eq_bigr => j ji; rewrite clicked2 // eq_sym.
  by rewrite -clicked1; apply: eq_bigl => D; rewrite andbb.
rewrite (eq_bigr (fun i => \sum_(D : {set 'I_n} | i \in D) #|D|%:R * exactly v D)) => [|i _]; last first.
  rewrite (exchange_big_dep (fun D : {set 'I_n} => i \in D)) /= => [|j D _ /andP[] //].
  by apply: eq_bigr => D iD; rewrite iD /= sumr_const mulr_natl.
rewrite (exchange_big_dep xpredT) //=; apply: eq_bigr => D _.
by rewrite sumr_const -[RHS]mulr_natl mulrA -expr2.
Qed.
End Moments.
