(** C64: squeezed-state photon-number distributions and their convolutions. *)
From mathcomp Require Import all_ssreflect all_algebra zify.
From Verif Require Import Prelude PyBase ArrLoop SpecHaf MHafnian MSymplectic SpecFock MFock PropPnd PropPnd2 SpecPnd MPnd.
Set Implicit Arguments.
Unset Strict Implicit.
Unset Printing Implicit Defensive.
Import Order.TTheory GRing.Theory Num.Theory.
Local Open Scope ring_scope.

Section P.
Variable C : numClosedFieldType.
Implicit Types (f g : nat -> C).
(** enumeration of the patterns *)
Fixpoint patt (N n : nat) : seq (seq nat) :=
  if N is N'.+1 then [seq a :: k | a <- iota 0 n.+1, k <- patt N' (n - a)] else if n == 0%N then [:: [::]] else [::].
Lemma pattP N n k : (k \in patt N n) = (size k == N) && (sumn k == n).
Proof.
elim: N n k => [|N IH] n k.
  by rewrite /=; case: eqP => [->|nn]; case: k => //= ; rewrite ?inE //; move/eqP: nn; rewrite eq_sym => /negPf ->.
rewrite -[patt N.+1 n]/([seq a :: k' | a <- iota 0 n.+1, k' <- patt N (n - a)]).
apply/allpairsPdep/andP => [[a [k' [ha hk ->]]]|[]].
  by move: ha hk; rewrite mem_iota IH /= => ha /andP[/eqP -> /eqP ->]; split=> //; apply/eqP; lia.
case: k => // a k; rewrite [size _]/= [sumn _]/= => /eqP [sk] /eqP h; exists a, k; rewrite mem_iota IH sk eqxx /=; split=> //; [lia|apply/eqP; lia].
Qed.
Lemma patt_uniq N n : uniq (patt N n).
Proof.
elim: N n => [|N IH] n; first by rewrite /=; case: ifP.
apply: allpairs_uniq_dep => [|a _|]; [exact: iota_uniq|exact: IH|].
by move=> [a k] [b l] _ _ /= [-> ->].
Qed.
Lemma psum_patt N n (F : seq nat -> C) : psum N n F = \sum_(k <- patt N n) F k.
Proof.
elim: N n F => [|N IH] n F; first by rewrite /=; case: ifP; rewrite ?big_seq1 ?big_nil.
transitivity (\sum_(a < n.+1) \sum_(k <- patt N (n - a)) F ((a : nat) :: k)); first by apply: eq_bigr => a _; exact: IH.
rewrite -[patt N.+1 n]/([seq a :: k' | a <- iota 0 n.+1, k' <- patt N (n - a)]) big_allpairs_dep.
by rewrite -(big_mkord xpredT (fun a => \sum_(k <- patt N (n - a)) F (a :: k))) /index_iota subn0.
Qed.
Lemma psumE N n L (F : seq nat -> C) : patterns N n L -> psum N n F = \sum_(k <- L) F k.
Proof.
move=> [uL hL]; rewrite psum_patt; apply: perm_big; apply: uniq_perm => //; first exact: patt_uniq.
by move=> k; rewrite pattP hL.
Qed.

Lemma eq_conv f f' g g' n : (forall i, (i <= n)%N -> f i = f' i) -> (forall i, (i <= n)%N -> g i = g' i) -> conv f g n = conv f' g' n.
Proof. by move=> ef eg; apply: eq_bigr => j _; rewrite ef ?eg //; have := ltn_ord j; lia. Qed.
Lemma conv_scale a b f g n : conv (fun i => a * f i) (fun i => b * g i) n = a * b * conv f g n.
Proof. by rewrite /conv mulr_sumr; apply: eq_bigr => j _; rring. Qed.
Definition convs (fs : seq (nat -> C)) : nat -> C := foldr (@conv C) (@delta C) fs.
Lemma psum_convs (fs : seq (nat -> C)) n : psum (size fs) n (fun k => \prod_(p <- zip fs k) p.1 p.2) = convs fs n.
Proof.
elim: fs n => [|f fs IH] n /=; first by rewrite /delta; case: eqP => _ //; rewrite big_nil.
apply: eq_bigr => a _; rewrite -IH -psum_mul; apply: psum_ext => k _ _; by rewrite big_cons.
Qed.
Lemma zip_nseq (f : nat -> C) k : \prod_(p <- zip (nseq (size k) f) k) p.1 p.2 = \prod_(j <- k) f j.
Proof. by elim: k => [|a k IH] /=; rewrite ?big_nil // !big_cons IH. Qed.
(** conv is associative up to the recurrence: folds from either side agree *)
Lemma newton_convs (xs : seq C) : newton (fun l => \sum_(x <- xs) x ^+ l) (convs [seq nbc 1 x | x <- xs]).
Proof.
elim: xs => [|x xs IH] /=; first by apply: newton_ext (@newton_delta C) => l; rewrite big_nil.
by apply: newton_ext (newton_conv (newton_nbc 1 x) IH) => l; rewrite big_cons mul1r.
Qed.

Lemma nbc_half m : \prod_(i < m) ((1%:R / 2%:R : C) + i%:R) / m`!%:R = (2 * m)`!%:R / (4%:R ^+ m * m`!%:R ^+ 2).
Proof.
have n0 k : (0 < k)%N -> k%:R != 0 :> C by move=> h; rewrite pnatr_eq0 -lt0n.
elim: m => [|m IH]; first by rewrite big_ord0 muln0 fact0 expr0 expr1n mulr1.
rewrite big_ord_recr /=; have -> : (2 * m.+1 = (2 * m).+2)%N by lia.
have -> : m.+1`!%:R = m.+1%:R * m`!%:R :> C by rewrite factS natrM.
have -> : ((2 * m).+2)`!%:R = (2 * m).+2%:R * ((2 * m).+1%:R * (2 * m)`!%:R) :> C by rewrite !factS !natrM.
rewrite exprS.
have -> : (2 * m).+2%:R = 2%:R * m.+1%:R :> C by rewrite -natrM; congr _%:R; lia.
have -> : (2 * m).+1%:R = 2%:R * (1%:R / 2%:R + m%:R) :> C.
  by rewrite mulrDr mulrC mulrVK ?unitfE ?n0 // -natrM -natrD; congr _%:R; lia.
move: IH; have -> : 4%:R = 2%:R * 2%:R :> C by rewrite -natrM.
 set P := \prod_(i < m) _; set h := _ / _ + _; set F := (2 * m)`!%:R; set E := _ ^+ m => IH.
have f0 : m`!%:R != 0 :> C by rewrite n0 // fact_gt0.
have E0 : E != 0 by rewrite expf_neq0 // mulf_neq0 // n0.
have -> : P = F / (E * m`!%:R ^+ 2) * m`!%:R by rewrite -IH mulfVK.
have a0 : m.+1%:R != 0 :> C by rewrite n0.
have b0 : 2%:R != 0 :> C by rewrite n0.
clearbody P h F E; clear IH; rewrite !expr2.
move: (m`!%:R : C) f0 (m.+1%:R : C) a0 (2%:R : C) b0 => x f0 y a0 z b0.
by ffield; rewrite ?mulf_neq0 ?f0 ?a0 ?b0 ?E0.
Qed.
Lemma squeezed_probE (t : C) j : squeezed_prob t j = sqrtC (1 - t ^+ 2) * nbc 1 (t ^+ 2) j.
Proof.
rewrite /squeezed_prob /nbc; case: ifP => [_|ev]; first by rewrite mulr0.
have e : (2 * j./2 = j)%N by lia.
by rewrite nbc_half -exprM e -mulrA.
Qed.

Section Model.
Variables tanh arctanh : C -> C.
Variable nbinom_pmf : nat -> C -> C -> C.
Hypothesis nbP : nbinom_ok nbinom_pmf.
Notation sqd := (squeezed_state_distribution tanh nbinom_pmf).
Definition sqw (t : C) (N n : nat) : C := sqrtC (1 - t ^+ 2) ^+ N * nbc N (t ^+ 2) n.
Definition good (s : C) : Prop := tanh s \is Num.real /\ `|tanh s| < 1.
Lemma good_q s : good s -> 0 < 1 - tanh s ^+ 2 <= 1.
Proof.
move=> [r l]; have e : tanh s ^+ 2 = `|tanh s| ^+ 2 by rewrite real_normK.
by rewrite subr_gt0 e expr_lt1 ?normr_ge0 // l /= ler_subl_addr ler_addl exprn_ge0 ?normr_ge0.
Qed.
Lemma pmfE s N k : (0 < N)%N -> good s -> nbinom_pmf k (2%:R^-1 * N%:R) (1 - tanh s ^+ 2) = sqw (tanh s) N k.*2.
Proof.
move=> N0 g; rewrite nbP //; last exact: good_q.
rewrite /sqw /nbc odd_double doubleK [_^-1 * _]mulrC subKr.
by rewrite [RHS]mulrA; congr (_ * _); exact: mulrC.
Qed.
Lemma sqw_odd t N n : odd n -> sqw t N n = 0.
Proof. by rewrite /sqw /nbc => ->; rewrite mulr0. Qed.
Lemma sqdE s cutoff N : (0 < N)%N -> good s -> sqd s cutoff N = Ok (mkseq (sqw (tanh s) N) cutoff).
Proof.
move=> N0 g; rewrite /squeezed_state_distribution; case: ifP => ev.
  rewrite /assign2 size_mkseq size_nseq minnn ifF; last by apply/eqP; lia.
  congr Ok; apply/eq_in_map => i; rewrite mem_iota add0n => /= hi; rewrite hi /=.
  case: ifP => o; last by rewrite nth_nseq if_same sqw_odd // -[odd i]negbK o.
  by rewrite nth_mkseq ?pmfE //; [congr (sqw _ _ _); lia|lia].
rewrite /assign2 size_takel ?size_mkseq // size_nseq ifF; last by apply/eqP; lia.
rewrite -nth_last size_mkseq nth_mkseq //; cbn [bind]; congr Ok; apply: (@eq_from_nth _ 0) => [|i]; rewrite size_set_nth !size_mkseq ?(maxn_idPr _) //; try lia.
move=> hi; have {}hi : (i < cutoff)%N by lia.
rewrite nth_set_nth /= !nth_mkseq //; case: eqP => [->|ni].
  by rewrite pmfE //; congr (sqw _ _ _); lia.
have -> : (i < cutoff.-1)%N by lia.
case o: (odd i); first by rewrite nth_nseq if_same sqw_odd.
by rewrite /= nth_take ?nth_mkseq ?pmfE //; [congr (sqw _ _ _); lia|lia|lia].
Qed.

Lemma np_convE f g K : (0 < K)%N -> bind (np_convolve (mkseq f K) (mkseq g K)) (fun c => Ok (take K c)) = Ok (mkseq (conv f g) K).
Proof.
move=> K0; rewrite /np_convolve !size_mkseq orbb.
have -> : (K == 0%N) = false by lia.
rewrite /=; congr Ok; apply: (@eq_from_nth _ 0) => [|i]; rewrite size_takel ?size_mkseq //; try lia.
move=> hi; rewrite nth_take // !nth_mkseq //; last by lia.
rewrite big_mkord; apply: eq_bigr => j _; have := ltn_ord j => hj; rewrite !nth_mkseq //; lia.
Qed.
Lemma convolveE (ss : seq C) cutoff pf : (0 < pf * cutoff)%N -> (forall s, s \in ss -> good s) ->
  convolve_squeezed_state_distribution tanh nbinom_pmf ss cutoff pf =
  Ok (mkseq (foldl (@conv C) (@delta C) [seq sqw (tanh s) 1 | s <- ss]) (pf * cutoff)).
Proof.
move=> K0 gs; rewrite /convolve_squeezed_state_distribution; move: (pf * cutoff)%N K0 => K K0.
have -> : (K == 0%N) = false by lia.
have -> : set_nth 0 (nseq K 0) 0 1 = mkseq (@delta C) K.
  apply: (@eq_from_nth _ 0) => [|i]; rewrite size_set_nth size_nseq ?size_mkseq ?(maxn_idPr _) //.
  by move=> hi; rewrite nth_set_nth /= nth_mkseq // nth_nseq if_same /delta; case: eqP.
elim: ss (@delta C) gs => [|s ss IH] f gs //=.
rewrite sqdE //=; last by apply: gs; rewrite inE eqxx.
by rewrite np_convE //= IH // => x hx; apply: gs; rewrite inE hx orbT.
Qed.
Lemma foldl_newton (xs : seq C) t a : newton t a ->
  newton (fun l => t l + \sum_(x <- xs) x ^+ l) (foldl (@conv C) a [seq nbc 1 x | x <- xs]).
Proof.
elim: xs t a => [|x xs IH] t a h /=; first by apply: newton_ext h => l; rewrite big_nil addr0.
apply: newton_ext (IH _ _ (newton_conv h (newton_nbc 1 x))) => l; by rewrite big_cons mul1r addrA.
Qed.
Lemma foldl_scale (ss : seq C) c a n :
  foldl (@conv C) (fun i => c * a i) [seq sqw (tanh s) 1 | s <- ss] n =
  c * (\prod_(s <- ss) sqrtC (1 - tanh s ^+ 2)) * foldl (@conv C) a [seq nbc 1 x | x <- [seq tanh s ^+ 2 | s <- ss]] n.
Proof.
have ext (fs : seq (nat -> C)) : forall a b, (forall i, a i = b i) -> forall m, foldl (@conv C) a fs m = foldl (@conv C) b fs m.
  elim: fs => [|f fs IH] a1 b1 e m //=; apply: IH => i; exact: eq_conv.
elim: ss c a => [|s ss IH] c a /=; first by rewrite big_nil mulr1.
rewrite (ext _ _ (fun i => (c * sqrtC (1 - tanh s ^+ 2)) * conv a (nbc 1 (tanh s ^+ 2)) i)).
  by rewrite IH big_cons !mulrA.
by move=> i; rewrite -conv_scale; apply: eq_conv => j _ //; rewrite /sqw expr1.
Qed.
(** the convolution up to its normalisation obeys Newton's recurrence *)
Lemma convolve_newton (ss : seq C) n (b : nat -> C) : newton (fun l => \sum_(s <- ss) (tanh s ^+ 2) ^+ l) b ->
  foldl (@conv C) (@delta C) [seq sqw (tanh s) 1 | s <- ss] n = \prod_(s <- ss) sqrtC (1 - tanh s ^+ 2) * b n.
Proof.
move=> nb.
have ext (fs : seq (nat -> C)) : forall a b, (forall i, a i = b i) -> forall m, foldl (@conv C) a fs m = foldl (@conv C) b fs m.
  elim: fs => [|f fs IH] a1 b1 e m //=; apply: IH => i; exact: eq_conv.
rewrite (ext _ _ (fun i => 1 * delta C i)) => [|i]; last by rewrite mul1r.
rewrite foldl_scale mul1r; congr (_ * _); apply: newton_uniq nb n.
by apply: newton_ext (foldl_newton _ (@newton_delta C)) => l; rewrite add0r big_map.
Qed.

Lemma sqw_patterns t N n L : patterns N n L -> sqw t N n = \sum_(k <- L) \prod_(j <- k) squeezed_prob t j.
Proof.
move=> pL; rewrite -(psumE _ pL).
transitivity (sqrtC (1 - t ^+ 2) ^+ N * psum N n (fun k => \prod_(p <- zip [seq nbc 1 x | x <- nseq N (t ^+ 2)] k) p.1 p.2)).
  have := psum_convs [seq nbc 1 x | x <- nseq N (t ^+ 2)] n; rewrite size_map size_nseq => ->; congr (_ * _).
  apply: (newton_uniq (newton_nbc N (t ^+ 2))); apply: newton_ext (newton_convs _) => m.
  by rewrite big_nseq; elim: (N) => [|M IH]; rewrite ?mul0r //= IH [M.+1%:R]mulrS mulrDl mul1r.
rewrite -psum_mul; apply: psum_ext => k sk _; rewrite -sk map_nseq zip_nseq.
under [RHS]eq_bigr => j _ do rewrite squeezed_probE.
by rewrite big_split /= big_const_seq count_predT; congr (_ * _); elim: (size k) => [|M IH]; rewrite ?expr0 //= -IH exprS.
Qed.
(** N identical squeezed states *)
Theorem squeezed_state_distribution_correct s cutoff N : (0 < N)%N -> tanh s \is Num.real -> `|tanh s| < 1 ->
  exists ps, [/\ squeezed_state_distribution tanh nbinom_pmf s cutoff N = Ok ps, size ps = cutoff &
    forall n L, (n < cutoff)%N -> patterns N n L -> nth 0 ps n = \sum_(k <- L) \prod_(j <- k) squeezed_prob (tanh s) j].
Proof.
move=> N0 r l; exists (mkseq (sqw (tanh s) N) cutoff); split; [exact: sqdE|exact: size_mkseq|].
by move=> n L hn pL; rewrite nth_mkseq // (sqw_patterns _ pL).
Qed.
(** squeezed states with different squeezing *)
Theorem convolve_correct (ss : seq C) cutoff pf : (0 < cutoff)%N -> (0 < pf)%N ->
  (forall s, s \in ss -> tanh s \is Num.real /\ `|tanh s| < 1) ->
  exists ps, [/\ convolve_squeezed_state_distribution tanh nbinom_pmf ss cutoff pf = Ok ps, size ps = (pf * cutoff)%N &
    forall n L, (n < pf * cutoff)%N -> patterns (size ss) n L ->
      nth 0 ps n = \sum_(k <- L) \prod_(i < size ss) squeezed_prob (tanh (nth 0 ss i)) (nth 0%N k i)].
Proof.
move=> c0 p0 gs; eexists; split; [by apply: convolveE => //; rewrite muln_gt0 p0|exact: size_mkseq|].
move=> n L hn pL; rewrite nth_mkseq // -(psumE _ pL) (convolve_newton n (b := convs [seq nbc 1 x | x <- [seq tanh s ^+ 2 | s <- ss]])); last first.
  by apply: newton_ext (newton_convs _) => l; rewrite big_map.
rewrite -psum_convs !size_map -psum_mul; apply: psum_ext => k sk _.
elim: ss k sk {gs pL} => [|s ss IH] [|j k] //=; first by move=> _; rewrite big_ord0 !big_nil mulr1.
move=> [sk]; by rewrite big_ord_recl /= -IH // !big_cons squeezed_probE; rring.
Qed.
End Model.
End P.
