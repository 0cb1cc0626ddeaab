(** C47: limits of the loss and noise functions (counterexamples), and concrete cases. *)
From mathcomp Require Import all_ssreflect all_algebra zify.
From Verif Require Import Prelude PyBase ArrLoop SpecLoss MLoss PropLoss PropLoss2.
Set Implicit Arguments.
Unset Strict Implicit.
Unset Printing Implicit Defensive.
Import Order.TTheory GRing.Theory Num.Theory.
Local Open Scope ring_scope.

Section Lim.
Variable R : realFieldType.
Notation arr := (seq nat -> R).
(** C47: noise preserves the total probability when the cutoff leaves room for it *)
Theorem update_noise_total n c (noise : seq (seq R)) (P Q : arr) : size noise = n -> (0 < n)%N ->
  (forall i, (i < n)%N -> \sum_(x <- nth [::] noise i) x = 1) ->
  (forall k i, in_shape (nseq n c) k -> P k != 0 -> (i < n)%N -> (nth 0%N k i + size (nth [::] noise i) <= c)%N) ->
  update_probabilities_with_noise noise (nseq n c) P = Ok Q -> sum_idx (nseq n c) Q = sum_idx (nseq n c) P.
Proof.
move=> sz n0 h1 room; have [Q' -> hQ] := update_noise_correct c P sz n0 => -[<-].
rewrite (eq_sum_idx hQ) /noise_spec sum_idx_exch; apply: eq_sum_idx => l hl.
case: (eqVneq (P l) 0) => [->|pl]; first by rewrite -sum_idx_mulr mulr0.
rewrite -sum_idx_mulr (sum_idx_prod (nseq n c) (fun i v => gain (nth [::] noise i) (nth 0%N l i) v)).
rewrite big1 ?mul1r // => i _; have := ltn_ord i; rewrite [X in (_ < X)%N]size_nseq => hi; rewrite nth_nseq hi.
have hr := room l i hl pl hi; rewrite -(h1 i hi) (big_nth 0) big_mkord.
rewrite -(big_mkord xpredT (fun j => gain (nth [::] noise i) (nth 0%N l i) j)).
have a1 : (nth 0%N l i <= c)%N by lia.
rewrite (@big_cat_nat _ _ _ (nth 0%N l i)) //= big_nat big1 ?add0r => [|j /andP[_ hj]]; last by rewrite /gain leqNgt hj.
have a2 : (nth 0%N l i <= nth 0%N l i + size (nth [::] noise i))%N by rewrite leq_addr.
rewrite (@big_cat_nat _ _ _ (nth 0%N l i + size (nth [::] noise i))) //=.
rewrite [X in _ + X](_ : _ = 0) ?addr0; last first.
  by rewrite big_nat big1 // => j /andP[hj _]; rewrite /gain; case: leqP => // hl2; rewrite nth_default // -(leq_add2l (nth 0%N l i)) subnKC.
rewrite -{1}[nth 0%N l i]add0n big_addn addKn big_mkord; apply: eq_bigr => j _.
by rewrite /gain leq_addl addnK.
Qed.
Lemma foldM_cat (body : arr -> nat -> res arr) (l1 l2 : seq nat) (p : arr) : foldM body p (l1 ++ l2) = bind (foldM body p l1) (fun q => foldM body q l2).
Proof. by elim: l1 p => //= a l1 IHl p; case: (body p a). Qed.

Lemma foldM_1 (body : arr -> nat -> res arr) a l p : foldM body p (a :: l) = bind (body p a) (fun q => foldM body q l). Proof. by []. Qed.
Lemma bokE A B (x : A) (k : A -> res B) : bind (Ok x) k = k x. Proof. by []. Qed.
(** With ten modes the subscript letters clash: the last mode is paired with the diagonal of modes 8 and 9 *)
Lemma einsum_clash c (lm : nat -> nat -> R) (P : arr) :
  exists2 f, einsum2 c [:: ch_i; ch_j] (rcons (alphabet 9) ch_i) (rcons (alphabet 9) ch_j) (fun ij => lm (nth 0%N ij 0) (nth 0%N ij 1)) P = Ok f
  & forall idx, f idx = lm (nth 0%N idx 8) (nth 0%N idx 9) * P ([seq nth 0%N idx l | l <- rcons (iota 0 9) 8%N] ++ drop 10 idx).
Proof. by eexists; first reflexivity. Qed.
Lemma loss_body_ok (etas : seq R) c n s (P : arr) : (0 < c)%N -> all (fun e => 0 <= e <= 1) etas -> size etas = n -> (9 < n)%N -> (s <= 9)%N ->
  exists f, foldM (fun probs i =>
      bind (loss_mat (nth 0 etas i) c) (fun lm =>
      if nth 0%N (nseq n c) i != c then Err ValueError else
      einsum2 c [:: ch_i; ch_j] (rcons (alphabet i) ch_i) (rcons (alphabet i) ch_j)
        (fun ij => lm (nth 0%N ij 0) (nth 0%N ij 1)) probs)) P (iota 0 s) = Ok f.
Proof.
move=> c0 ae sz n9; elim: s => [|s IH] hs; first by exists P.
have [f hf] := IH (ltnW hs); rewrite -[s.+1]addn1 iotaD foldM_cat hf /= add0n.
have hsn : (s < n)%N by lia.
have := all_nthP 0 ae s; rewrite sz => /(_ hsn) he.
have [L -> hL] := loss_mat_correct he c0; rewrite /= nth_nseq hsn eqxx /=.
by have [g -> _] := einsum_step c L f hs; exists g.
Qed.
(** C47 is false for ten modes: whatever the input, without any loss (all transmissions 1), every probability
    with different photon numbers in the ninth and tenth mode is set to zero *)
Theorem update_loss_ten_modes_refuted c (P : arr) : (1 < c)%N ->
  exists2 Q, update_probabilities_with_loss (nseq 10 1) (nseq 10 c) P = Ok Q &
  (forall idx, in_shape (nseq 10 c) idx -> nth 0%N idx 8 != nth 0%N idx 9 -> Q idx = 0)
  /\ in_shape (nseq 10 c) (rcons (nseq 9 0%N) 1%N)
  /\ loss_spec (nseq 10 1) (nseq 10 c) (fun=> 1) (rcons (nseq 9 0%N) 1%N) = 1 :> R.
Proof.
move=> c1; have c0 : (0 < c)%N by lia.
have a1 : all (fun e : R => 0 <= e <= 1) (nseq 10 1) by rewrite all_nseq ler01 lexx orbT.
have sz : size (nseq 10 (1 : R)) = 10%N by [].
have [f hf] := loss_body_ok P c0 a1 sz isT (leqnn 9).
have [L hL LE] := @loss_mat_correct R 1 c ltac:(by rewrite ler01 lexx) c0.
have [g hg gE] := einsum_clash c L f.
exists g.
  rewrite /update_probabilities_with_loss (_ : nseq 10 c = c :: nseq 9 c) // (_ : c :: nseq 9 c = nseq 10 c) // -[iota 0 _]/(iota 0 9 ++ [:: 9%N]).
  by rewrite size_nseq sz eqxx; cbv beta iota; rewrite foldM_cat hf bokE foldM_1 -[nth 0 (nseq 10 1) 9]/(1 : R) hL bokE -[nth 0%N (nseq 10 c) 9]/c eqxx; cbv beta iota delta [negb]; rewrite hg.
split; [|split].
- by move=> idx hx ne; have [s h] := in_shapeP _ _ _ hx; rewrite gE LE ?h // binom_loss1 (negbTE ne) mul0r.
- by rewrite /in_shape /= c0 c1.
rewrite loss_specE /axes; pose f1 (i v : nat) : R := binom_loss 1 v (nth 0%N (rcons (nseq 9 0%N) 1%N) i).
have -> : sum_idx (nseq 10 c) (fun k => (\prod_(i < size (nseq 10 c)) binom_loss (nth 0 (nseq 10 1) i) (nth 0%N k i) (nth 0%N (rcons (nseq 9 0%N) 1%N) i)) * 1) =
   sum_idx (nseq 10 c) (fun k => \prod_(i < size (nseq 10 c)) f1 i (nth 0%N k i)).
  by apply: eq_sum_idx => k _; rewrite mulr1; apply: eq_bigr => i _; rewrite nth_nseq ltn_ord.
rewrite sum_idx_prod big1 // => i _; have hi : (i < 10)%N by [].
rewrite nth_nseq hi /f1; pose j := nth 0%N (rcons (nseq 9 0%N) 1%N) i; rewrite -/j.
have hj : (j < c)%N by rewrite /j; move: (nat_of_ord i) => {j hi i} i; rewrite nth_rcons; case: ifP => h; [rewrite nth_nseq; case: ifP|case: ifP].
rewrite (bigD1 (Ordinal hj)) //= binom_loss1 eqxx big1 ?addr0 // => v ne; rewrite binom_loss1.
by rewrite -[j]/(val (Ordinal hj)) val_eqE (negbTE ne).
Qed.
(** with more than ten modes it always raises *)
Theorem update_loss_many_modes_refuted n c (etas : seq R) (P : arr) : (10 < n)%N -> (0 < c)%N -> size etas = n -> all (fun e => 0 <= e <= 1) etas ->
  update_probabilities_with_loss etas (nseq n c) P = Err ValueError.
Proof.
move=> hn c0 sz ae; rewrite /update_probabilities_with_loss size_nseq sz eqxx; cbv beta iota.
case E : (nseq n c) => [|c' s']; first by move: (congr1 size E); rewrite size_nseq /= => e; move: hn; rewrite e.
have ec : c' = c by case: n hn E {sz} => //= n _ [].
have n9 : (9 < n)%N by lia.
have [f hf] := loss_body_ok P c0 ae sz n9 (leqnn 9).
have en : n = (9 + (1 + (1 + (n - 11))))%N by lia.
have h9 := all_nthP 0 ae 9%N; have h10 := all_nthP 0 ae 10%N; rewrite !sz in h9 h10.
have [L9 hL9 _] := loss_mat_correct (h9 n9) c0.
have [L10 hL10 _] := loss_mat_correct (h10 hn) c0.
have [g hg _] := einsum_clash c L9 f.
rewrite -E ec [X in iota 0 X]en !iotaD foldM_cat hf bokE -[iota (0 + 9) 1 ++ _]/(9%N :: 10%N :: iota 11 (n - 11)) foldM_1.
rewrite hL9 bokE nth_nseq n9 eqxx; cbv beta iota delta [negb]; rewrite hg bokE foldM_1 hL10 bokE nth_nseq hn eqxx; cbv beta iota delta [negb].
by rewrite /einsum2.
Qed.
(** with different cutoffs the noise function drops probability even when the noise is trivial *)
Theorem update_noise_cutoffs_refuted : exists2 Q : arr,
  update_probabilities_with_noise [:: [:: 1]; [:: 1]] [:: 1; 2]%N (fun idx => (idx == [:: 0; 1]%N)%:R) = Ok Q &
  Q [:: 0; 1]%N = 0 /\ noise_spec [:: [:: 1]; [:: 1]] [:: 1; 2]%N (fun idx => (idx == [:: 0; 1]%N)%:R) [:: 0; 1]%N = 1 :> R.
Proof.
eexists; first reflexivity; split.
  by rewrite /for_ /= /transpose0 /update_1d /for_ /=.
rewrite /noise_spec /= big_ord1 big_ord_recr big_ord1 /= !(big_ord_recr, big_ord0) /= /gain /=.
by rewrite !(mul1r, mulr1, mul0r, add0r).
Qed.
(** concrete case of the hypotheses: two modes, cutoff 2 *)
Remark loss_case : exists2 Q : arr, update_probabilities_with_loss [:: 2%:R^-1; 1] [:: 2; 2]%N (fun idx => (idx == [:: 1; 1]%N)%:R) = Ok Q &
  Q [:: 0; 1]%N = 2%:R^-1.
Proof.
have a1 : all (fun e : R => 0 <= e <= 1) [:: 2%:R^-1; 1].
  by rewrite /= !ler01 lexx invr_ge0 ler0n /= invf_le1 ?ler1n ?ltr0n.
have [Q hQ QE] := @update_loss_correct R 2 2 [:: 2%:R^-1; 1] (fun idx => (idx == [:: 1; 1]%N)%:R) erefl isT isT a1.
exists Q => //; rewrite QE // /loss_spec /= !(big_ord_recr, big_ord0) /= !(mulr0, addr0, add0r, mulr1).
rewrite /binom_loss /= !(expr0, expr1, mulr1, mul1r, bin0, binn, subnn, subn0).
have t0 : 2%:R != 0 :> R by rewrite pnatr_eq0.
by apply: (mulfI t0); rewrite mulrBr mulr1 divff // (_ : 2%:R = 1 + 1) // addrK.
Qed.
End Lim.
