(** photon_number_sampler draws from the given distribution. *)
From mathcomp Require Import all_ssreflect all_algebra zify.
From Verif Require Import Prelude PyBase PyRand ArrLoop MSamples PropRand.
Set Implicit Arguments.
Unset Strict Implicit.
Unset Printing Implicit Defensive.
Import Order.TTheory GRing.Theory Num.Theory.
Local Open Scope ring_scope.

(** position of the multi-index ns in the flattened array of shape [cutoff] * num_modes *)
Definition flat_pos (cutoff : nat) (ns : seq nat) : nat := foldl (fun a n => a * cutoff + n)%N 0%N ns.

Lemma mkseqSr T (f : nat -> T) n : mkseq f n.+1 = rcons (mkseq f n) (f n).
Proof. by rewrite /mkseq -addn1 iotaD map_cat /= add0n cats1. Qed.
Lemma unravel_flat cutoff ns : all (fun n => n < cutoff)%N ns ->
  unravel_index (flat_pos cutoff ns) cutoff (size ns) = ns /\ (flat_pos cutoff ns < cutoff ^ size ns)%N.
Proof.
elim/last_ind: ns => [//|ns n IH]; rewrite all_rcons => /andP[hn hs]; have [h1 h2] := IH hs.
have c0 : (0 < cutoff)%N by lia.
rewrite /flat_pos foldl_rcons -/(flat_pos cutoff ns) size_rcons; set a := flat_pos cutoff ns in h1 h2 *.
split; last by rewrite expnS; have := leq_mul h2 (leqnn cutoff); rewrite mulSn [(cutoff * _)%N]mulnC; lia.
rewrite /unravel_index mkseqSr subn1 /= subnn expn0 divn1 modnMDl modn_small //; congr rcons.
rewrite -[RHS]h1 /unravel_index; apply/eq_in_map => k; rewrite mem_iota => hk.
have -> : (size ns - k = (size ns - 1 - k).+1)%N by lia.
by rewrite expnS divnMA divnMDl // (divn_small hn) addn0.
Qed.
Lemma flat_unravel cutoff m i : (i < cutoff ^ m)%N ->
  [/\ flat_pos cutoff (unravel_index i cutoff m) = i, all (fun n => n < cutoff)%N (unravel_index i cutoff m) & size (unravel_index i cutoff m) = m].
Proof.
elim: m i => [|m IH] i hi; first by split=> //; rewrite /flat_pos /=; lia.
have c0 : (0 < cutoff)%N by case: (cutoff) hi => //; rewrite exp0n.
have hi' : (i %/ cutoff < cutoff ^ m)%N by rewrite ltn_divLR // mulnC -expnS.
have [h1 h2 h3] := IH _ hi'.
have -> : unravel_index i cutoff m.+1 = rcons (unravel_index (i %/ cutoff) cutoff m) (i %% cutoff)%N.
  rewrite /unravel_index mkseqSr subn1 /= subnn expn0 divn1; congr rcons.
  apply/eq_in_map => k; rewrite mem_iota => hk.
  have -> : (m - k = (m - 1 - k).+1)%N by lia.
  by rewrite expnS divnMA.
by rewrite /flat_pos foldl_rcons -/(flat_pos cutoff _) h1 all_rcons h2 size_rcons h3 ltn_mod c0 -divn_eq.
Qed.

Section Law.
Variables (K : numFieldType) (T : eqType).
Variables (cutoff : nat) (rest : seq nat) (flat : seq K).
Let shape := cutoff :: rest.
Let num_modes := size shape.
Hypothesis sizeF : size flat = (cutoff ^ num_modes)%N.
Hypothesis posF : forall x, x \in flat -> 0 <= x.
Let total := \sum_(x <- flat) x.
Let valid ns := (size ns == num_modes) && all (fun n => n < cutoff)%N ns.

Lemma valid_pos ns i : (i < cutoff ^ num_modes)%N -> (unravel_index i cutoff num_modes == ns) = valid ns && (i == flat_pos cutoff ns).
Proof.
move=> hi; have [h1 h2 h3] := flat_unravel hi.
apply/eqP/andP => [<-|[/andP[/eqP s1 s2] /eqP ->]]; first by rewrite /valid h3 h2 eqxx h1 eqxx.
by rewrite -s1; case: (unravel_flat s2).
Qed.

(** C35: photon_number_sampler(probabilities, num_samples) returns num_samples independent multi-indices, the multi-index ns with
    probability probabilities[ns] / sum(probabilities). *)
Theorem photon_number_sampler_law num_samples (ys : seq (seq nat + T)) : total != 0 ->
  law (photon_number_sampler shape flat num_samples None) ys
  = if size ys == num_samples then
      \prod_(y <- ys) (if y is inl ns then (if valid ns then nth 0 flat (flat_pos cutoff ns) / total else 0) else 0)
    else 0.
Proof.
move=> t0; have gt0 : 0 < total by rewrite lt0r t0 /total big_seq; apply: sumr_ge0 => x /posF.
rewrite /photon_number_sampler -/shape -/num_modes -/total law_pmap size_iota; case: eqP => // sy.
have one (y : seq nat + T) : law (pbind (np_choice (cutoff ^ num_modes) [seq x / total | x <- flat]) (fun i => Ret (inl (unravel_index i cutoff num_modes)))) y
  = if y is inl ns then (if valid ns then nth 0 flat (flat_pos cutoff ns) / total else 0) else 0.
  rewrite law_bind_ret ex_choice size_map sizeF eqxx andTb.
  have -> : all (fun x => 0 <= x) [seq x / total | x <- flat].
    by apply/allP => _ /mapP[x hx ->]; apply: divr_ge0; [exact: posF|exact: ltW].
  rewrite big_map -mulr_suml -/total divff // eqxx /=.
  case: y => [ns|t]; last by rewrite big1 // => i _; rewrite mulr0.
  rewrite big_seq (eq_bigr (fun i => if valid ns && (i == flat_pos cutoff ns) then nth 0 flat i / total else 0)) => [|i]; last first.
    rewrite mem_iota leq0n add0n andTb => hi; rewrite -(valid_pos _ hi) (nth_map 0) ?sizeF //.
    rewrite (_ : (inl _ == inl _) = (unravel_index i cutoff num_modes == ns)) //; by case: eqP; rewrite ?mulr1 ?mulr0.
  rewrite -big_seq; case: ifP => [v|_] /=; last by rewrite big1.
  case/andP: v => /eqP s1 s2; have [_ lt] := unravel_flat s2; rewrite s1 in lt.
  by rewrite (bigD1_seq (flat_pos cutoff ns)) ?mem_iota ?iota_uniq //= eqxx big1 ?addr0 // => i /negPf ->.
elim: ys num_samples 0%N sy => [|y ys IH] [|k] s //=; first by rewrite !big_nil.
case=> e.
by rewrite !big_cons one IH.
Qed.

(** With a placeholder for the events outside the array: ns with probability probabilities[ns], the placeholder with the missing
    probability 1 - sum(probabilities). *)
Theorem photon_number_sampler_oob_law num_samples (oob : T) (ys : seq (seq nat + T)) : total <= 1 ->
  law (photon_number_sampler shape flat num_samples (Some oob)) ys
  = if size ys == num_samples then
      \prod_(y <- ys) (match y with inl ns => if valid ns then nth 0 flat (flat_pos cutoff ns) else 0 | inr t => if t == oob then 1 - total else 0 end)
    else 0.
Proof.
move=> t1; rewrite /photon_number_sampler -/shape -/num_modes -/total law_pmap size_iota; case: eqP => // sy.
have one (y : seq nat + T) : law (pbind (np_choice (1 + cutoff ^ num_modes) (rcons flat (1 - total))) (fun i => Ret (if i == (cutoff ^ num_modes)%N then inr oob else inl (unravel_index i cutoff num_modes)))) y
  = match y with inl ns => if valid ns then nth 0 flat (flat_pos cutoff ns) else 0 | inr t => if t == oob then 1 - total else 0 end.
  rewrite law_bind_ret ex_choice size_rcons sizeF add1n eqxx andTb.
  have -> : all (fun x => 0 <= x) (rcons flat (1 - total)).
    by rewrite all_rcons subr_ge0 t1; apply/allP.
  have -> : \sum_(x <- rcons flat (1 - total)) x = 1 by rewrite -cats1 big_cat big_seq1 /= -/total addrC subrK.
  rewrite eqxx -[X in iota 0 X]addn1 iotaD big_cat big_seq1 /= add0n eqxx nth_rcons sizeF ltnn eqxx.
  case: y => [ns|t].
    rewrite (_ : (inr oob == inl ns) = false) // mulr0 addr0.
    rewrite big_seq (eq_bigr (fun i => if valid ns && (i == flat_pos cutoff ns) then nth 0 flat i else 0)) => [|i]; last first.
      rewrite mem_iota leq0n add0n andTb => hi; rewrite -(valid_pos _ hi) nth_rcons sizeF.
      have -> : (i == (cutoff ^ num_modes)%N) = false by apply/negbTE; rewrite neq_ltn hi.
      rewrite hi (_ : (inl _ == inl _) = (unravel_index i cutoff num_modes == ns)) //; by case: eqP; rewrite ?mulr1 ?mulr0.
    rewrite -big_seq; case: ifP => [v|_] /=; last by rewrite big1.
    case/andP: v => /eqP s1 s2; have [_ lt] := unravel_flat s2; rewrite s1 in lt.
    by rewrite (bigD1_seq (flat_pos cutoff ns)) ?mem_iota ?iota_uniq //= eqxx big1 ?addr0 // => i /negPf ->.
  rewrite big_seq big1 ?add0r => [|i]; last first.
    rewrite mem_iota leq0n add0n andTb => hi; have -> : (i == (cutoff ^ num_modes)%N) = false by apply/negbTE; rewrite neq_ltn hi.
    by rewrite mulr0.
  rewrite (_ : (inr oob == inr t) = (oob == t)) // eq_sym; by case: eqP; rewrite ?mulr1 ?mulr0.
set G := (fun y : seq nat + T => match y with inl ns => if valid ns then nth 0 flat (flat_pos cutoff ns) else 0 | inr t => if t == oob then 1 - total else 0 end).
rewrite (eq_bigr (fun a : nat * (seq nat + T) => G a.2)) => [|a _]; last exact: one.
by rewrite -(big_map snd predT G) -/(unzip2 _) unzip2_zip // size_iota sy.
Qed.
End Law.

(** a 2-mode example with cutoff 2: probabilities 1/2, 1/4, 0, 1/8; the samples (0,1), placeholder and (1,1) in this order *)
Example photon_number_sampler_ex :
  law (photon_number_sampler [:: 2; 2]%N [:: 1/2%:R; 1/4%:R; 0; 1/8%:R : rat] 3 (Some tt)) [:: inl [:: 0; 1]%N; inr tt; inl [:: 1; 1]%N]
  = 1 / 256%:R.
Proof.
rewrite photon_number_sampler_oob_law //.
- by rewrite eqxx !big_cons !big_nil.
- by move=> x; rewrite !inE => /or4P[] /eqP ->.
by rewrite !big_cons big_nil.
Qed.
