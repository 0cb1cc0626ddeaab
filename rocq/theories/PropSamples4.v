(** hafnian_sample_graph_rank_one draws from the photon-number distribution of the Gaussian state of a rank-one graph. *)
From mathcomp Require Import all_ssreflect all_algebra zify.
From Verif Require Import Prelude PyBase PyRand ArrLoop SpecHaf ThHaf MLowRank MSamples PropRand PropPowerHaf PropHermite PropLowRank.
Set Implicit Arguments.
Unset Strict Implicit.
Unset Printing Implicit Defensive.
Import Order.TTheory GRing.Theory Num.Theory.
Local Open Scope ring_scope.

Section RankOne.
Variable C : numClosedFieldType.
Variables (len : nat) (G : nat -> C).
Let S : C := \sum_(i < len) `|G i| ^+ 2.
Let p (i : nat) : C := `|G i| ^+ 2 / S.
Let S0 : 0 <= S. Proof. by apply: sumr_ge0 => i _; rewrite exprn_ge0 ?normr_ge0. Qed.

Lemma ex_detector (g : nat -> C) :
  ex (np_choice len [seq x / \sum_(y <- [seq `|G i| ^+ 2 | i <- iota 0 len]) y | x <- [seq `|G i| ^+ 2 | i <- iota 0 len]]) g
  = \sum_(i < len) p i * g i.
Proof.
have sE : \sum_(y <- [seq `|G i| ^+ 2 | i <- iota 0 len]) y = S by rewrite big_map -val_enum_ord big_map big_enum.
have lE : [seq x / \sum_(y <- [seq `|G i| ^+ 2 | i <- iota 0 len]) y | x <- [seq `|G i| ^+ 2 | i <- iota 0 len]] = mkseq p len.
  by rewrite sE /mkseq -map_comp.
rewrite lE ex_choice size_mkseq eqxx andTb.
have -> : all (fun x => 0 <= x) (mkseq p len).
  by apply/allP => _ /mapP[k _ ->]; rewrite divr_ge0 ?exprn_ge0 ?normr_ge0.
have -> : \sum_(x <- mkseq p len) x = S / S by rewrite big_map -val_enum_ord big_map big_enum /= /p -mulr_suml.
have body : \sum_(i <- iota 0 len) nth 0 (mkseq p len) i * g i = \sum_(i < len) p i * g i.
  by rewrite -val_enum_ord big_map big_enum; apply: eq_bigr => k _; rewrite nth_mkseq ?ltn_ord.
case: (S =P 0) => [e|/eqP e]; last by rewrite divff // eqxx body.
by rewrite e mul0r eq_sym oner_eq0 /= big1 // => k _; rewrite /p e invr0 mulr0 mul0r.
Qed.

Let step (sample : nat -> nat) (_ : nat) :=
  pbind (np_choice len [seq x / \sum_(y <- [seq `|G i| ^+ 2 | i <- iota 0 len]) y | x <- [seq `|G i| ^+ 2 | i <- iota 0 len]])
    (fun detector => Ret (upd1 sample detector (sample detector + 1)%N)).

Lemma multinomial_law (n : seq nat) N s d : size n = len ->
  ex (pfold step d (iota s N)) (fun st => (mkseq st len == n)%:R)
  = if [forall i : 'I_len, d i <= nth 0%N n i]%N && ((\sum_(i < len) (nth 0%N n i - d i))%N == N)
    then (N`!)%:R * \prod_(i < len) (p i ^+ (nth 0%N n i - d i) / ((nth 0%N n i - d i)`!)%:R) else 0.
Proof.
move=> sn; elim: N s d => [|N IH] s d.
  rewrite -[iota s 0]/[::] -[pfold _ _ _]/(Ret d) -[ex _ _]/((mkseq d len == n)%:R).
  case: eqP => [e|ne].
    have nE (i : 'I_len) : nth 0%N n i = d i by rewrite -e nth_mkseq.
    rewrite (_ : [forall _, _]) /=; last by apply/forallP => i; rewrite nE.
    rewrite big1 ?eqxx => [|i _]; last by rewrite nE subnn.
    by rewrite big1 ?mulr1 // => i _; rewrite nE subnn expr0 divr1.
  case: ifP => // /andP[/forallP h1]; rewrite sum_nat_eq0 => /forallP h2; case: ne.
  apply: (@eq_from_nth _ 0%N); rewrite ?size_mkseq ?sn // => i hi; rewrite nth_mkseq //.
  have := h1 (Ordinal hi); have := h2 (Ordinal hi); rewrite /=; lia.
rewrite -[iota s N.+1]/(s :: iota s.+1 N) -[pfold _ _ _]/(pbind (step d s) (fun s' => pfold step s' (iota s.+1 N))).
rewrite ex_bind /step ex_bind ex_detector.
have -> : (if [forall i : 'I_len, d i <= nth 0%N n i]%N && ((\sum_(i < len) (nth 0%N n i - d i))%N == N.+1)
    then (N.+1`!)%:R * \prod_(i < len) (p i ^+ (nth 0%N n i - d i) / ((nth 0%N n i - d i)`!)%:R) else 0)
    = \sum_(j < len) (N`!)%:R * (nth 0%N n j - d j)%:R * 
       (if [forall i : 'I_len, d i <= nth 0%N n i]%N && ((\sum_(i < len) (nth 0%N n i - d i))%N == N.+1) then \prod_(i < len) (p i ^+ (nth 0%N n i - d i) / ((nth 0%N n i - d i)`!)%:R) else 0).
  case: ifP => [/andP[_ /eqP e]|_]; last by rewrite big1 // => j _; rewrite mulr0.
  by rewrite -mulr_suml -mulr_sumr -natr_sum e factS natrM [X in X * _ = _]mulrC.
apply: eq_bigr => j _; rewrite -[ex (Ret _) _]/(ex (pfold step _ (iota s.+1 N)) _) IH.
have uj (i : 'I_len) : upd1 d j (d j + 1)%N i = if i == j then (d j).+1 else d i.
  by rewrite /upd1 (inj_eq val_inj) addn1.
case: (posnP (nth 0%N n j - d j)) => [z|r0].
  rewrite z mulr0 mul0r (_ : [forall i, _] = false) ?mulr0 //; apply/negbTE/forallPn; exists j.
  by rewrite uj eqxx; lia.
have -> : [forall i : 'I_len, upd1 d j (d j + 1)%N i <= nth 0%N n i]%N = [forall i : 'I_len, d i <= nth 0%N n i]%N.
  apply: eq_forallb => i; rewrite uj; case: eqP => [->|//]; lia.
have e i : (i != j) -> (nth 0%N n i - upd1 d j (d j + 1) i = nth 0%N n i - d i)%N by move=> ne; rewrite uj (negbTE ne).
have ej : (nth 0%N n j - upd1 d j (d j + 1) j = (nth 0%N n j - d j).-1)%N by rewrite uj eqxx; lia.
rewrite (bigD1 j) //= ej (eq_bigr (fun i : 'I_len => (nth 0%N n i - d i)%N)) => [|i ne]; last exact: e.
rewrite [in RHS](bigD1 j) //=.
have -> : ((nth 0%N n j - d j).-1 + \sum_(i < len | i != j) (nth 0%N n i - d i) == N)%N = ((nth 0%N n j - d j) + \sum_(i < len | i != j) (nth 0%N n i - d i) == N.+1)%N by lia.
case: ifP => _; last by rewrite !mulr0.
rewrite (bigD1 j) //= ej [in RHS](bigD1 j) //= [X in _ * (_ * (_ * X))](eq_bigr (fun i : 'I_len => p i ^+ (nth 0%N n i - d i) / ((nth 0%N n i - d i)`!)%:R)) => [|i ne]; last by rewrite e.
move: r0; set r := (nth 0%N n j - d j)%N; case: (r) => // m _; rewrite /= factS natrM exprS.
have m0 : m.+1%:R != 0 :> C by rewrite pnatr_eq0.
have f0 : (m`!)%:R != 0 :> C by rewrite pnatr_eq0 -lt0n fact_gt0.
by ffield; rewrite ?mulf_neq0.
Qed.

(** C57: given the number 2 * half of photons, hafnian_sample_graph_rank_one distributes them independently over the modes with
    probabilities |G_i|^2 / sum |G|^2: the multinomial distribution *)
Theorem rank_one_multinomial (half : nat) (n : seq nat) :
  law (hafnian_sample_graph_rank_one len G half) n
  = if (size n == len) && (sumn n == 2 * half)%N
    then ((2 * half)`!)%:R * \prod_(i < len) ((`|G i| ^+ 2 / S) ^+ nth 0%N n i / ((nth 0%N n i)`!)%:R) else 0.
Proof.
rewrite lawE /hafnian_sample_graph_rank_one ex_bind.
case: (size n =P len) => [sn|ne]; last first.
  apply: ex0 => d; rewrite -[ex _ _]/((mkseq d len == n)%:R); case: eqP => // e; case: ne; by rewrite -e size_mkseq.
rewrite -[ex _ _]/(ex (pfold step (fun=> 0%N) (iota 0 (2 * half))) (fun st => (mkseq st len == n)%:R)) multinomial_law //.
have -> : [forall i : 'I_len, 0 <= nth 0 n i]%N by apply/forallP.
have -> : (\sum_(i < len) (nth 0 n i - 0))%N = sumn n.
  by rewrite sumnE (big_nth 0%N) sn big_mkord; apply: eq_bigr => i _; rewrite subn0.
by rewrite !andTb; case: ifP => // _; congr (_ * _); apply: eq_bigr => i _; rewrite subn0.
Qed.

(** probability that np.random.negative_binomial(0.5, q) returns k: Gamma(k + 1/2) / (k! Gamma(1/2)) q^(1/2) (1 - q)^k *)
Definition nbinom_half (q : C) (k : nat) : C := (\prod_(i < k) (2%:R^-1 + i%:R)) / (k`!)%:R * sqrtC q * (1 - q) ^+ k.

(** hafnian of a rank-one matrix *)
Lemma haf_rank_one (g : nat -> C) s : lhq (fun a b => g a * g b) (fun=> 0) s = dm C (size s) * \prod_(z <- s) g z.
Proof.
move e: (size s) => m; elim/ltn_ind: m s e => -[|m] IH [|x s] //= e.
  by rewrite lhq_nil big_nil /dm /= /factorial2_odd big_ord0 mulr1.
case: e => e; rewrite lhq_cons mul0r add0r dmS big_cons -[in RHS]e.
transitivity (\sum_(z <- s) dm C (size s).-1 * (g x * \prod_(z <- s) g z)).
  rewrite big_seq [RHS]big_seq; apply: eq_bigr => z zs.
  rewrite (IH (size s).-1) ?size_rem //; last by rewrite -e; case: (s) zs.
  have -> : \prod_(y <- s) g y = g z * \prod_(y <- rem z s) g y by rewrite (perm_big _ (perm_to_rem zs)) big_cons.
  by rring.
by rewrite big_const_seq count_predT iter_addr_0 -mulr_natl mulrA.
Qed.

Lemma nb_dm k : (\prod_(i < k) (2%:R^-1 + i%:R)) / (k`!)%:R * ((2 * k)`!)%:R = dm C (2 * k) ^+ 2.
Proof.
elim: k => [|k IH]; first by rewrite big_ord0 muln0 fact0 /dm /= /factorial2_odd big_ord0 divr1 !mulr1 expr1n.
have -> : (2 * k.+1 = (2 * k).+2)%N by lia.
rewrite dmS exprMn -[(2 * k).+1.-1]/(2 * k)%N -IH big_ord_recr /= !factS !natrM.
have f0 : (k`!)%:R != 0 :> C by rewrite pnatr_eq0 -lt0n fact_gt0.
have k0 : k.+1%:R != 0 :> C by rewrite pnatr_eq0.
have t0 : 2%:R != 0 :> C by rewrite pnatr_eq0.
have -> : (2 * k).+2%:R = 2%:R * k.+1%:R :> C by rewrite -natrM; congr _%:R; lia.
have -> : (2 * k).+1%:R = 2%:R * (2%:R^-1 + k%:R) :> C by rewrite mulrDr mulfV // -natrM -(natrD _ 1) .
by ffield; rewrite ?mulf_neq0.
Qed.

(** C57: the number of photons and the modes together: hafnian_sample_graph_rank_one(G, n_mean) returns n with the probability
    |haf(A_n)|^2 / (n! sqrt(det Q)) of the pure Gaussian state with A = c G G^T, where |c| sum |G|^2 = tanh(s), sqrt(det Q) =
    1 / sqrt(1 - tanh(s)^2), and s = arcsinh(sqrt(n_mean)): th is tanh(s) and q = 1 - th^2 the parameter computed by the code. *)
Theorem rank_one_law (c th : C) (half : nat) (n : seq nat) : S != 0 -> `|c| * S = th -> size n = len -> sumn n = (2 * half)%N ->
  nbinom_half (1 - th ^+ 2) half * law (hafnian_sample_graph_rank_one len G half) n
  = sqrtC (1 - th ^+ 2) * `|haf_rep_spec n (fun i j => c * G i * G j)| ^+ 2 / (\prod_(i < len) (nth 0%N n i)`!)%:R.
Proof.
move=> s0 cS sn hn; rewrite rank_one_multinomial sn eqxx hn eqxx /= /nbinom_half (_ : 1 - (1 - th ^+ 2) = th ^+ 2); last by rewrite opprB addrC subrK.
pose g i := sqrtC c * G i.
have -> : haf_rep_spec n (fun i j => c * G i * G j) = dm C (2 * half) * \prod_(i < len) g i ^+ nth 0%N n i.
  have -> : haf_rep_spec n (fun i j => c * G i * G j) = lhaf_rep_spec n (fun i j => g i * g j) (fun=> 0).
    rewrite /haf_rep_spec /lhaf_rep_spec haf_spec_lhaf; apply: eq_lhaf_spec => // i j _ _.
    by rewrite /g mulrACA -expr2 sqrtCK mulrA.
  rewrite lhaf_rep_spec_lhq_any haf_rank_one size_rep_index hn; congr (_ * _).
  rewrite /rep_index big_flatten big_map sn -val_enum_ord big_map big_enum; apply: eq_bigr => i _.
  by rewrite big_nseq iter_mulr_1.
have hs : (\sum_(i < len) nth 0 n i = 2 * half)%N by rewrite -hn sumnE (big_nth 0%N) sn big_mkord.
have prodS (x : C) : \prod_(i < len) x ^+ nth 0%N n i = x ^+ (2 * half) by rewrite -hs -expr_sum.
have -> : \prod_(i < len) ((`|G i| ^+ 2 / S) ^+ nth 0%N n i / ((nth 0%N n i)`!)%:R)
  = (\prod_(i < len) (`|G i| ^+ 2) ^+ nth 0%N n i) / S ^+ (2 * half) / (\prod_(i < len) (nth 0%N n i)`!)%:R.
  rewrite natr_prod -(prodS S) -!prodf_div; apply: eq_bigr => i _; by rewrite expr_div_n.
have -> : `|dm C (2 * half) * \prod_(i < len) g i ^+ nth 0%N n i| ^+ 2
  = dm C (2 * half) ^+ 2 * (`|c| ^+ (2 * half) * \prod_(i < len) (`|G i| ^+ 2) ^+ nth 0%N n i).
  rewrite normrM exprMn; congr (_ * _).
    by rewrite /dm; case: ifP => _; rewrite ?normr0 // normr_nat.
  rewrite normr_prod -prodrXl -(prodS `|c|) -big_split; apply: eq_bigr => i _ /=.
  have gE : `|g i| ^+ 2 = `|c| * `|G i| ^+ 2 by rewrite /g normrM exprMn -normrX sqrtCK.
  have e2 : `|g i ^+ nth 0%N n i| ^+ 2 = (`|g i| ^+ 2) ^+ nth 0%N n i by rewrite normrX -!exprM mulnC.
  by rewrite e2 gE exprMn.
rewrite -nb_dm -(exprM th) -cS (exprMn (2 * half)).
have S2 : S ^+ (2 * half) != 0 by rewrite expf_neq0.
have h0 : (half`!)%:R != 0 :> C by rewrite pnatr_eq0 -lt0n fact_gt0.
have n0 : (\prod_(i < len) (nth 0%N n i)`!)%:R != 0 :> C.
  by rewrite pnatr_eq0 -lt0n prodn_gt0 // => i; rewrite fact_gt0.
move: S2 n0; set s2 := S ^+ _; set nn := (\prod_(i < len) _)%:R => S2 n0; set sq := sqrtC _.
by ffield; rewrite ?mulf_neq0.
Qed.
End RankOne.
