(** Closed forms of the Fock tensors of the gates: Laguerre sums for displacements, permanents for interferometers. *)
From mathcomp Require Import all_ssreflect all_algebra zify.
From Verif Require Import Prelude PyBase ArrLoop SpecHaf ThHaf ThPerm2 MHermite PropPowerHaf PropHermite SpecGateFock MGateFock ThGrad PropGateFock PropGateFock2 PropGateGrad PropGateGrad2.
Set Implicit Arguments.
Unset Strict Implicit.
Unset Printing Implicit Defensive.
Import Order.Theory GRing.Theory Num.Theory.
Local Open Scope ring_scope.

Section Laguerre.
Variable R : comRingType.
Variables (a b : R).
Definition lag (m n : nat) : R := \sum_(k < m.+1) (k`! * 'C(m, k) * 'C(n, k))%:R * a ^+ (m - k) * b ^+ (n - k).
Lemma lag0 m : lag m 0 = a ^+ m.
Proof.
rewrite /lag big_ord_recl big1 ?addr0 => [|i _]; first by rewrite fact0 !bin0 !mul1n subn0 expr0 mulr1 mul1r.
by rewrite bin0n /= !muln0 !mul0r.
Qed.
Lemma lagS m n : lag m n.+1 = b * lag m n + m%:R * lag m.-1 n.
Proof.
have e1 k : (k`! * 'C(m, k) * 'C(n, k))%:R * a ^+ (m - k) * b ^+ (n.+1 - k) = b * ((k`! * 'C(m, k) * 'C(n, k))%:R * a ^+ (m - k) * b ^+ (n - k)) :> R.
  have [h|h] := leqP k n; last by rewrite (bin_small h) !muln0 !mul0r mulr0.
  by rewrite subSn // exprS; rring.
transitivity (\sum_(k < m.+1) b * ((k`! * 'C(m, k) * 'C(n, k))%:R * a ^+ (m - k) * b ^+ (n - k))
  + \sum_(k < m) (k.+1`! * 'C(m, k.+1) * 'C(n, k))%:R * a ^+ (m - k.+1) * b ^+ (n - k)).
  rewrite /lag !big_ord_recl /= !bin0 !subn0 -addrA; congr (_ + _); first by rewrite exprS; rring.
  rewrite -big_split; apply: eq_bigr => k _ /=; rewrite /bump /= add1n.
  by rewrite binS mulnDr natrD !mulrDl -e1 subSS.
rewrite -mulr_sumr; congr (_ + _).
case: m {e1} => [|m]; first by rewrite big_ord0 mul0r.
rewrite mulr_sumr; apply: eq_bigr => k _; rewrite subSS /= !mulrA -natrM; congr (_%:R * _ * _).
have e := mul_bin_diag m.+1 k; rewrite /= in e.
have e2 := congr1 (fun x => k`! * 'C(n, k) * x)%N e.
by rewrite factS; move: e2; rewrite /=; move: ('C(m.+1, k.+1)) ('C(m, k)) ('C(n, k)) (k`!) => u v w x; lia.
Qed.
End Laguerre.

Theorem disp_gate_laguerre (R : comRingType) (c al alc : R) m n :
  disp_gate c al alc [:: m; n] = c * \sum_(k < m.+1) (k`! * 'C(m, k) * 'C(n, k))%:R * al ^+ (m - k) * (- alc) ^+ (n - k).
Proof.
rewrite -/(lag al (- alc) m n) /disp_gate; congr (_ * _).
have symA : forall x y : nat, (x != y)%:R = (y != x)%:R :> R by move=> x y; rewrite eq_sym.
pose mu i := if i == 0%N then al else - alc.
elim: n m => [|n IH] m.
  rewrite lag0; elim: m => [|m IHm]; first by rewrite H_nil2.
  rewrite (@H_pivot R _ mu symA [:: m.+1; 0]%N 0) // !big_ord_recl big_ord0 /dec /= subn1 /= IHm exprS.
  by rring.
rewrite (@H_pivot R _ mu symA [:: m; n.+1]%N 1) // !big_ord_recl big_ord0 /dec /= !subn1 /= !IH lagS.
by rewrite mul1r mul0r mulr0 !addr0.
Qed.

Theorem passive_gate_perm (R : comRingType) (U00 U01 U10 U11 : R) m n p q :
  let U i j := if i == 0%N then (if j == 0%N then U00 else U01) else (if j == 0%N then U10 else U11) in
  passive_gate U00 U01 U10 U11 [:: m; n; p; q]
  = if (m + n == p + q)%N then perm_spec (m + n) (fun i j => U (nth 0%N (rep_index [:: m; n]) i) (nth 0%N (rep_index [:: p; q]) j)) else 0.
Proof.
move=> U; have := @haf_bip_perm R 2 U [:: m; n] [:: p; q] erefl erefl; rewrite /= !addn0 => <-.
rewrite haf_rep_lhaf /passive_gate; apply: lhaf_rep_spec_ext => // i j hi hj.
by case: i hi => [|[|[|[|i]]]] //= _; case: j hj => [|[|[|[|j]]]] //= _; rewrite /symm /bip /U /= ?oppr0 ?opprK.
Qed.

Section Final.
Variable C : numClosedFieldType.
Variables (exp cosh tanh cos sin : C -> C).
(** displacement: <m|D(alpha)|n> = exp(-r^2/2) sum_k k! C(m,k) C(n,k) alpha^(m-k) (- conj alpha)^(n-k) / sqrt(m! n!) *)
Theorem displacement_laguerre (r phi : C) (cutoff m n : nat) : (m < cutoff)%N -> (n < cutoff)%N ->
  displacement exp r phi cutoff [:: m; n]
  = exp (- 2%:R^-1 * r ^+ 2) * (\sum_(k < m.+1) (k`! * 'C(m, k) * 'C(n, k))%:R * (r * exp ('i * phi)) ^+ (m - k) * (- (r * exp (- 'i * phi))) ^+ (n - k))
    / (sqrtC (m`!)%:R * sqrtC (n`!)%:R).
Proof. by move=> hm hn; rewrite displacement_correct // disp_gate_laguerre /snorm !big_cons big_nil mulr1. Qed.
(** beamsplitter: permanents of [[cos, - e^(-i phi) sin], [e^(i phi) sin, cos]] with repeated rows and columns *)
Theorem beamsplitter_permanent (theta phi : C) (cutoff m n p q : nat) :
  (sin theta * exp ('i * phi))^* = sin theta * exp (- 'i * phi) ->
  (m < cutoff)%N -> (n < cutoff)%N -> (p < cutoff)%N -> (q < cutoff)%N ->
  let U i j := if i == 0%N then (if j == 0%N then cos theta else - (sin theta * exp (- 'i * phi)))
               else (if j == 0%N then sin theta * exp ('i * phi) else cos theta) in
  beamsplitter exp cos sin theta phi cutoff [:: m; n; p; q]
  = (if (m + n == p + q)%N then perm_spec (m + n) (fun i j => U (nth 0%N (rep_index [:: m; n]) i) (nth 0%N (rep_index [:: p; q]) j)) else 0)
    / snorm C [:: m; n; p; q].
Proof. by move=> hc hm hn hp hq U; rewrite beamsplitter_correct // /bs_gate passive_gate_perm. Qed.
Theorem mzgate_permanent (theta phi : C) (cutoff m n p q : nat) :
  (m < cutoff)%N -> (n < cutoff)%N -> (p < cutoff)%N -> (q < cutoff)%N ->
  let u := exp ('i * phi) in let v := exp ('i * theta) in
  let U i j := if i == 0%N then (if j == 0%N then 2%:R^-1 * (u * (v - 1)) else 2%:R^-1 * ('i * (1 + v)))
               else (if j == 0%N then 2%:R^-1 * ('i * u * (1 + v)) else 2%:R^-1 * (1 - v)) in
  mzgate exp theta phi cutoff [:: m; n; p; q]
  = (if (m + n == p + q)%N then perm_spec (m + n) (fun i j => U (nth 0%N (rep_index [:: m; n]) i) (nth 0%N (rep_index [:: p; q]) j)) else 0)
    / snorm C [:: m; n; p; q].
Proof. by move=> hm hn hp hq u v U; rewrite mzgate_correct // /mz_gate passive_gate_perm. Qed.
(** conservation laws of the arrays returned by the code *)
Theorem squeezing_parity (r theta : C) (cutoff m n : nat) :
  (exp ('i * theta) * tanh r)^* = exp (- 'i * theta) * tanh r -> (m < cutoff)%N -> (n < cutoff)%N ->
  odd (m + n) -> squeezing exp cosh tanh r theta cutoff [:: m; n] = 0.
Proof. by move=> hc hm hn ho; rewrite squeezing_correct // sq_parity. Qed.
Theorem two_mode_squeezing_conserves (r theta : C) (cutoff m n p q : nat) :
  (exp (- 'i * theta) * tanh r)^* = exp ('i * theta) * tanh r ->
  (m < cutoff)%N -> (n < cutoff)%N -> (p < cutoff)%N -> (q < cutoff)%N ->
  (m + q != n + p)%N -> two_mode_squeezing exp cosh tanh r theta cutoff [:: m; n; p; q] = 0.
Proof. by move=> hc hm hn hp hq h; rewrite two_mode_squeezing_correct // tms_conserve ?mul0r. Qed.
Theorem beamsplitter_conserves (theta phi : C) (cutoff m n p q : nat) :
  (sin theta * exp ('i * phi))^* = sin theta * exp (- 'i * phi) ->
  (m < cutoff)%N -> (n < cutoff)%N -> (p < cutoff)%N -> (q < cutoff)%N ->
  (m + n != p + q)%N -> beamsplitter exp cos sin theta phi cutoff [:: m; n; p; q] = 0.
Proof. by move=> hc hm hn hp hq h; rewrite beamsplitter_correct // /bs_gate passive_conserve ?mul0r. Qed.

(** the gradient functions applied to the tensors computed by the library *)
Theorem grad_of_displacement (r phi : C) (cutoff m n : nat) (cp ap bp cp' ap' bp' : {poly C}) :
  let T := displacement exp r phi cutoff in
  let c := exp (- 2%:R^-1 * r ^+ 2) in let ei := exp ('i * phi) in let eic := exp (- 'i * phi) in
  curve cp c (- r * c) -> curve ap (r * ei) ei -> curve bp (r * eic) eic ->
  curve cp' c 0 -> curve ap' (r * ei) ('i * (r * ei)) -> curve bp' (r * eic) (- 'i * (r * eic)) ->
  (m < cutoff)%N -> (n < cutoff)%N ->
  (grad_displacement exp cutoff T r phi).1 [:: m; n] = (disp_gate cp ap bp [:: m; n])`_1 / snorm C [:: m; n] /\
  (grad_displacement exp cutoff T r phi).2 [:: m; n] = (disp_gate cp' ap' bp' [:: m; n])`_1 / snorm C [:: m; n].
Proof.
move=> T c ei eic h1 h2 h3 h4 h5 h6 hm hn.
have hT m' n' : (m' < cutoff)%N -> (n' < cutoff)%N -> T [:: m'; n'] = disp_gate c (r * ei) (r * eic) [:: m'; n'] / snorm C [:: m'; n'].
  exact: displacement_correct.
by split; [apply: (grad_displacement_r hT)|apply: (grad_displacement_phi hT)].
Qed.
Theorem grad_of_squeezing (r phi : C) (cutoff m n : nat) (cp eip eicp thp scp cp' eip' eicp' thp' scp' : {poly C}) :
  let T := squeezing exp cosh tanh r phi cutoff in
  let ei := exp ('i * phi) in let eic := exp (- 'i * phi) in let th := tanh r in let sc := 1 / cosh r in let c := sqrtC sc in
  (ei * th)^* = eic * th ->
  curve cp c (- (2%:R^-1 * th) * c) -> curve eip ei 0 -> curve eicp eic 0 -> curve thp th (sc ^+ 2) -> curve scp sc (- (sc * th)) ->
  curve cp' c 0 -> curve eip' ei ('i * ei) -> curve eicp' eic (- 'i * eic) -> curve thp' th 0 -> curve scp' sc 0 ->
  (m < cutoff)%N -> (n < cutoff)%N ->
  (grad_squeezing exp cosh tanh cutoff T r phi).1 [:: m; n] = (sq_gate cp eip eicp thp scp [:: m; n])`_1 / snorm C [:: m; n] /\
  (grad_squeezing exp cosh tanh cutoff T r phi).2 [:: m; n] = (sq_gate cp' eip' eicp' thp' scp' [:: m; n])`_1 / snorm C [:: m; n].
Proof.
move=> T ei eic th sc c hc h1 h2 h3 h4 h5 h6 h7 h8 h9 h10 hm hn.
have hT m' n' : (m' < cutoff)%N -> (n' < cutoff)%N -> T [:: m'; n'] = sq_gate c ei eic th sc [:: m'; n'] / snorm C [:: m'; n'].
  exact: squeezing_correct.
by split; [apply: (grad_squeezing_r hT)|apply: (grad_squeezing_phi hT)].
Qed.
Theorem grad_of_two_mode_squeezing (r theta : C) (cutoff m n p q : nat) (eip eicp thp scp eip' eicp' thp' scp' : {poly C}) :
  let T := two_mode_squeezing exp cosh tanh r theta cutoff in
  let ei := exp ('i * theta) in let eic := exp (- 'i * theta) in let th := tanh r in let sc := 1 / cosh r in
  (eic * th)^* = ei * th ->
  curve eip ei 0 -> curve eicp eic 0 -> curve thp th (sc ^+ 2) -> curve scp sc (- th * sc) ->
  curve eip' ei ('i * ei) -> curve eicp' eic (- 'i * eic) -> curve thp' th 0 -> curve scp' sc 0 ->
  (m < cutoff)%N -> (n < cutoff)%N -> (p < cutoff)%N -> (q < cutoff)%N -> let k := [:: m; n; p; q] in
  (grad_two_mode_squeezing exp cosh tanh cutoff T r theta).1 k = (tms_gate eip eicp thp scp k)`_1 / snorm C k /\
  (grad_two_mode_squeezing exp cosh tanh cutoff T r theta).2 k = (tms_gate eip' eicp' thp' scp' k)`_1 / snorm C k.
Proof.
move=> T ei eic th sc hc h1 h2 h3 h4 h5 h6 h7 h8 hm hn hp hq k.
have hT m' n' p' q' : (m' < cutoff)%N -> (n' < cutoff)%N -> (p' < cutoff)%N -> (q' < cutoff)%N ->
  T [:: m'; n'; p'; q'] = tms_gate ei eic th sc [:: m'; n'; p'; q'] / snorm C [:: m'; n'; p'; q'].
  exact: two_mode_squeezing_correct.
by split; [apply: (grad_two_mode_squeezing_r hT)|apply: (grad_two_mode_squeezing_theta hT)].
Qed.
Theorem grad_of_beamsplitter (theta phi : C) (cutoff m n p q : nat) (ctp stp eip eicp ctp' stp' eip' eicp' : {poly C}) :
  let T := beamsplitter exp cos sin theta phi cutoff in
  let ei := exp ('i * phi) in let eic := exp (- 'i * phi) in let ct := cos theta in let st := sin theta in
  (st * ei)^* = st * eic ->
  curve ctp ct (- st) -> curve stp st ct -> curve eip ei 0 -> curve eicp eic 0 ->
  curve ctp' ct 0 -> curve stp' st 0 -> curve eip' ei ('i * ei) -> curve eicp' eic (- 'i * eic) ->
  (m < cutoff)%N -> (n < cutoff)%N -> (p < cutoff)%N -> (q < cutoff)%N -> let k := [:: m; n; p; q] in
  (grad_beamsplitter exp cos sin cutoff T theta phi).1 k = (bs_gate ctp stp eip eicp k)`_1 / snorm C k /\
  (grad_beamsplitter exp cos sin cutoff T theta phi).2 k = (bs_gate ctp' stp' eip' eicp' k)`_1 / snorm C k.
Proof.
move=> T ei eic ct st hc h1 h2 h3 h4 h5 h6 h7 h8 hm hn hp hq k.
have hT m' n' p' q' : (m' < cutoff)%N -> (n' < cutoff)%N -> (p' < cutoff)%N -> (q' < cutoff)%N ->
  T [:: m'; n'; p'; q'] = bs_gate ct st ei eic [:: m'; n'; p'; q'] / snorm C [:: m'; n'; p'; q'].
  exact: beamsplitter_correct.
by split; [apply: (grad_beamsplitter_theta hT)|apply: (grad_beamsplitter_phi hT)].
Qed.
Theorem grad_of_mzgate (theta phi : C) (cutoff m n p q : nat) (up vp up' vp' : {poly C}) :
  let T := mzgate exp theta phi cutoff in
  let u := exp ('i * phi) in let v := exp ('i * theta) in
  curve up u 0 -> curve vp v ('i * v) -> curve up' u ('i * u) -> curve vp' v 0 ->
  (m < cutoff)%N -> (n < cutoff)%N -> (p < cutoff)%N -> (q < cutoff)%N -> let k := [:: m; n; p; q] in
  (grad_mzgate exp cutoff T theta phi).1 k = (mz_gate (2%:R^-1)%:P ('i)%:P up vp k)`_1 / snorm C k /\
  (grad_mzgate exp cutoff T theta phi).2 k = (mz_gate (2%:R^-1)%:P ('i)%:P up' vp' k)`_1 / snorm C k.
Proof.
move=> T u v h1 h2 h3 h4 hm hn hp hq k.
have hT m' n' p' q' : (m' < cutoff)%N -> (n' < cutoff)%N -> (p' < cutoff)%N -> (q' < cutoff)%N ->
  T [:: m'; n'; p'; q'] = mz_gate 2%:R^-1 'i u v [:: m'; n'; p'; q'] / snorm C [:: m'; n'; p'; q'].
  exact: mzgate_correct.
by split; [apply: (grad_mzgate_theta hT)|apply: (grad_mzgate_phi hT)].
Qed.
End Final.

(** the hypotheses are met: e^(i phi) = i, tanh = 3/5, cosh = 5/4, sin = 3/5, and first-order curves exist through every point *)
Lemma curve_exists (R : comRingType) (x dx : R) : curve (x%:P + dx *: 'X) x dx.
Proof. by split; rewrite coefD coefC coefZ coefX /= ?mulr0 ?addr0 ?mulr1 ?add0r. Qed.
Lemma gate_hyps (C : numClosedFieldType) : let exp (x : C) : C := if x == 'i then 'i else if x == - 'i then - 'i else 1 in
  (exp ('i * 1) * (3%:R / 5%:R))^* = exp (- 'i * 1) * (3%:R / 5%:R) /\ (3%:R / 5%:R * exp ('i * 1))^* = 3%:R / 5%:R * exp (- 'i * 1) /\
  (exp (- 'i * 1) * (3%:R / 5%:R))^* = exp ('i * 1) * (3%:R / 5%:R).
Proof.
move=> exp; have ne : (- 'i == 'i :> C) = false.
  by apply/negbTE; rewrite eq_sym -subr_eq0 opprK -mulr2n mulrn_eq0 /= neq0Ci.
have f : (3%:R / 5%:R : C)^* = 3%:R / 5%:R by rewrite rmorphM fmorphV /= !rmorph_nat.
rewrite !mulr1 /exp !eqxx ne.
have cN : (- 'i : C)^* = 'i by rewrite rmorphN /= conjCi opprK.
have cm (a b : C) : (a * b)^* = a^* * b^* by rewrite rmorphM.
by split; [rewrite cm conjCi f|split; [rewrite cm conjCi f|rewrite cm cN f]].
Qed.
