(** C08, C09, C10: the user-facing [hafnian] and [hafnian_repeated]. *)
From mathcomp Require Import all_ssreflect all_fingroup all_algebra all_field zify.
From Verif Require Import Prelude PyBase ArrLoop SpecHaf ThHaf MCharpoly MPowerHaf MRecursive MHafnian
  PropCharpoly PropPowerHaf PropRecursive.
Set Implicit Arguments.
Unset Strict Implicit.
Unset Printing Implicit Defensive.
Import Order.Theory GRing.Theory Num.Theory.
Local Open Scope ring_scope.

Lemma allP2 (P : nat -> nat -> bool) nr nc :
  reflect (forall i j, (i < nr)%N -> (j < nc)%N -> P i j) (all (fun i => all (P i) (iota 0 nc)) (iota 0 nr)).
Proof.
apply: (iffP allP) => [h i j hi hj|h i].
  have hi' : i \in iota 0 nr by rewrite mem_iota.
  by have /allP/(_ j) := h i hi'; apply; rewrite mem_iota.
rewrite mem_iota /= add0n => hi; apply/allP => j; rewrite mem_iota /= add0n; exact: h.
Qed.
Lemma hasP2 (P : nat -> nat -> bool) nr nc :
  reflect (exists i j, [/\ (i < nr)%N, (j < nc)%N & P i j]) (has (fun i => has (P i) (iota 0 nc)) (iota 0 nr)).
Proof.
apply: (iffP hasP) => [[i]|[i [j [hi hj p]]]].
  by rewrite mem_iota /= add0n => hi /hasP[j]; rewrite mem_iota /= add0n => hj p; exists i, j.
by exists i; rewrite ?mem_iota //; apply/hasP; exists j; rewrite ?mem_iota.
Qed.

Section Diag.
Variables (R : comRingType) (T : eqType).
Lemma lhq_diag (A : T -> T -> R) mu s : uniq s -> {in s &, forall x y, x != y -> A x y = 0} ->
  lhq A mu s = \prod_(x <- s) mu x.
Proof.
elim: s => [|x s IH] /=; first by rewrite lhq_nil big_nil.
case/andP => xs us h; rewrite lhq_cons big_cons IH //; last first.
  by move=> y z ys zs; apply: h; rewrite inE ?ys ?zs orbT.
rewrite [X in _ + X]big1_seq ?addr0 // => z /andP[_ zs]; rewrite h ?mul0r ?inE ?eqxx ?zs ?orbT //.
by apply: contraNneq xs => ->.
Qed.
Lemma lhq_zero (A : T -> T -> R) mu s : {in s &, forall x y, A x y = 0} -> lhq A mu s = \prod_(x <- s) mu x.
Proof.
elim: s => [|x s IH] h; first by rewrite lhq_nil big_nil.
rewrite lhq_cons big_cons IH; last by move=> y z ys zs; apply: h; rewrite inE ?ys ?zs orbT.
rewrite [X in _ + X]big1_seq ?addr0 // => z /andP[_ zs].
by rewrite h ?mul0r // inE ?eqxx ?zs ?orbT.
Qed.
End Diag.
Lemma prod_rep_index (R : comRingType) reps (mu : nat -> R) :
  \prod_(x <- rep_index reps) mu x = \prod_(i <- iota 0 (size reps)) mu i ^+ nth 0%N reps i.
Proof.
rewrite /rep_index big_flatten big_map; apply: eq_bigr => i _.
by elim: (nth 0%N reps i) => [|k IH]; rewrite /= ?big_nil // big_cons IH exprS.
Qed.
Lemma red_rowsE reps : red_rows reps = rep_index reps.
Proof.
rewrite /red_rows /rep_index; congr flatten.
have h o : [seq nseq xj.2 xj.1 | xj <- zip (iota o (size reps)) reps] = [seq nseq (nth 0%N reps (i - o)) i | i <- iota o (size reps)].
  elim: reps o => [|r reps IH] o //=; rewrite subnn; congr (_ :: _); rewrite IH; apply/eq_in_map => i.
  by rewrite mem_iota => hi; have -> : (i - o = (i - o.+1).+1)%N by lia.
by rewrite h; apply: eq_map => i; rewrite subn0.
Qed.

Section Main.
Variable C : numClosedFieldType.
Notation mat := (nat -> nat -> C).
Notation vec := (nat -> C).
Variable sched : nat -> seq nat.
Hypothesis sched_ok : forall s, perm_eq (sched s) (iota 0 s).
Variable oracle : nat -> mat -> nat -> C.

Definition sym_upto n (A : mat) := forall i j, (i < n)%N -> (j < n)%N -> A i j = A j i.
Definition diag_upto n (A : mat) := forall i j, (i < n)%N -> (j < n)%N -> i != j -> A i j = 0.

(** *** Validation *)
Theorem input_validation_ok n (A : mat) rtol atol : 0 <= rtol -> 0 <= atol -> sym_upto n A ->
  input_validation (PyArr (arr_of n n A)) rtol atol = Ok (arr_of n n A).
Proof.
move=> r0 a0 symA; rewrite /input_validation /= eqxx /=.
have -> : has (fun i => has (fun j => ent (arr_of n n A) i j == None) (iota 0 n)) (iota 0 n) = false.
  by apply/hasP2 => -[i [j []]].
have -> : allclose rtol atol n n (vals (arr_of n n A)) (fun i j => vals (arr_of n n A) j i).
  apply/allP2 => i j hi hj; rewrite /close /vals /= symA // subrr normr0.
  by rewrite addr_ge0 // mulr_ge0.
by [].
Qed.

(** every value-dependent function validates its argument first *)
Theorem input_validation_rejects A rtol atol :
  match A with
  | PyOther => input_validation (C := C) A rtol atol = Err TypeError
  | PyArr a => (nrows a <> ncols a \/ (exists i j, [/\ (i < nrows a)%N, (j < ncols a)%N & ent a i j = None])
                \/ (exists i j, [/\ (i < nrows a)%N, (j < ncols a)%N
                      & ~~ (`|vals a i j - vals a j i| <= atol + rtol * `|vals a j i|)]))
                <-> input_validation A rtol atol = Err ValueError
  end.
Proof.
case: A => [a|] //=; split.
  case: eqP => //= e h; case: hasP2 => //= nan.
  case: (boolP (allclose _ _ _ _ _ _)) => //= /allP2 cl; exfalso; case: h => [//|[[i [j [hi hj hn]]]|[i [j [hi hj hneg]]]]].
    by apply: nan; exists i, j; rewrite hn.
  by move/negP: hneg; apply; apply: (cl i j hi hj).
case: eqP => e /=; last by left.
case: hasP2 => /= [[i [j [hi hj /eqP h]]] _|nan]; first by right; left; exists i, j.
case: (boolP (allclose _ _ _ _ _ _)) => //= ncl _; right; right.
case/allPn: ncl => i; rewrite mem_iota add0n => /= hi /allPn[j]; rewrite mem_iota add0n => /= hj hc.
by exists i, j.
Qed.

Theorem hafnian_validates (A : pyobj C) loop rtol atol approx ns m e :
  input_validation A rtol atol = Err e -> hafnian sched oracle A loop rtol atol approx ns m = Err e.
Proof. by rewrite /hafnian => ->. Qed.
Theorem hafnian_repeated_validates (A : pyobj C) rpt mu loop rtol atol g e :
  input_validation A rtol atol = Err e -> hafnian_repeated sched A rpt mu loop rtol atol g = Err e.
Proof. by rewrite /hafnian_repeated => ->. Qed.

(** *** hafnian *)
Definition haf_or_lhaf (loop : bool) n (A : mat) : C :=
  if loop then lhaf_spec n A (fun i => A i i) else haf_spec n A.

Lemma haf_or_lhaf_lhq loop n A : haf_or_lhaf loop n A = lhq A (fun i => if loop then A i i else 0) (iota 0 n).
Proof. by rewrite /haf_or_lhaf; case: loop; rewrite ?lhaf_spec_lhq ?haf_spec_lhq. Qed.

(** C08 (and C06, C07 at the level of the entry point): for every exactly symmetric matrix, every method
    name known to the code, and tolerances for which the "numerically diagonal" shortcut does not fire on
    a non-diagonal matrix, [hafnian] returns the hafnian, or the loop hafnian with [loop]. *)
Theorem hafnian_correct n A loop rtol atol ns m :
  0 <= rtol -> 0 <= atol -> sym_upto n A ->
  (allclose rtol atol n n (diag_part A) A -> diag_upto n A) ->
  m <> OtherMethod ->
  hafnian sched oracle (PyArr (arr_of n n A)) loop rtol atol false ns m = Ok (haf_or_lhaf loop n A).
Proof.
move=> r0 a0 symA hdiag hm; rewrite /hafnian input_validation_ok //.
rewrite [bind _ _]/= -/(vals (arr_of n n A)).
rewrite (_ : vals (arr_of n n A) = A) //.
case: eqP => [n0|n0]; first by rewrite haf_or_lhaf_lhq n0.
rewrite modn2; case: ifP => [/andP[on /negPf lf]|on].
  by rewrite /haf_or_lhaf lf haf_spec_lhq lhq_odd // size_iota; move: on; rewrite eqb0 negbK.
case: ifP => [/hdiag dA|_].
  have -> : haf_or_lhaf loop n A = \prod_(i <- iota 0 n) (if loop then A i i else 0).
    rewrite haf_or_lhaf_lhq lhq_diag ?iota_uniq // => i j; rewrite !mem_iota /= !add0n => hi hj; exact: dA.
  case: (loop); first by rewrite for_prod mul1r.
  by case: (n) n0 => // n' _; rewrite /= big_cons mul0r.
have four := (lhq_cons, lhq_nil, big_cons, big_nil).
case: eqP => [n2|n2].
  rewrite haf_or_lhaf_lhq n2; case: (loop); congr Ok; rewrite /= !four /=; rring.
case: ifP => [/andP[/eqP n3 ->]|n3].
  rewrite haf_or_lhaf_lhq n3; congr Ok; rewrite /= !four /=; rring.
case: eqP => [n4|n4].
  rewrite haf_or_lhaf_lhq n4; case: (loop); congr Ok; rewrite /= !four /=; rring.
case: (boolP loop) on => [lp _|lp on].
  by rewrite /haf_or_lhaf loop_hafnian_correct.
rewrite /haf_or_lhaf.
case: m hm => //= _; try exact: haf_correct.
by apply: recursive_hafnian_correct => //; move: on; rewrite andbT eqb0 negbK => ->.
Qed.

(** With zero tolerances no side condition on the matrix remains. *)
Lemma close00 a b : close 0 0 a b -> a = b :> C.
Proof. by rewrite /close mul0r addr0 normr_le0 subr_eq0 => /eqP. Qed.
Lemma diag_close00 n A : allclose 0 0 n n (diag_part A) A -> diag_upto n A.
Proof.
by move=> /allP2 h i j hi hj ij; have := close00 (h i j hi hj); rewrite /diag_part (negPf ij).
Qed.
Theorem hafnian_zero_tol n A loop ns m : sym_upto n A -> m <> OtherMethod ->
  hafnian sched oracle (PyArr (arr_of n n A)) loop 0 0 false ns m = Ok (haf_or_lhaf loop n A).
Proof. by move=> *; apply: hafnian_correct => //; exact: diag_close00. Qed.

(** C09 is false for every positive atol: the matrix [[0, atol], [atol, 0]] has hafnian atol, but the
    "numerically diagonal" / "numerically zero" shortcuts return 0. *)
Definition tiny (a : C) : mat := fun i j => if i == j then 0 else a.
Theorem hafnian_shortcut_refuted rtol atol ns m : 0 <= rtol -> 0 < atol ->
  hafnian sched oracle (PyArr (arr_of 2 2 (tiny atol))) false rtol atol false ns m = Ok 0
  /\ haf_spec 2 (tiny atol) = atol /\ atol <> 0.
Proof.
move=> r0 a0; split; last first.
  split; last by apply/eqP; rewrite gt_eqF.
  by rewrite haf_spec_lhq /= !(lhq_cons, lhq_nil, big_cons, big_nil) /= /tiny /=; rring.
rewrite /hafnian input_validation_ok ?(ltW a0) //; last by move=> i j _ _; rewrite /tiny eq_sym.
rewrite /= -/(vals (arr_of 2 2 (tiny atol))) (_ : allclose _ _ _ _ _ _ = true) //.
apply/allP2 => i j _ _; rewrite /close /diag_part /vals /= /tiny.
by case: eqP => _; rewrite ?sub0r ?normrN ?subrr ?normr0 ?mulr0 ?addr0 ?(ltW a0) // ger0_norm ?(ltW a0) // ler_addl mulr_ge0 // ltW.
Qed.

(** An unknown method name is not rejected up front: it reaches an unbound variable. *)
Theorem hafnian_unknown_method n A rtol atol ns : 0 <= rtol -> 0 <= atol -> sym_upto n A ->
  ~~ odd n -> (4 < n)%N -> ~~ allclose rtol atol n n (diag_part A) A ->
  hafnian sched oracle (PyArr (arr_of n n A)) false rtol atol false ns OtherMethod = Err UnboundLocalError.
Proof.
move=> r0 a0 symA on n4 nd; rewrite /hafnian input_validation_ok //= modn2 (negPf on) (negPf nd).
by case: n n4 {on nd symA} => [|[|[|[|[|n]]]]].
Qed.

(** approx=True rejects complex and negative entries (sizes above 4). *)
Theorem hafnian_approx_rejects n A loop rtol atol ns m : 0 <= rtol -> 0 <= atol -> sym_upto n A ->
  ~~ odd n || loop -> (4 < n)%N -> ~~ allclose rtol atol n n (diag_part A) A ->
  (exists i j, [/\ (i < n)%N, (j < n)%N & ~~ (0 <= A i j)]) <->
  hafnian sched oracle (PyArr (arr_of n n A)) loop rtol atol true ns m = Err ValueError.
Proof.
move=> r0 a0 symA on n4 nd; rewrite /hafnian input_validation_ok //= modn2 (negPf nd).
have -> : (odd n != 0%N :> nat) && ~~ loop = false by case: (odd n) on => //= ->.
have [-> -> -> ->] : [/\ (n == 0%N) = false, (n == 2%N) = false, (n == 3%N) = false & (n == 4%N) = false] by split; lia.
rewrite /=; split.
  case=> i [j [hi hj hneg]]; case: hasP2 => // nc; case: hasP2 => // nn.
  exfalso; move/negP: hneg; apply.
  have : A i j \is Num.real by apply/negPn/negP => h; apply: nc; exists i, j.
  case/orP => // hle; apply/negPn/negP => h; apply: nn; exists i, j; split=> //.
  by rewrite lt_neqAle hle andbT; apply: contra h => /eqP; rewrite /vals /= => ->.
case: hasP2 => [[i [j [hi hj hc]]] _|_].
  exists i, j; split=> //; apply: contra hc => h; exact: ger0_real.
case: hasP2 => // -[i [j [hi hj hc]]] _; exists i, j; split=> //.
by move: hc; rewrite /vals /= => h; rewrite lt_geF.
Qed.

(** *** hafnian_repeated *)
Definition rats (reps : seq nat) : seq rat := [seq k%:R | k <- reps].
Lemma rats_ok reps : [/\ all rat_int (rats reps), has (fun q => q < 0) (rats reps) = false & [seq to_nat q | q <- rats reps] = reps].
Proof.
split.
- by apply/allP => q /mapP[k _ ->]; rewrite /rat_int pmulrn denq_int.
- by apply/hasP => -[q /mapP[k _ ->]]; rewrite ltrn0.
- by rewrite /rats -map_comp map_id_in // => k _ /=; rewrite /to_nat pmulrn numq_int.
Qed.

Definition rep_value (loop : bool) reps (A : mat) (mu : vec) : C :=
  if loop then lhaf_rep_spec reps A mu else haf_rep_spec reps A.

Lemma rep_value_lhq loop reps A mu : sym_upto (size reps) A ->
  rep_value loop reps A mu = lhq A (fun i => if loop then mu i else 0) (rep_index reps).
Proof. by move=> sA; rewrite /rep_value; case: loop; rewrite ?haf_rep_lhaf lhaf_rep_lhq_lt. Qed.

(** C10 *)
Theorem hafnian_repeated_correct reps A mu loop rtol atol g :
  let n := size reps in
  0 <= rtol -> 0 <= atol -> sym_upto n A ->
  (allclose rtol atol n n A (fun _ _ => 0) -> forall i j, (i < n)%N -> (j < n)%N -> A i j = 0) ->
  hafnian_repeated sched (PyArr (arr_of n n A)) (rats reps) (omap (fun m => (m, n)) mu) loop rtol atol g =
  Ok (rep_value loop reps A (odflt (fun i => A i i) mu)).
Proof.
move=> n r0 a0 symA hz.
have main m lenmu : (lenmu == n) || (sumn reps == 0%N) || odd (sumn reps) && ~~ loop ->
    hafnian_repeated sched (PyArr (arr_of n n A)) (rats reps) (Some (m, lenmu)) loop rtol atol g = Ok (rep_value loop reps A m).
  move=> hlen; rewrite /hafnian_repeated input_validation_ok //=.
  have [h1 h2 ->] := rats_ok reps; rewrite size_map -/n eqxx h1 h2 /=.
  have e0 : all (fun k => k == 0%N) reps = (sumn reps == 0%N).
    by elim: (reps) => //= r l ->; rewrite addn_eq0.
  rewrite e0; case: (boolP (sumn reps == 0%N)) hlen => [/eqP s0 _|s0 hlen].
    have e : rep_index reps = [::] by apply: size0nil; rewrite size_rep_index.
    by rewrite rep_value_lhq // e lhq_nil.
  rewrite modn2; case: (boolP (odd (sumn reps) && ~~ loop)) hlen => [/andP[os /negPf lf] _|h hlen].
    by rewrite os lf /= /rep_value /haf_rep_spec haf_spec_lhq lhq_odd // size_iota size_rep_index.
  have -> : (odd (sumn reps) != 0%N :> nat) && ~~ loop = false by move: h; case: (odd _) => //=; case: (loop).
  have /eqP len : lenmu == n by move: hlen; rewrite !orbF.
  case: ifP => [/hz A0|_].
    have hv : rep_value loop reps A m = \prod_(x <- rep_index reps) (if loop then m x else 0).
      rewrite rep_value_lhq // lhq_zero // => x y /rep_index_lt hx /rep_index_lt hy; exact: A0.
    rewrite hv; case: (loop); first by rewrite /prod_pow len eqxx prod_rep_index.
    have : size (rep_index reps) != 0%N by rewrite size_rep_index.
    by case: (rep_index reps) => // x l _; rewrite big_cons mul0r.
  rewrite len eqxx /rep_value; case: (loop); first by rewrite loop_hafnian_rep_correct.
  by rewrite haf_rep_correct.
case: mu => [m|] /=; rewrite -(main _ n) ?eqxx //.
by rewrite /hafnian_repeated input_validation_ok.
Qed.

Theorem hafnian_repeated_zero_tol reps A mu loop g : sym_upto (size reps) A ->
  hafnian_repeated sched (PyArr (arr_of (size reps) (size reps) A)) (rats reps)
     (omap (fun m => (m, size reps)) mu) loop 0 0 g = Ok (rep_value loop reps A (odflt (fun i => A i i) mu)).
Proof.
by move=> symA; apply: hafnian_repeated_correct => // /allP2 h i j hi hj; apply: close00; apply: h.
Qed.

(** wrong length, non-integer or negative repetitions, or a means vector of the wrong length *)
Theorem hafnian_repeated_bad_rpt n A rpt mu loop rtol atol g : 0 <= rtol -> 0 <= atol -> sym_upto n A ->
  size rpt <> n \/ (exists2 q, q \in rpt & denq q <> 1 \/ q < 0) ->
  hafnian_repeated sched (PyArr (arr_of n n A)) rpt mu loop rtol atol g = Err ValueError.
Proof.
move=> r0 a0 symA h; rewrite /hafnian_repeated input_validation_ok //=; case: eqP => //= e.
case: h => [//|[q qr hq]]; case: ifP => // /negP[]; case: hq => [hd|hneg]; apply/orP; [left|right].
  by apply/allPn; exists q => //; apply/eqP.
by apply/hasP; exists q.
Qed.
Theorem hafnian_repeated_bad_mu reps A m lenmu loop rtol atol g : let n := size reps in
  0 <= rtol -> 0 <= atol -> sym_upto n A -> lenmu <> n -> sumn reps <> 0%N -> ~~ odd (sumn reps) || loop ->
  ~~ allclose rtol atol n n A (fun _ _ => 0) ->
  hafnian_repeated sched (PyArr (arr_of n n A)) (rats reps) (Some (m, lenmu)) loop rtol atol g = Err ValueError.
Proof.
move=> n r0 a0 symA hl s0 ho nz; rewrite /hafnian_repeated input_validation_ok //=.
have [h1 h2 ->] := rats_ok reps; rewrite size_map -/n eqxx h1 h2 /=.
have -> : all (fun k => k == 0%N) reps = (sumn reps == 0%N).
  by elim: (reps) => //= r l ->; rewrite addn_eq0.
case: eqP s0 => // _ _; rewrite modn2.
have -> : (odd (sumn reps) != 0%N :> nat) && ~~ loop = false by case: (odd _) ho => //= ->.
by rewrite (negPf nz); case: eqP hl.
Qed.

(** hafnian_repeated(A, rpt) = hafnian(reduction(A, rpt)) *)
Theorem reductionE n (A : nat -> nat -> C) reps : reduction (arr_of n n A) reps =
  arr_of (sumn reps) (sumn reps) (fun i j => A (nth 0%N (rep_index reps) i) (nth 0%N (rep_index reps) j)).
Proof. by rewrite /reduction red_rowsE size_rep_index. Qed.

Theorem hafnian_repeated_reduction reps A loop ns g m : let n := size reps in sym_upto n A -> m <> OtherMethod ->
  hafnian_repeated sched (PyArr (arr_of n n A)) (rats reps) None loop 0 0 g
  = hafnian sched oracle (PyArr (reduction (arr_of n n A) reps)) loop 0 0 false ns m.
Proof.
move=> n symA hm; rewrite (hafnian_repeated_zero_tol None) // reductionE hafnian_zero_tol //.
  by rewrite /rep_value /haf_or_lhaf /lhaf_rep_spec /haf_rep_spec size_rep_index.
by move=> i j hi hj; apply: symA; apply: rep_index_lt; apply: mem_nth; rewrite size_rep_index.
Qed.

Theorem hafnian_repeated_shortcut_refuted rtol atol g : 0 <= rtol -> 0 < atol ->
  hafnian_repeated sched (PyArr (arr_of 2 2 (tiny atol))) (rats [:: 1; 1]%N) None false rtol atol g = Ok 0
  /\ haf_rep_spec [:: 1; 1]%N (tiny atol) = atol /\ atol <> 0.
Proof.
move=> r0 a0; have [_ [h1 h2]] := hafnian_shortcut_refuted 0 Glynn r0 a0.
split; last by split=> //; rewrite (haf_rep_ones 2).
rewrite /hafnian_repeated input_validation_ok ?(ltW a0) //; last by move=> i j _ _; rewrite /tiny eq_sym.
have [q1 q2 q3] := rats_ok [:: 1; 1]%N.
rewrite q1 q2 q3 /=.
rewrite (_ : allclose _ _ _ _ _ _ = true) //.
apply/allP2 => i j _ _; rewrite /close /vals /= /tiny subr0 normr0 mulr0 addr0.
by case: eqP => _; rewrite ?normr0 ?(ltW a0) // ger0_norm ?(ltW a0).
Qed.
End Main.

(** Non-vacuity: concrete runs. *)
Example hafnian_ex oracle : hafnian (C := [numClosedFieldType of algC]) (iota 0) oracle
   (PyArr (arr_of 4 4 (fun i j => (i + j)%:R))) false 0 0 false 0 Glynn = Ok 22%:R.
Proof.
rewrite hafnian_zero_tol // => [|i j _ _]; last by rewrite addnC.
by rewrite /haf_or_lhaf haf_spec_lhq /= !(lhq_cons, lhq_nil, big_cons, big_nil) !natrD /=; congr Ok; rring.
Qed.
Example hafnian_repeated_ex : hafnian_repeated (C := [numClosedFieldType of algC]) (iota 0)
   (PyArr (arr_of 2 2 (fun i j => (i + j)%:R))) (rats [:: 1; 2]%N) None true 0 0 true = Ok 4%:R.
Proof.
rewrite (@hafnian_repeated_zero_tol _ (iota 0) (fun=> perm_refl _) [:: 1; 2]%N _ None) // => [|i j _ _]; last by rewrite addnC.
rewrite rep_value_lhq => [|i j _ _]; last by rewrite addnC.
by rewrite (_ : rep_index _ = [:: 0; 1; 1]%N) // !(lhq_cons, lhq_nil, big_cons, big_nil) /= !natrD; congr Ok; rring.
Qed.
