(** C39, C40: gate constructors are symplectic; Gaussian channels compose. *)
From mathcomp Require Import all_ssreflect all_algebra algC zify.
From Verif Require Import Prelude PyBase ArrLoop MHafnian SpecSymp MSymplectic PropSymplectic PropSymp2.
Set Implicit Arguments.
Unset Strict Implicit.
Unset Printing Implicit Defensive.
Import Order.Theory GRing.Theory Num.Theory.
Local Open Scope ring_scope.

Section Sq.
Variable R : comRingType.
Notation mat := (nat -> nat -> R).

(** different one-mode matrices on the k modes *)
Definition dsumf (k : nat) (S : nat -> mat) : mat := fun a b =>
  if (a %% k == b %% k)%N then S (a %% k)%N (a %/ k)%N (b %/ k)%N else 0.

Lemma dsumf_symplectic k (S : nat -> mat) : (forall m, (m < k)%N -> symplectic 1 (S m)) -> symplectic k (dsumf k S).
Proof.
move=> sS i j hi hj; rewrite symp_pair /dsumf.
have hk : (0 < k)%N by lia.
have li : (i %% k < k)%N by rewrite ltn_mod.
rewrite (bigD1 (Ordinal li)) //= big1 ?addr0; last first.
  move=> c /eqP ne; have [-> ->] := modkl (ltn_ord c).
  by case: eqP => [e|_]; rewrite ?mul0r ?subrr //; case: ne; apply/val_inj; rewrite /= e.
have [-> ->] := modkl li; have [-> ->] := divkl li; rewrite eqxx.
have := sS _ li (i %/ k)%N (j %/ k)%N; rewrite symp_pair big_ord_recl big_ord0 addr0 /= addn0.
rewrite !ltn_divLR // => /(_ hi hj).
have ei := divn_eq i k; have ej := divn_eq j k.
have lj : (j %% k < k)%N by rewrite ltn_mod.
have qi : (i %/ k < 2)%N by rewrite ltn_divLR.
have qj : (j %/ k < 2)%N by rewrite ltn_divLR.
move: (i %/ k)%N (i %% k)%N (j %/ k)%N (j %% k)%N ei ej li lj qi qj => q r q' r' -> -> lr lr' lq lq'.
case: (r =P r') => [er e|ne _].
  rewrite e /Omega; congr (_%:R - _%:R); congr nat_of_bool; apply/eqP/eqP; nia.
rewrite !mulr0 subrr /Omega.
have -> : (q' * k + r' == k + (q * k + r))%N = false.
  apply/eqP => e; apply: ne; have : q' = 0%N \/ q' = 1%N by lia.
  by have : q = 0%N \/ q = 1%N by [lia]; move=> [?|?] [?|?]; subst; lia.
have -> : (q * k + r == k + (q' * k + r'))%N = false.
  apply/eqP => e; apply: ne; have : q' = 0%N \/ q' = 1%N by lia.
  by have : q = 0%N \/ q = 1%N by [lia]; move=> [?|?] [?|?]; subst; lia.
by rewrite subrr.
Qed.

(** the 2 x 2 squeezing matrix cosh r I - sinh r [[cos phi, sin phi], [sin phi, -cos phi]] *)
Definition sq1 (h p : R * R) : mat := fun x y =>
  match x, y with
  | 0, 0 => h.1 - h.2 * p.1 | 0, _ => - h.2 * p.2
  | _, 0 => - h.2 * p.2 | _, _ => h.1 + h.2 * p.1 end.

(** every entry of squeezing(r, phi), len(phi) <= len(r) or not: mode m is squeezed by (r_m, phi_m) when both are given,
    and untouched otherwise *)
Theorem squeezing_entries (rs phis : seq (R * R)) i j : let M := size rs in (i < 2 * M)%N -> (j < 2 * M)%N ->
  squeezing rs phis i j =
    if (i %% M == j %% M)%N
    then (if (i %% M < size phis)%N then sq1 (nth (1, 0) rs (i %% M)) (nth (1, 0) phis (i %% M)) (i %/ M)%N (j %/ M)%N
          else (i %/ M == j %/ M)%N%:R)
    else 0.
Proof.
move=> M hi hj; rewrite /squeezing -/M.
set f := (X in for_ _ _ X).
have dm c : (c < 2 * M)%N -> exists q r, [/\ (c = q * M + r)%N, (r < M)%N, (q < 2)%N, (c %% M = r)%N & (c %/ M = q)%N].
  move=> hc; exists (c %/ M)%N, (c %% M)%N; split=> //; first exact: divn_eq.
    by rewrite ltn_mod; lia.
  by rewrite ltn_divLR //; lia.
have [q [r [ei hr hq -> ->]]] := dm i hi; have [q' [r' [ej hr' hq' -> ->]]] := dm j hj.
have H (a b : seq (R * R)) o (A : mat) : (o + size a = M)%N ->
  for_ (zip (iota o (size a)) (zip a b)) A f i j =
    if (r == r')%N && (o <= r)%N && (r - o < size b)%N then sq1 (nth (1, 0) a (r - o)) (nth (1, 0) b (r - o)) q q' else A i j.
  elim: a b o A => [|[ch sh] a IH] [|[cp sp] b] o A so.
  - by rewrite andbF.
  - rewrite [for_ _ _ _]/=; case: ifP => // /andP[/andP[_ h1] _]; move: so => /=; lia.
  - by rewrite andbF.
  rewrite [zip _ _]/= for_cons IH; last by move: so => /=; lia.
  rewrite [size (_ :: b)]/=; move: so; rewrite [size _]/= => so.
  case: (r =P r') => [er|ne] /=; last first.
    rewrite /f /upd2 /=; have q01 : q = 0%N \/ q = 1%N by lia.
    have q01' : q' = 0%N \/ q' = 1%N by lia.
    have hh : ~~ (((i == o) || (i == o + M)%N) && ((j == o) || (j == o + M)%N)).
      by apply/negP; case: q01 q01' => [?|?] [?|?]; subst; lia.
    by case: (i =P o) (i =P (o + M)%N) (j =P o) (j =P (o + M)%N) hh => [?|?] [?|?] [?|?] [?|?].
  case: (ltnP o r) => lo.
    have -> : (o <= r)%N by lia.
    have -> : (r - o < (size b).+1)%N = (r - o.+1 < size b)%N by lia.
    have e : (r - o = (r - o.+1).+1)%N by lia.
    case: ifP => [_|_]; first by rewrite e.
    rewrite /f /upd2 /=; have -> : (i == o) = false by case: (q =P 0%N) => [?|?]; subst; nia.
    have -> : (i == o + M)%N = false by have [?|?] : q = 0%N \/ q = 1%N by [lia]; subst; lia.
    by [].
  case: (o =P r) => [eo|no]; last first.
    have -> : (o <= r)%N = false by lia.
    rewrite /= /f /upd2 /=.
    have -> : (i == o) = false by have [?|?] : q = 0%N \/ q = 1%N by [lia]; subst; lia.
    by have -> : (i == o + M)%N = false by have [?|?] : q = 0%N \/ q = 1%N by [lia]; subst; lia.
  have -> : (o <= r)%N by lia.
  rewrite -eo subnn /= /f /upd2 /=.
  have [q0|q1] : q = 0%N \/ q = 1%N by lia.
    have e1 : (i == o) by rewrite ei q0; lia.
    have e2 : (i == o + M)%N = false by rewrite ei q0; lia.
    have [q0'|q1'] : q' = 0%N \/ q' = 1%N by lia.
      have e3 : (j == o) by rewrite ej q0'; lia.
      have e4 : (j == o + M)%N = false by rewrite ej q0'; lia.
      by rewrite e1 e2 e3 e4 q0 q0'.
    have e3 : (j == o) = false by rewrite ej q1'; lia.
    have e4 : (j == o + M)%N by rewrite ej q1'; lia.
    by rewrite e1 e2 e3 e4 q0 q1'.
  have e1 : (i == o) = false by rewrite ei q1; lia.
  have e2 : (i == o + M)%N by rewrite ei q1; lia.
  have [q0'|q1'] : q' = 0%N \/ q' = 1%N by lia.
    have e3 : (j == o) by rewrite ej q0'; lia.
    have e4 : (j == o + M)%N = false by rewrite ej q0'; lia.
    by rewrite e1 e2 e3 e4 q1 q0'.
  have e3 : (j == o) = false by rewrite ej q1'; lia.
  have e4 : (j == o + M)%N by rewrite ej q1'; lia.
  by rewrite e1 e2 e3 e4 q1 q1'.
rewrite (H rs phis 0%N) // subn0 leq0n andbT /eye.
case: (r =P r') => [er|ne] /=; last first.
  rewrite (_ : (i == j) = false) //; apply/eqP => e; apply: ne.
  by have [?|?] : q = 0%N \/ q = 1%N by [lia]; have [?|?] : q' = 0%N \/ q' = 1%N by [lia]; subst; lia.
case: ifP => // _; congr (_%:R); congr nat_of_bool; apply/eqP/eqP => e; last by rewrite ei ej e er.
by have [?|?] : q = 0%N \/ q = 1%N by [lia]; have [?|?] : q' = 0%N \/ q' = 1%N by [lia]; subst; lia.
Qed.

Lemma lt2_cases (P : nat -> Prop) : P 0%N -> P 1%N -> forall i, (i < 2)%N -> P i.
Proof. by move=> p0 p1 [|[|//]]. Qed.
Lemma lt4_cases (P : nat -> Prop) : P 0%N -> P 1%N -> P 2%N -> P 3%N -> forall i, (i < 4)%N -> P i.
Proof. by move=> p0 p1 p2 p3 [|[|[|[|//]]]]. Qed.

Lemma sq1_symplectic (h p : R * R) : h.1 ^+ 2 - h.2 ^+ 2 = 1 -> p.1 ^+ 2 + p.2 ^+ 2 = 1 -> symplectic 1 (sq1 h p).
Proof.
case: h p => [ch sh] [cp sp] /= hh hp i j hi hj; rewrite (symp_pair 1 (sq1 _ _)) big_ord_recl big_ord0 addr0 /Omega /=.
have key : (ch - sh * cp) * (ch + sh * cp) - (- sh * sp) * (- sh * sp) = 1.
  transitivity (ch ^+ 2 - sh ^+ 2 * (cp ^+ 2 + sp ^+ 2)); first by rring.
  by rewrite hp mulr1.
case: i hi => [|[|//]] _; case: j hj => [|[|//]] _ /=; rewrite ?addn0 /= ?subr0 ?sub0r ?subrr.
- rring.
- by rewrite -key; rring.
- by rewrite -key; rring.
- rring.
Qed.
Lemma id1_symplectic : symplectic 1 (fun x y => (x == y)%:R : R).
Proof.
move=> i j hi hj; rewrite (symp_pair 1 (fun x y => (x == y)%:R)) big_ord_recl big_ord0 addr0 /Omega /=.
by case: i hi => [|[|//]] _; case: j hj => [|[|//]] _ /=; rring.
Qed.

Theorem squeezing_symplectic (rs phis : seq (R * R)) :
  (forall h, h \in rs -> h.1 ^+ 2 - h.2 ^+ 2 = 1) -> (forall p, p \in phis -> p.1 ^+ 2 + p.2 ^+ 2 = 1) ->
  symplectic (size rs) (squeezing rs phis).
Proof.
move=> hh hp.
pose S m : mat := if (m < size phis)%N then sq1 (nth (1, 0) rs m) (nth (1, 0) phis m) else fun x y => (x == y)%:R.
apply: (@eq_symplectic _ _ (dsumf (size rs) S)).
  by move=> i j hi hj; rewrite squeezing_entries // /dsumf /S; case: eqP => // _; case: ifP.
apply: dsumf_symplectic => m hm; rewrite /S; case: ifP => lm; last exact: id1_symplectic.
by apply: sq1_symplectic; [apply/hh/mem_nth | apply/hp/mem_nth].
Qed.

Theorem two_mode_squeezing_symplectic (h p : R * R) : h.1 ^+ 2 - h.2 ^+ 2 = 1 -> p.1 ^+ 2 + p.2 ^+ 2 = 1 ->
  symplectic 2 (two_mode_squeezing h p).
Proof.
move=> hh hp i j hi hj; rewrite (symp_pair 2 (two_mode_squeezing h p)) 2!big_ord_recl big_ord0 addr0 /Omega /bump.
case: h p hh hp => [ch sh] [cp sp] /= hh hp.
have key : ch * ch - sh * sh * (cp * cp + sp * sp) = 1.
  by rewrite -!expr2 hp mulr1.
move: i hi; apply: lt4_cases; move: j hj; apply: lt4_cases; rewrite /= ?subr0 ?sub0r ?subrr;
  first [rring | by rewrite -key; rring].
Qed.
End Sq.

Section Interf.
Variable C : numClosedFieldType.
Notation mat := (nat -> nat -> C).
Notation vec := (nat -> C).

Lemma Re_mulE (a b : C) : 'Re (a * b) = 'Re a * 'Re b - 'Im a * 'Im b.
Proof.
rewrite {1}[a]Crect {1}[b]Crect.
have -> : ('Re a + 'i * 'Im a) * ('Re b + 'i * 'Im b) = ('Re a * 'Re b - 'Im a * 'Im b) + 'i * ('Re a * 'Im b + 'Im a * 'Re b).
  have i2 : 'i * 'i = -1 :> C by rewrite -expr2 sqrCi.
  transitivity ('Re a * 'Re b + 'i * 'i * ('Im a * 'Im b) + 'i * ('Re a * 'Im b + 'Im a * 'Re b)); first by rring.
  by rewrite i2; rring.
by rewrite Re_rect // ?rpredB ?rpredD ?rpredM ?Creal_Re ?Creal_Im.
Qed.
Lemma Im_mulE (a b : C) : 'Im (a * b) = 'Re a * 'Im b + 'Im a * 'Re b.
Proof.
rewrite {1}[a]Crect {1}[b]Crect.
have -> : ('Re a + 'i * 'Im a) * ('Re b + 'i * 'Im b) = ('Re a * 'Re b - 'Im a * 'Im b) + 'i * ('Re a * 'Im b + 'Im a * 'Re b).
  have i2 : 'i * 'i = -1 :> C by rewrite -expr2 sqrCi.
  transitivity ('Re a * 'Re b + 'i * 'i * ('Im a * 'Im b) + 'i * ('Re a * 'Im b + 'Im a * 'Re b)); first by rring.
  by rewrite i2; rring.
by rewrite Im_rect // ?rpredB ?rpredD ?rpredM ?Creal_Re ?Creal_Im.
Qed.

Lemma npblock_ll r c (A B D E : mat) i j : (i < r)%N -> (j < c)%N -> npblock r c A B D E i j = A i j.
Proof. by move=> hi hj; rewrite /npblock hi hj. Qed.
Lemma npblock_lr r c (A B D E : mat) i j : (i < r)%N -> npblock r c A B D E i (c + j)%N = B i j.
Proof. by move=> hi; rewrite /npblock hi ltnNge leq_addr /= addKn. Qed.
Lemma npblock_rl r c (A B D E : mat) i j : (j < c)%N -> npblock r c A B D E (r + i)%N j = D i j.
Proof. by move=> hj; rewrite /npblock hj ltnNge leq_addr /= addKn. Qed.
Lemma npblock_rr r c (A B D E : mat) i j : npblock r c A B D E (r + i)%N (c + j)%N = E i j.
Proof. by rewrite /npblock !ltnNge !leq_addr /= !addKn. Qed.
Lemma half_cases n i : (i < 2 * n)%N -> (i < n)%N \/ exists2 i', (i' < n)%N & i = (n + i')%N.
Proof. by move=> hi; case: (ltnP i n) => hi'; [left|right; exists (i - n)%N; lia]. Qed.

(** C40: interferometer(U) is symplectic exactly when U is unitary *)
Theorem interferometer_symplectic n (U : mat) : symplectic n (interferometer n n U) <-> unitary n U.
Proof.
pose X i j := 'Re (U i j); pose Y i j := 'Im (U i j).
have cE i j : \sum_(k < n) (U k i)^* * U k j
   = \sum_(k < n) (X k i * X k j + Y k i * Y k j) + 'i * \sum_(k < n) (X k i * Y k j - Y k i * X k j).
  rewrite mulr_sumr -big_split /=; apply: eq_bigr => k _.
  rewrite [(U k i)^* * _]Crect Re_mulE Im_mulE Re_conj Im_conj /X /Y; rring.
have e1 i j : (i < n)%N -> (j < n)%N ->
   \sum_(k < 2 * n) \sum_(l < 2 * n) interferometer n n U k i * Omega C n k l * interferometer n n U l j
   = \sum_(k < n) (X k i * Y k j - Y k i * X k j).
  move=> hi hj; rewrite (symp_pair n (interferometer n n U)); apply: eq_bigr => k _.
  by rewrite /interferometer !npblock_rl // !npblock_ll.
have e2 i j : (i < n)%N -> (j < n)%N ->
   \sum_(k < 2 * n) \sum_(l < 2 * n) interferometer n n U k i * Omega C n k l * interferometer n n U l (n + j)%N
   = \sum_(k < n) (X k i * X k j + Y k i * Y k j).
  move=> hi hj; rewrite (symp_pair n (interferometer n n U)); apply: eq_bigr => k _.
  by rewrite /interferometer npblock_rr npblock_rl // npblock_lr // npblock_ll // mulrN opprK.
have e3 i j : (i < n)%N -> (j < n)%N ->
   \sum_(k < 2 * n) \sum_(l < 2 * n) interferometer n n U k (n + i)%N * Omega C n k l * interferometer n n U l (n + j)%N
   = \sum_(k < n) (X k i * Y k j - Y k i * X k j).
  move=> hi hj; rewrite (symp_pair n (interferometer n n U)); apply: eq_bigr => k _.
  by rewrite /interferometer !npblock_rr !npblock_lr //; rring.
have O1 i j : (i < n)%N -> (j < n)%N -> Omega C n i j = 0.
  move=> hi hj; rewrite /Omega; have -> : (j == n + i)%N = false by lia.
  by have -> : (i == n + j)%N = false by [lia]; rewrite subrr.
have O2 i j : (i < n)%N -> (j < n)%N -> Omega C n (n + i) (n + j) = 0.
  move=> hi hj; rewrite /Omega; have -> : (n + j == n + (n + i))%N = false by lia.
  by have -> : (n + i == n + (n + j))%N = false by [lia]; rewrite subrr.
have O3 i j : (i < n)%N -> (j < n)%N -> Omega C n i (n + j) = (i == j)%:R.
  move=> hi hj; rewrite /Omega; have -> : (i == n + (n + j))%N = false by lia.
  by rewrite subr0 eqn_add2l eq_sym.
split=> [sS i j hi hj|uU].
  have i2 : (i < 2 * n)%N by lia. have j2 : (j < 2 * n)%N by lia.
  have nj2 : (n + j < 2 * n)%N by lia.
  by rewrite cE -(e1 i j) // -(e2 i j) // !sS // O3 // O1 // mulr0 addr0.
have rI i j : (i < n)%N -> (j < n)%N ->
    \sum_(k < n) (X k i * X k j + Y k i * Y k j) = (i == j)%:R /\ \sum_(k < n) (X k i * Y k j - Y k i * X k j) = 0.
  move=> hi hj; have := uU i j hi hj; rewrite cE.
  have r1 : \sum_(k < n) (X k i * X k j + Y k i * Y k j) \is Num.real.
    by apply: rpred_sum => k _; rewrite rpredD ?rpredM ?Creal_Re ?Creal_Im.
  have r2 : \sum_(k < n) (X k i * Y k j - Y k i * X k j) \is Num.real.
    by apply: rpred_sum => k _; rewrite rpredB ?rpredM ?Creal_Re ?Creal_Im.
  move=> e; split.
    by have := congr1 (fun z => 'Re z) e; rewrite Re_rect // => ->; apply/Creal_ReP; rewrite realn.
  by have := congr1 (fun z => 'Im z) e; rewrite Im_rect // => ->; apply/Creal_ImP; rewrite realn.
move=> i j hi hj; have [li|[i' li ->]] := half_cases hi; have [lj|[j' lj ->]] := half_cases hj.
- by rewrite e1 // O1 // (proj2 (rI _ _ li lj)).
- by rewrite e2 // O3 // (proj1 (rI _ _ li lj)).
- rewrite Omega_anti O3 // -(proj1 (rI _ _ lj li)) -e2 // !(symp_pair n (interferometer n n U)) -sumrN.
  by apply: eq_bigr => k _; rewrite opprB mulrC [X in _ - X]mulrC.
- by rewrite e3 // O2 // (proj2 (rI _ _ li lj)).
Qed.

Definition unitcircle (p : C * C) := [/\ p.1 \is Num.real, p.2 \is Num.real & p.1 ^+ 2 + p.2 ^+ 2 = 1].

Lemma eip_norm (p : C * C) : unitcircle p -> (p.1 + 'i * p.2)^* * (p.1 + 'i * p.2) = 1.
Proof.
case: p => a b [/= ra rb e]; rewrite rmorphD rmorphM /= conjCi (CrealP ra) (CrealP rb).
transitivity (a ^+ 2 - 'i * 'i * b ^+ 2); first by rring.
by rewrite -(expr2 'i) sqrCi mulN1r opprK.
Qed.

Theorem rotation_symplectic (t : C * C) : unitcircle t -> symplectic 1 (rotation t).
Proof.
move=> ut; apply/interferometer_symplectic => i j hi hj.
rewrite big_ord_recl big_ord0 addr0 /eye /=.
by case: i hi => [|//] _; case: j hj => [|//] _; rewrite !mul1r eip_norm.
Qed.

Theorem beam_splitter_symplectic (t p : C * C) : unitcircle t -> unitcircle p -> symplectic 2 (beam_splitter t p).
Proof.
case: t => ct st [/= rc rs e] up; apply/interferometer_symplectic => i j hi hj.
have ep := eip_norm up; have ep' : (p.1 + 'i * p.2) * (p.1 + 'i * p.2)^* = 1 by rewrite mulrC.
rewrite 2!big_ord_recl big_ord0 addr0 /bump /=.
move: (p.1 + 'i * p.2) ep ep' => E ep ep'.
have cc := CrealP rc; have cs := CrealP rs.
case: i hi => [|[|//]] _; case: j hj => [|[|//]] _; rewrite /= ?rmorphM ?rmorphN ?rmorphM /= ?conjCK ?cc ?cs.
- transitivity (ct ^+ 2 + (E^* * E) * st ^+ 2); first by rring.
  by rewrite ep mul1r.
- by rring.
- by rring.
- transitivity (ct ^+ 2 + (E^* * E) * st ^+ 2); first by rring.
  by rewrite ep mul1r.
Qed.

(** interferometer is multiplicative: U V |-> S(U) S(V) *)
Theorem interferometer_mul r k c (U V : mat) i j : (i < 2 * r)%N -> (j < 2 * c)%N ->
  interferometer r c (fun i j => \sum_(t < k) U i t * V t j) i j
  = \sum_(t < 2 * k) interferometer r k U i t * interferometer k c V t j.
Proof.
move=> hi hj; rewrite (big_split2 k (fun t => interferometer r k U i t * interferometer k c V t j)).
have [li|[i' li ->]] := half_cases hi; have [lj|[j' lj ->]] := half_cases hj; rewrite {1}/interferometer.
- rewrite npblock_ll // raddf_sum; apply: eq_bigr => t _ /=.
  by rewrite /interferometer npblock_lr // npblock_rl // !npblock_ll // Re_mulE; rring.
- rewrite npblock_lr // raddf_sum -sumrN; apply: eq_bigr => t _ /=.
  by rewrite /interferometer npblock_rr !npblock_lr // npblock_ll // Im_mulE; rring.
- rewrite npblock_rl // raddf_sum; apply: eq_bigr => t _ /=.
  by rewrite /interferometer npblock_rr !npblock_rl // npblock_ll // Im_mulE; rring.
- rewrite npblock_rr raddf_sum; apply: eq_bigr => t _ /=.
  by rewrite /interferometer !npblock_rr npblock_rl // npblock_lr // Re_mulE; rring.
Qed.
End Interf.
