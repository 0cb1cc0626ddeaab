(** C36-C40, C42: phase-space embeddings, reorderings, gates, channels. *)
From mathcomp Require Import all_ssreflect all_algebra algC zify.
From Verif Require Import Prelude PyBase ArrLoop MHafnian SpecSymp MSymplectic.
Set Implicit Arguments.
Unset Strict Implicit.
Unset Printing Implicit Defensive.
Import Order.Theory GRing.Theory Num.Theory.
Local Open Scope ring_scope.

Section Emb.
Variable R : comRingType.
Notation mat := (nat -> nat -> R).

Lemma for_row_set (A : mat) r (cols : seq nat) (v : nat -> R) i j : uniq cols ->
  for_ (iota 0 (size cols)) A (fun A b => upd2 A r (nth 0%N cols b) (v b)) i j
  = if (i == r) && (j \in cols) then v (index j cols) else A i j.
Proof.
move=> uc.
have H k : (k <= size cols)%N ->
  for_ (iota 0 k) A (fun A b => upd2 A r (nth 0%N cols b) (v b)) i j
  = if (i == r) && (j \in take k cols) then v (index j cols) else A i j.
  elim: k => [|k IH] hk; first by rewrite take0 in_nil andbF.
  rewrite for_iotaS add0n /upd2 (take_nth 0%N hk) mem_rcons in_cons IH; last by lia.
  case: (i =P r) => //= _; case: (j =P _) => [->|] //=.
  by rewrite index_uniq.
by rewrite H // take_size.
Qed.

Lemma for_block_set (A : mat) (rows cols : seq nat) (V : mat) i j : uniq rows -> uniq cols ->
  for_ (iota 0 (size rows)) A (fun A a => for_ (iota 0 (size cols)) A (fun A b =>
          upd2 A (nth 0%N rows a) (nth 0%N cols b) (V a b))) i j
  = if (i \in rows) && (j \in cols) then V (index i rows) (index j cols) else A i j.
Proof.
move=> ur uc.
have H k : (k <= size rows)%N ->
  for_ (iota 0 k) A (fun A a => for_ (iota 0 (size cols)) A (fun A b =>
          upd2 A (nth 0%N rows a) (nth 0%N cols b) (V a b))) i j
  = if (i \in take k rows) && (j \in cols) then V (index i rows) (index j cols) else A i j.
  elim: k => [|k IH] hk; first by rewrite take0 in_nil.
  rewrite for_iotaS add0n for_row_set // (take_nth 0%N hk) mem_rcons in_cons IH; last by lia.
  case: (i =P _) => [->|_] //=; case: (j \in cols); rewrite ?andbF //.
  by rewrite index_uniq.
by rewrite H // take_size.
Qed.

Lemma fancy_setE n (A : mat) rows cols V : uniq rows -> uniq cols ->
  all (fun i => (i < n)%N) rows -> all (fun i => (i < n)%N) cols ->
  exists2 B, fancy_set n A rows cols V = Ok B &
    forall i j, B i j = if (i \in rows) && (j \in cols) then V (index i rows) (index j cols) else A i j.
Proof.
move=> ur uc ar ac; rewrite /fancy_set ar ac /=; eexists; first by reflexivity.
by move=> i j; rewrite for_block_set.
Qed.

(** C37 *)
Theorem expand_passive_correct M (T : mat) modes N : uniq modes -> size modes = M -> all (fun m => (m < N)%N) modes ->
  exists2 U, expand_passive M M T modes N = Ok U & acts_as N modes T U.
Proof.
move=> um sm am; rewrite /expand_passive eqxx sm eqxx /=.
have [B -> BE] := fancy_setE (eye R) T um um am am; exists B => //; split=> [a b ha hb|i j hi hj].
  by rewrite BE !mem_nth //= !index_uniq.
by rewrite BE; case: (i \in modes) (j \in modes) => -[].
Qed.

Theorem expand_passive_errors r c (T : mat) modes N :
  (r <> c \/ size modes <> r -> expand_passive r c T modes N = Err ValueError) /\
  (r = c -> size modes = r -> has (fun m => (N <= m)%N) modes -> expand_passive r c T modes N = Err IndexError).
Proof.
split=> [|<- <- hm]; rewrite /expand_passive.
  by case: eqP => //= -> [//|] /eqP ->.
rewrite !eqxx /= /fancy_set; case: allP => //= h.
by move/hasP: hm => [m /h]; lia.
Qed.

(** ** index bookkeeping *)
Lemma sum_split n (idx : seq nat) (F : nat -> R) : uniq idx -> all (fun i => (i < n)%N) idx ->
  \sum_(k < n) F k = \sum_(a < size idx) F (nth 0%N idx a) + \sum_(k < n | (k : nat) \notin idx) F k.
Proof.
move=> ui /allP ai; rewrite (bigID (fun k : 'I_n => (k : nat) \in idx)) /=; congr (_ + _).
rewrite -(big_mkord (fun k => k \in idx)) /index_iota subn0.
rewrite -big_filter (perm_big idx) /=.
  by rewrite (big_nth 0%N) big_mkord.
apply: uniq_perm => //; first exact: filter_uniq (iota_uniq _ _).
move=> k; rewrite mem_filter mem_iota; case: (boolP (k \in idx)) => //= /ai; lia.
Qed.

Lemma acts_asE n idx (S S2 : mat) i j : acts_as n idx S S2 -> (i < n)%N -> (j < n)%N ->
  S2 i j = if (i \in idx) && (j \in idx) then S (index i idx) (index j idx) else (i == j)%:R.
Proof.
move=> [h1 h2] hi hj; case: ifP => [/andP[ii jj]|/negbT].
  by rewrite -h1 ?index_mem // !nth_index.
by rewrite negb_and; exact: h2.
Qed.

(** an embedding is determined by its specification *)
Theorem acts_as_unique n idx (S S2 S3 : mat) : acts_as n idx S S2 -> acts_as n idx S S3 -> eqm n S2 S3.
Proof. by move=> h2 h3 i j hi hj; rewrite (acts_asE h2) // (acts_asE h3). Qed.

Lemma sum_delta_l n i (F : nat -> R) : (i < n)%N -> \sum_(k < n) (i == k)%:R * F k = F i.
Proof.
move=> hi; rewrite (bigD1 (Ordinal hi)) //= eqxx mul1r big1 ?addr0 // => k /eqP ne.
by case: eqP => [e|]; rewrite ?mul0r //; case: ne; apply/val_inj.
Qed.
Lemma sum_delta_r n i (F : nat -> R) : (i < n)%N -> \sum_(k < n) F k * (k == i :> nat)%:R = F i.
Proof.
move=> hi; rewrite (bigD1 (Ordinal hi)) //= eqxx mulr1 big1 ?addr0 // => k /eqP ne.
by case: eqP => [e|]; rewrite ?mulr0 //; case: ne; apply/val_inj.
Qed.

(** embeddings on the same coordinates compose *)
Lemma acts_as_mul n idx (S T S2 T2 : mat) : uniq idx -> all (fun i => (i < n)%N) idx ->
  acts_as n idx S S2 -> acts_as n idx T T2 -> acts_as n idx (mprod (size idx) S T) (mprod n S2 T2).
Proof.
move=> ui ai hS hT; have /allP ai' := ai; split=> [a b ha hb|i j hi hj nn]; rewrite /mprod.
  have la : (nth 0%N idx a < n)%N by apply/ai'/mem_nth.
  have lb : (nth 0%N idx b < n)%N by apply/ai'/mem_nth.
  rewrite (sum_split (fun k => S2 (nth 0%N idx a) k * T2 k (nth 0%N idx b)) ui ai) [X in _ + X]big1 ?addr0.
    by apply: eq_bigr => c _; rewrite (proj1 hS) // (proj1 hT).
  move=> k nk; rewrite (proj2 hS) ?nk ?orbT // (_ : (_ == _) = false) ?mul0r //.
  by apply: contraNF nk => /eqP <-; apply: mem_nth.
case/orP: nn => nn.
  rewrite (eq_bigr (fun k : 'I_n => (i == k)%:R * T2 k j)).
    by rewrite (sum_delta_l (fun k => T2 k j)) // (proj2 hT) // nn.
  by move=> k _; rewrite (proj2 hS) // nn.
rewrite (eq_bigr (fun k : 'I_n => S2 i k * (k == j :> nat)%:R)).
  by rewrite (sum_delta_r (fun k => S2 i k)) // (proj2 hS) // nn orbT.
by move=> k _; rewrite (proj2 hT) // nn orbT.
Qed.

(** ** symplectic form under embeddings *)
Lemma quads_uniq N (w : seq nat) : uniq w -> all (fun m => (m < N)%N) w -> uniq (quads N w).
Proof.
move=> uw /allP aw; rewrite /quads cat_uniq uw map_inj_uniq ?uw ?andbT //=; last by move=> a b; lia.
by apply/hasPn => x /mapP[m mw ->]; apply/negP => /aw; lia.
Qed.
Lemma quads_lt N w : all (fun m => (m < N)%N) w -> all (fun m => (m < 2 * N)%N) (quads N w).
Proof.
move=> aw; rewrite /quads all_cat all_map; apply/andP; split; apply: sub_all aw => m /=; lia.
Qed.
Lemma size_quads N w : size (quads N w) = (2 * size w)%N.
Proof. by rewrite size_cat size_map; lia. Qed.

Lemma mem_quadsx N (w : seq nat) m : all (fun m => (m < N)%N) w -> (m < N)%N -> (m \in quads N w) = (m \in w).
Proof.
move=> /allP aw hm; rewrite mem_cat; case: (boolP (m \in w)) => //= _.
by apply/mapP => -[k kw]; lia.
Qed.
Lemma mem_quadsp N (w : seq nat) m : all (fun m => (m < N)%N) w -> ((N + m)%N \in quads N w) = (m \in w).
Proof.
move=> /allP aw; rewrite mem_cat mem_map; last by move=> a b; lia.
by case: (boolP ((N + m)%N \in w)) => [/aw|]; first by lia.
Qed.

Lemma Omega_quads N (w : seq nat) a b : uniq w -> all (fun m => (m < N)%N) w -> (a < 2 * size w)%N -> (b < 2 * size w)%N ->
  Omega R N (nth 0%N (quads N w) a) (nth 0%N (quads N w) b) = Omega R (size w) a b.
Proof.
move=> uw aw; rewrite -(size_quads N w) => ha hb; have uq := quads_uniq uw aw.
have /allP aw' := aw.
have nq c : nth 0%N (quads N w) c = if (c < size w)%N then nth 0%N w c else nth 0%N [seq (N + m)%N | m <- w] (c - size w).
  by rewrite nth_cat.
have key c d : (c < size (quads N w))%N -> (d < size (quads N w))%N ->
   (nth 0%N (quads N w) c == N + nth 0%N (quads N w) d)%N = (c == size w + d)%N.
  rewrite size_quads => hc hd.
  apply/eqP/eqP => [e|e].
    have dw : (d < size w)%N.
      case: (ltnP d (size w)) => // ge; move: e; rewrite (nq d) ltnNge ge /= (nth_map 0%N); last by lia.
      move=> e; suff : (nth 0%N (quads N w) c < 2 * N)%N by rewrite e; lia.
      by apply/(allP (quads_lt aw))/mem_nth; rewrite size_quads.
    apply/eqP; rewrite -(nth_uniq 0%N _ _ uq) ?size_quads //; last by lia.
    rewrite e (nq d) dw (nq (_ + _)%N) ifF ?addKn; last by lia.
    by rewrite (nth_map 0%N).
  have dw : (d < size w)%N by lia.
  by rewrite e (nq (_ + _)%N) ifF ?addKn ?(nq d) ?dw ?(nth_map 0%N) //; lia.
by rewrite /Omega !key.
Qed.

Lemma Omega_out N (w : seq nat) i j : all (fun m => (m < N)%N) w -> (i < 2 * N)%N -> (j < 2 * N)%N ->
  (i \in quads N w) -> (j \notin quads N w) -> Omega R N i j = 0.
Proof.
move=> aw hi hj ii; apply: contraNeq; rewrite /Omega.
case: (j =P (N + i)%N) => [ej _|_].
  by move: ii; rewrite ej mem_quadsp // mem_quadsx //; lia.
case: (i =P (N + j)%N) => [ei _|_]; last by rewrite subrr eqxx.
by move: ii; rewrite ei mem_quadsp // mem_quadsx //; lia.
Qed.

Lemma Omega_anti n i j : Omega R n i j = - Omega R n j i.
Proof. by rewrite /Omega opprB. Qed.

Lemma acts_as_symplectic N (w : seq nat) (S S2 : mat) : uniq w -> all (fun m => (m < N)%N) w ->
  acts_as (2 * N) (quads N w) S S2 -> symplectic (size w) S -> symplectic N S2.
Proof.
move=> uw aw hS sS i j hi hj; set idx := quads N w.
have ui : uniq idx := quads_uniq uw aw; have ai : all (fun m => (m < 2 * N)%N) idx := quads_lt aw.
have /allP ai' := ai.
have colin k c : (k < 2 * N)%N -> c \in idx -> k \notin idx -> S2 k c = 0.
  move=> hk cc nk; rewrite (proj2 hS) ?nk //; last exact: ai'.
  by rewrite (_ : (_ == _) = false) //; apply: contraNF nk => /eqP ->.
have colout k c : (k < 2 * N)%N -> (c < 2 * N)%N -> c \notin idx -> S2 k c = (k == c)%:R.
  by move=> hk hc nc; rewrite (proj2 hS) // nc orbT.
case: (boolP (i \in idx)) => ii; case: (boolP (j \in idx)) => jj.
- rewrite (sum_split (fun k => \sum_(l < 2 * N) S2 k i * Omega R N k l * S2 l j) ui ai) [X in _ + X]big1 ?addr0.
    rewrite -(nth_index 0%N ii) -(nth_index 0%N jj) Omega_quads -?(size_quads N w) ?index_mem //.
    rewrite -[RHS]sS -?(size_quads N w) ?index_mem //.
    have e := size_quads N w; rewrite -/idx in e.
    apply: eq_bigr => a _.
    rewrite (sum_split (fun l => S2 (nth 0%N idx a) _ * Omega R N (nth 0%N idx a) l * S2 l _) ui ai) [X in _ + X]big1 ?addr0.
      apply: eq_bigr => b _; rewrite !(proj1 hS) ?index_mem // Omega_quads -?e //.
    by move=> l nl; rewrite (colin l) ?mulr0 // mem_nth ?index_mem.
  by move=> k nk; rewrite big1 // => l _; rewrite (colin k) ?mul0r.
- rewrite [RHS](Omega_out aw) // big1 // => k _.
  rewrite (eq_bigr (fun l : 'I_(2 * N) => S2 k i * Omega R N k l * (l == j :> nat)%:R)); last first.
    by move=> l _; rewrite (colout l).
  rewrite (sum_delta_r (fun l => S2 k i * Omega R N k l)) //.
  case: (boolP ((k : nat) \in idx)) => kk; last by rewrite colin ?mul0r.
  by rewrite (Omega_out aw) ?mulr0.
- rewrite Omega_anti (Omega_out aw) // oppr0.
  rewrite (eq_bigr (fun k : 'I_(2 * N) => (i == k)%:R * \sum_(l < 2 * N) Omega R N k l * S2 l j)); last first.
    by move=> k _; rewrite big_distrr /=; apply: eq_bigr => l _; rewrite (colout k) // eq_sym mulrA.
  rewrite (sum_delta_l (fun k => \sum_(l < 2 * N) Omega R N k l * S2 l j)) // big1 // => l _.
  case: (boolP ((l : nat) \in idx)) => ll; last by rewrite (colin l) ?mulr0.
  by rewrite Omega_anti (Omega_out aw) // oppr0 mul0r.
- rewrite (eq_bigr (fun k : 'I_(2 * N) => (i == k)%:R * \sum_(l < 2 * N) Omega R N k l * S2 l j)); last first.
    by move=> k _; rewrite big_distrr /=; apply: eq_bigr => l _; rewrite (colout k) // eq_sym mulrA.
  rewrite (sum_delta_l (fun k => \sum_(l < 2 * N) Omega R N k l * S2 l j)) //.
  rewrite (eq_bigr (fun l : 'I_(2 * N) => Omega R N i l * (l == j :> nat)%:R)); last first.
    by move=> l _; rewrite (colout l).
  by rewrite (sum_delta_r (fun l => Omega R N i l)).
Qed.
End Emb.

Section Expand.
Variable R : comRingType.
Notation mat := (nat -> nat -> R).

Lemma index_map_addN N (w : seq nat) m : m \in w -> index (N + m)%N [seq (N + x)%N | x <- w] = index m w.
Proof. by move=> mw; rewrite index_map //; move=> a b; lia. Qed.

Lemma quads_addC N (w : seq nat) : w ++ [seq (m + N)%N | m <- w] = quads N w.
Proof. by congr (_ ++ _); apply: eq_map => m; rewrite addnC. Qed.

Lemma uniq_mapN N (w : seq nat) : uniq w -> uniq [seq (m + N)%N | m <- w].
Proof. by move=> uw; rewrite map_inj_uniq // => a b; lia. Qed.

(** C36, at least two modes: expand acts as S on the quadratures of the chosen modes *)
Lemma expand_multi M (S : mat) (w : seq nat) N : M <> 1%N -> uniq w -> size w = M -> all (fun m => (m < N)%N) w ->
  exists2 S2, expand M S w N = Ok S2 & acts_as (2 * N) (quads N w) S S2.
Proof.
move=> /eqP/negPf M1 uw sw aw; rewrite /expand M1 sw eqxx /=.
have /allP aw' := aw.
have uN := uniq_mapN N uw; set wN := [seq _ | _ <- _] in uN *.
have a1 : all (fun m => (m < 2 * N)%N) w by apply: sub_all aw => m /=; lia.
have a2 : all (fun m => (m < 2 * N)%N) wN by rewrite all_map; apply: sub_all aw => m /=; lia.
have [B1 -> E1] := fancy_setE (eye R) S uw uw a1 a1; rewrite [bind _ _]/=.
have [B2 -> E2] := fancy_setE B1 (mshift M M S) uN uN a2 a2; rewrite [bind _ _]/=.
have [B3 -> E3] := fancy_setE B2 (mshift 0 M S) uw uN a1 a2; rewrite [bind _ _]/=.
have [B4 -> E4] := fancy_setE B3 (mshift M 0 S) uN uw a2 a1.
exists B4 => //.
have dis m : m \in w -> m \in wN = false.
  by move=> mw; apply/mapP => -[x xw]; move: (aw' _ mw) (aw' _ xw); lia.
have disN m : m \in wN -> m \in w = false by move=> mw; apply/negbTE/negP => /dis; rewrite mw.
split=> [a b|i j hi hj].
  rewrite size_quads sw => ha hb; rewrite -quads_addC -/wN !nth_cat sw.
  have szN : size wN = M by rewrite size_map.
  have mN c : (M <= c)%N -> (c < 2 * M)%N -> nth 0%N wN (c - M) \in wN by move=> ? ?; apply: mem_nth; rewrite szN; lia.
  have mw c : (c < M)%N -> nth 0%N w c \in w by move=> ?; apply: mem_nth; rewrite sw.
  rewrite E4 E3 E2 E1 /mshift.
  case: (ltnP a M) => la; case: (ltnP b M) => lb.
  - by rewrite !(dis _ (mw _ _)) //= !mw //= !index_uniq ?sw.
  - rewrite (dis _ (mw _ _)) //= mw //= mN //= !index_uniq ?sw ?szN //; last by lia.
    by congr (S _ _); lia.
  - rewrite mN //= mw //= !index_uniq ?sw ?szN //; last by lia.
    by congr (S _ _); lia.
  - rewrite !(disN _ (mN _ _ _)) //= !mN //= !index_uniq ?szN //; try lia.
    by congr (S _ _); lia.
rewrite -quads_addC -/wN !mem_cat !negb_or => nn; rewrite E4 E3 E2 E1.
by case: (i \in w) (j \in w) (i \in wN) (j \in wN) nn => -[] [] [].
Qed.

(** single-mode matrix repeated on k modes *)
Definition dsum (k : nat) (S : mat) : mat := fun a b =>
  if (a %% k == b %% k)%N then S (a %/ k)%N (b %/ k)%N else 0.

(** C36, one-mode S: it is applied to each listed mode *)
Theorem expand_single_correct (S : mat) (w : seq nat) N : all (fun m => (m < N)%N) w ->
  exists2 S2, expand 1 S w N = Ok S2 &
  forall i j, (i < 2 * N)%N -> (j < 2 * N)%N ->
    S2 i j = if (i %% N == j %% N)%N && (i %% N \in w)%N then S (i %/ N)%N (j %/ N)%N else (i == j)%:R.
Proof.
move=> aw; rewrite /expand eqxx; set f := (X in foldM X).
have dm i : (i < 2 * N)%N -> exists q r, [/\ (i = q * N + r)%N, (r < N)%N, (q < 2)%N, (i %% N = r)%N & (i %/ N = q)%N].
  move=> hi; exists (i %/ N)%N, (i %% N)%N; split=> //; first exact: divn_eq.
    by rewrite ltn_mod; lia.
  by rewrite ltn_divLR //; lia.
have H (A : mat) (v : seq nat) : all (fun m => (m < N)%N) v -> exists2 S2, foldM f A v = Ok S2 &
    forall i j, (i < 2 * N)%N -> (j < 2 * N)%N ->
    S2 i j = if (i %% N == j %% N)%N && (i %% N \in v)%N then S (i %/ N)%N (j %/ N)%N else A i j.
  elim: v A => [|m v IH] A /=; first by exists A => // i j _ _; rewrite andbF.
  case/andP=> hm hv; rewrite [f A m]/f (_ : (m + N < 2 * N)%N); last by lia.
  rewrite [bind _ _]/=; have [S2 -> E] := IH (upd2 (upd2 (upd2 (upd2 A m m (S 0%N 0%N)) (m + N) (m + N) (S 1%N 1%N)) m (m + N) (S 0%N 1%N)) (m + N) m (S 1%N 0%N)) hv.
  exists S2 => // i j hi hj; rewrite E // in_cons.
  have [q [r [ei hr hq -> ->]]] := dm i hi; have [q' [r' [ej hr' hq' -> ->]]] := dm j hj.
  have ri : (i == m + N)%N || (i == m) -> r = m.
    have [q0|q1] : q = 0%N \/ q = 1%N by lia.
      by rewrite q0 in ei; lia.
    by rewrite q1 in ei; lia.
  have rj : (j == m + N)%N || (j == m) -> r' = m.
    have [q0|q1] : q' = 0%N \/ q' = 1%N by lia.
      by rewrite q0 in ej; lia.
    by rewrite q1 in ej; lia.
  case: (r =P r') => /= er; last first.
    rewrite /upd2; case: (boolP ((i == m + N)%N || (i == m))) => [/ri rm|]; last first.
      by rewrite negb_or => /andP[/negPf -> /negPf ->].
    case: (boolP ((j == m + N)%N || (j == m))) => [/rj rm'|]; first by rewrite rm rm' in er.
    by rewrite negb_or => /andP[/negPf -> /negPf ->]; rewrite !andbF.
  case: (boolP (r \in v)) => rv; first by rewrite orbT.
  rewrite orbF /upd2; case: (r =P m) => [rm|nm].
    have [q0|q1] : q = 0%N \/ q = 1%N by lia.
      have [q0'|q1'] : q' = 0%N \/ q' = 1%N by lia.
        have e1 : (i == m + N)%N = false by lia.
        have e2 : (j == m + N)%N = false by lia.
        have e3 : (i == m)%N by lia. have e4 : (j == m)%N by lia.
        by rewrite e1 e2 e3 e4 q0 q0' /= .
      have e1 : (i == m + N)%N = false by lia.
      have e2 : (j == m + N)%N by lia.
      have e3 : (i == m)%N by lia.
      by rewrite e1 e2 e3 q0 q1' /=.
    have [q0'|q1'] : q' = 0%N \/ q' = 1%N by lia.
      have e1 : (i == m + N)%N by lia.
      have e4 : (j == m)%N by lia.
      by rewrite e1 e4 q1 q0' /=.
    have e1 : (i == m + N)%N by lia. have e2 : (j == m + N)%N by lia.
    have e3 : (i == m)%N = false by lia. have e4 : (j == m)%N = false by lia.
    by rewrite e1 e2 e3 e4 q1 q1' /=.
  have : ~~ ((i == m + N)%N || (i == m)) by apply/negP => /ri.
  by rewrite negb_or => /andP[/negPf -> /negPf ->].
exact: H.
Qed.

Lemma big_split2 k (F : nat -> R) : \sum_(c < 2 * k) F c = \sum_(c < k) (F c + F (k + c)%N).
Proof.
have -> : (2 * k = k + k)%N by lia.
by rewrite big_split_ord -big_split.
Qed.

Lemma divkl k c : (c < k)%N -> (c %/ k = 0)%N /\ ((k + c) %/ k = 1)%N.
Proof. by move=> h; rewrite divn_small // divnDl // divnn divn_small //; split=> //; rewrite (leq_ltn_trans _ h). Qed.
Lemma modkl k c : (c < k)%N -> (c %% k = c)%N /\ ((k + c) %% k = c)%N.
Proof. by move=> h; rewrite modnDl modn_small. Qed.

Lemma dsum_mul k (S T : mat) : eqm (2 * k) (mprod (2 * k) (dsum k S) (dsum k T)) (dsum k (mprod 2 S T)).
Proof.
move=> i j hi hj; rewrite /mprod (big_split2 k (fun c => dsum k S i c * dsum k T c j)) /dsum.
have hk : (0 < k)%N by lia.
have li : (i %% k < k)%N by rewrite ltn_mod.
rewrite (bigD1 (Ordinal li)) //= big1 ?addr0; last first.
  move=> c /eqP ne; have [-> ->] := modkl (ltn_ord c).
  by case: eqP => [e|_]; rewrite ?mul0r ?addr0 //; case: ne; apply/val_inj; rewrite /= e.
have [-> ->] := modkl li; have [-> ->] := divkl li; rewrite eqxx !big_ord_recl big_ord0 addr0 /=.
by case: eqP => _; rewrite ?mulr0 ?addr0.
Qed.

(** pairing of the two quadratures *)
Lemma symp_pair n (S : mat) i j :
  \sum_(k < 2 * n) \sum_(l < 2 * n) S k i * Omega R n k l * S l j
  = \sum_(k < n) (S k i * S (n + k)%N j - S (n + k)%N i * S k j).
Proof.
rewrite (big_split2 _ (fun k => \sum_(l < 2 * n) S k i * Omega R n k l * S l j)).
apply: eq_bigr => k _; have hk := ltn_ord k; congr (_ + _).
  rewrite (eq_bigr (fun l : 'I_(2 * n) => S k i * S l j * (l == (n + k)%N :> nat)%:R)).
    by rewrite (sum_delta_r (fun l => S k i * S l j)) //; lia.
  move=> l _; have o1 : ((k : nat) == n + l)%N = false by apply/eqP; lia.
  rewrite /Omega o1 subr0.
  by rewrite mulrAC.
rewrite (eq_bigr (fun l : 'I_(2 * n) => - (S (n + k)%N i * S l j) * (l == k :> nat)%:R)).
  by rewrite (sum_delta_r (fun l => - (S (n + k)%N i * S l j))) //; lia.
move=> l _; have hl := ltn_ord l; have o1 : ((l : nat) == n + (n + k))%N = false by apply/eqP; lia.
rewrite /Omega o1 sub0r.
by rewrite eqn_add2l eq_sym mulrAC mulrN -mulNr.
Qed.

Lemma dsum_symplectic k (S : mat) : symplectic 1 S -> symplectic k (dsum k S).
Proof.
move=> sS i j hi hj; rewrite symp_pair /dsum.
have hk : (0 < k)%N by lia.
have li : (i %% k < k)%N by rewrite ltn_mod.
rewrite (bigD1 (Ordinal li)) //= big1 ?addr0; last first.
  move=> c /eqP ne; have [-> ->] := modkl (ltn_ord c).
  by case: eqP => [e|_]; rewrite ?mul0r ?subrr //; case: ne; apply/val_inj; rewrite /= e.
have [-> ->] := modkl li; have [-> ->] := divkl li; rewrite eqxx.
have := sS (i %/ k)%N (j %/ k)%N; rewrite symp_pair big_ord_recl big_ord0 addr0 /= addn0.
rewrite !ltn_divLR // => /(_ hi hj).
have ei := divn_eq i k; have ej := divn_eq j k.
have lj : (j %% k < k)%N by rewrite ltn_mod.
have qi : (i %/ k < 2)%N by rewrite ltn_divLR.
have qj : (j %/ k < 2)%N by rewrite ltn_divLR.
move: (i %/ k)%N (i %% k)%N (j %/ k)%N (j %% k)%N ei ej li lj qi qj => q r q' r' -> -> lr lr' lq lq'.
case: (r =P r') => [er e|ne _].
  rewrite e /Omega; congr (_%:R - _%:R); congr nat_of_bool; apply/eqP/eqP; nia.
rewrite !mulr0 subrr /Omega.
have -> : (q' * k + r' == k + (q * k + r))%N = false.
  apply/eqP => e; apply: ne; have : q' = 0%N \/ q' = 1%N by lia.
  by have : q = 0%N \/ q = 1%N by [lia]; move=> [?|?] [?|?]; subst; lia.
have -> : (q * k + r == k + (q' * k + r'))%N = false.
  apply/eqP => e; apply: ne; have : q' = 0%N \/ q' = 1%N by lia.
  by have : q = 0%N \/ q = 1%N by [lia]; move=> [?|?] [?|?]; subst; lia.
by rewrite subrr.
Qed.

Lemma eq_symplectic n (S T : mat) : eqm (2 * n) S T -> symplectic n S -> symplectic n T.
Proof.
move=> e sS i j hi hj; rewrite -[RHS]sS //; apply: eq_bigr => k _; apply: eq_bigr => l _.
by rewrite -!e.
Qed.

(** one-mode S, seen as an embedding of S (+) ... (+) S *)
Lemma expand_single_acts (S : mat) (w : seq nat) N : all (fun m => (m < N)%N) w ->
  exists2 S2, expand 1 S w N = Ok S2 &
    acts_as (2 * N) (quads N (undup w)) (dsum (size (undup w)) S) S2.
Proof.
move=> aw; have [S2 -> E] := expand_single_correct S aw; exists S2 => //.
have aw' : all (fun m => (m < N)%N) (undup w) by apply/allP => m; rewrite mem_undup; move: m; apply/allP.
set v := undup w in aw' *; have uv : uniq v by apply: undup_uniq.
have /allP avx := aw'.
have nthv c : (c < 2 * size v)%N -> [/\ (nth 0%N (quads N v) c < 2 * N)%N, (nth 0%N (quads N v) c %% N = nth 0%N v (c %% size v))%N,
   (nth 0%N (quads N v) c %/ N = c %/ size v)%N, (c %% size v < size v)%N & (nth 0%N v (c %% size v) < N)%N].
  move=> hc; have s0 : (0 < size v)%N by lia.
  have lt : (c %% size v < size v)%N by rewrite ltn_mod.
  have lN : (nth 0%N v (c %% size v) < N)%N by apply/avx/mem_nth.
  rewrite /quads nth_cat; case: (ltnP c (size v)) => lc.
    have lcN : (nth 0%N v c < N)%N by apply/avx/mem_nth.
    by rewrite !modn_small // !divn_small //; split=> //; lia.
  have lc2 : (c - size v < size v)%N by lia.
  have lcN : (nth 0%N v (c - size v) < N)%N by apply/avx/mem_nth.
  have ec : (size v + (c - size v) = c)%N by lia.
  rewrite (nth_map 0%N) //.
  have [_ e1] := modkl lc2; have [_ e2] := divkl lc2; rewrite ec in e1 e2.
  have [_ e3] := modkl lcN; have [_ e4] := divkl lcN.
  by rewrite e1 e2 e3 e4; split=> //; rewrite mul2n -addnn ltn_add2l.
split=> [a b|i j hi hj nn].
  rewrite size_quads => ha hb.
  have [la ma da la' _] := nthv a ha; have [lb mb db lb' _] := nthv b hb.
  rewrite E // ma mb da db -(mem_undup w) -/v mem_nth // andbT nth_uniq // /dsum.
  case: eqP => // ne.
  have : nth 0%N (quads N v) a == nth 0%N (quads N v) b = false; last by move->.
  rewrite nth_uniq ?size_quads //; last exact: quads_uniq.
  by apply/eqP => e; rewrite e in ne.
rewrite E //; case: ifP => // /andP[/eqP em]; rewrite -(mem_undup w) -/v => mw.
have inq c : (c < 2 * N)%N -> (c %% N \in v)%N -> c \in quads N v.
  move=> hc hv; have N0 : (0 < N)%N by lia.
  case: (ltnP c N) => lc; first by move: hv; rewrite modn_small // => hv; rewrite mem_cat hv.
  have ec : (c = N + (c - N))%N by lia.
  have lc2 : (c - N < N)%N by lia.
  by rewrite ec mem_quadsp //; have [_ e] := modkl lc2; rewrite -e -ec.
by move: nn; rewrite (inq i) // (inq j) // -em.
Qed.

(** ** C36 *)
(** Meaning of "modes" in the docstring: distinct modes below N, as many as S has, or, for a one-mode
    S, any list of modes *)
Definition modes_ok (M : nat) (w : seq nat) (N : nat) : bool :=
  all (fun m => (m < N)%N) w && ((M == 1%N) || (uniq w && (size w == M))).

Theorem expand_correct M (S : mat) (w : seq nat) N : uniq w -> size w = M -> all (fun m => (m < N)%N) w ->
  exists2 S2, expand M S w N = Ok S2 & acts_as (2 * N) (quads N w) S S2.
Proof.
move=> uw sw aw; case: (M =P 1%N) => [M1|/expand_multi]; last exact.
have [S2 E [h1 h2]] := expand_single_acts S aw.
rewrite undup_id // in h1 h2.
exists S2; first by rewrite M1.
split=> // a b ha hb; rewrite h1 //.
move: ha hb; rewrite size_quads sw M1 /dsum !modn1 !divn1 //.
Qed.

Lemma expand_acts M (S : mat) (w : seq nat) N : modes_ok M w N ->
  exists v D, [/\ uniq v, all (fun m => (m < N)%N) v,
    (exists2 S2, expand M S w N = Ok S2 & acts_as (2 * N) (quads N v) (D S) S2),
    (forall T, exists2 S2, expand M T w N = Ok S2 & acts_as (2 * N) (quads N v) (D T) S2)
    & (forall T, symplectic M T -> symplectic (size v) (D T)) /\
      (forall T U, eqm (2 * size v) (mprod (2 * size v) (D T) (D U)) (D (mprod (2 * M) T U)))].
Proof.
case/andP=> aw /orP[/eqP M1|/andP[uw /eqP sw]].
  exists (undup w), (dsum (size (undup w))); rewrite M1; split=> //.
  - exact: undup_uniq.
  - by apply/allP => m; rewrite mem_undup; move: m; apply/allP.
  - exact: expand_single_acts.
  - by move=> T; exact: expand_single_acts.
  - split; first by move=> T; exact: dsum_symplectic.
    by move=> T U; exact: dsum_mul.
exists w, id; split=> //; first exact: expand_correct.
  by move=> T; exact: expand_correct.
by rewrite sw; split.
Qed.

Theorem expand_mul M (S T : mat) (w : seq nat) N : modes_ok M w N ->
  exists A B D, [/\ expand M S w N = Ok A, expand M T w N = Ok B,
    expand M (mprod (2 * M) S T) w N = Ok D & eqm (2 * N) D (mprod (2 * N) A B)].
Proof.
move=> ok; have [v [D [uv av _ h [_ Dm]]]] := expand_acts S ok.
have [A EA hA] := h S; have [B EB hB] := h T; have [P EP hP] := h (mprod (2 * M) S T).
exists A, B, P; split=> //; apply: (acts_as_unique hP).
have [h1 h2] := acts_as_mul (quads_uniq uv av) (quads_lt av) hA hB; split=> // a b ha hb.
by rewrite h1 // size_quads Dm // -(size_quads N v).
Qed.

Theorem expand_symplectic M (S : mat) (w : seq nat) N : modes_ok M w N -> symplectic M S ->
  exists2 S2, expand M S w N = Ok S2 & symplectic N S2.
Proof.
move=> ok sS; have [v [D [uv av [S2 E hS2] _ [Ds _]]]] := expand_acts S ok.
by exists S2 => //; apply: (acts_as_symplectic uv av hS2); exact: Ds.
Qed.

(** matrices acting on disjoint coordinates commute *)
Lemma acts_as_comm n idx idx' (S T S2 T2 : mat) : uniq idx -> uniq idx' ->
  all (fun i => (i < n)%N) idx -> all (fun i => (i < n)%N) idx' -> (forall i, i \in idx -> i \notin idx') ->
  acts_as n idx S S2 -> acts_as n idx' T T2 -> eqm n (mprod n S2 T2) (mprod n T2 S2).
Proof.
move=> ui ui' ai ai' dis hS hT i j hi hj; rewrite /mprod.
have dS a b : (a < n)%N -> (b < n)%N -> (a \notin idx) || (b \notin idx) -> S2 a b = (a == b)%:R := proj2 hS a b.
have dT a b : (a < n)%N -> (b < n)%N -> (a \notin idx') || (b \notin idx') -> T2 a b = (a == b)%:R := proj2 hT a b.
case: (boolP (i \in idx)) => ii; case: (boolP (j \in idx)) => jj.
- rewrite (eq_bigr (fun k : 'I_n => S2 i k * (k == j :> nat)%:R)); last by move=> k _; rewrite dT // (dis j jj) orbT.
  rewrite [RHS](eq_bigr (fun k : 'I_n => (i == k)%:R * S2 k j)); last by move=> k _; rewrite dT // (dis i ii).
  by rewrite (sum_delta_r (fun k => S2 i k)) // (sum_delta_l (fun k => S2 k j)).
- rewrite [RHS](eq_bigr (fun k : 'I_n => (i == k)%:R * S2 k j)); last by move=> k _; rewrite dT // (dis i ii).
  rewrite (sum_delta_l (fun k => S2 k j)) //.
  rewrite (eq_bigr (fun k : 'I_n => S2 i k * (k == j :> nat)%:R)); first by rewrite (sum_delta_r (fun k => S2 i k)).
  move=> k _; case: (boolP ((k : nat) \in idx)) => kk; first by rewrite dT // (dis k kk).
  rewrite dS ?kk ?orbT // (_ : (i == k) = false) ?mul0r //.
  by apply: contraNF kk => /eqP <-.
- rewrite [LHS](eq_bigr (fun k : 'I_n => (i == k)%:R * T2 k j)); last by move=> k _; rewrite dS ?ii.
  rewrite (sum_delta_l (fun k => T2 k j)) //.
  rewrite [RHS](eq_bigr (fun k : 'I_n => T2 i k * (k == j :> nat)%:R)); first by rewrite (sum_delta_r (fun k => T2 i k)).
  move=> k _; case: (boolP ((k : nat) \in idx)) => kk; last by rewrite dS // kk.
  rewrite dT ?(dis k kk) ?orbT // (_ : (i == k) = false) ?mul0r //.
  by apply: contraNF ii => /eqP ->.
- rewrite [LHS](eq_bigr (fun k : 'I_n => (i == k)%:R * T2 k j)); last by move=> k _; rewrite dS ?ii.
  rewrite [RHS](eq_bigr (fun k : 'I_n => T2 i k * (k == j :> nat)%:R)); last by move=> k _; rewrite dS ?jj ?orbT.
  by rewrite (sum_delta_l (fun k => T2 k j)) // (sum_delta_r (fun k => T2 i k)).
Qed.

Theorem expand_disjoint_commute M M' (S T : mat) (w w' : seq nat) N : modes_ok M w N -> modes_ok M' w' N ->
  (forall m, m \in w -> m \notin w') ->
  exists A B, [/\ expand M S w N = Ok A, expand M' T w' N = Ok B & eqm (2 * N) (mprod (2 * N) A B) (mprod (2 * N) B A)].
Proof.
move=> ok ok' dis.
have h M0 (S0 : mat) w0 : modes_ok M0 w0 N -> exists v D A, [/\ uniq v, v =i w0, all (fun m => (m < N)%N) v,
    expand M0 S0 w0 N = Ok A & acts_as (2 * N) (quads N v) D A].
  case/andP=> aw /orP[/eqP M1|/andP[uw /eqP sw]].
    have [A EA hA] := expand_single_acts S0 aw; rewrite M1.
    exists (undup w0), (dsum (size (undup w0)) S0), A; split=> //; first exact: undup_uniq.
      exact: mem_undup.
    by apply/allP => m; rewrite mem_undup; move: m; apply/allP.
  by have [A EA hA] := expand_correct S0 uw sw aw; exists w0, S0, A.
have [v [D [A [uv ev av EA hA]]]] := h _ S _ ok; have [v' [D' [B [uv' ev' av' EB hB]]]] := h _ T _ ok'.
exists A, B; split=> //.
apply: (acts_as_comm (quads_uniq uv av) (quads_uniq uv' av') (quads_lt av) (quads_lt av') _ hA hB) => i.
have /allP avx := av; have /allP avx' := av'.
rewrite !mem_cat negb_or => /orP[iv|/mapP[m mv ->]].
  apply/andP; split; first by rewrite ev' dis // -ev.
  by apply/mapP => -[m mv em]; move: (avx _ iv); lia.
apply/andP; split; first by apply/negP => /avx'; lia.
by rewrite mem_map; [rewrite ev' dis // -ev | move=> a b; lia].
Qed.

Theorem expand_errors M (S : mat) (w : seq nat) N :
  (M <> 1%N -> size w <> M -> expand M S w N = Err ValueError) /\
  (M = 1%N \/ size w = M -> has (fun m => (N <= m)%N) w -> expand M S w N = Err IndexError).
Proof.
split=> [/eqP/negPf M1 /eqP sw|h hw]; rewrite /expand; first by rewrite M1 sw.
case: (M =P 1%N) h => [_ _|ne [//|sw]].
  set f := (X in foldM X); move: (eye R); elim: w hw => [//|m w IH] /= hw A.
  rewrite [f A m]/f; case: ltnP => // lt; rewrite [bind _ _]/=; apply: IH.
  by move: hw => /orP[|//]; lia.
rewrite sw eqxx /=; set wN := [seq _ | _ <- _].
have bad (A V : mat) : fancy_set (2 * N) A wN wN V = Err IndexError.
  rewrite /fancy_set (_ : all _ wN = false) //; apply/negbTE/allPn.
  by have /hasP[m mw hm] := hw; exists (m + N)%N; [exact: map_f | lia].
case e : (fancy_set _ _ w w S) => [B|x] /=; first by rewrite bad.
by move: e; rewrite /fancy_set; case: ifP => // _ [<-].
Qed.
End Expand.
