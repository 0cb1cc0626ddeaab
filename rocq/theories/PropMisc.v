(** C51, C52: theorems about the helpers modelled in MMisc. *)
From mathcomp Require Import all_ssreflect all_algebra.
From mathcomp Require Import zify.
From Verif Require Import PyBase ArrLoop MMisc.
Set Implicit Arguments.
Unset Strict Implicit.
Unset Printing Implicit Defensive.
Import GRing.Theory Num.Theory.

(** ** C51 *)
(** Python ints 0..M-1 *)
Definition pynats (l : seq nat) : seq pyelt := [seq PyInt (Posz i) | i <- l].

Lemma bad_pynats M l : has (fun x => match as_int x with None => true | Some z => (z < 0)%R || (Posz M - 1 < z)%R end)
   (pynats l) = ~~ all (fun i => i < M) l.
Proof.
rewrite has_map -has_predC; apply: eq_has => i /=.
by apply/idP/idP; lia.
Qed.

(** A list, tuple or range of Python ints is returned unchanged (as a list) exactly when every mode is in
    0..M-1, and is a ValueError otherwise; [split] is then ignored. *)
Theorem get_partition_modes (mk : seq nat -> pymodes) split M l :
  mk = (fun l => MList (pynats l)) \/ mk = (fun l => MTuple (pynats l)) \/ mk = (fun l => MRange (map Posz l)) ->
  get_partition (mk l) split M = if all (fun i => i < M) l then Ok (pynats l) else Err ValueError.
Proof.
have e : map PyInt (map Posz l) = pynats l by rewrite -map_comp.
by move=> [->|[->|->]]; rewrite /get_partition /py_iter ?e bad_pynats; case: all.
Qed.
(** A single int mode is the one-element list. *)
Theorem get_partition_int split M (i : nat) :
  get_partition (MElt (PyInt i)) split M = if i < M then Ok (pynats [:: i]) else Err ValueError.
Proof.
rewrite /get_partition /=; case: ltnP => h; first by rewrite ifF //; lia.
by rewrite ifT //; lia.
Qed.
(** Otherwise [split] gives the first [split] modes. *)
Theorem get_partition_split M (k : nat) :
  get_partition MNone (Some (PyInt k)) M = if k < M then Ok (pynats (iota 0 k)) else Err ValueError.
Proof.
rewrite /get_partition /=; case: ltnP => h; first by rewrite ifF //; lia.
by rewrite ifT //; lia.
Qed.
(** Whatever is accepted lists modes inside 0..M-1 only. *)
Theorem get_partition_range modes_A split M r : get_partition modes_A split M = Ok r ->
  exists l : seq nat, map as_int r = map (fun i => Some (Posz i)) l /\ all (fun i => i < M) l.
Proof.
have key s : has (fun x => match as_int x with None => true | Some z => (z < 0)%R || (Posz M - 1 < z)%R end) s = false ->
    exists l : seq nat, map as_int s = map (fun i => Some (Posz i)) l /\ all (fun i => i < M) l.
  elim: s => [|x s IH] /=; first by exists [::].
  case/norP; case e: (as_int x) => [z|] // hz /negbTE /IH[l [el hl]].
  case: z e hz => n e hz; last by lia.
  exists (n :: l); rewrite /= el hl andbT; split; first by [].
  by move: hz; lia.
rewrite /get_partition; case: modes_A => [|x|l|l|l|l].
- case: split => [s|] //; case e: (as_int s) => [z|] //; case: ifP => // hz [<-].
  case: z {e} hz => n hz; last by exists [::].
  exists (iota 0 n); split; first by rewrite /range_z -map_comp.
  by apply/allP => i; rewrite mem_iota; lia.
- case e: (as_int x) => [z|] //; case: ifP => // hz [<-]; apply: key; by rewrite /= e hz.
- by case: ifP => // h [<-]; exact: key.
- by case: ifP => // h [<-]; exact: key.
- by case: ifP => // h [<-]; exact: key.
- by case: ifP => // h [<-]; exact: key.
Qed.
(** The natural reading "an array of valid modes is accepted" is false: no non-empty NumPy integer array is, *)
Theorem get_partition_array_refuted l split M : l <> [::] -> get_partition (MArray l) split M = Err ValueError.
Proof. by case: l. Qed.
(** and a NumPy integer scalar is a TypeError. *)
Theorem get_partition_npint z split M : get_partition (MElt (PyNpInt z)) split M = Err TypeError.
Proof. by []. Qed.
(** A negative [split] is silently accepted and gives the empty subset. *)
Theorem get_partition_negative_split (k M : nat) : 0 < k -> get_partition MNone (Some (PyInt (- (Posz k))%R)) M = Ok [::].
Proof.
case: k => // k _; rewrite /get_partition /as_int.
have -> : (- (Posz k.+1))%R = Negz k by rewrite NegzE.
by rewrite ifF //; lia.
Qed.
Theorem get_partition_none M : get_partition MNone None M = Err TypeError. Proof. by []. Qed.

(** ** C52 *)
Lemma dec2bin_loopE n fuel d k nn : nn < fuel -> (nn == 0) || (k < n) && (nn < 2 ^ (n - k)) ->
  exists2 d', dec2bin_loop n fuel d k nn = Ok d' &
    forall i, i < n -> (if i < n - k then d' i = if nn %/ 2 ^ (n - 1 - k - i) == 0 then d i else nn %/ 2 ^ (n - 1 - k - i) %% 2 else d' i = d i).
Proof.
elim: fuel d k nn => [|fuel IH] d k nn //= hf hb.
case: (posnP nn) => [->|nn0] /=; first by exists d => // i hi; rewrite div0n eqxx; case: ifP.
have kn : k < n by move: hb; rewrite gtn_eqF //= => /andP[].
have hnn : nn < 2 ^ (n - k) by move: hb; rewrite gtn_eqF //= => /andP[].
rewrite kn.
have [] := IH (fun i => if i == n - 1 - k then nn %% 2 else d i) k.+1 (nn %/ 2).
- by apply: leq_trans (_ : nn <= _); rewrite ?ltn_Pdiv.
- case: (posnP (nn %/ 2)) => //= h2; apply/andP; split; last first.
    by rewrite ltn_divLR // -expnSr -subSn // subSS.
  move: hnn; have [//|le] := ltnP k.+1 n; have -> : n - k = 1 by lia.
  by rewrite expn1 => h; move: h2; rewrite divn_small.
move=> d' -> hd'; exists d' => // i hi; have := hd' i hi.
case: (ltnP i (n - k.+1)) => h1.
  have -> : i < n - k by lia.
  have -> : (i == n - 1 - k) = false by apply/eqP; lia.
  rewrite -divnMA -expnS; have -> : (n - 1 - k.+1 - i).+1 = n - 1 - k - i by lia.
  by [].
case: (ltnP i (n - k)) => h2 ->.
  have -> : i = n - 1 - k by lia.
  by rewrite eqxx subnn expn0 divn1 gtn_eqF.
by have -> : (i == n - 1 - k) = false by apply/eqP; lia.
Qed.

(** dec2bin: the selected labels are the positions of the binary digits 1, most significant digit first *)
Theorem dec2bin_correct num n : num < 2 ^ n ->
  dec2bin num n = Ok [seq i <- iota 0 n | odd (num %/ 2 ^ (n - 1 - i))].
Proof.
move=> h; rewrite /dec2bin.
have [] := @dec2bin_loopE n num.+1 (fun=> 0) 0 num (ltnSn _).
  case: (posnP num) => //= n0; rewrite subn0 h andbT; case: n h => //; rewrite expn0; lia.
move=> d -> hd /=; congr Ok; apply: eq_in_filter => i; rewrite mem_iota add0n => /andP[_ hi].
have := hd i hi; rewrite subn0 hi subn0 => E; rewrite {}E.
by case: (num %/ _ =P 0) => [->|_] //; rewrite modn2 eqb0 negbK.
Qed.
(** distinct labels select distinct subsets, and every subset is selected: a bijection with the power set *)
Theorem dec2bin_inj num num' n : num < 2 ^ n -> num' < 2 ^ n -> dec2bin num n = dec2bin num' n -> num = num'.
Proof.
move=> h h'; rewrite !dec2bin_correct // => -[e].
have bit k : k < n -> odd (num %/ 2 ^ k) = odd (num' %/ 2 ^ k).
  move=> hk; have : (n - 1 - k \in [seq i <- iota 0 n | odd (num %/ 2 ^ (n - 1 - i))]) = (n - 1 - k \in [seq i <- iota 0 n | odd (num' %/ 2 ^ (n - 1 - i))]) by rewrite e.
  rewrite !mem_filter mem_iota; have -> : n - 1 - (n - 1 - k) = k by lia.
  have -> : (0 <= n - 1 - k < 0 + n) by lia.
  by rewrite !andbT.
elim: n num num' h h' bit {e} => [|n IH] a b; first by rewrite expn0 => ha hb _; lia.
rewrite expnS => ha hb bit.
have o : odd a = odd b by have := bit 0 isT; rewrite expn0 !divn1.
have hh : a %/ 2 = b %/ 2.
  apply: IH; try by rewrite ltn_divLR // mulnC.
  by move=> k hk; have := bit k.+1 hk; rewrite expnS -!divnMA.
by rewrite (divn_eq a 2) (divn_eq b 2) hh !modn2 o.
Qed.
Theorem dec2bin_overflow num n : 2 ^ n <= num -> dec2bin num n = Err IndexError.
Proof.
have key fuel d k nn : nn < fuel -> k <= n -> 2 ^ (n - k) <= nn -> dec2bin_loop n fuel d k nn = Err IndexError.
  elim: fuel d k nn => [|fuel IH] d k nn //= hf hk h.
  have nn0 : 0 < nn by apply: leq_trans h; rewrite expn_gt0.
  rewrite nn0; case: ltnP => // kn; apply: IH => //; first by apply: leq_trans (_ : nn <= _); rewrite ?ltn_Pdiv.
  by rewrite leq_divRL // -expnSr -subSn // subSS.
by move=> h; rewrite /dec2bin key // subn0.
Qed.

(** invert_permutation *)
Lemma for_assign (l : seq nat) o (s0 : nat -> nat) x : uniq l ->
  for_ (zip l (iota o (size l))) s0 (fun s pi => fun x => if x == pi.1 then pi.2 else s x) x =
  if x \in l then o + index x l else s0 x.
Proof.
elim: l o s0 => [|a l IH] o s0 //= /andP[al ul].
rewrite -/(for_ _ _ _) IH // inE; have [->|ne] := eqVneq x a; first by rewrite (negPf al) /= ?eqxx addn0.
by case: ifP => _ //=; rewrite addSnnS.
Qed.
Theorem invert_permutation_correct junk p : perm_eq p (iota 0 (size p)) ->
  exists2 s, invert_permutation junk p = Ok s &
    [/\ size s = size p, (forall i, i < size p -> nth 0 s (nth 0 p i) = i),
        (forall x, x < size p -> nth 0 p (nth 0 s x) = x) & perm_eq s (iota 0 (size p))].
Proof.
move=> hp; have up : uniq p by rewrite (perm_uniq hp) iota_uniq.
have inp x : (x \in p) = (x < size p) by rewrite (perm_mem hp) mem_iota.
rewrite /invert_permutation; have -> : has (fun i => size p <= i) p = false.
  by apply/hasP => -[i]; rewrite inp ltnNge => /negbTE ->.
eexists; first by []. 
have e : mkseq (for_ (zip p (iota 0 (size p))) junk (fun s pi => fun x => if x == pi.1 then pi.2 else s x)) (size p)
   = mkseq (fun x => index x p) (size p).
  apply/eq_in_map => x; rewrite mem_iota add0n => /andP[_ hx]; by rewrite for_assign // inp hx.
rewrite e; split.
- by rewrite size_mkseq.
- by move=> i hi; rewrite nth_mkseq ?index_uniq // -inp mem_nth.
- by move=> x hx; rewrite nth_mkseq // nth_index // inp.
apply: uniq_perm; rewrite ?iota_uniq //.
  rewrite map_inj_in_uniq ?iota_uniq // => x y; rewrite !mem_iota !add0n => /andP[_ hx] /andP[_ hy] /= ei.
  by rewrite -(nth_index 0 (_ : x \in p)) ?inp // ei nth_index ?inp.
move=> y; rewrite mem_iota add0n; apply/mapP/idP => [[x]|/andP[_ hy]].
  by rewrite mem_iota add0n => /andP[_ hx] ->; rewrite index_mem inp.
by exists (nth 0 p y); [rewrite mem_iota add0n -inp mem_nth | rewrite index_uniq].
Qed.
Theorem invert_permutation_range junk p i : i \in p -> size p <= i -> invert_permutation junk p = Err IndexError.
Proof. by move=> ip hi; rewrite /invert_permutation ifT //; apply/hasP; exists i. Qed.

(** nb_ix: entry (a, b) of the result is arr[rows[a]][cols[b]] *)
Theorem nb_ix_correct (T : Type) (d : T) arr rows cols c : 
  all (fun r => size r == c) arr -> all (fun i => i < size arr) rows -> all (fun j => j < c) cols ->
  exists2 s, nb_ix d arr rows cols = Ok s &
    [/\ size s = size rows, (forall a, a < size rows -> size (nth [::] s a) = size cols) &
        forall a b, a < size rows -> b < size cols ->
          nth d (nth [::] s a) b = nth d (nth [::] arr (nth 0 rows a)) (nth 0 cols b)].
Proof.
move=> hc hr hco; rewrite /nb_ix.
have -> : has (fun i => size arr <= i) rows = false.
  by apply/negbTE; rewrite -all_predC; apply: sub_all hr => i /=; rewrite -ltnNge.
have -> : has (fun r => has (fun j => size r <= j) cols) [seq nth [::] arr i | i <- rows] = false.
  apply/negbTE; rewrite -all_predC all_map; apply: sub_all hr => i hi /=; rewrite -all_predC.
  apply: sub_all hco => j /=; rewrite -ltnNge.
  by move/all_nthP: hc => /(_ [::] i hi)/eqP ->.
eexists; first by []. split.
- by rewrite !size_map.
- by move=> a ha; rewrite (nth_map [::]) ?size_map.
by move=> a b ha hb; rewrite (nth_map [::]) ?size_map // (nth_map 0) // (nth_map 0).
Qed.
Theorem nb_ix_range (T : Type) (d : T) arr rows cols i : i \in rows -> size arr <= i -> nb_ix d arr rows cols = Err IndexError.
Proof. by move=> ir hi; rewrite /nb_ix ifT //; apply/hasP; exists i. Qed.

(** concrete instances *)
Lemma misc_example : dec2bin 11 5 = Ok [:: 1; 3; 4] /\ invert_permutation (fun=> 7) [:: 2; 0; 3; 1] = Ok [:: 1; 3; 0; 2]
  /\ nb_ix 0 [:: [:: 1; 2; 3]; [:: 4; 5; 6]] [:: 1; 1; 0] [:: 2; 0] = Ok [:: [:: 6; 4]; [:: 6; 4]; [:: 3; 1]]
  /\ get_partition (MList (pynats [:: 2; 0])) None 3 = Ok (pynats [:: 2; 0]).
Proof. by []. Qed.
