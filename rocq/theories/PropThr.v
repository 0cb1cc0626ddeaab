(** C53: threshold_detection_prob is the inclusion-exclusion probability of the click pattern. *)
From mathcomp Require Import all_ssreflect all_algebra zify fingroup perm.
From Verif Require Import Prelude PyBase ArrLoop MPowerHaf MHafnian MSymplectic PropChannels ThPerm SpecTor SpecThr MTor PropTor PropTor2 PropTor3 PropTor4 PropTor5.
Set Implicit Arguments.
Unset Strict Implicit.
Unset Printing Implicit Defensive.
Import Order.Theory GRing.Theory Num.Theory.
Local Open Scope ring_scope.

Section LA.
Variable C : numClosedFieldType.
Notation mat := (nat -> nat -> C).
Notation vec := (nat -> C).
Definition bl (M : mat) (r s : seq nat) : 'M[C]_(size r, size s) := \matrix_(i, j) M (nth 0%N r i) (nth 0%N s j).
Lemma bl_block (M : mat) r s : mxof (size r + size s) (size r + size s) (ix M (r ++ s)) = block_mx (bl M r r) (bl M r s) (bl M s r) (bl M s s).
Proof.
apply/matrixP => i j; rewrite [LHS]mxE /ix; case: (split_ordP i) => a ->; case: (split_ordP j) => b ->;
  rewrite ?block_mxEul ?block_mxEur ?block_mxEdl ?block_mxEdr mxE !nth_cat /= ?ltn_ord ?[(size r + _ < size r)%N]ltnNge ?leq_addr /= ?addKn //.
Qed.
Lemma ix_iota n (M : mat) : mxof n n (ix M (iota 0 n)) = mxof n n M.
Proof. by apply: mxof_eq => i j hi hj; rewrite /ix !nth_iota. Qed.
Lemma perm_mul n (A B : mat) r : perm_eq r (iota 0 n) -> mxof n n A *m mxof n n B = 1%:M ->
  mxof n n (ix A r) *m mxof n n (ix B r) = 1%:M.
Proof.
move=> p e; have s1 : size r = n by rewrite (perm_size p) size_iota.
have [q eq_] := perm_nth s1 (size_iota 0 n) p.
rewrite (ix_perm A eq_) (ix_perm B eq_) !ix_iota !mulmxA -[_ *m perm_mx q^-1 *m perm_mx q]mulmxA perm_mxK mulmx1.
by rewrite -[perm_mx q *m _ *m _]mulmxA e mulmx1 perm_mxKV.
Qed.
Lemma schur_alg p q (br : 'rV[C]_p) (bs : 'rV[C]_q) (Wrr : 'M[C]_p) Wrs Wsr (Wss : 'M[C]_q) (ar : 'cV[C]_p) (as_ : 'cV[C]_q) : Wrr \in unitmx ->
  br *m Wrr *m ar + br *m Wrs *m as_ + (bs *m Wsr *m ar + bs *m Wss *m as_) =
  (br *m Wrr + bs *m Wsr) *m invmx Wrr *m (Wrr *m ar + Wrs *m as_) + bs *m (Wss - Wsr *m invmx Wrr *m Wrs) *m as_.
Proof.
move=> u; rewrite [(_ + _) *m invmx _]mulmxDl mulmxK // mulmxBr [(_ - _) *m as_]mulmxBl [(br + _) *m _]mulmxDl !mulmxDr !mulmxA mulmxKV //.
by rewrite -!addrA; congr (_ + (_ + (_ + _))); rewrite addrCA subrr addr0.
Qed.
(** blocks of a matrix Q and of its inverse W, for complementary lists of rows *)
Section Blocks.
Variables (n : nat) (Q W : mat) (r s : seq nat).
Hypothesis p : perm_eq (r ++ s) (iota 0 n).
Hypothesis QW : mxof n n Q *m mxof n n W = 1%:M.
Let sz : (size r + size s)%N = n. Proof. by rewrite -size_cat (perm_size p) size_iota. Qed.
Lemma blocks : [/\ bl Q r r *m bl W r r + bl Q r s *m bl W s r = 1%:M, bl Q r r *m bl W r s + bl Q r s *m bl W s s = 0,
   bl Q s r *m bl W r r + bl Q s s *m bl W s r = 0 & bl Q s r *m bl W r s + bl Q s s *m bl W s s = 1%:M].
Proof.
have := perm_mul p QW; rewrite -sz.
rewrite !bl_block mulmx_block (scalar_mx_block (size r) (size s)) => /eq_block_mx [e1 e2 e3 e4]; split=> //.
Qed.
Theorem jacobi : \det (bl W r r) * \det (mxof n n Q) = \det (bl Q s s).
Proof.
have [e1 _ e3 _] := blocks.
have -> : \det (mxof n n Q) = \det (mxof (size r + size s) (size r + size s) (ix Q (r ++ s))).
  rewrite sz -[in LHS]ix_iota; apply: det_ix_perm; rewrite ?size_iota ?size_cat // perm_sym //.
have : mxof (size r + size s) (size r + size s) (ix Q (r ++ s)) *m block_mx (bl W r r) 0 (bl W s r) 1%:M =
   block_mx 1%:M (bl Q r s) 0 (bl Q s s).
  by rewrite bl_block mulmx_block e1 e3 !mulmx0 !mulmx1 !add0r.
by move=> /(congr1 determinant); rewrite det_mulmx det_lblock det_ublock !det1 mulr1 mul1r mulrC.
Qed.
(** the Schur complement *)
Theorem schur : bl W r r \in unitmx -> invmx (bl Q s s) = bl W s s - bl W s r *m invmx (bl W r r) *m bl W r s.
Proof.
move=> u; have [_ _ e3 e4] := blocks; set K := _ - _.
have QK : bl Q s s *m K = 1%:M.
  rewrite /K mulmxBr !mulmxA; have -> : bl Q s s *m bl W s r = - (bl Q s r *m bl W r r) by apply/eqP; rewrite -addr_eq0 addrC e3.
  by rewrite !mulNmx -[bl Q s r *m _ *m _]mulmxA mulmxV // mulmx1 opprK addrC e4.
have [uQ _] := mulmx1_unit QK.
by apply: (can_inj (mulKmx uQ)); rewrite mulmxV.
Qed.
(** the quadratic forms: a^* W a = (W a)_r^* W_rr^-1 (W a)_r + a_s^* Q_ss^-1 a_s *)
Definition rv (v : vec) t : 'rV[C]_(size t) := \row_i v (nth 0%N t i).
Definition cv (v : vec) t : 'cV[C]_(size t) := \col_i v (nth 0%N t i).
Definition form (M : mat) (b a : vec) (t t' : seq nat) : C := \sum_(x <- t) \sum_(y <- t') b x * M x y * a y.
Lemma formE (M : mat) (b a : vec) t t' : (rv b t *m bl M t t' *m cv a t') 0 0 = form M b a t t'.
Proof.
rewrite /form (big_nth 0%N) big_mkord mxE (eq_bigr (fun y : 'I_(size t') => \sum_(x < size t) b (nth 0%N t x) * M (nth 0%N t x) (nth 0%N t' y) * a (nth 0%N t' y))).
  by rewrite exchange_big; apply: eq_bigr => x _; rewrite (big_nth 0%N) big_mkord.
by move=> y _; rewrite !mxE mulr_suml; apply: eq_bigr => x _; rewrite !mxE.
Qed.
Lemma form_cat (M : mat) (b a : vec) t1 t2 u1 u2 : form M b a (t1 ++ t2) (u1 ++ u2) = form M b a t1 u1 + form M b a t1 u2 + (form M b a t2 u1 + form M b a t2 u2).
Proof. by rewrite /form big_cat /= -!big_split /=; congr (_ + _); apply: eq_bigr => x _; rewrite big_cat. Qed.
Lemma form_perm (M : mat) (b a : vec) t t' : perm_eq t t' -> form M b a t t = form M b a t' t'.
Proof. by move=> pe; rewrite /form (perm_big _ pe); apply: eq_bigr => x _; exact: perm_big. Qed.
Theorem schur_quad (a b : vec) : bl W r r \in unitmx ->
  form W b a (iota 0 n) (iota 0 n) =
  ((rv b r *m bl W r r + rv b s *m bl W s r) *m invmx (bl W r r) *m (bl W r r *m cv a r + bl W r s *m cv a s)) 0 0
  + (rv b s *m invmx (bl Q s s) *m cv a s) 0 0.
Proof.
move=> u; rewrite (schur u) -(form_perm W b a p) form_cat -!formE.
have := schur_alg (rv b r) (rv b s) (bl W r s) (bl W s r) (bl W s s) (cv a r) (cv a s) u.
by move=> /(congr1 (fun A : 'M_1 => A 0 0)); rewrite [LHS]mxE [in LHS]mxE [X in _ + X = _ -> _]mxE [in RHS]mxE => ->.
Qed.
End Blocks.
End LA.
