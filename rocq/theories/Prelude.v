(** Prelude: reflexive ring / field tactics for mathcomp commutative rings and fields.

    The tactics only build proof terms with the standard library lemmas
    [Ring_polynom.ring_correct] and [Field_theory.Field_correct]; they are proof
    automation and not part of the trusted base.  No OCaml plugin is involved. *)
From Coq Require Import ZArith Ring_polynom Ring_theory InitialRing Field_theory List Setoid.
From mathcomp Require Import all_ssreflect all_algebra.
Set Implicit Arguments.
Unset Strict Implicit.
Unset Printing Implicit Defensive.
Import GRing.Theory.
Local Open Scope ring_scope.

Section RT.
Variable R : comRingType.

Lemma mc_rth : @ring_theory R 0 1 +%R *%R (fun x y => x - y) -%R eq.
Proof.
constructor.
- exact: add0r. - exact: addrC. - exact: addrA. - exact: mul1r.
- exact: mulrC. - exact: mulrA. - exact: mulrDl. - by []. - exact: subrr.
Qed.

Lemma mc_sth : Setoid_Theory R eq.
Proof. by constructor; [move=> x | move=> x y | move=> x y z -> ->]. Qed.

Lemma mc_reqe : @ring_eq_ext R +%R *%R -%R eq.
Proof. by constructor=> [? ? -> ? ? -> | ? ? -> ? ? -> | ? ? ->]. Qed.

Definition mc_arth := Rth_ARth mc_sth mc_reqe mc_rth.
Definition mc_phi : Z -> R := gen_phiZ 0 1 +%R *%R -%R.
Definition mc_morph := gen_phiZ_morph mc_sth mc_reqe mc_rth.

Lemma mc_pow_th : power_theory 1 *%R (@eq R) N.to_nat (fun x n => x ^+ n).
Proof.
constructor=> r [|p] //=.
elim: p => [p IH|p IH|] /=; last by rewrite expr1.
- by rewrite Pos2Nat.inj_xI exprS -IH multE mulnC exprM expr2.
- by rewrite Pos2Nat.inj_xO -IH multE mulnC exprM expr2.
Qed.

Definition mc_eval (l : list R) (e : PExpr Z) : R :=
  PEeval 0 1 +%R *%R (fun x y => x - y) -%R mc_phi N.to_nat (fun x n => x ^+ n) l e.

Lemma mc_ring_correct (l : list R) (e1 e2 : PExpr Z) :
  Peq Zeq_bool
    (norm_subst Z0 (Zpos xH) Z.add Z.mul Z.sub Z.opp Zeq_bool Z.quotrem O nil e1)
    (norm_subst Z0 (Zpos xH) Z.add Z.mul Z.sub Z.opp Zeq_bool Z.quotrem O nil e2) = true ->
  mc_eval l e1 = mc_eval l e2.
Proof.
move=> H.
exact: (ring_correct mc_sth mc_reqe mc_arth mc_morph mc_pow_th
          (Ztriv_div_th mc_sth mc_phi) O l nil e1 e2 I H).
Qed.

End RT.

Section FT.
Variable F : fieldType.
Lemma mc_fth : @field_theory F 0 1 +%R *%R (fun x y => x - y) -%R (fun x y => x / y) GRing.inv eq.
Proof.
constructor=> //.
- exact: mc_rth.
- by apply/eqP; rewrite oner_eq0.
- by move=> p /eqP p0; rewrite mulVf.
Qed.

Definition mc_feval (l : list F) (e : FExpr Z) : F :=
  FEeval 0 1 +%R *%R (fun x y => x - y) -%R (fun x y => x / y) GRing.inv
    (@mc_phi F) N.to_nat (fun x n => x ^+ n) l e.

Definition mc_Fnorm := Fnorm Z0 (Zpos xH) Z.add Z.mul Z.sub Z.opp Zeq_bool.

Fixpoint mc_cond (l : list F) (le : list (PExpr Z)) : Prop :=
  match le with
  | nil => True
  | e :: le' => (mc_eval l e != 0) /\ mc_cond l le'
  end.

Lemma mc_condP l le : mc_cond l le ->
  PCond 0 1 +%R *%R (fun x y => x - y) -%R eq (@mc_phi F) N.to_nat (fun x n => x ^+ n) l le.
Proof.
elim: le => [//|e le IH] /= [/eqP H1 /IH]; case: le {IH} => [|e' le] H2; first exact: H1.
by split.
Qed.

Lemma mc_field_correct (l : list F) (e1 e2 : FExpr Z) nf1 nf2 :
  mc_Fnorm e1 = nf1 -> mc_Fnorm e2 = nf2 ->
  Peq Zeq_bool
    (norm_subst Z0 (Zpos xH) Z.add Z.mul Z.sub Z.opp Zeq_bool Z.quotrem O nil (PEmul (num nf1) (denum nf2)))
    (norm_subst Z0 (Zpos xH) Z.add Z.mul Z.sub Z.opp Zeq_bool Z.quotrem O nil (PEmul (num nf2) (denum nf1))) = true ->
  mc_cond l (condition nf1 ++ condition nf2)%list ->
  mc_feval l e1 = mc_feval l e2.
Proof.
move=> h1 h2 h3 /mc_condP h4.
have hi : forall p q : F, p = q -> p^-1 = q^-1 by move=> p q ->.
exact: (@Field_correct _ _ _ _ _ _ _ _ _ _ (@mc_sth F) (@mc_reqe F) hi (F2AF (@mc_sth F) (@mc_reqe F) mc_fth)
 _ _ _ _ _ _ _ _ _ (@mc_morph F) _ _ _ (@mc_pow_th F) _ (Ztriv_div_th (@mc_sth F) (@mc_phi F)) O l nil e1 e2 I nil erefl nf1 h1 nf2 h2 h3 h4).
Qed.
End FT.

(** Reification. *)
Ltac mc_is_lit n :=
  lazymatch n with O => constr:(true) | S ?m => mc_is_lit m | _ => constr:(false) end.

Ltac mc_app l x :=
  lazymatch l with
  | @nil ?T => constr:(@cons T x (@nil T))
  | @cons ?T ?y ?l' => let r := mc_app l' x in constr:(@cons T y r)
  end.

Ltac mc_mem x l n :=
  lazymatch l with
  | nil => constr:(@None positive)
  | ?y :: ?l' =>
    match constr:(tt) with
    | _ => let _ := match constr:(tt) with _ => constr_eq x y end in constr:(Some n)
    | _ => let n' := eval compute in (Pos.succ n) in mc_mem x l' n'
    end
  end.

Ltac mc_memc x l n :=
  lazymatch l with
  | nil => constr:(@None positive)
  | ?y :: ?l' =>
    match constr:(tt) with
    | _ => let _ := match constr:(tt) with _ => unify x y end in constr:(Some n)
    | _ => let n' := eval compute in (Pos.succ n) in mc_memc x l' n'
    end
  end.

Ltac mc_lookup x l :=
  let p := mc_mem x l (1%positive) in
  lazymatch p with None => mc_memc x l (1%positive) | _ => p end.

Ltac mc_addv x l :=
  let p := mc_lookup x l in
  lazymatch p with None => mc_app l x | _ => l end.

Ltac mc_idx x l :=
  let p := mc_lookup x l in
  lazymatch p with Some ?n => n end.

Ltac mc_vars t l :=
  lazymatch t with
  | @GRing.add _ ?x ?y => let l := mc_vars x l in mc_vars y l
  | @GRing.mul _ ?x ?y => let l := mc_vars x l in mc_vars y l
  | @GRing.opp _ ?x => mc_vars x l
  | @GRing.exp _ ?x ?n =>
    let b := mc_is_lit n in
    lazymatch b with true => mc_vars x l | false => mc_addv t l end
  | @GRing.natmul _ ?x ?n =>
    let b := mc_is_lit n in
    lazymatch b with true => mc_vars x l | false => mc_addv t l end
  | GRing.zero _ => l
  | GRing.one _ => l
  | _ => mc_addv t l
  end.

Ltac mc_rep e n :=
  lazymatch n with
  | O => constr:(@PEO Z)
  | S O => e
  | S ?m => let r := mc_rep e m in constr:(PEadd e r)
  end.

Ltac mc_reify t l :=
  lazymatch t with
  | @GRing.add _ ?x (@GRing.opp _ ?y) =>
    let a := mc_reify x l in let b := mc_reify y l in constr:(PEadd a (PEopp b))
  | @GRing.add _ ?x ?y => let a := mc_reify x l in let b := mc_reify y l in constr:(PEadd a b)
  | @GRing.mul _ ?x ?y => let a := mc_reify x l in let b := mc_reify y l in constr:(PEmul a b)
  | @GRing.opp _ ?x => let a := mc_reify x l in constr:(PEopp a)
  | @GRing.exp _ ?x ?n =>
    let b := mc_is_lit n in
    lazymatch b with
    | true => let a := mc_reify x l in let k := eval compute in (N.of_nat n) in constr:(PEpow a k)
    | false => let p := mc_idx t l in constr:(@PEX Z p)
    end
  | @GRing.natmul _ ?x ?n =>
    let b := mc_is_lit n in
    lazymatch b with
    | true => let a := mc_reify x l in mc_rep a n
    | false => let p := mc_idx t l in constr:(@PEX Z p)
    end
  | GRing.zero _ => constr:(@PEO Z)
  | GRing.one _ => constr:(@PEI Z)
  | _ => let p := mc_idx t l in constr:(@PEX Z p)
  end.

(** [rring] proves equalities in commutative rings. *)
Ltac rring :=
  intros;
  lazymatch goal with
  | |- @eq ?mcT ?mcl ?mcr =>
    let mcR := constr:([comRingType of mcT]) in
    let l := mc_vars mcl (@nil mcT) in
    let l := mc_vars mcr l in
    let a := mc_reify mcl l in
    let b := mc_reify mcr l in
    refine (@mc_ring_correct mcR l a b _); vm_compute; reflexivity
  end.

Ltac mc_fvars t l :=
  lazymatch t with
  | @GRing.add _ ?x ?y => let l := mc_fvars x l in mc_fvars y l
  | @GRing.mul _ ?x ?y => let l := mc_fvars x l in mc_fvars y l
  | @GRing.opp _ ?x => mc_fvars x l
  | @GRing.inv _ ?x => mc_fvars x l
  | @GRing.exp _ ?x ?n =>
    let b := mc_is_lit n in
    lazymatch b with true => mc_fvars x l | false => mc_addv t l end
  | @GRing.natmul _ ?x ?n =>
    let b := mc_is_lit n in
    lazymatch b with true => mc_fvars x l | false => mc_addv t l end
  | GRing.zero _ => l
  | GRing.one _ => l
  | _ => mc_addv t l
  end.

Ltac mc_frep e n :=
  lazymatch n with
  | O => constr:(@FEO Z)
  | S O => e
  | S ?m => let r := mc_frep e m in constr:(FEadd e r)
  end.

Ltac mc_freify t l :=
  lazymatch t with
  | @GRing.add _ ?x ?y => let a := mc_freify x l in let b := mc_freify y l in constr:(FEadd a b)
  | @GRing.mul _ ?x ?y => let a := mc_freify x l in let b := mc_freify y l in constr:(FEmul a b)
  | @GRing.opp _ ?x => let a := mc_freify x l in constr:(FEopp a)
  | @GRing.inv _ ?x => let a := mc_freify x l in constr:(FEinv a)
  | @GRing.exp _ ?x ?n =>
    let b := mc_is_lit n in
    lazymatch b with
    | true => let a := mc_freify x l in let k := eval compute in (N.of_nat n) in constr:(FEpow a k)
    | false => let p := mc_idx t l in constr:(@FEX Z p)
    end
  | @GRing.natmul _ ?x ?n =>
    let b := mc_is_lit n in
    lazymatch b with
    | true => let a := mc_freify x l in mc_frep a n
    | false => let p := mc_idx t l in constr:(@FEX Z p)
    end
  | GRing.zero _ => constr:(@FEO Z)
  | GRing.one _ => constr:(@FEI Z)
  | _ => let p := mc_idx t l in constr:(@FEX Z p)
  end.

(** [ffield] proves equalities in fields; side conditions [d != 0] are left as goals. *)
Ltac ffield :=
  intros;
  lazymatch goal with
  | |- @eq ?mcT ?mcl ?mcr =>
    let mcF := constr:([fieldType of mcT]) in
    let l := mc_fvars mcl (@nil mcT) in
    let l := mc_fvars mcr l in
    let a := mc_freify mcl l in
    let b := mc_freify mcr l in
    let na := eval vm_compute in (mc_Fnorm a) in
    let nb := eval vm_compute in (mc_Fnorm b) in
    refine (@mc_field_correct mcF l a b na nb _ _ _ _);
    [ vm_compute; reflexivity | vm_compute; reflexivity | vm_compute; reflexivity
    | cbn [mc_cond condition app]; repeat split;
      cbn [mc_eval Ring_polynom.PEeval BinList.nth List.hd List.tl BinList.jump mc_phi gen_phiZ gen_phiPOS N.to_nat Pos.to_nat Pos.iter_op Nat.add];
      try assumption ]
  end.

Section Test.
Variable R : comRingType.
Variable F : fieldType.
Example rring_test (a b c : R) n : (a + b) ^+ 2 * c ^+ n - a *+ 2 * b * c ^+ n = (a ^+2 + b * b) * c ^+ n + 0 - 0%:R.
Proof. rring. Qed.
Example ffield_test (a b c : F) : a != 0 -> (a + b) / a - b * a ^-1 = 1.
Proof. ffield. Qed.
Example rring_test2 (p q : {poly R}) : p * q - q * p = 0.
Proof. rring. Qed.
End Test.
