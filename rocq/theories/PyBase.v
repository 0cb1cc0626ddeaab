(** Python-level vocabulary shared by the models: exceptions as values and small
    sequence primitives (slices, ranges). *)
From mathcomp Require Import all_ssreflect zify.
Set Implicit Arguments.
Unset Strict Implicit.
Unset Printing Implicit Defensive.

(** Exceptions that the modelled code raises. *)
Inductive pyexc := ValueError | TypeError | IndexError | AttributeError | UnboundLocalError
  | ZeroDivisionError | KeyError | RecursionError | AssertionError | RuntimeError.

(** Outcome of a call: a returned value or a raised exception. *)
Inductive res (A : Type) := Ok of A | Err of pyexc.
Arguments Err {A} _.

Definition bind A B (x : res A) (f : A -> res B) : res B :=
  match x with Ok a => f a | Err e => Err e end.

(** Loop with early exit on exception. *)
Fixpoint foldM A S (f : S -> A -> res S) (s : S) (l : seq A) : res S :=
  match l with [::] => Ok s | a :: l' => bind (f s a) (fun s' => foldM f s' l') end.

Definition is_ok A (x : res A) := match x with Ok _ => true | Err _ => false end.

(** [range(a, b)] *)
Definition pyrange (a b : nat) : seq nat := iota a (b - a).

Lemma mem_pyrange a b i : (i \in pyrange a b) = (a <= i < b).
Proof. rewrite /pyrange mem_iota; lia. Qed.
