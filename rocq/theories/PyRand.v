(** Random programs: Python code that calls np.random.choice, as a decision tree, and its probability law. *)
From mathcomp Require Import all_ssreflect all_algebra.
From Verif Require Import PyBase.
Set Implicit Arguments.
Unset Strict Implicit.
Unset Printing Implicit Defensive.
Import GRing.Theory Num.Theory.
Local Open Scope ring_scope.

Section Prog.
Variable K : numDomainType.
(** a program returns a value, raises, or picks an index i with probability p_i and goes on *)
Inductive prog (T : Type) := Ret of T | Raise of pyexc | Pick of seq K & (nat -> prog T).
Arguments Raise {T} _.

Fixpoint pbind T U (p : prog T) (f : T -> prog U) : prog U :=
  match p with Ret x => f x | Raise e => Raise e | Pick ps k => Pick ps (fun i => pbind (k i) f) end.
Definition of_res T (r : res T) : prog T := match r with Ok x => Ret x | Err e => Raise e end.
(** [for x in l: s = body(s, x)] *)
Fixpoint pfold X S (body : S -> X -> prog S) (s : S) (l : seq X) : prog S :=
  match l with [::] => Ret s | x :: l' => pbind (body s x) (fun s' => pfold body s' l') end.
(** [[f(x) for x in l]] *)
Fixpoint pmap X T (f : X -> prog T) (l : seq X) : prog (seq T) :=
  match l with [::] => Ret [::] | x :: l' => pbind (f x) (fun y => pbind (pmap f l') (fun ys => Ret (y :: ys))) end.

(** np.random.choice(np.arange(n), p=ps) of numpy: ValueError if the sizes differ, if a probability is negative or if they do
    not sum to 1 (numpy has a tolerance for the last test; a division 0/0, NaN in numpy, is 0 here and fails the same test) *)
Definition np_choice (n : nat) (ps : seq K) : prog nat :=
  if (size ps == n) && all (fun x => 0 <= x) ps && (\sum_(x <- ps) x == 1) then Pick ps (@Ret nat) else Raise ValueError.

(** the probability that the program returns y *)
Fixpoint law (T : eqType) (p : prog T) (y : T) : K :=
  match p with
  | Ret x => (x == y)%:R
  | Raise _ => 0
  | Pick ps k => \sum_(i <- iota 0 (size ps)) nth 0 ps i * law (k i) y
  end.
(** the outcomes that have a non-zero chance *)
Inductive outcome T : prog T -> res T -> Prop :=
  | OutRet x : outcome (Ret x) (Ok x)
  | OutRaise e : outcome (Raise e) (Err e)
  | OutPick ps k i r : (i < size ps)%N -> nth 0 ps i != 0 -> outcome (k i) r -> outcome (Pick ps k) r.
End Prog.
Arguments Ret {K T} _.
Arguments Raise {K T} _.
