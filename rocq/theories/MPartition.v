(** Model of the combinatorial helpers of thewalrus/quantum/means_and_variances.py: partition,
    _list_to_freq_dict, _coeff_normal_ordered; and of thewalrus/quantum/entanglement.py: get_partition. *)
From mathcomp Require Import all_ssreflect all_algebra.
From Verif Require Import PyBase ArrLoop.
Set Implicit Arguments.
Unset Strict Implicit.
Unset Printing Implicit Defensive.
Import GRing.Theory.
Local Open Scope ring_scope.

Section Part.
Variable T : Type.
(** means_and_variances.py:386-388: the sets obtained from [smaller] by putting [first] into each of its
    subsets in turn, then by adding the singleton [first] *)
Definition extend_partition (first : T) (smaller : seq (seq T)) : seq (seq (seq T)) :=
  [seq take n smaller ++ [:: first :: nth [::] smaller n] ++ drop n.+1 smaller | n <- iota 0 (size smaller)]
  ++ [:: [:: first] :: smaller].
(** means_and_variances.py:370-388 [partition(collection)]: the sequence of values the generator yields;
    [collection[0]] of the empty sequence is an IndexError *)
Fixpoint partition_ (first : T) (rest : seq T) : seq (seq (seq T)) :=
  match rest with
  | [::] => [:: [:: [:: first]]]
  | second :: rest' => flatten [seq extend_partition first smaller | smaller <- partition_ second rest']
  end.
Definition partition (collection : seq T) : res (seq (seq (seq T))) :=
  match collection with
  | [::] => Err IndexError
  | first :: rest => Ok (partition_ first rest)
  end.
End Part.

(** means_and_variances.py:391-401 [_list_to_freq_dict(words)]; [order] is the iteration order of a set *)
Definition list_to_freq_dict (order : seq nat -> seq nat) (words : seq nat) : seq (nat * nat) :=
  [seq (i, count_mem i words) | i <- order words].

(** means_and_variances.py:300-318 [_coeff_normal_ordered(m, k)], exact arithmetic; in Python
    [0**0 = 1], as here *)
Definition coeff_normal_ordered (F : fieldType) (m k : nat) : F :=
  \sum_(mu <- iota 0 k.+1) (1 / ((mu`!)%:R * ((k - mu)`!)%:R)) * ((-1) ^+ (k - mu) * (mu%:R ^+ m)).
