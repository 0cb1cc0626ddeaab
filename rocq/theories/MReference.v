(** Model of thewalrus/reference.py, lines 64-264 (matching generators, reference
    hafnian, memoisation).  Python generators are modelled by the sequence of values they yield. *)
From mathcomp Require Import all_ssreflect all_algebra.
From Coq Require Import String.
From Verif Require Import PyBase.
Set Implicit Arguments.
Unset Strict Implicit.
Unset Printing Implicit Defensive.
Import GRing.Theory.

Section Gen.
Variable T : Type.

(** A value yielded by [partitions]: reference.py:143-174 yields either the input tuple itself
    (a flat tuple of labels, lines 147 and 160) or a tuple of tuples. *)
Inductive pitem := Flat of seq T | Blocks of seq (seq T).

(** reference.py:157-160 and 170-174: [if isinstance(p[0], tuple): ((item_partition),) + p
    else: (item_partition, p)].  Labels are assumed not to be tuples themselves. *)
Definition prepend (b : seq T) (p : pitem) : pitem :=
  match p with Blocks bs => Blocks (b :: bs) | Flat t => Blocks [:: b; t] end.

(** reference.py:127-174 [partitions(s, singles, pairs)].  The first argument bounds the recursion
    depth; every recursive call shortens the tuple, so [size s] is enough. *)
Fixpoint partitions_rec (fuel : nat) (s : seq T) (singles pairs : bool) : seq pitem :=
  if fuel is fuel'.+1 then
    match s with
    | [:: x; y] => (* lines 143-147 *)
        (if singles then [:: Blocks [:: [:: x]; [:: y]]] else [::])
        ++ (if pairs then [:: Flat s] else [::])
    | x :: t =>
        (if singles then (* lines 150-161 *)
           if 1 < size s then map (prepend [:: x]) (partitions_rec fuel' t singles pairs)
           else [:: Flat s]
         else [::])
        ++
        (if pairs then (* lines 163-174 *)
           flatten [seq map (prepend [:: x; nth x s idx1])
                         (partitions_rec fuel' (drop 1 (take idx1 s) ++ drop idx1.+1 s) singles pairs)
                   | idx1 <- pyrange 1 (size s)]
         else [::])
    | [::] => if singles then [:: Flat s] else [::]  (* lines 160-161 with [len(s) == 0] *)
    end
  else [::].

Definition partitions (s : seq T) (singles pairs : bool) := partitions_rec (size s).+1 s singles pairs.

(** reference.py:210-217 [clone_if_single] *)
Definition clone_if_single (x : seq T) : seq T :=
  match x with [:: a] => [:: a; a] | _ => x end.

(** reference.py:199-220 [spm(s)].  On a flat tuple [len(i)] is applied to a label: TypeError. *)
Definition spm (s : seq T) : seq (res (seq (seq T))) :=
  [seq match p with Blocks bs => Ok (map clone_if_single bs) | Flat _ => Err TypeError end
  | p <- partitions s true true].

(** reference.py:223-232 [pmp(s)] *)
Definition pmp (s : seq T) : seq pitem := partitions s false true.

End Gen.
Arguments Flat {T} _.

(** reference.py:177-196 [T(n)], the telephone numbers; the recursion computes
    [T(n-1) + (n-1)*T(n-2)].  (Non-negative arguments.) *)
Fixpoint T_pair (n : nat) : nat * nat := (* (T n, T (n+1)) *)
  if n is n'.+1 then let: (a, b) := T_pair n' in (b, b + n'.+1 * a) else (1, 1).
Definition T (n : nat) : nat := (T_pair n).1.

Section Haf.
Variable R : comRingType.
Local Open Scope ring_scope.

(** [M[j]] for a tuple [j] of two indices (reference.py:260); an index tuple of another length
    selects a sub-array and the product is no longer a scalar: TypeError. *)
Definition getitem (M : nat -> nat -> R) (j : seq nat) : res R :=
  match j with [:: a; b] => Ok (M a b) | _ => Err TypeError end.

(** reference.py:257-260 inner loop over one matching. *)
Definition matching_prod (M : nat -> nat -> R) (i : seq (seq nat)) : res R :=
  foldM (fun result j => bind (getitem M j) (fun x => Ok (result * x))) 1 i.

(** reference.py:235-264 [hafnian(M, loop)], [M] of shape [(n, m)]. *)
Definition ref_hafnian (n m : nat) (M : nat -> nat -> R) (loop : bool) : res R :=
  if n != m then Err ValueError
  else if n == 0%N then Ok 1
  else if n == 1%N then (if loop then Ok (M 0%N 0%N) else Ok 0)
  else if n == 2%N then
    (if loop then Ok (M 0%N 1%N + M 0%N 0%N * M 1%N 1%N) else Ok (M 0%N 1%N))
  else
    let iter_set : seq (res (seq (seq nat))) :=
      if loop then spm (iota 0 n)
      else [seq match p with Blocks bs => Ok bs | Flat _ => Err TypeError end | p <- pmp (iota 0 n)] in
    foldM (fun tot_sum i => bind i (fun bs => bind (matching_prod M bs) (fun r => Ok (tot_sum + r)))) 0 iter_set.
End Haf.

(** ** Memoisation (reference.py:72-124) *)
Section Lsd.
Variables (K : eqType) (V : Type).

(** reference.py:72-91 [LimitedSizeDict]: an insertion-ordered dictionary together with its
    [size_limit] attribute. *)
Record lsd := Lsd { size_limit : option nat; entries : seq (K * V) }.

(** OrderedDict lookup and [__setitem__] (an existing key keeps its position). *)
Definition od_get (k : K) (d : seq (K * V)) : option V := ohead [seq p.2 | p <- d & p.1 == k].
Definition od_set (k : K) (v : V) (d : seq (K * V)) : seq (K * V) :=
  if k \in map fst d then [seq if p.1 == k then (k, v) else p | p <- d] else rcons d (k, v).

(** reference.py:88-91 [_check_size_limit]: [popitem(last=False)] while there are more than
    [size_limit] entries. *)
Definition check_size_limit (d : lsd) : lsd :=
  if size_limit d is Some lim then Lsd (Some lim) (drop (size (entries d) - lim) (entries d)) else d.

(** reference.py:77-80 [__init__( ** kwargs)]: pops the keyword [size_limit]; the remaining keyword
    arguments become initial entries of the dictionary.  [kwkey] is the dictionary key made of a keyword
    (a [str]); [as_nat] reads the integer value given to [size_limit]. *)
Definition lsd_init (kwkey : string -> K) (as_nat : V -> nat) (kwargs : seq (string * V)) : lsd :=
  let lim := ohead [seq as_nat p.2 | p <- kwargs & String.eqb p.1 "size_limit"] in
  let rest := [seq (kwkey p.1, p.2) | p <- kwargs & ~~ String.eqb p.1 "size_limit"] in
  check_size_limit (Lsd lim rest).

(** reference.py:82-84 [__setitem__] *)
Definition lsd_set (d : lsd) (k : K) (v : V) : lsd :=
  check_size_limit (Lsd (size_limit d) (od_set k v (entries d))).
End Lsd.

(** The memoised generator: operational model of reference.py:94-124.
    - a generator object is identified by its creation number; it records the arguments it was created
      with and the values already pulled out of it (the shared buffer of [itertools.tee]);
    - a tee iterator is a generator number and a position in that buffer. *)
Section MemoGen.
Variables (Arg : eqType) (V : Type).
(** The undecorated generator function: the finite sequence of values yielded for given arguments.
    Simplification: resuming a generator has no effect other than producing its next value, and a
    generator does not resume itself. *)
Variable f : Arg -> seq V.

Record gen := Gen { gsrc : Arg; gbuf : seq V }.
Record titer := Titer { tgen : nat; tpos : nat }.

(** Cached value: the integer left in the dictionary by a keyword argument, or an iterator. *)
Inductive cval := CInt of nat | CIter of titer.
Definition cval_nat (v : cval) : nat := if v is CInt n then n else 0.

(** Keys of the cache: argument tuples [Some args], and [None] for a keyword string, which is never
    equal to a tuple. *)
Record mstate := MState {
  mcache : lsd [eqType of option Arg] cval;
  mgens : seq gen;          (* generator objects created so far *)
  mhandles : seq titer      (* iterators returned to callers, in call order *)
}.

(** reference.py:112 [cache = LimitedSizeDict(maxsize=maxsize)]. *)
Definition minit (maxsize : nat) : mstate :=
  MState (lsd_init (fun _ => None) cval_nat [:: ("maxsize"%string, CInt maxsize)]) [::] [::].

(** reference.py:115-123, one call [ret( *args)].  [tee] of an iterator returns two iterators at the same
    position over the same buffer, one stored back in the cache, one returned.  If the entry is not in
    the cache at line 118 (it was evicted by [__setitem__]) a KeyError is raised: [None]. *)
Definition mcall (a : Arg) (st : mstate) : option mstate :=
  let st1 :=
    if od_get (Some a) (entries (mcache st)) is Some _ then st
    else MState (lsd_set (mcache st) (Some a) (CIter (Titer (size (mgens st)) 0)))
           (rcons (mgens st) (Gen a [::])) (mhandles st) in
  match od_get (Some a) (entries (mcache st1)) with
  | Some (CIter t) =>
      Some (MState (lsd_set (mcache st1) (Some a) (CIter t)) (mgens st1) (rcons (mhandles st1) t))
  | _ => None
  end.

(** [next(h)] on the iterator handed out by the [h]-th call: reads the shared buffer, pulling one
    more value from the generator when the buffer is exhausted; [None] is StopIteration. *)
Definition mnext (h : nat) (st : mstate) : mstate * option V :=
  if ohead (drop h (mhandles st)) is Some (Titer g p) then
    if ohead (drop g (mgens st)) is Some (Gen a buf) then
      let buf' := if p < size buf then buf
                  else if ohead (drop (size buf) (f a)) is Some v then rcons buf v else buf in
      if ohead (drop p buf') is Some v then
        (MState (mcache st) (set_nth (Gen a buf') (mgens st) g (Gen a buf'))
                (set_nth (Titer g p) (mhandles st) h (Titer g p.+1)), Some v)
      else (st, None)
    else (st, None)
  else (st, None).

(** A history of operations of the callers. *)
Inductive mop := MCall of Arg | MNext of nat.

(** Run a history; the log lists, in order, the handle used and the value delivered by each [next].
    A call that raises ends the run with [None]. *)
Fixpoint mrun (st : mstate) (ops : seq mop) : option (mstate * seq (nat * option V)) :=
  match ops with
  | [::] => Some (st, [::])
  | MCall a :: ops' => if mcall a st is Some st' then mrun st' ops' else None
  | MNext h :: ops' =>
      let: (st', v) := mnext h st in
      if mrun st' ops' is Some (st'', log) then Some (st'', (h, v) :: log) else None
  end.
End MemoGen.
