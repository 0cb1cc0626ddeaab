(** Model of [n_body_marginals], thewalrus/quantum/fock_tensors.py:616-673, and of
    [find_classical_subsystem], fock_tensors.py:540-563. *)
From mathcomp Require Import all_ssreflect all_algebra.
From Verif Require Import Prelude PyBase ArrLoop MHafnian MSymplectic MHermite MMeans MFock.
Set Implicit Arguments.
Unset Strict Implicit.
Unset Printing Implicit Defensive.
Import Order.Theory GRing.Theory Num.Theory.
Local Open Scope ring_scope.

(** list(OrderedDict.fromkeys(ind)): first occurrences, in order *)
Definition fromkeys (s : seq nat) : seq nat := rev (undup (rev s)).
(** np.argsort of a list of distinct numbers *)
Definition argsort (v : seq nat) : seq nat := sort (fun i j => nth 0 v i <= nth 0 v j)%N (iota 0 (size v)).

Section Marg.
Variable C : numClosedFieldType.
Variable sched : nat -> seq nat.
Variable oracle : nat -> (nat -> nat -> C) -> nat -> C.
Variable oob : nat -> C.
Variable trunc : C -> C.
Variable exp : C -> C.
Variable eigvalsh : nat -> (nat -> nat -> C) -> seq C.
(** the order in which list(set(ind)) lists the distinct elements of ind; CPython lists small integers in the order of
    their hash modulo the table size (8 slots for up to four elements): increasing if all are below 8, but
    list(set((1, 8))) = list(set((8, 1))) = [8, 1] *)
Variable set_order : seq nat -> seq nat.
Notation mat := (nat -> nat -> C).
Notation vec := (nat -> C).

(** marginal[acc][modes] for len(modes) = acc + 1, an array of shape [cutoff] * (acc + 1); the list of arrays is modelled
    as the function (modes, photon numbers) |-> entry: acc is len(modes) - 1 throughout.  [M] = len(mean) is given
    with the shape of cov.  For n = 0 the list is empty and the only (empty) index vector fails: IndexError (the calls
    of reduced_state and probabilities for no modes that come before are not modelled).
    probabilities is called with its default tolerances and parallel=False. *)
Definition n_body_marginals (M : nat) (mean : vec) (shape : nat * nat) (cov : mat) (cutoff n : nat) (hbar : C)
  : res (seq nat -> seq nat -> C) :=
  if (M, M) != shape then Err ValueError
  else if odd M then Err ValueError
  else let M := M./2 in
  if (M < n)%N then Err ValueError
  else if n == 0%N then Err IndexError
  else foldM (fun marginal ind =>
      let modes := set_order ind in
      if ind == sort leq ind then
        bind (reduced_state M mean cov modes) (fun st =>
        bind (probabilities sched oracle oob trunc exp eigvalsh (size modes) st.1 st.2 cutoff false hbar (rtol0 C) (atol0 C)) (fun p =>
        Ok (fun m k => if m == modes then tent p k else marginal m k)))
      else
        let modes_usrt := fromkeys ind in
        let perm := argsort modes_usrt in
        let t := transpose perm (Tensor (nseq (size modes) cutoff) (marginal modes)) in
        Ok (fun m k => if m == modes_usrt then tent t k else marginal m k))
    (fun _ _ => 0) (itproduct M n).

(** fock_tensors.py:540-563 [find_classical_subsystem(cov, hbar, atol)], cov of shape (n, n2); [fuel] bounds the iterations
    of the while loop (running out of fuel: [Err RecursionError], shown not to happen) *)
Fixpoint classical_loop (fuel : nat) (nm : nat) (mu : vec) (cov : mat) (hbar atol : C) (k : nat) : res nat :=
  if fuel is fuel'.+1 then
    bind (reduced_gaussian nm mu cov (iota 0 k.+1)) (fun st =>
    if is_classical_cov eigvalsh (2 * k.+1) (2 * k.+1) st.2 hbar atol then classical_loop fuel' nm mu cov hbar atol k.+1
    else Ok k)
  else Err RecursionError.
Definition find_classical_subsystem (n n2 : nat) (cov : mat) (hbar atol : C) : res nat :=
  let nmodes := n./2 in
  if is_classical_cov eigvalsh n n2 cov hbar atol then Ok nmodes
  else classical_loop nmodes.+2 nmodes (fun=> 0) cov hbar atol 0.
End Marg.
