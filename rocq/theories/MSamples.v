(** Model of thewalrus/samples.py.  Arithmetic is exact; np.random.choice is a random pick (PyRand.v), the Gaussian draws
    np.random.normal(size=...) are universally quantified vectors z1, z2, ...; the decompositions williamson and
    np.linalg.cholesky are parameters. *)
From mathcomp Require Import all_ssreflect all_algebra.
From Verif Require Import PyBase PyRand ArrLoop MHafnian MCharpoly MBatch MSymplectic MMeans.
Set Implicit Arguments.
Unset Strict Implicit.
Unset Printing Implicit Defensive.
Import GRing.Theory Num.Theory.
Local Open Scope ring_scope.

Section Model.
Variable C : numClosedFieldType.
Variable sched : nat -> seq nat.                                  (* order of numba.prange *)
Notation mat := (nat -> nat -> C).
Notation vec := (nat -> C).
Variable williamson : nat -> mat -> res (mat * mat).              (* decompositions.williamson: (D, S) *)
Variable cholesky : nat -> mat -> res mat.                        (* np.linalg.cholesky *)
Variable eps : C.                                                 (* the literal 1e-10 *)
Local Notation prog := (prog C).

(** samples.py:95-117 [decompose_cov(cov, hbar)], cov of size 2M x 2M; np.sqrt of a negative number (NaN in numpy) is sqrtC *)
Definition decompose_cov (M : nat) (cov : mat) (hbar : C) : res (mat * mat) :=
  bind (williamson (2 * M) cov) (fun DS => let: (D, Sm) := DS in
  let T := mscale (hbar / 2%:R) (mmul (2 * M) Sm (trn Sm)) in
  let DmI : mat := fun i j => D i j - hbar / 2%:R * eye C i j in
  let DmI : mat := fun i j => if `|DmI i j| < eps then 0 else DmI i j in
  let sqrtW := mmul (2 * M) Sm (fun i j => sqrtC (DmI i j)) in
  Ok (T, sqrtW)).

(** samples.py:120-137 [mu_to_alpha(mu, hbar)], mu of length 2M *)
Definition mu_to_alpha (M : nat) (mu : vec) (hbar : C) : vec :=
  fun i => (mu i + 'i * mu (M + i)%N) / sqrtC (2%:R * hbar).

(** samples.py:140-154 [invert_permutation(p)] *)
Definition invert_permutation (p : seq nat) : nat -> nat :=
  for_ (iota 0 (size p)) (fun _ => 0%N) (fun s k => upd1 s (nth 0%N p k) k).

(** samples.py:157-175 [photon_means_order(mu, cov)]: photon_number_mean_vector is called with the default hbar=2; sorted()
    compares the pairs (mean, index) lexicographically.  For M = 0, np.asarray([]) is an array of floats and the first use of
    it as an index raises IndexError. *)
Definition photon_means_order (M : nat) (mu : vec) (cov : mat) : res (seq nat) :=
  bind (photon_number_mean_vector M mu cov 2%:R) (fun means =>
  let le (a b : nat) := (nth 0 means a < nth 0 means b) || (nth 0 means a == nth 0 means b) && (a <= b)%N in
  if M == 0%N then Err IndexError else Ok (sort le (iota 0 (size means)))).

(** samples.py:178-200 [get_heterodyne_fanout(alpha, fanout)]; [w] is exp(-2 pi i / fanout), [zr j k], [zi j k] are the normal
    draws of mode j; np.fft.fft(norm="ortho") is the discrete Fourier transform divided by sqrt(fanout) *)
Definition get_heterodyne_fanout (w : C) (M : nat) (alpha : vec) (fanout : nat) (zr zi : mat) : mat :=
  fun j k =>
    let alpha_j : vec := fun l => if l == 0%N then alpha j else zr j l.-1 + 'i * zi j l.-1 in
    (\sum_(l <- iota 0 fanout) alpha_j l * w ^+ (l * k)) / sqrtC fanout%:R.

(** [(lhafs * lhafs.conj()).real / fac(det_outcomes)] *)
Definition click_weights (lhafs : seq C) : seq C :=
  [seq 'Re (nth 0 lhafs k * (nth 0 lhafs k)^*) / (k`!)%:R | k <- iota 0 (size lhafs)].

(** samples.py:204-261 [generate_hafnian_sample(cov, mean, hbar, cutoff, max_photons)]; cov is 2M x 2M; None is the return
    value -1.  mean=None is the zero vector. *)
Definition generate_hafnian_sample (M : nat) (cov : mat) (mean : option vec) (hbar : C) (cutoff max_photons : nat) (z1 z2 : vec)
    : prog (option (seq nat)) :=
  let mu : vec := match mean with Some m => m | None => fun=> 0 end in
  pbind (of_res C (photon_means_order M mu cov)) (fun order =>
  let order_inv := invert_permutation order in
  let oo i := if (i < M)%N then nth 0%N order i else (nth 0%N order (i - M) + M)%N in
  let mu : vec := fun i => mu (oo i) in
  let cov : mat := fun i j => cov (oo i) (oo j) in
  pbind (of_res C (decompose_cov M cov hbar)) (fun TW => let: (T, sqrtW) := TW in
  pbind (of_res C (cholesky (2 * M) (madd T (eye C)))) (fun chol_T_I =>
  pbind (of_res C (Amat M T 2%:R false)) (fun B =>
  let pure_mu : vec := fun i => mu i + mvmul (2 * M) sqrtW z1 i in
  let pure_alpha := mu_to_alpha M pure_mu hbar in
  let heterodyne_mu : vec := fun i => pure_mu i + mvmul (2 * M) chol_T_I z2 i in
  let heterodyne_alpha := mu_to_alpha M heterodyne_mu hbar in
  let gamma : vec := fun i => (pure_alpha i)^* + mvmul M B (fun j => heterodyne_alpha j - pure_alpha j) i in
  pbind (pfold (fun (st : vec * (nat -> nat)) mode => let: (gamma, det_pattern) := st in
    let m := mode.+1 in
    let gamma : vec := fun i => gamma i - heterodyne_alpha mode * B i mode in
    pbind (of_res C (loop_hafnian_batch (@powertrace C) sched m B gamma m (mkseq det_pattern mode) cutoff true)) (fun lhafs =>
    let probs := click_weights lhafs in
    let norm_probs := \sum_(x <- probs) x in
    let probs := [seq x / norm_probs | x <- probs] in
    pbind (np_choice cutoff.+1 probs) (fun det_outcome_i =>
    Ret (gamma, upd1 det_pattern mode det_outcome_i)))) (gamma, fun=> 0%N) (pyrange 0 M)) (fun st =>
  let det_pattern := st.2 in
  let out := mkseq (fun i => det_pattern (order_inv i)) M in
  Ret (if nth 0%N out M.-1 == cutoff then None
       else if (max_photons < sumn out)%N then None
       else Some out)))))).

(** samples.py:469-477, the loop over the fan-out channels, with its break *)
Fixpoint fan_loop (gamma_fanout : mat) (lhafs : seq (seq C)) (cutoff mode : nat) (ks : seq nat) (gamma : vec)
    (det_pattern click_pattern : nat -> nat) : prog (vec * (nat -> nat) * (nat -> nat)) :=
  match ks with
  | [::] => Ret (gamma, det_pattern, click_pattern)
  | k :: ks =>
    let gamma := gamma_fanout k in
    let probs := click_weights (nth [::] lhafs k) in
    let norm := \sum_(x <- probs) x in
    let probs_k := [seq x / norm | x <- probs] in
    pbind (np_choice cutoff.+1 probs_k) (fun det_outcome =>
    let det_pattern := upd1 det_pattern mode (det_pattern mode + det_outcome)%N in
    if (0 < det_outcome)%N then Ret (gamma, det_pattern, upd1 click_pattern mode 1%N)
    else fan_loop gamma_fanout lhafs cutoff mode ks gamma det_pattern click_pattern)
  end.

(** samples.py:407-481 [generate_torontonian_sample(cov, mu, hbar, max_photons, fanout, cutoff)].  The number of fan-out
    channels must be positive (fanout = 0 divides by zero and is not modelled). *)
Definition generate_torontonian_sample (w : C) (M : nat) (cov : mat) (mean : option vec) (hbar : C) (max_photons fanout cutoff : nat)
    (z1 z2 : vec) (zr zi : mat) : prog (option (seq nat)) :=
  let mu : vec := match mean with Some m => m | None => fun=> 0 end in
  pbind (of_res C (photon_means_order M mu cov)) (fun order =>
  let order_inv := invert_permutation order in
  let oo i := if (i < M)%N then nth 0%N order i else (nth 0%N order (i - M) + M)%N in
  let mu : vec := fun i => mu (oo i) in
  let cov : mat := fun i j => cov (oo i) (oo j) in
  pbind (of_res C (decompose_cov M cov hbar)) (fun TW => let: (T, sqrtW) := TW in
  pbind (of_res C (cholesky (2 * M) (madd T (eye C)))) (fun chol_T_I =>
  pbind (of_res C (Amat M T 2%:R false)) (fun A =>
  let B : mat := fun i j => A i j / fanout%:R in
  let pure_mu : vec := fun i => mu i + mvmul (2 * M) sqrtW z1 i in
  let pure_alpha := mu_to_alpha M pure_mu hbar in
  let het_mu : vec := fun i => pure_mu i + mvmul (2 * M) chol_T_I z2 i in
  let het_alpha := mu_to_alpha M het_mu hbar in
  let het_alpha_fanout := get_heterodyne_fanout w M het_alpha fanout zr zi in
  let het_alpha_sum : vec := fun j => \sum_(k <- iota 0 fanout) het_alpha_fanout j k in
  let gamma : vec := fun i => (pure_alpha i)^* / sqrtC fanout%:R
    + mvmul M B (fun j => het_alpha_sum j - sqrtC fanout%:R * pure_alpha j) i in
  let step (st : option (vec * (nat -> nat) * (nat -> nat))) mode :=
    match st with
    | None => Ret None                                   (* -1 has been returned *)
    | Some (gamma, det_pattern, click_pattern) =>
      let gamma_fanout : mat := fun k i =>
        gamma i - \sum_(l <- iota 0 k.+1) het_alpha_fanout mode l * B i mode in
      pbind (of_res C (loop_hafnian_batch_gamma (@powertrace C) sched mode.+1 B fanout gamma_fanout mode.+1 (mkseq det_pattern mode) cutoff true)) (fun lhafs =>
      pbind (fan_loop gamma_fanout lhafs cutoff mode (iota 0 fanout) gamma det_pattern click_pattern) (fun st => let: (gamma, det_pattern, click_pattern) := st in
      Ret (if (max_photons < sumn (mkseq (fun i => click_pattern (order_inv i)) M))%N then None
           else Some (gamma, det_pattern, click_pattern))))
    end in
  pbind (pfold step (Some (gamma, fun=> 0%N, fun=> 0%N)) (pyrange 0 M)) (fun st =>
  Ret (match st with None => None | Some (_, _, click_pattern) => Some (mkseq (fun i => click_pattern (order_inv i)) M) end)))))).

(** the argument cov as the validation code sees it: a numpy array with its shape and whether it contains NaNs, or another object *)
Inductive pycov := PyOther | PyArr of nat & nat & bool & mat.
Definition check_cov (cov : pycov) : res (nat * mat) :=
  match cov with
  | PyOther => Err TypeError
  | PyArr r c nan m => if r != c then Err ValueError else if nan then Err ValueError else Ok (r, m)
  end.

(** the rejection loop [while j < samples: ...] of samples.py:311-324 and 530-541; [gen t] is the t-th call of the generator (with
    its own normal draws); None: still running after [fuel] calls *)
Fixpoint sample_loop (gen : nat -> prog (option (seq nat))) (fuel t samples : nat) (acc : seq (seq nat)) : prog (option (seq (seq nat))) :=
  if samples is s.+1 then
    if fuel is f.+1 then
      pbind (gen t) (fun result =>
      match result with
      | Some r => sample_loop gen f t.+1 s (rcons acc r)
      | None => sample_loop gen f t.+1 samples acc
      end)
    else Ret None
  else Ret (Some acc).
(** np.vstack of an empty list raises ValueError *)
Definition vstack (r : option (seq (seq nat))) : prog (option (seq (seq nat))) :=
  match r with Some [::] => Raise ValueError | _ => Ret r end.

(** samples.py:264-324 [_hafnian_sample]; the draws of attempt t are z1 t, z2 t.  An odd-sized covariance matrix is used as
    one of size 2 * (n // 2) in the first lines and fails later with a shape error; we only model even sizes and give odd ones
    ValueError. *)
Definition hafnian_sample (fuel : nat) (cov : pycov) (samples : nat) (mean : option vec) (hbar : C) (cutoff max_photons : nat)
    (z1 z2 : nat -> vec) : prog (option (seq (seq nat))) :=
  pbind (of_res C (check_cov cov)) (fun nm => let: (n, m) := nm in
  if odd n then Raise ValueError else
  pbind (sample_loop (fun t => generate_hafnian_sample n./2 m mean hbar cutoff max_photons (z1 t) (z2 t)) fuel 0 samples [::]) vstack).

(** samples.py:327-369 [hafnian_sample_state]; with parallel=True each of the [samples] dask tasks runs _hafnian_sample for one
    sample and the results are stacked in task order; the interleaving of the threads only decides which draws (z1 p, z2 p) and
    which picks task p sees.  [darwin]: sys.platform == "darwin" (NotImplementedError, rendered as RuntimeError). *)
Definition stack_tasks (task : nat -> prog (option (seq (seq nat)))) (samples : nat) : prog (option (seq (seq nat))) :=
  pbind (pmap task (iota 0 samples)) (fun rs =>
    vstack (foldr (fun r acc => match r, acc with Some a, Some b => Some (a ++ b) | _, _ => None end) (Some [::]) rs)).
Definition hafnian_sample_state (darwin : bool) (fuel : nat) (cov : pycov) (samples : nat) (mean : option vec) (hbar : C)
    (cutoff max_photons : nat) (parallel : bool) (z1 z2 : nat -> nat -> vec) : prog (option (seq (seq nat))) :=
  if parallel then
    if darwin then Raise RuntimeError
    else stack_tasks (fun p => hafnian_sample fuel cov 1 mean hbar cutoff max_photons (z1 p) (z2 p)) samples
  else hafnian_sample fuel cov samples mean hbar cutoff max_photons (z1 0%N) (z2 0%N).

(** samples.py:484-541 [_torontonian_sample] and 544-588 [torontonian_sample_state] *)
Definition torontonian_sample (w : C) (fuel : nat) (cov : pycov) (samples : nat) (mean : option vec) (hbar : C) (max_photons fanout cutoff : nat)
    (z1 z2 : nat -> vec) (zr zi : nat -> mat) : prog (option (seq (seq nat))) :=
  pbind (of_res C (check_cov cov)) (fun nm => let: (n, m) := nm in
  if odd n then Raise ValueError else
  pbind (sample_loop (fun t => generate_torontonian_sample w n./2 m mean hbar max_photons fanout cutoff (z1 t) (z2 t) (zr t) (zi t)) fuel 0 samples [::]) vstack).
Definition torontonian_sample_state (w : C) (darwin : bool) (fuel : nat) (cov : pycov) (samples : nat) (mean : option vec) (hbar : C)
    (max_photons fanout cutoff : nat) (parallel : bool) (z1 z2 : nat -> nat -> vec) (zr zi : nat -> nat -> mat) : prog (option (seq (seq nat))) :=
  if cov is PyOther then Raise TypeError else
  if parallel then
    if darwin then Raise RuntimeError
    else stack_tasks (fun p => torontonian_sample w fuel cov 1 mean hbar max_photons fanout cutoff (z1 p) (z2 p) (zr p) (zi p)) samples
  else torontonian_sample w fuel cov samples mean hbar max_photons fanout cutoff (z1 0%N) (z2 0%N) (zr 0%N) (zi 0%N).
End Model.

(** samples.py:683-717 [photon_number_sampler(probabilities, num_samples, out_of_bounds)]: the array has the shape [shape] and the
    flattened (C order) entries [flat]; [out_of_bounds]: None is False, [Some t] the placeholder t.  A sample is a multi-index
    (inl) or the placeholder (inr). *)
Definition unravel_index (index : nat) (cutoff num_modes : nat) : seq nat :=
  mkseq (fun k => (index %/ cutoff ^ (num_modes - 1 - k)) %% cutoff)%N num_modes.
Definition photon_number_sampler (K : numFieldType) (T : Type) (shape : seq nat) (flat : seq K) (num_samples : nat) (out_of_bounds : option T)
    : prog K (seq (seq nat + T)) :=
  let num_modes := size shape in
  if shape is cutoff :: _ then
    let sum_p := \sum_(x <- flat) x in
    match out_of_bounds with
    | None =>
      let probabilities := [seq x / sum_p | x <- flat] in
      pmap (fun _ : nat => pbind (np_choice (cutoff ^ num_modes) probabilities) (fun i => Ret (inl (unravel_index i cutoff num_modes)))) (iota 0 num_samples)
    | Some oob =>
      let upper_limit := (cutoff ^ num_modes)%N in
      let sorter index := if index == upper_limit then inr oob else inl (unravel_index index cutoff num_modes) in
      let probabilities := rcons flat (1 - sum_p) in
      pmap (fun _ : nat => pbind (np_choice (1 + cutoff ^ num_modes) probabilities) (fun i => Ret (sorter i))) (iota 0 num_samples)
    end
  else Raise IndexError.

(** samples.py:732-752 [_hafnian_sample_graph_rank_one(G, n_mean)], after np.random.negative_binomial has returned [half]; G has
    length len (a zero vector gives NaN probabilities: ValueError, as soon as a photon is drawn) *)
Definition hafnian_sample_graph_rank_one (K : numFieldType) (len : nat) (G : nat -> K) (half : nat) : prog K (seq nat) :=
  let total_photon_num := (2 * half)%N in
  let single_ph_ps := [seq `|G i| ^+ 2 | i <- iota 0 len] in
  let single_ph_ps := [seq x / \sum_(y <- single_ph_ps) y | x <- single_ph_ps] in
  pbind (pfold (fun (sample : nat -> nat) (_ : nat) =>
    pbind (np_choice len single_ph_ps) (fun detector => Ret (upd1 sample detector (sample detector + 1)%N)))
    (fun=> 0%N) (iota 0 total_photon_num)) (fun sample => Ret (mkseq sample len)).
