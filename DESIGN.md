# Formal model of XanaduAI/thewalrus in Rocq (Coq 8.16.1)

## Approach

* The code is modelled function by function as computable Gallina programs over an arbitrary
  `comRingType` / `fieldType` / `numClosedFieldType` of mathcomp (exact arithmetic).  Every model
  definition cites the file and lines it models.  Loops become structural recursion or folds over
  explicit index lists; in-place array updates become function/sequence updates; generators become
  sequences; Python exceptions become values of an error type.
* Specifications live in separate `Spec*.v` files and are written with mathcomp big operators
  (sums over permutations, subsets, ...), with no reference to model helpers.
* `Prop*.v` files contain the theorems about the code, non-vacuity examples and `Print Assumptions`.
* Numerical primitives (Schur, SVD, eigh, sqrtm, QR, inverse, Cholesky square roots, cosh, exp, random numbers) are
  universally quantified oracles constrained by their documented algebraic contract; the contract is
  an explicit hypothesis of each theorem.

## Trusted base

1. **Coq 8.16.1's kernel** (with its conversion, including `vm_compute` in a few concrete examples) and the statement files
   (`Spec*.v`, the model files `M*.v`, `PyBase.v`, `ArrLoop.v`) as the reading of the Python source.  The correspondence
   between the Python text and the Gallina text is by inspection; every definition cites file and lines.
2. **`Print Assumptions`.**  No axiom is declared in this development.  The `Prop*.v` files print the assumptions of their main
   theorems.  Nearly all are `Closed under the global context`.  What appears elsewhere is one of
   * `mathcomp.ssreflect.tuple.FinTuple.enumP` / `FinTuple.size_enum`-like names: fields of mathcomp's own module-sealed
     constructions (`Module Type`-sealed in mathcomp, defined and proved there), listed by `Print Assumptions` because the seal
     hides the body;
   * `Coq.Numbers.Cyclic.Int63.PrimInt63.*`: Coq's primitive 63-bit integers (types and operations, no logical axiom), pulled
     in by the `zify`/`lia` instances of the standard library;
   No classical axiom, functional extensionality, proof irrelevance or choice axiom is used: arrays are functions that are only
   compared on their index range.
3. **Contracts of numerical primitives**, hypotheses of the theorems that use them, each shown to be satisfiable beside the
   theorem: `np.linalg.inv/det` (exact), Cholesky square roots, `np.sqrt` on non-negative reals (`sqrtC`), `exp`/`cosh`/`sinh`
   (functional equations), `eigvalsh/eigh/eigvals/svd/sqrtm/schur/polar/qr` (SpecDecomp.v, SpecRandom.v, SpecChecks.v),
   `np.random.*` (arbitrary draws, or draws with a stated mass function).

## What is modelled

Every function of `_hafnian.py` (except `get_submatrix_batch_odd0`, `get_Dsubmatrices`, which are modelled inside the batch
functions, and `eigvals`, superseded by `charpoly.powertrace`), `_hermite_multidimensional.py`, `_low_rank_haf.py`,
`_montrealer.py`, `_permanent.py`, `_torontonian.py`, `charpoly.py`, `decompositions.py`, `fock_gradients.py`,
`loop_hafnian_batch.py`, `loop_hafnian_batch_gamma.py`, `random.py`, `reference.py`, `symplectic.py`,
`quantum/conversions.py` (not `real_to_complex_displacements`), `quantum/fock_tensors.py` (not `fock_tensor`,
`tvd_cutoff_bounds`), `quantum/gaussian_checks.py`, `quantum/means_and_variances.py`,
`quantum/adjacency_matrices.py` (not the derivative and starting point handed to `root_scalar`), `quantum/entanglement.py`, `quantum/photon_number_distributions.py`, and of `samples.py` the state samplers,
the chain-rule kernels, `photon_number_sampler` and the rank-one graph sampler.  The table of files: `M*.v`.

## Not modelled

* Floating-point rounding, overflow and NaN (all arithmetic is exact), dtype dispatch of numba/numpy, memory layout.
* numba parallel scheduling is modelled only as an arbitrary permutation of a `prange` loop; dask/multiprocessing pools not at all.
* The laws of numpy's random generators (draws are arbitrary or given by a mass function).
* `csamples.py`, the wrappers
  `hafnian_sample_graph`, `torontonian_sample_graph` (they only call `adj_to_qmat`/`Covmat` and a modelled sampler),
  the classical-state samplers, `version`, `about`, `deprecate`.
* Python-level duck typing: inputs have the documented type; shape errors are modelled where the code checks them.

## Per-property plan

See the table below; the status of each property is in MANIFEST.json.

* **C01 Reference hafnian is the perfect-matching sum** - Model `partitions`, `pmp`, `hafnian` with generators as seqs; prove = sum over fixed-point-free involutions; induction on length of index tuple.
* **C02 Reference loop hafnian is the single-pair-matching sum** - Same with singles flag; sum over involutions.
* **C03 Matching generators enumerate each matching exactly once** - Enumeration = seq of sets of blocks; uniq + membership; counts by induction on T.
* **C04 Memoised generators are transparent** - Small-step model of cache of tee iterators with histories; invariant: each iterator's remaining output is a suffix of the reference sequence.
* **C05 Memoisation cache respects maxsize** - Model LimitedSizeDict constructor; refutation by exhibiting histories of any length.
* **C06 Power-trace hafnian (glynn and inclexcl) is exact** - Model f, get_AX_S, find_kept_edges, _calc_hafnian; expansion of exp(sum power traces) over words; inclusion-exclusion.
* **C07 Recursive hafnian is exact** - Model solve with seq polynomials; invariant via generating function in nilpotent variables; induction on size.
* **C08 hafnian() dispatches to a correct value or a documented error** - Model dispatcher with result type; case analysis.
* **C09 Shortcuts of hafnian() never change the value** - Refute with concrete matrices over rat; prove the exact-shortcut variant.
* **C10 hafnian_repeated equals the hafnian of the repeated matrix** - From C06/C11/C12 through repetition lemma.
* **C11 loop_hafnian is exact** - As C06 with extra path terms.
* **C12 matched_reps pairs every repeated index exactly once** - Model the while loop; multiset invariant.
* **C13 find_kept_edges enumerates all subset multiplicities exactly once** - Mixed-radix bijection by induction.
* **C14 hafnian_sparse is exact** - Model with arbitrary pop oracle; induction on the set size.
* **C15 hafnian_banded is exact on banded matrices** - Model the dict-of-tuples DP; invariant: table holds hafnians of window sets.
* **C16 low_rank_hafnian is exact** - Model the composition generator and the sympy polynomial; Stein-type recursion for Gaussian moments = Wick recursion for hafnians.
* **C17 hafnian approximation is unbiased** - Expectation as a linear functional defined by moments on polynomials of the draws; Leibniz expansion; only fixed-point-free involutions survive.
* **C18 loop_hafnian_batch returns every entry of the batch** - Model the batch functions; reuse C11.
* **C19 batch_gamma is row-wise loop_hafnian_batch** - Row-wise equality of models.
* **C20 Multidimensional Hermite polynomials obey the loop-hafnian formula** - Model the in-order fill of array (function update) and recursion; loop hafnian expansion along first index.
* **C21 Renormalised Hermite tensor is the rescaled tensor** - Scaling invariant.
* **C22 Hermite gradient is the derivative** - Formal derivative of entries.
* **C23 Interferometer tensor conserves photon number** - Invariant on filled entries.
* **C24 Ryser permanent is exact** - Gray-code loop invariant; inclusion-exclusion sum.
* **C25 BBFG permanent is exact** - Gray-code loop invariant; Glynn sum.
* **C26 permanent_repeated equals the permanent of the repeated matrix** - Bijection perfect matchings of bipartite graph <-> permutations.
* **C27 brs and ubrs satisfy the bristolian expansions** - Loop model = subset sum.
* **C28 La Budde characteristic polynomial is exact** - Hessenberg determinant expansion along last column.
* **C29 Householder reduction preserves the spectrum** - Reflector algebra P*P=1; loop invariant.
* **C30 powertrace returns the traces of powers** - Newton identities + Cayley-Hamilton.
* **C31 Recursive torontonian equals the subset definition** - Cholesky oracle for sqrt; recursion over subsets.
* **C32 Recursive loop torontonian equals the subset definition** - As C31.
* **C33 Montrealer equals the sum over restricted perfect matchings** - Reference enumeration (mapper, splitter) and the power-trace formula are both proved equal to a sum over cyclic (linear) orders; every prange order.
* **C34 Samplers return bounded photon patterns** - Random tree of picks; invariant: every returned pattern is below cutoff / max_photons; refutation for the cutoff overrun.
* **C35 Chain-rule sampling has the right law** - np.random.choice by its finite law; C-order unravel_index is a bijection.
* **C36 expand embeds a symplectic matrix** - Index-list model of expand; matrix algebra.
* **C37 expand_passive embeds a passive transformation** - Same.
* **C38 xxpp/xpxp reordering is a bijection** - Index permutations.
* **C39 Gaussian channel composition** - Matrix algebra.
* **C40 Gate constructors return symplectic matrices** - Matrix algebra with ch^2-sh^2=1 and c^2+s^2=1 hypotheses.
* **C41 Qmat and Covmat are inverse conversions** - Matrix algebra over numClosedField.
* **C42 reduced_gaussian returns the marginal on the requested modes in order** - Index selection, refutation for permuted full list.
* **C43 Matrix decompositions reconstruct their input** - Contracts for each LAPACK call (SpecDecomp.v); block matrix algebra; spectral uniqueness; refutation for the diagonal branch of takagi and for degenerate Bloch-Messiah.
* **C44 Gate Fock tensors follow their closed forms** - Fill loops = Taylor coefficients of the generating function (SpecGateFock.v); Laguerre sums, permanents, parity, conservation.
* **C45 Gradient functions of Fock tensors are derivatives** - First-order coefficients along polynomial curves; Leibniz over the Taylor coefficients.
* **C46 Photon-number means and covariances agree with Wick's theorem** - Expand loop hafnian of size 2 and 4.
* **C47 Loss and noise on photon distributions are stochastic maps** - Binomial identities; per-mode einsum as tensor action; letter clash of einsum refutes ten modes and more.
* **C48 n_body_marginals returns marginals for every subset** - CPython set order as parameter; marginal = fock_rho of the sub-covariance; refutations for 3-cycles and unordered sets.
* **C49 find_classical_subsystem returns the largest classical prefix** - eigvalsh contract, Cauchy interlacing replaced by restriction of quadratic forms; loop invariant.
* **C50 Set partitions and Stirling ordering** - Induction.
* **C51 Bipartition helper splits the modes** - Case analysis.
* **C52 Integer kernels used by the samplers and traces are exact** - Induction on arguments.
* **C53 Threshold-detection probabilities** - Vacuum overlaps of reduced states (SpecThr.v); Jacobi complementary minors, Schur complement of the quadratic form; Moebius inversion for the total.
* **C54 Fock-basis elements of Gaussian states** - Generating function of coherent overlaps (SpecFock.v); Taylor coefficients of exp of a quadratic = loop hafnians; index bookkeeping of density_matrix/state_vector; refutation for the order of post-selected modes.
* **C55 Covariance-matrix checks** - eigvalsh contract; spectral theorem; quadratic forms; determinant criterion for purity.
* **C56 Photon-number sampling follows the chain rule** - The law of the tree of picks is the product of conditional weights, for any draws.
* **C57 Rank-one graph sampling** - Law of the negative binomial + multinomial = |haf|^2 weights of the rank-one state.
* **C58 Random unitaries, symplectics, covariances** - QR contract, uniqueness of QR; Haar covariance as equivariance U z -> U q; block algebra.
* **C59 Banded interferometers** - Support of products of block-diagonal matrices by induction on layers; unitarity.
* **C60 Click means, variances and cumulants are those of the threshold-detection law** - Moebius inversion: moments of the click number from silent-set probabilities; reduced states have the silent-set probabilities of the image sets; partitions as in C46.
* **C61 Entropies and logarithmic negativity are those of the symplectic spectrum** - Williamson spectrum is determined by char_poly(Omega V); Sylvester identity relates the spectra of complementary blocks of a matrix squaring to -1; eigenvalues of a state are >= 1 by the uncertainty relation; partial transposes of the two sides differ by an antisymplectic involution.
* **C62 Rescaling an adjacency matrix attains the requested mean photon number or mean number of clicks** - Block inverse of 1 - X(A + conj A) from the singular value decomposition, photon numbers via trace; continuity of determinants and square roots rules out jumps inside the bracket; diag(1, 1/2) is the concrete case of the boundary finding.
* **C63 Photon-number means and covariances of distinguishable squeezers** - Covariance matrix of the output is the vacuum plus two rank-one terms; fourth moments by Isserlis' theorem (C46); field identity.
* **C64 Total photon-number distribution of pure states** - The weights of the n-photon sectors satisfy Newton's recurrence with the traces of (B^dagger B)^l as power sums; so do the negative-binomial weights; the recurrence has a unique solution and convolution adds power sums. Normalisation by the block determinant of the inverse Husimi covariance.
* **C65 Photon-number distribution of lossy squeezed states** - The sum over the patterns with m photons is a negative-binomial weight (C64), zero for odd m; the even terms, reindexed from n, are shown to be the terms of the hypergeometric series by writing the rising factorials of half-integers with factorials; the limit is transported along the reindexing.
* **C66 Characteristic function of the photon number of lossy squeezed states** - Induction on the remaining iterations, with the invariant that tot_sum is the sum of the first i terms and prev_addend the last one; the terms by C65.
