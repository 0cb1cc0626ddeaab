#!/usr/bin/env python3
"""Source of /verif/properties.jsonl (kept as a script so that it is easy to append to)."""
import json, os
P = []
def p(title, statement, quantifier, why, anchors):
    P.append(dict(id="C%02d" % (len(P) + 1), title=title, statement=statement,
                  quantifier=quantifier, why_tests_cant=why, anchors=anchors))

p("Reference hafnian is the perfect-matching sum",
  "thewalrus.reference.hafnian(M) returns, for every square matrix M over a commutative ring, the sum over all perfect matchings of {0..n-1} of the product of the entries M[i,j] (i<j) of the matched pairs; for odd n it returns 0 and for n=0 it returns 1.",
  "all sizes n, all matrices with entries in any commutative ring (numbers, polynomials, symbols)",
  "the docs promise it for any object with + and *, at every size; tests compare a few sizes with numbers",
  ["thewalrus/reference.py:hafnian", "thewalrus/reference.py:pmp", "thewalrus/reference.py:partitions"])
p("Reference loop hafnian is the single-pair-matching sum",
  "thewalrus.reference.hafnian(M, loop=True) returns, for every square M, the sum over all partitions of {0..n-1} into singletons and pairs of the product of M[i,j] over pairs and M[i,i] over singletons.",
  "all sizes, all matrices over any commutative ring",
  "needs every size and every entry domain",
  ["thewalrus/reference.py:hafnian", "thewalrus/reference.py:spm", "thewalrus/reference.py:partitions"])
p("Matching generators enumerate each matching exactly once",
  "reference.partitions/spm/pmp on a tuple of n>=3 distinct labels yield every partition into singles and/or pairs exactly once and nothing else; the number yielded by spm is the telephone number T(n), and by pmp it is (n-1)!! for even n and 0 for odd n.",
  "every tuple of length >= 3 of distinct labels, both flags",
  "duplicates or omissions at some size cannot be excluded by finitely many sizes",
  ["thewalrus/reference.py:partitions", "thewalrus/reference.py:spm", "thewalrus/reference.py:pmp", "thewalrus/reference.py:T"])
p("Memoised generators are transparent",
  "A generator function decorated with reference.memoized yields to each caller exactly the sequence the undecorated function would yield, however calls and partial consumptions of earlier iterators are interleaved.",
  "every history of calls and next() operations",
  "the state space of interleavings of shared tee iterators is unbounded",
  ["thewalrus/reference.py:memoized", "thewalrus/reference.py:LimitedSizeDict"])
p("Memoisation cache respects maxsize",
  "The cache of reference.memoized(f, maxsize) never holds more than maxsize entries.",
  "every history of calls",
  "statement about unboundedly many calls (it is in fact false of the code: the keyword is misspelt)",
  ["thewalrus/reference.py:memoized", "thewalrus/reference.py:LimitedSizeDict"])
p("Power-trace hafnian (glynn and inclexcl) is exact",
  "hafnian(A, method='glynn') and hafnian(A, method='inclexcl') equal the perfect-matching sum for every symmetric matrix A of even size (exact arithmetic), so the two methods agree with each other.",
  "all even sizes, all symmetric matrices over a field of characteristic 0",
  "2^(n/2) signed terms have to cancel at every size and for every matrix",
  ["thewalrus/_hafnian.py:_calc_hafnian", "thewalrus/_hafnian.py:f", "thewalrus/_hafnian.py:get_AX_S", "thewalrus/_hafnian.py:find_kept_edges"])
p("Recursive hafnian is exact",
  "hafnian(A, method='recursive') equals the perfect-matching sum for every symmetric matrix of even size.",
  "all even sizes, all symmetric matrices over a commutative ring",
  "the recursion carries truncated polynomials through every level; tests see a few sizes",
  ["thewalrus/_hafnian.py:recursive_hafnian", "thewalrus/_hafnian.py:solve"])
p("hafnian() dispatches to a correct value or a documented error",
  "hafnian(A) raises on non-square/NaN/asymmetric input, returns 1 for an empty matrix, 0 for odd size without loops, and its closed formulas for sizes 2, 3 and 4 equal the (loop) hafnian; exactly diagonal matrices give 0 without loops and the product of the diagonal with loops.",
  "all inputs and flags",
  "every branch for every matrix, including the interaction of the loop flag with each shortcut",
  ["thewalrus/_hafnian.py:hafnian", "thewalrus/_hafnian.py:input_validation"])
p("Shortcuts of hafnian() never change the value",
  "The closeness-based shortcuts of hafnian/hafnian_repeated/hafnian_sparse (matrix numerically diagonal/zero) return the exact (loop) hafnian.",
  "all matrices",
  "false only on a thin set of inputs (tiny non-zero entries, empty index sets) that random tests do not hit",
  ["thewalrus/_hafnian.py:hafnian", "thewalrus/_hafnian.py:hafnian_repeated", "thewalrus/_hafnian.py:hafnian_sparse"])
p("hafnian_repeated equals the hafnian of the repeated matrix",
  "hafnian_repeated(A, rpt) equals hafnian(reduction(A, rpt)), and with loop=True and mu it equals the loop hafnian of the reduction of A with diagonal mu; odd total repetition without loops gives 0, total 0 gives 1.",
  "all matrices and all repetition vectors",
  "combinatorial weights (binomials, matched repetitions) must be right for all multiplicities",
  ["thewalrus/_hafnian.py:hafnian_repeated", "thewalrus/_hafnian.py:_haf", "thewalrus/_hafnian.py:matched_reps"])
p("loop_hafnian is exact",
  "loop_hafnian(A, D, reps, glynn) equals the sum over partitions into singletons and pairs of the multiset in which index i is repeated reps[i] times, with edge weight A and singleton weight D, for even and odd totals, with both summation methods.",
  "all symmetric A, all D, all reps, both methods",
  "odd totals use a separate half-step polynomial algorithm; cancellation must hold at every size",
  ["thewalrus/_hafnian.py:loop_hafnian", "thewalrus/_hafnian.py:_calc_loop_hafnian", "thewalrus/_hafnian.py:f_loop", "thewalrus/_hafnian.py:f_loop_odd"])
p("matched_reps pairs every repeated index exactly once",
  "matched_reps(reps) returns pairs x[i]~x[i+m] with multiplicities edgereps (and one odd mode iff the total is odd) such that every index i occurs exactly reps[i] times in total, no multiplicity is zero, and the multiplicities sum to floor(total/2).",
  "all repetition vectors",
  "the greedy loop mutates three lists simultaneously; correctness is a multiset invariant over unboundedly many steps",
  ["thewalrus/_hafnian.py:matched_reps"])
p("find_kept_edges enumerates all subset multiplicities exactly once",
  "As j ranges over 0..prod(reps[i]+1)-1, find_kept_edges(j, reps) takes every vector k with 0<=k[i]<=reps[i] exactly once.",
  "all repetition vectors",
  "bijection on mixed-radix numbers of any length",
  ["thewalrus/_hafnian.py:find_kept_edges"])
p("hafnian_sparse is exact",
  "hafnian_sparse(A, D, loop) equals the (loop) hafnian of the submatrix indexed by D whenever its zero shortcut does not trigger, independently of the order in which set elements are popped.",
  "all matrices, index sets and pop orders",
  "Python set iteration order is unspecified, so the claim ranges over all pop strategies",
  ["thewalrus/_hafnian.py:hafnian_sparse"])
p("hafnian_banded is exact on banded matrices",
  "hafnian_banded(A, loop) equals the (loop) hafnian of A for every symmetric matrix A (with its measured bandwidth).",
  "all sizes, all bandwidths",
  "sliding-window dynamic programming: the invariant has to hold at each step for each window",
  ["thewalrus/_hafnian.py:hafnian_banded", "thewalrus/_hafnian.py:bandwidth"])
p("low_rank_hafnian is exact",
  "low_rank_hafnian(G) equals the hafnian of G G^T for every n x r matrix G with r >= 1.",
  "all n, all r, all G",
  "Gaussian-moment identity over unbounded number of monomials",
  ["thewalrus/_low_rank_haf.py:low_rank_hafnian", "thewalrus/_low_rank_haf.py:partitions"])
p("hafnian approximation is unbiased",
  "For non-negative symmetric A of even size the estimator averaged by hafnian_approx, a determinant of a random skew-symmetric matrix with i.i.d. mean-0 variance-1 weights, has expectation equal to the hafnian of A.",
  "all sizes, all matrices, any weight distribution with mean 0 and variance 1",
  "a statement about an expectation; sampling tests can only check it statistically",
  ["thewalrus/_hafnian.py:hafnian_approx", "thewalrus/_hafnian.py:_one_det"])
p("loop_hafnian_batch returns every entry of the batch",
  "loop_hafnian_batch(A, D, fixed_reps, N_cutoff)[k] equals the loop hafnian of A, D with repetitions fixed_reps + [k], for all k <= N_cutoff.",
  "all A, D, fixed_reps and N_cutoff",
  "the batch shares one polynomial computation between all cutoffs, odd and even; boundary cutoffs behave differently",
  ["thewalrus/loop_hafnian_batch.py:loop_hafnian_batch", "thewalrus/loop_hafnian_batch_gamma.py"])
p("batch_gamma is row-wise loop_hafnian_batch",
  "Row i of loop_hafnian_batch_gamma(A, D, fixed_reps, N_cutoff) equals loop_hafnian_batch(A, D[i], fixed_reps, N_cutoff).",
  "all batches",
  "equality of two separately written programs on all inputs",
  ["thewalrus/loop_hafnian_batch_gamma.py:loop_hafnian_batch_gamma", "thewalrus/loop_hafnian_batch.py:loop_hafnian_batch"])
p("Multidimensional Hermite polynomials obey the loop-hafnian formula",
  "The unnormalised tensor produced by hermite_multidimensional(R, cutoff, y) has as entry at multi-index p the loop hafnian with edge weights -R and singleton weights given by y repeated p (R y in modified form reversed), independently of the recursion pivot; hafnian_batched(A, cutoff, mu) has entry hafnian_repeated(A, p, mu).",
  "all numbers of modes, all cutoffs, all R, y, all multi-indices",
  "an array filled in place in a fixed order: that each entry reads only finished entries must hold for every shape",
  ["thewalrus/_hermite_multidimensional.py:hermite_multidimensional", "thewalrus/_hermite_multidimensional.py:_hermite_multidimensional", "thewalrus/_hermite_multidimensional.py:hafnian_batched"])
p("Renormalised Hermite tensor is the rescaled tensor",
  "hermite_multidimensional(..., renorm=True) at multi-index p equals the unnormalised value divided by sqrt(prod p_i!).",
  "all shapes and multi-indices",
  "scaling invariant at each entry of each shape",
  ["thewalrus/_hermite_multidimensional.py:_hermite_multidimensional_renorm"])
p("Hermite gradient is the derivative",
  "grad_hermite_multidimensional returns the partial derivatives of the renormalised tensor with respect to C, y... as defined by the polynomial entries.",
  "all shapes, all multi-indices, all parameters",
  "equality of two polynomials of unbounded degree",
  ["thewalrus/_hermite_multidimensional.py:grad_hermite_multidimensional"])
p("Interferometer tensor conserves photon number",
  "The interferometer() tensor has entry 0 at every multi-index whose input and output photon numbers differ, and the remaining entries agree with the general recursion.",
  "all cutoffs and numbers of modes",
  "every entry of every shape",
  ["thewalrus/_hermite_multidimensional.py:interferometer", "thewalrus/_hermite_multidimensional.py:_interferometer_renorm"])
p("Ryser permanent is exact",
  "perm(A, method='ryser') equals the sum over permutations of the products of entries, for every square A of size at least 1.",
  "all sizes, all matrices over a commutative ring",
  "Gray-code incremental updates over 2^n steps; inclusion-exclusion cancellation at every size",
  ["thewalrus/_permanent.py:perm_ryser"])
p("BBFG permanent is exact",
  "perm(A, method='bbfg') equals the permanent for every square matrix (characteristic 0), so both methods agree.",
  "all sizes, all matrices",
  "as for Ryser, with Glynn signs",
  ["thewalrus/_permanent.py:perm_bbfg"])
p("permanent_repeated equals the permanent of the repeated matrix",
  "permanent_repeated(A, rpt) equals the permanent of the matrix in which row and column i are repeated rpt[i] times, via haf([[0,A],[A^T,0]]) = perm(A).",
  "all sizes and repetition vectors (given as lists)",
  "identity between two combinatorial sums of unbounded size",
  ["thewalrus/_permanent.py:permanent_repeated", "thewalrus/_permanent.py:perm"])
p("brs and ubrs satisfy the bristolian expansions",
  "brs(A,E) equals the sum over subsets of detector clicks of signed permanents of the modified Gram matrix; ubrs(A) equals the unitary bristolian sum; ubrs(A)=brs(A,0).",
  "all sizes, all matrices",
  "2^n subsets at every n",
  ["thewalrus/_permanent.py:brs", "thewalrus/_permanent.py:ubrs"])
p("La Budde characteristic polynomial is exact",
  "For every upper Hessenberg matrix H, _charpoly(H, n) returns the coefficients of det(x - H); charpoly(A) returns those of det(x - A) for every A.",
  "all sizes >= 2, all Hessenberg matrices",
  "recursive coefficient updates for all sizes",
  ["thewalrus/charpoly.py:_charpoly", "thewalrus/charpoly.py:charpoly", "thewalrus/charpoly.py:beta"])
p("Householder reduction preserves the spectrum",
  "get_reflection_vector/apply_householder: each in-place step replaces A by P A P with P an involutory reflector, so the final matrix is similar to the input, has the same characteristic polynomial and is upper Hessenberg.",
  "all sizes, all matrices",
  "in-place mutation through a loop of unbounded length",
  ["thewalrus/charpoly.py:reduce_matrix_to_hessenberg", "thewalrus/charpoly.py:get_reflection_vector", "thewalrus/charpoly.py:apply_householder"])
p("powertrace returns the traces of powers",
  "powertrace(A, n)[k] = tr(A^k) for all 0 <= k < n, both for n <= len(A) (Newton/La Budde) and for n > len(A) (Cayley-Hamilton continuation).",
  "all sizes, all n",
  "the second branch extrapolates to unbounded powers",
  ["thewalrus/charpoly.py:powertrace"])
p("Recursive torontonian equals the subset definition",
  "tor(O) and its non-recursive version numba_tor(O) both equal the signed sum over subsets Z of modes of 1/sqrt(det(1 - O_Z)), for every matrix on which the Cholesky factors exist.",
  "all numbers of modes",
  "incremental Cholesky updates along an unbounded recursion over subsets",
  ["thewalrus/_torontonian.py:rec_torontonian", "thewalrus/_torontonian.py:numba_tor", "thewalrus/_torontonian.py:quad_cholesky"])
p("Recursive loop torontonian equals the subset definition",
  "ltor(O, gamma) recursive and non-recursive versions equal the signed sum over subsets of exp(gamma_Z (1-O_Z)^-1 gamma_Z^* / 2)/sqrt(det(1-O_Z)).",
  "all numbers of modes",
  "as for tor, with an additional linear solve",
  ["thewalrus/_torontonian.py:rec_ltorontonian", "thewalrus/_torontonian.py:numba_ltor"])
p("Montrealer equals the sum over restricted perfect matchings",
  "mtl(A) (power-trace algorithm) equals reference.mtl(A), the sum over restricted perfect matching permutations; lmtl likewise with loops.",
  "all sizes, all adjacency matrices",
  "multilinear coefficient extraction at every size",
  ["thewalrus/_montrealer.py:mtl", "thewalrus/_montrealer.py:lmtl", "thewalrus/reference.py:mtl", "thewalrus/reference.py:rpmp"])
p("Samplers return bounded photon patterns",
  "hafnian_sample_state/torontonian_sample_state return arrays of the requested shape whose entries are between 0 and cutoff-1 (0/1 for clicks), for every outcome of the random generator.",
  "all random streams",
  "quantifies over all random outcomes",
  ["thewalrus/samples.py:generate_hafnian_sample", "thewalrus/samples.py:hafnian_sample_state", "thewalrus/samples.py:torontonian_sample_state"])
p("Chain-rule sampling has the right law",
  "photon_number_sampler draws flat index i with probability proportional to probabilities[i] and maps it to the multi-index with that flat position, appending overflow bins as -1.",
  "all probability tensors and cutoffs",
  "law of a random procedure",
  ["thewalrus/samples.py:photon_number_sampler"])
p("expand embeds a symplectic matrix",
  "expand(S, modes, N) acts as S on the quadratures of modes and as the identity elsewhere, is multiplicative (expand(S1)expand(S2)=expand(S1 S2)), and preserves symplecticity; expand_vector places displacements.",
  "all S, all mode lists without duplicates, all N",
  "all index lists",
  ["thewalrus/symplectic.py:expand", "thewalrus/symplectic.py:expand_vector"])
p("expand_passive embeds a passive transformation",
  "expand_passive(T, modes, N) acts as T on modes and as the identity elsewhere.",
  "all T, mode lists and N", "all index lists",
  ["thewalrus/symplectic.py:expand_passive"])
p("xxpp/xpxp reordering is a bijection",
  "xxpp_to_xpxp and xpxp_to_xxpp are mutually inverse on vectors and matrices and implement the permutation (x1..xN,p1..pN) <-> (x1,p1,..); odd size raises.",
  "all sizes, vectors and matrices", "all sizes",
  ["thewalrus/symplectic.py:xxpp_to_xpxp", "thewalrus/symplectic.py:xpxp_to_xxpp"])
p("Gaussian channel composition",
  "loss(mu, cov, T, mode, nbar) composes multiplicatively in T: applying loss T1 then T2 with equal bath equals loss T1*T2, loss T=1 is the identity, and different modes commute; passive_transformation(T2) after T1 equals passive_transformation(T2 T1).",
  "all states, transmissivities and modes", "an algebraic law over all states",
  ["thewalrus/symplectic.py:loss", "thewalrus/symplectic.py:passive_transformation"])
p("Gate constructors return symplectic matrices",
  "rotation, squeezing, two_mode_squeezing, interferometer/beam_splitter (for unitary input) return S with S Omega S^T = Omega, and both implementations of is_symplectic accept exactly the matrices with that property (exact tolerance).",
  "all parameters and sizes", "all parameters",
  ["thewalrus/symplectic.py:rotation", "thewalrus/symplectic.py:squeezing", "thewalrus/symplectic.py:two_mode_squeezing", "thewalrus/symplectic.py:interferometer", "thewalrus/symplectic.py:beam_splitter", "thewalrus/symplectic.py:is_symplectic", "thewalrus/symplectic.py:sympmat"])
p("Qmat and Covmat are inverse conversions",
  "Covmat(Qmat(cov)) = cov and Qmat(Covmat(Q)) = Q for symmetric input; Amat(cov, cov_is_qmat) agree; complex_to_real_displacements and real_to_complex_displacements are mutually inverse; Xmat is an involution.",
  "all states and values of hbar", "all inputs",
  ["thewalrus/quantum/conversions.py"])
p("reduced_gaussian returns the marginal on the requested modes in order",
  "reduced_gaussian(mu, cov, modes) returns mean and covariance of the listed modes in the listed order, and errors for out-of-range modes.",
  "all mode lists", "edge cases (all modes in permuted order, index N) are missed by tests",
  ["thewalrus/quantum/conversions.py:reduced_gaussian", "thewalrus/symplectic.py:reduced_state"])
p("Matrix decompositions reconstruct their input",
  "williamson, symplectic_eigenvals, blochmessiah, takagi, pre_iwasawa and iwasawa return factors of the promised type whose product is the input, whenever the numerical linear-algebra primitives they call satisfy their specification.",
  "all valid inputs, all primitives meeting their contracts",
  "relational statement over all matrices, including diagonal shortcuts",
  ["thewalrus/decompositions.py"])
p("Gate Fock tensors follow their closed forms",
  "fock_gradients.displacement/squeezing/beamsplitter/two_mode_squeezing/mzgate fill entries that satisfy conservation laws (beamsplitter: total photon number; two-mode squeezing: difference) and their closed forms.",
  "all cutoffs and parameters", "every entry of every cutoff",
  ["thewalrus/fock_gradients.py"])
p("Gradient functions of Fock tensors are derivatives",
  "grad_displacement, grad_squeezing, grad_beamsplitter, grad_two_mode_squeezing are the entry-wise partial derivatives of the tensors they are given (away from the cutoff boundary).",
  "all cutoffs, parameters and entries", "every entry of every cutoff",
  ["thewalrus/fock_gradients.py"])
p("Photon-number means and covariances agree with Wick's theorem",
  "photon_number_mean, photon_number_covar and photon_number_expectation/squared agree with the hafnian-based normal-ordered expectation values, for every Gaussian state and hbar.",
  "all states, modes and hbar", "algebraic identity over all states",
  ["thewalrus/quantum/means_and_variances.py"])
p("Loss and noise on photon distributions are stochastic maps",
  "loss_mat(eta, cutoff) is row-stochastic triangular and composes multiplicatively in eta; update_probabilities_with_loss/noise preserve total probability where truncation permits and act independently per mode.",
  "all eta, cutoffs, probability tensors", "all cutoffs",
  ["thewalrus/quantum/fock_tensors.py:loss_mat", "thewalrus/quantum/fock_tensors.py:update_probabilities_with_loss", "thewalrus/quantum/fock_tensors.py:update_probabilities_with_noise"])
p("n_body_marginals returns marginals for every subset",
  "n_body_marginals(mean, cov, cutoff, n) returns for every increasing index tuple of size k <= n the k-mode marginal distribution.",
  "all mode numbers and n",
  "depends on the iteration order of Python sets, which differs from sorted order only from 9 modes on",
  ["thewalrus/quantum/fock_tensors.py:n_body_marginals"])
p("find_classical_subsystem returns the largest classical prefix",
  "find_classical_subsystem(cov) returns the largest k such that the first k modes are classical, assuming reduced classical states stay classical.",
  "all covariance matrices", "loop termination point over all states",
  ["thewalrus/quantum/fock_tensors.py:find_classical_subsystem"])
p("Set partitions and Stirling ordering",
  "The partition generator used for photon-number cumulants enumerates every set partition exactly once (Bell number many), and the normal-ordering coefficients equal Stirling-type numbers: the number operator power n^k expands correctly in normal-ordered monomials.",
  "all sizes", "all sizes",
  ["thewalrus/quantum/means_and_variances.py:partition", "thewalrus/quantum/means_and_variances.py:_coeff_normal_ordered"])
p("Bipartition helper splits the modes",
  "entanglement.get_partition(split, N)-style helper returns two disjoint sorted lists covering all modes for every accepted split.",
  "all splits and N", "all splits",
  ["thewalrus/quantum/entanglement.py"])
p("Integer kernels used by the samplers and traces are exact",
  "nb_binom, nb_ix, precompute_binoms, dec2bin, invert_permutation (samples.py) compute binomial coefficients, submatrix selection, binary digits and inverse permutations exactly.",
  "all integer arguments", "all arguments",
  ["thewalrus/_hafnian.py:nb_binom", "thewalrus/_hafnian.py:precompute_binoms", "thewalrus/_hafnian.py:nb_ix", "thewalrus/_montrealer.py:dec2bin", "thewalrus/samples.py:invert_permutation"])

p("Threshold-detection probabilities are inclusion-exclusion sums of vacuum overlaps and add up to one",
  "For every state (mu, cov) with real symmetric positive semidefinite cov, hbar > 0 and every 0/1 pattern, threshold_detection_prob returns the inclusion-exclusion sum over subsets of clicked modes of the vacuum overlaps exp(-1/2 alpha_T^* Q_T^-1 alpha_T)/sqrt det Q_T of the reduced states; with no clicks it is the vacuum overlap; the 2^n probabilities add up to 1. (A mean vector that is nonzero but within atol of 0 is treated as 0.)",
  "all numbers of modes, means, covariance matrices, hbar, patterns and schedules of the parallel loop", "every state and pattern; the normalisation is a statement about all 2^n patterns together",
  ["thewalrus/_torontonian.py:threshold_detection_prob", "thewalrus/_torontonian.py:numba_vac_prob", "thewalrus/quantum/conversions.py:Qmat", "thewalrus/quantum/conversions.py:reduced_gaussian"])

p("Fock-basis elements, density matrices, state vectors and probabilities of Gaussian states",
  "For every Gaussian state (real symmetric positive semidefinite cov, real means, hbar > 0) the overlaps with coherent states have the Taylor coefficients <k|rho|l>; density_matrix returns the tensor of these with index (k0,l0,k1,l1,...), with or without post-selection on photon numbers and normalisation (trace one); density_matrix_element(i, j) returns <j|rho|i> (the docstring says <i|rho|j>); the tensor is Hermitian. When the state is pure, rho = |psi><psi| for the amplitudes psi returned by pure_state_amplitude and state_vector (with post-selection and normalisation), and these raise ValueError when the purity check fails. probabilities returns max(0, <k|rho|k>) in both the serial and the parallel mode and for pure and mixed states.",
  "all numbers of modes, means, covariance matrices, hbar, photon patterns, cutoffs up to 1000, post-selections", "every state and multi-index",
  ["thewalrus/quantum/fock_tensors.py:density_matrix_element", "thewalrus/quantum/fock_tensors.py:density_matrix", "thewalrus/quantum/fock_tensors.py:pure_state_amplitude", "thewalrus/quantum/fock_tensors.py:state_vector", "thewalrus/quantum/fock_tensors.py:probabilities", "thewalrus/quantum/conversions.py:Amat"])

p("Covariance-matrix checks decide the physical conditions",
  "For a real symmetric covariance matrix, is_valid_cov decides the uncertainty relation cov + i hbar/2 Omega >= 0 up to atol, is_classical_cov decides cov >= hbar/2 up to atol (and classical implies valid), and with zero tolerances is_pure_cov accepts exactly the valid covariance matrices with 2 cov / hbar symplectic; with any tolerances it accepts all of those. Non-square, odd-sized or asymmetric matrices are rejected.",
  "all real symmetric matrices of all sizes, all hbar > 0, all tolerances >= 0", "positivity and purity are statements about all vectors and all matrices",
  ["thewalrus/quantum/gaussian_checks.py:is_valid_cov", "thewalrus/quantum/gaussian_checks.py:is_pure_cov", "thewalrus/quantum/gaussian_checks.py:is_classical_cov"])

p("Photon-number sampling follows the chain rule",
  "Given the Gaussian draws, generate_hafnian_sample returns the pattern q (in the order of the input modes) with probability the product, over the modes taken in order of mean photon number, of |loop hafnian|^2/k! weights normalised over 0..cutoff, each conditional on the photon numbers already drawn and on the heterodyne outcomes of the modes still to come; all other patterns (too many photons, last mode at the cutoff) are rejected.",
  "all covariance matrices, means, Gaussian draws, cutoffs and patterns",
  "the law of a random procedure over all random outcomes",
  ["thewalrus/samples.py:generate_hafnian_sample", "thewalrus/_hafnian.py:loop_hafnian_batch"])
p("Rank-one graph sampling is Gaussian boson sampling",
  "hafnian_sample_graph_rank_one(G, n_mean) returns the pattern n with the Gaussian-boson-sampling probability sqrt(1-tanh^2) |haf(A_n)|^2 / n! of the pure state with A = c G G^T; given the photon-pair number the pattern is multinomial with weights |G_i|^2, and odd totals never occur.",
  "all vectors G, all patterns",
  "the law of a random procedure, relating it to hafnians of every size",
  ["thewalrus/samples.py:hafnian_sample_graph_rank_one"])

p("Random unitaries, symplectic and covariance matrices are valid and Haar-covariant",
  "For every invertible draw, random_interferometer(N) returns a unitary (real orthogonal with real=True), and multiplying the draw from the left by any unitary W multiplies the result by W, so that it inherits the left invariance of the Gaussian draws (Haar measure); random_symplectic returns a real symplectic matrix (orthogonal with passive=True, not mixing x and p with block_diag=True), and random_covariance a real symmetric covariance matrix satisfying the uncertainty relation (of a pure state with pure=True), accepted by is_valid_cov and is_pure_cov.",
  "all sizes, all invertible draws of the random generator, all scales and hbar > 0",
  "tests sample a few draws; validity must hold for almost every draw, and invariance of the law is not observable on samples",
  ["thewalrus/random.py:random_interferometer","thewalrus/random.py:random_symplectic","thewalrus/random.py:random_covariance"])
p("Random banded interferometers are unitary with the requested bandwidth",
  "random_banded_interferometer(N, w) raises ValueError unless w < N and otherwise returns an N x N unitary whose entries further than w from the diagonal are 0, real with real=True; random_block_interferometer(N, top_one) returns for N >= 1 an N x N unitary with blocks of size at most two, starting at even modes (top_one=False) or odd modes (top_one=True). (Finding: for N = 0 and top_one=True a 2 x 2 matrix is returned.)",
  "all sizes and bandwidths, all draws with invertible leading blocks",
  "holds for every N, w and draw; the block layout depends on the parity of N and alternates between iterations",
  ["thewalrus/random.py:random_block_interferometer","thewalrus/random.py:random_banded_interferometer"])

p('Click means, variances and cumulants are those of the threshold-detection law',
  'For every Gaussian state, mean_clicks(cov) and variance_clicks(cov) are the mean and the variance of the total number of clicks under the pattern probabilities returned by threshold_detection_prob(0, cov, pattern), and click_cumulant(mu, cov, modes) is the joint cumulant (sum over set partitions of the listed modes, repetitions allowed) of the click indicators under the pattern probabilities returned by threshold_detection_prob(mu, cov, pattern).',
  'all numbers of modes, covariance matrices, means, mode lists with repetitions, set iteration orders, hbar > 0',
  'The closed formulas use reduced determinants while the law is a sum over exponentially many patterns; tests compare on a few random states.',
  ['thewalrus/quantum/means_and_variances.py:mean_clicks', 'thewalrus/quantum/means_and_variances.py:variance_clicks', 'thewalrus/quantum/means_and_variances.py:click_cumulant', 'thewalrus/_torontonian.py:threshold_detection_prob'])

p('Entropies and logarithmic negativity are those of the symplectic spectrum',
  'vonneumann_entropy(cov) is the sum of the thermal entropies of the symplectic eigenvalues of 2 cov / hbar (those np.isclose to 1 count zero) and raises ValueError exactly when the uncertainty relation fails; it is nonnegative, unchanged by every symplectic transformation and 0 for pure states. entanglement_entropy(cov, modes_A) of a pure state is the entropy of the reduced state and is the same for both sides of a bipartition. log_negativity(cov, modes_A) is the sum of -log over the symplectic eigenvalues below 1 of the partial transpose, is the same for both sides, is 0 exactly when the partial transpose is a state, and in particular for uncorrelated modes.',
  'all numbers of modes, covariance matrices, hbar > 0, bipartitions and forms of the modes_A / split arguments',
  'Symmetry under exchange of the two sides, invariance and the PPT criterion relate different inputs over a continuum of states; tests compare a few random states with reference formulas.',
  ['thewalrus/quantum/entanglement.py:vonneumann_entropy', 'thewalrus/quantum/entanglement.py:entanglement_entropy', 'thewalrus/quantum/entanglement.py:log_negativity', 'thewalrus/decompositions.py:symplectic_eigenvals'])

p('Rescaling an adjacency matrix attains the requested mean photon number or mean number of clicks',
  'adj_scaling(A, n_mean) returns a scaling s >= 0 with s times the largest singular value below 1 such that the Gaussian state encoding s A has mean total photon number n_mean, and raises ValueError when no admissible scaling attains n_mean or A is negligible; adj_to_qmat(A, n_mean) returns the Husimi covariance matrix of that state, and rejects non-square A. adj_scaling_torontonian(A, c_mean) returns a scaling whose state has mean number of clicks c_mean, or the boundary scaling (where no state exists) only if the number of clicks jumps there; it raises ValueError exactly outside [0, n]. Finding: for singular values below the largest the boundary is returned without a warning although no state attains c_mean.',
  'all complex symmetric matrices, numbers of modes and requested means',
  'Root finding over a continuum of matrices; tests compare a few random matrices and cannot exclude a bracket whose returned root is no root or a wrong state.',
  ['thewalrus/quantum/adjacency_matrices.py:adj_scaling_torontonian', 'thewalrus/quantum/adjacency_matrices.py:_mean_clicks_adj', 'thewalrus/quantum/adjacency_matrices.py:adj_scaling', 'thewalrus/quantum/adjacency_matrices.py:adj_to_qmat'])

p('Photon-number means and covariances of distinguishable squeezers',
  'number_means(T, rs) and number_cov(T, rs) are the vector of mean photon numbers and the photon-number covariance matrix at the outputs of the interferometer T when the squeezed inputs are distinguishable: the sums over k of the means and covariances in the Gaussian state obtained from one squeezed mode k (all other modes in the vacuum) by passive_transformation with T.',
  'all numbers of modes, complex transmission matrices (lossy or not), squeezing parameters and hbar != 0',
  'The closed formulas are claimed for every T; tests compare a few random matrices.',
  ['thewalrus/quantum/distinguishable_squeezers.py:number_means', 'thewalrus/quantum/distinguishable_squeezers.py:number_cov'])

p('Total photon-number distribution of pure states',
  'pure_state_distribution(cov, cutoff, 2, padding) of a zero-mean pure state is the distribution of the total photon number: entry n is the sum over all photon-number patterns with n photons of |<k|psi>|^2; _squeezed_state_distribution(s, cutoff, N) is that of N identical squeezed vacua and _convolve_squeezed_state_distribution that of squeezed vacua with the given parameters. For hbar != 2 pure_state_distribution may reject pure states, because is_pure_cov is called without hbar.',
  'all numbers of modes, pure covariance matrices, cutoffs >= 1 (even and odd), padding factors >= 1, squeezing parameters',
  'The reduction to single-mode squeezed states (Takagi decomposition, multinomial sums) is claimed for all states and cutoffs; tests compare a few states.',
  ['thewalrus/quantum/photon_number_distributions.py:pure_state_distribution', 'thewalrus/quantum/photon_number_distributions.py:_squeezed_state_distribution', 'thewalrus/quantum/photon_number_distributions.py:_convolve_squeezed_state_distribution'])

p('Photon-number distribution of lossy squeezed states',
  'total_photon_number_distribution(n, k, s, eta, pref) is pref^n times the probability of detecting n photons in total when each of k modes is in a squeezed vacuum with parameter s and each photon survives with probability eta: the limit, as J grows, of the sum over all photon-number patterns with fewer than J photons of their probability times (m choose n) eta^n (1-eta)^(m-n), m the number of photons of the pattern. The series converges to the value returned, for even and odd n.',
  'all photon numbers n, numbers of modes k >= 1, squeezing parameters s, transmissions 0 <= eta <= 1 and prefactors',
  'The closed form through the Gauss hypergeometric function, different for even and odd n, resums an infinite series; tests compare a few values up to rounding.',
  ['thewalrus/quantum/photon_number_distributions.py:total_photon_number_distribution'])

p('Characteristic function of the photon number of lossy squeezed states',
  'characteristic_function(k, s, eta, mu, max_iter, delta, poly_corr) is a truncation of the series <n^m exp(mu n)> = sum over n of n^m exp(mu n) p_n, where p_n is the probability of n photons when k squeezed vacua with parameter s undergo loss with transmission eta: it is the sum of the first I terms for some 1 <= I <= max(1, max_iter), every term taken once and in order, and I < max_iter only if the last two terms add less than delta times the (nonzero) sum before the last. For s = 0 it is 0^m, the value for the vacuum.',
  'all numbers of modes k >= 1, squeezing parameters s, transmissions 0 <= eta <= 1, mu, limits max_iter, tolerances delta and natural poly_corr or None',
  'The loop has an early exit that depends on the values of the terms, of which every second one may be zero; tests compare the sum to closed forms for a few parameters.',
  ['thewalrus/quantum/photon_number_distributions.py:characteristic_function'])

# Statements made precise after the proofs (the first wording was false of the code or too loose).
REWORD = {
 "C43": "For every real symmetric positive definite 2N x 2N matrix V, williamson(V) returns (D, S) with S D S^T = V, S real symplectic and D = diag(d, d), d > 0, and symplectic_eigenvals(V) lists exactly the d_i of any such factorisation; for every real symplectic S, pre_iwasawa(S) and iwasawa(S) return symplectic factors (unit block-triangular, diagonal/block-diagonal positive, orthogonal) whose product is S; for every symmetric A whose entries are not between 0 and the tolerance thresholds, and which is not a diagonal matrix with unsorted moduli, takagi(A) returns ordered r >= 0 and a unitary U with U diag(r) U^T = A, and for every real symplectic S whose Takagi matrix is such, blochmessiah(S) returns orthogonal symplectic O, Q and D = diag(d, 1/d) with O D Q = S; inputs that are not square, symmetric, even-sized, positive definite or symplectic (as applicable) are rejected with ValueError; for diagonal matrices not sorted by descending modulus takagi, and hence blochmessiah, returns factors of a different matrix (refuted, with witnesses).",
 "C34": "For every outcome of the random generator, hafnian_sample_state (sequential or parallel) that returns gives exactly `samples` rows with one photon number per mode, each at most cutoff, that of the last mode strictly below cutoff, and at most max_photons in total; torontonian_sample_state gives exactly `samples` rows of zeros and ones with at most max_photons clicks. (That all modes stay strictly below the cutoff is false: only the last one is tested.)",
 "C35": "photon_number_sampler(probabilities, num_samples) returns num_samples independent multi-indices, each equal to ns with probability probabilities[ns]/sum(probabilities); with out_of_bounds=x it returns ns with probability probabilities[ns] and x with the missing probability 1 - sum(probabilities).",
 "C17": "For every symmetric matrix A (any size, any complex entries, zero or non-zero diagonal) and every num_samples >= 1, hafnian_approx(A, num_samples) is a polynomial in its num_samples*n*n independent random draws, and for every distribution of the draws with mean 0 and variance 1 (such as np.random.normal()) the expectation of that polynomial is exactly the hafnian of A; the uninitialised memory of np.empty_like never reaches the result.",
 "C16": "low_rank_hafnian(G) equals the hafnian of G G^T for every n x r matrix G with n >= 1 and r >= 1, or r = 1; for n = 0 and r >= 2 it raises AttributeError, and for r = 0 with n even RecursionError. partitions(r, n) lists the r-tuples of non-negative integers with sum n, each exactly once.",
 "C44": "For every cutoff and all indices below it, fock_gradients.displacement/squeezing/two_mode_squeezing/beamsplitter/mzgate return the Fock matrix elements of the gate: the Taylor coefficients of its generating function c exp(z A z/2 + mu z) over sqrt(m! n! ...). Hence displacement entries are exp(-r^2/2) sum_k k! C(m,k) C(n,k) alpha^(m-k) (-conj alpha)^(n-k)/sqrt(m! n!), beamsplitter and mzgate entries are permanents of the 2x2 unitary with repeated rows and columns, and entries breaking photon-number parity (squeezing), difference (two-mode squeezing) or total (beamsplitter) conservation are 0.",
 "C45": "For every cutoff and every index below it (boundary included), grad_displacement, grad_squeezing, grad_two_mode_squeezing, grad_beamsplitter and grad_mzgate return the first-order variations of the tensor entries with respect to each gate parameter.",
"C49": "For every real symmetric covariance matrix, find_classical_subsystem(cov) terminates and returns the largest k such that the first k modes are classical (covariance at least hbar/2 up to atol); restrictions of classical states are classical.",
"C48": "Provided list(set(ind)) lists mode numbers in ascending order, n_body_marginals(mean, cov, cutoff, n) returns an array whose entry at a tuple v of at most n distinct modes and a tuple x of photon numbers is the joint photon-number probability of the reduced state on v: for every increasing v, and for every v whose sorting permutation is an involution (in particular all pairs) with the photon number x[i] assigned to mode v[i]; tuples with a repeated mode hold 0. Findings: for cyclically permuted tuples such as (1, 2, 0) the photon numbers are assigned to the wrong modes; when list(set((1, 8))) is [8, 1], as in CPython, the entry for modes (1, 8) is left 0. Raises ValueError for shape mismatch, odd length, or n larger than the number of modes.",
"C47": "loss_mat(eta, cutoff) is the binomial loss matrix: row-stochastic, lower triangular, multiplicative in eta, and raises unless 0 <= eta <= 1. For up to nine modes with equal cutoffs update_probabilities_with_loss applies it to every mode independently (total probability and non-negativity are preserved, successive losses multiply); update_probabilities_with_noise convolves every mode with its noise distribution and preserves the total when the cutoff leaves room. Beyond nine modes the loss function is wrong (ten modes) or raises (eleven or more), because its einsum letters clash.",
"C05": "reference.LimitedSizeDict(size_limit=k) never holds more than k entries whatever is inserted; but reference.memoized(f, maxsize) does NOT bound its cache: it passes the keyword maxsize where the dictionary reads size_limit, so for every maxsize some call history leaves more than maxsize entries.",
"C06": "hafnian(A, method='glynn') and hafnian(A, method='inclexcl') equal the perfect-matching sum for every symmetric matrix A of even size (exact complex arithmetic, any order of the parallel loop), so the two methods agree with each other.",
"C08": "hafnian(A) raises on non-square/NaN/asymmetric input or an unknown method, returns 1 for an empty matrix, 0 for odd size without loops, and otherwise, for every method and both values of loop, returns the (loop) hafnian, as long as the closeness test 'A is diagonal' holds only for exactly diagonal A.",
"C09": "With tolerances 0 the closeness shortcuts of hafnian and hafnian_repeated (matrix diagonal / entries all zero) return the exact (loop) hafnian; with any positive atol there are matrices with small non-zero entries on which they do not.",
"C14": "hafnian_sparse(A, D, loop) equals the (loop) hafnian of the submatrix indexed by D for every non-empty D and every symmetric A that is not mistaken for zero by the closeness test, independently of the order in which set elements are popped and summed; for a zero A and the empty D it returns 0 instead of 1.",
"C15": "hafnian_banded(A, loop) equals the (loop) hafnian of A for every symmetric matrix A of size at least 1 whose entries beyond the detected bandwidth are exactly 0; on the 0x0 matrix it raises instead of returning 1.",
"C18": "loop_hafnian_batch(A, D, fixed_reps, N_cutoff)[k] equals the loop hafnian of A, D with repetitions fixed_reps + [k], for all k <= N_cutoff, N_cutoff >= 1, every order of the parallel loop; for N_cutoff = 0 it is so when sum(fixed_reps) is even, and [0] is returned when it is odd.",
"C20": "The unnormalised tensor produced by hermite_multidimensional(R, cutoff, y) has as entry at multi-index p the loop hafnian with edge weights -R and singleton weights given by R y (y itself in modified form), repeated p; hafnian_batched(A, cutoff, mu) has entry hafnian_repeated(A, p, mu). This holds whenever np.real_if_close does not discard a non-zero imaginary part; otherwise the entry can differ.",
"C21": "hermite_multidimensional(..., renorm=True) at multi-index p equals the unnormalised value divided by sqrt(prod p_i!), for floating point or complex input and cutoffs up to 1000; for integer input arrays the values are truncated to integers.",
"C23": "On the block matrix built from an m x m matrix U, for every scalar or per-axis cutoff, interferometer(R, cutoff) returns a tensor that has entry 0 at every multi-index whose input and output photon numbers differ, and elsewhere the permanent of U repeated along the multi-index (divided by sqrt(prod p_i!) with renorm=True), the value of the general recursion. (make_tensor=False does not flatten the result: the flag is ignored.)",
"C26": "permanent_repeated(A, rpt) equals the permanent of the matrix in which row and column i are repeated rpt[i] times, via haf([[0,A],[A^T,0]]) = perm(A), for rpt given as a list and A not mistaken for zero by the closeness test.",
"C27": "brs(A,E) and ubrs(A) equal their subset expansions in permanents; fock_prob and fock_threshold_prob equal the boson-sampling probabilities of photon counts and of click patterns, each family adding up to one; exception: with no input photons and a unitary the click probability of the vacuum is returned as 0 instead of 1.",
"C28": "For every upper Hessenberg matrix H of size at least 2, _charpoly(H, n) returns the coefficients of det(x - H); charpoly(A) returns those of det(x - A) for every A.",
"C33": "For every matrix A of size 2n, n >= 1, mtl(A) is the sum over the cyclic orders of the n modes (each entered by one of its two nodes and left by the other, up to rotation and reversal) of the product of the entries of A along the cycle, and for symmetric A equals reference.mtl(A); lmtl(A, zeta) adds the sum over linear orders with end weights conj(zeta) and zeta, and equals reference.mtl(A, loop=True) when conj(zeta_v) = A_vv and zeta_v is the diagonal entry at the partner node of v.",
"C42": "symplectic.reduced_state(mu, cov, modes) and quantum.reduced_gaussian(mu, cov, modes) return mean and covariance of the listed modes in the listed order, and reduced_gaussian raises for modes beyond the number of modes; exception: when as many modes are listed as the state has, reduced_gaussian returns its input unchanged whatever the order of the list.",
"C46": "photon_number_mean, _mean_vector, _variance, _covar, _covmat, _expectation, _squared_expectation, _moment and _cumulant and s_ordered_expectation equal the corresponding moments of the Gaussian Wigner function given by Wick's theorem, for every Gaussian state and hbar > 0, provided no non-zero displacement or covariance entry is small enough to be taken as 0 by the closeness shortcuts, and powers are at least 1.",
"C51": "entanglement's split of the modes accepts a list, tuple or range of Python ints within range or an int, and returns the listed modes in order, or 0..split-1; out-of-range modes raise. (Findings: every non-empty NumPy integer array is rejected; a negative split is accepted as the empty subset.)",
}
for q in P:
    if q["id"] in REWORD: q["statement"] = REWORD[q["id"]]

if __name__ == "__main__":
    out = os.path.join(os.path.dirname(__file__), "..", "properties.jsonl")
    with open(out, "w") as fh:
        for q in P:
            fh.write(json.dumps(q) + "\n")
    print(len(P))
