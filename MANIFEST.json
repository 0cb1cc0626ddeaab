{
 "claims": [
  {
   "property": "C01",
   "status": "proved",
   "theorems": [
    "ref_hafnian_correct",
    "ref_hafnian_odd",
    "ref_hafnian_nonsquare"
   ],
   "note": "Any comRing, any n, no symmetry assumption; model of reference.hafnian in MReference.v."
  },
  {
   "property": "C02",
   "status": "proved",
   "theorems": [
    "ref_loop_hafnian_correct"
   ],
   "note": ""
  },
  {
   "property": "C03",
   "status": "proved",
   "theorems": [
    "spm_enumerates",
    "pmp_enumerates",
    "telephone_rec"
   ],
   "note": ""
  },
  {
   "property": "C04",
   "status": "proved",
   "theorems": [
    "memoized_transparent"
   ],
   "note": "All interleavings of calls and next(); operational model of cache, generators and tee buffers."
  },
  {
   "property": "C05",
   "status": "proved",
   "theorems": [
    "memoized_maxsize_refuted",
    "lsd_bounded"
   ],
   "note": "The property as stated is FALSE of the code: memoized passes maxsize= but LimitedSizeDict pops size_limit=, so the cache is unbounded (refuted for every maxsize); the dictionary itself is bounded when size_limit is given."
  },
  {
   "property": "C06",
   "status": "proved",
   "theorems": [
    "haf_correct",
    "haf_rep_correct"
   ],
   "note": "numClosedFieldType scalars (exact complex arithmetic), both glynn flags, every execution order of the prange loop; powertrace is the modelled charpoly.powertrace."
  },
  {
   "property": "C07",
   "status": "proved",
   "theorems": [
    "recursive_hafnian_correct",
    "recursive_hafnian_gen",
    "recursive_hafnian_bad_shape"
   ],
   "note": "Any commutative ring."
  },
  {
   "property": "C08",
   "status": "proved",
   "theorems": [
    "hafnian_correct",
    "input_validation_ok",
    "input_validation_rejects",
    "hafnian_validates",
    "hafnian_repeated_validates",
    "hafnian_unknown_method",
    "hafnian_approx_rejects"
   ],
   "note": "Every method name known to the code, exactly symmetric matrix, tolerances on which the numerically-diagonal shortcut does not fire wrongly."
  },
  {
   "property": "C09",
   "status": "proved",
   "theorems": [
    "hafnian_zero_tol",
    "hafnian_repeated_zero_tol",
    "hafnian_shortcut_refuted",
    "hafnian_repeated_shortcut_refuted"
   ],
   "note": "With zero tolerances the shortcuts are exact; with any positive atol they are refuted."
  },
  {
   "property": "C10",
   "status": "proved",
   "theorems": [
    "hafnian_repeated_correct",
    "hafnian_repeated_reduction",
    "hafnian_repeated_bad_rpt",
    "hafnian_repeated_bad_mu",
    "reductionE"
   ],
   "note": ""
  },
  {
   "property": "C11",
   "status": "proved",
   "theorems": [
    "loop_hafnian_rep_correct",
    "loop_hafnian_diag_correct",
    "loop_hafnian_correct",
    "loop_hafnian_mismatch"
   ],
   "note": ""
  },
  {
   "property": "C12",
   "status": "proved",
   "theorems": [
    "matched_reps_correct",
    "matched_reps_range"
   ],
   "note": ""
  },
  {
   "property": "C13",
   "status": "proved",
   "theorems": [
    "find_kept_edges_enumerates",
    "find_kept_edges_box",
    "find_kept_edges_uniq"
   ],
   "note": ""
  },
  {
   "property": "C14",
   "status": "proved",
   "theorems": [
    "hafnian_sparse_correct",
    "hafnian_sparse_total",
    "hafnian_sparse_whole",
    "hafnian_sparse_zero",
    "hafnian_sparse_empty_refuted"
   ],
   "note": "Every order of set.pop and summation; the zero shortcut is refuted for an empty index set."
  },
  {
   "property": "C15",
   "status": "proved",
   "theorems": [
    "hafnian_banded_correct",
    "hafnian_banded_correct_tol",
    "powerset_correct",
    "bandwidth_beyond",
    "hafnian_banded_validates",
    "hafnian_banded_empty_refuted"
   ],
   "note": "Entries beyond the detected bandwidth must be exactly zero (bandwidth is detected with allclose)."
  },
  {
   "property": "C16",
   "status": "proved",
   "theorems": [
    "low_rank_hafnian_correct",
    "partitions_correct",
    "L_prodl",
    "stein",
    "low_rank_hafnian_empty",
    "low_rank_hafnian_rank0",
    "low_rank_example"
   ],
   "note": "For every n x r matrix over any commutative ring with r = 1, or r >= 1 and n >= 1; sympy's expand/coeff are multivariate polynomial arithmetic, factorial2 is exact. Findings: n = 0 with r >= 2 raises AttributeError although the hafnian is 1; r = 0 with even n recurses without end."
  },
  {
   "property": "C17",
   "status": "proved",
   "theorems": [
    "hafnian_approx_unbiased",
    "expect_one_det",
    "one_det_mx",
    "fpf_sign"
   ],
   "note": "Expectation of a polynomial in independent draws is defined from the moments (SpecExpect.v); determinant and square root exact."
  },
  {
   "property": "C18",
   "status": "proved",
   "theorems": [
    "loop_hafnian_batch_correct",
    "loop_hafnian_batch_mismatch",
    "loop_hafnian_batch_cutoff0",
    "loop_hafnian_batch_cutoff0_refuted"
   ],
   "note": "Every execution order of the parallel loop; N_cutoff = 0 with an odd number of fixed photons always returns [0] (refuted)."
  },
  {
   "property": "C19",
   "status": "proved",
   "theorems": [
    "loop_hafnian_batch_gamma_correct"
   ],
   "note": ""
  },
  {
   "property": "C20",
   "status": "proved",
   "theorems": [
    "hermite_kernel_correct",
    "hermite_renorm_kernel_correct",
    "hermite_multidimensional_correct",
    "hafnian_batched_correct",
    "hafnian_batched_nomu",
    "hermite_multidimensional_errors",
    "hermite_1d",
    "hermite_real_if_close_refuted"
   ],
   "note": "All cutoffs, including per-axis ones; data must survive np.real_if_close exactly (the tolerance is refuted as a shortcut)."
  },
  {
   "property": "C21",
   "status": "proved",
   "theorems": [
    "hermite_renorm_kernel_correct",
    "hermite_multidimensional_correct",
    "hafnian_batched_correct",
    "hermite_int_renorm_refuted"
   ],
   "note": "Cutoffs at most 1000 (size of the SQRT table); integer arrays with renorm=True are truncated (refuted)."
  },
  {
   "property": "C22",
   "status": "proved",
   "theorems": [
    "grad_hermite_correct",
    "grad_hermite_dy",
    "grad_hermite_dR"
   ],
   "note": "Derivatives as coefficients of t along any line through (R, y)."
  },
  {
   "property": "C23",
   "status": "proved",
   "theorems": [
    "interferometer_kernel_correct",
    "interferometer_renorm_kernel_correct",
    "interferometer_correct",
    "haf_bip_perm",
    "interferometer_make_tensor_refuted"
   ],
   "note": ""
  },
  {
   "property": "C24",
   "status": "proved",
   "theorems": [
    "perm_ryser_correct",
    "perm_correct",
    "perm_rejects"
   ],
   "note": "Ryser over any commutative ring; Gray-code loop with Nat bit operations."
  },
  {
   "property": "C25",
   "status": "proved",
   "theorems": [
    "perm_bbfg_correct",
    "perm_correct"
   ],
   "note": "Any field with 2 != 0."
  },
  {
   "property": "C26",
   "status": "proved",
   "theorems": [
    "permanent_repeated_correct",
    "haf_bipartite_perm"
   ],
   "note": "rpt given as a list; entries must not trigger the all-zero shortcut of hafnian_repeated wrongly."
  },
  {
   "property": "C27",
   "status": "proved",
   "theorems": [
    "brs_correct",
    "ubrs_correct",
    "fock_prob_correct",
    "fock_prob_mismatch",
    "fock_prob_normalised",
    "occupations_all",
    "fock_threshold_prob_correct",
    "fock_threshold_prob_normalised",
    "fock_threshold_vacuum_refuted"
   ],
   "note": "Also: fock_prob and fock_threshold_prob sum to one; the vacuum input with a unitary is refuted (ubrs skips the empty set)."
  },
  {
   "property": "C28",
   "status": "proved",
   "theorems": [
    "labudde_correct",
    "charpoly_correct"
   ],
   "note": "labudde over any commutative ring, n >= 1; charpoly over any algebraically closed numeric field."
  },
  {
   "property": "C29",
   "status": "proved",
   "theorems": [
    "apply_householder_similar",
    "reduce_hessenberg_correct"
   ],
   "note": ""
  },
  {
   "property": "C30",
   "status": "proved",
   "theorems": [
    "powertrace_correct"
   ],
   "note": ""
  },
  {
   "property": "C31",
   "status": "proved",
   "theorems": [
    "tor_correct",
    "rec_torontonian_correct",
    "numba_tor_correct",
    "quad_cholesky_correct",
    "chol_ok_satisfiable",
    "tor_rejects"
   ],
   "note": "For every number of modes and every O with 1 - O Hermitian positive definite, both algorithms, through the entry point, return the signed subset sum; np.linalg.cholesky is a parameter with its contract (shown satisfiable), any prange order. The incremental Cholesky update is proved correct on its own."
  },
  {
   "property": "C32",
   "status": "proved",
   "theorems": [
    "ltor_correct",
    "rec_ltorontonian_correct",
    "numba_ltor_correct",
    "solve_triangular_correct",
    "norm2_solve",
    "ltor_rejects"
   ],
   "note": "Same for the loop torontonian; np.exp is an arbitrary function, forward substitution is proved to solve the triangular system."
  },
  {
   "property": "C33",
   "status": "proved",
   "theorems": [
    "mtl_correct",
    "lmtl_correct",
    "ref_mtl_correct",
    "ref_lmtl_correct",
    "mtl_reference",
    "lmtl_reference",
    "mtl_spec_once",
    "cuts_once",
    "mapper_correct",
    "mtl_case",
    "lmtl_case",
    "mtl_one"
   ],
   "note": "For every 2n x 2n matrix with n >= 1 and every numba.prange order: mtl = sum over cyclic orders of the modes, each order divided by its 2n representations (SpecMtl.v); lmtl adds the linear orders with end weights conj(zeta) and zeta. On symmetric matrices both equal the reference's enumeration of reduced (single-pair) perfect matchings; for the loop version this needs conj(zeta_v) = A_vv and zeta_v = A_pp at the partner node p, which is what the reference reads from the diagonal. n = 0 divides by zero in the code and is excluded."
  },
  {
   "property": "C34",
   "status": "proved",
   "theorems": [
    "hafnian_sample_state_ok",
    "torontonian_sample_state_ok",
    "generate_hafnian_sample_ok",
    "generate_torontonian_sample_ok",
    "generate_hafnian_sample_cutoff_refuted",
    "coherent_decomposition"
   ],
   "note": "Random choices are a tree of picks, Gaussian draws are universally quantified streams; williamson, cholesky and the FFT root of unity are arbitrary parameters. The rejection loop is fuelled: the statement is about runs that return. Finding: [5; 0] is returned with positive probability at cutoff 5 for a coherent state, although patterns reaching the cutoff are meant to be rejected; samples = 0 raises (np.vstack of an empty list)."
  },
  {
   "property": "C35",
   "status": "proved",
   "theorems": [
    "photon_number_sampler_law",
    "photon_number_sampler_oob_law",
    "unravel_flat",
    "flat_unravel"
   ],
   "note": "np.random.choice by its law (probabilities must be non-negative and sum to 1), unravel_index in C order."
  },
  {
   "property": "C36",
   "status": "proved",
   "theorems": [
    "expand_correct",
    "expand_single_correct",
    "expand_mul",
    "expand_symplectic",
    "expand_disjoint_commute",
    "expand_errors",
    "expand_vector_correct",
    "expand_vector_error",
    "acts_as_unique"
   ],
   "note": "Dense arrays over any commutative ring; modes as naturals."
  },
  {
   "property": "C37",
   "status": "proved",
   "theorems": [
    "expand_passive_correct",
    "expand_passive_errors",
    "acts_as_unique"
   ],
   "note": ""
  },
  {
   "property": "C38",
   "status": "proved",
   "theorems": [
    "xxpp_to_xpxp_correct",
    "xpxp_to_xxpp_correct",
    "xxpp_xpxp_inverse",
    "reorder_errors"
   ],
   "note": ""
  },
  {
   "property": "C39",
   "status": "proved",
   "theorems": [
    "loss_entries",
    "loss_compose",
    "loss_one",
    "loss_commute",
    "loss_zero",
    "loss_errors",
    "loss_is_passive",
    "passive_compose",
    "passive_vacuum",
    "passive_unitary"
   ],
   "note": "0 <= T; exact arithmetic with sqrtC."
  },
  {
   "property": "C40",
   "status": "proved",
   "theorems": [
    "squeezing_symplectic",
    "squeezing_entries",
    "two_mode_squeezing_symplectic",
    "interferometer_symplectic",
    "interferometer_mul",
    "rotation_symplectic",
    "beam_splitter_symplectic",
    "is_symplectic1_correct",
    "is_symplectic1_accepts",
    "is_symplectic2_correct",
    "is_symplectic2_accepts"
   ],
   "note": "cos/sin and cosh/sinh enter as arbitrary scalars on the circle / hyperbola; checks exact at zero tolerance."
  },
  {
   "property": "C41",
   "status": "proved",
   "theorems": [
    "Qmat_husimi",
    "Covmat_Qmat",
    "Covmat_real_sym",
    "Qmat_Covmat",
    "Qmat_vacuum",
    "Xmat_involution",
    "Amat_correct",
    "Amat_symmetric",
    "Amat_vacuum",
    "displacements_roundtrip",
    "displacements_roundtrip2"
   ],
   "note": ""
  },
  {
   "property": "C42",
   "status": "proved",
   "theorems": [
    "reduced_state_correct",
    "reduced_gaussian_correct",
    "reduced_gaussian_full",
    "reduced_errors",
    "reduced_gaussian_refuted"
   ],
   "note": "reduced_gaussian ignores the order (and range) of modes when len(modes) equals the number of modes: refuted there, proved otherwise."
  },
  {
   "property": "C43",
   "status": "proved",
   "theorems": [
    "williamson_correct",
    "williamson_rejects",
    "symplectic_eigenvals_correct",
    "pre_iwasawa_correct",
    "pre_iwasawa_rejects",
    "iwasawa_correct",
    "iwasawa_rejects",
    "takagi_correct",
    "takagi_rejects",
    "takagi_diag_sorted",
    "takagi_diag_refuted",
    "blochmessiah_correct",
    "blochmessiah_rejects",
    "blochmessiah_refuted",
    "dg_exact",
    "bm_example"
   ],
   "note": "numpy/scipy eigvalsh, eigh, eigvals, svd, sqrtm, schur, polar, qr, argsort, angle, exp enter by their documented contracts (SpecDecomp.v). Tolerance shortcuts of takagi (allclose 1e-8, real_if_close 100 eps) are assumed to be taken only exactly. Findings: the diagonal shortcut of takagi returns a factorisation of the diagonal matrix sorted by descending modulus, so takagi(diag(1, 2i)) and blochmessiah of a two-mode symplectic matrix do not reconstruct their argument; iwasawa's first factor is lower, not upper, unit triangular (docstring). The input hypotheses are shown to be met by concrete matrices (dg_exact, bm_example); that the routines' contracts are satisfiable is not proved here (existence theorems of linear algebra), except eigvalsh."
  },
  {
   "property": "C44",
   "status": "proved",
   "theorems": [
    "displacement_correct",
    "squeezing_correct",
    "beamsplitter_correct",
    "mzgate_correct",
    "two_mode_squeezing_correct",
    "passive_fill_correct",
    "displacement_laguerre",
    "beamsplitter_permanent",
    "mzgate_permanent",
    "disp_gate_laguerre",
    "passive_gate_perm",
    "squeezing_parity",
    "two_mode_squeezing_conserves",
    "beamsplitter_conserves",
    "gate_hyps"
   ],
   "note": "For every cutoff and every index below it the array entry is the normalised Taylor coefficient of the gate's generating function (SpecGateFock.v); closed forms: Laguerre-type sums for displacement, permanents with repeated rows/columns for the interferometers; parity and conservation laws. exp, cos, sin, tanh, cosh are arbitrary functions constrained only by conj(e^(i t) x) = e^(-i t) x at the arguments used."
  },
  {
   "property": "C45",
   "status": "proved",
   "theorems": [
    "grad_displacement_r",
    "grad_displacement_phi",
    "grad_squeezing_r",
    "grad_squeezing_phi",
    "grad_two_mode_squeezing_r",
    "grad_two_mode_squeezing_theta",
    "grad_beamsplitter_theta",
    "grad_beamsplitter_phi",
    "grad_mzgate_theta",
    "grad_mzgate_phi",
    "grad_of_displacement",
    "grad_of_squeezing",
    "grad_of_two_mode_squeezing",
    "grad_of_beamsplitter",
    "grad_of_mzgate",
    "lhq_curve",
    "curve_exists"
   ],
   "note": "Derivatives are first-order coefficients along arbitrary polynomial curves whose parameters (e^(i phi), tanh r, sech r, ...) move with the velocities given by their textbook derivatives; these one-variable derivative facts are the hypotheses, the differentiation of the whole tensor entry is proved. Holds up to and including the cutoff boundary: entries read at wrapped negative indices always carry coefficient sqrt(0)."
  },
  {
   "property": "C46",
   "status": "proved",
   "theorems": [
    "s_ordered_expectation_correct",
    "photon_number_mean_correct",
    "photon_number_mean_range",
    "photon_number_mean_vector_correct",
    "photon_number_variance_correct",
    "photon_number_covar_correct",
    "photon_number_covmat_correct",
    "photon_number_expectation_correct",
    "photon_number_expectation_range",
    "smom_once1",
    "smom_once2",
    "smom_real",
    "photon_number_squared_expectation_correct",
    "photon_number_moment_correct",
    "photon_number_moment_zero_power",
    "photon_number_cumulant_correct",
    "E_npow_perm",
    "number_moment_mean",
    "number_moment_square",
    "number_moment_pair",
    "photon_number_moment_mean",
    "photon_number_expectation_tiny_refuted",
    "ex_ok"
   ],
   "note": "All moment functions equal the Gaussian (Isserlis/Wick) moments of the Wigner function, for every number of modes, every list of modes, powers and every set iteration order. Hypotheses: real symmetric cov, real mu, hbar > 0, and no nonzero displacement/covariance entry small enough for the np.allclose shortcuts (robust); without the latter the property is refuted (photon_number_expectation_tiny_refuted). A power-0 key returns 0 (photon_number_moment_zero_power)."
  },
  {
   "property": "C47",
   "status": "proved",
   "theorems": [
    "loss_mat_correct",
    "loss_mat_errors",
    "binom_loss_comp",
    "binom_loss_total",
    "update_loss_correct",
    "update_loss_total",
    "update_loss_ge0",
    "update_loss_comp",
    "update_loss_errors",
    "update_noise_correct",
    "update_noise_total",
    "update_noise_errors",
    "update_loss_ten_modes_refuted",
    "update_loss_many_modes_refuted",
    "update_noise_cutoffs_refuted",
    "loss_case"
   ],
   "note": "loss_mat(eta, c) is the binomial matrix, rows sum to 1, composes multiplicatively; update_probabilities_with_loss equals independent binomial loss on every mode for up to nine modes with equal cutoffs (total preserved, non-negativity, composition); update_probabilities_with_noise is the per-mode convolution, total preserved when the cutoff leaves room. Findings: with ten modes the einsum letters i, j clash and probabilities with different photon numbers in modes 8 and 9 are dropped; with more than ten modes it always raises ValueError; with unequal cutoffs the noise function drops probability. einsum is modelled with its label semantics (no broadcasting of length-1 axes)."
  },
  {
   "property": "C48",
   "status": "proved",
   "theorems": [
    "n_body_marginals_correct",
    "n_body_marginals_errors",
    "n_body_marginals_loop",
    "involutive2",
    "n_body_marginals_cyclic_refuted",
    "n_body_marginals_set_order",
    "n_body_marginals_set_order_refuted"
   ],
   "note": "When list(set(.)) lists ascending: entry (v, x) for increasing v is the photon-number distribution of the reduced state on v (fock_rho of the sub-covariance, clipped at 0 as in probabilities); for unordered v it is the same distribution at the counts permuted by the code's transposition, which is the right assignment iff the sorting permutation is an involution (always for n <= 2). Findings: 3-cycles such as (1,2,0) have their axes permuted the wrong way round; if set((1,8)) lists [8,1] (CPython) the entry (1,8) is never filled."
  },
  {
   "property": "C49",
   "status": "proved",
   "theorems": [
    "find_classical_subsystem_correct",
    "classical_prefix_le",
    "find_classical_case"
   ],
   "note": "For every real symmetric 2N x 2N covariance matrix, hbar > 0, atol >= 0: terminates and returns the largest k <= N whose first k modes satisfy cov >= hbar/2 up to atol; monotonicity of classicality under restriction is proved, not assumed. eigvalsh enters by its contract (eigvalsh_ok), satisfiable by the spectral theorem (eigvals_exist)."
  },
  {
   "property": "C50",
   "status": "proved",
   "theorems": [
    "partition_enumerates",
    "partition_count",
    "partition_empty",
    "stirling2_falling",
    "coeff_normal_ordered_stirling",
    "partition_example",
    "stirling_example"
   ],
   "note": "partition yields every set partition of the positions exactly once, S(n,k) of them having k blocks, and raises IndexError on the empty list; _coeff_normal_ordered(m,k) is the Stirling number S(m,k), and n^m = sum_k S(m,k) n(n-1)...(n-k+1)."
  },
  {
   "property": "C51",
   "status": "proved",
   "theorems": [
    "get_partition_modes",
    "get_partition_int",
    "get_partition_split",
    "get_partition_range",
    "get_partition_array_refuted",
    "get_partition_npint",
    "get_partition_negative_split",
    "get_partition_none",
    "misc_example"
   ],
   "note": "Accepts a list/tuple/range/int of Python ints in range and returns them in order; split gives 0..split-1; everything accepted is in range.  Findings: every non-empty NumPy integer array is rejected with ValueError, and a negative split is silently accepted as the empty subset."
  },
  {
   "property": "C52",
   "status": "proved",
   "theorems": [
    "nb_binom_correct",
    "precompute_binoms_correct",
    "dec2bin_correct",
    "dec2bin_inj",
    "dec2bin_overflow",
    "invert_permutation_correct",
    "invert_permutation_range",
    "nb_ix_correct",
    "nb_ix_range",
    "misc_example"
   ],
   "note": "Exact integer arithmetic (no int64 overflow modelled)."
  },
  {
   "property": "C53",
   "status": "proved",
   "theorems": [
    "threshold_detection_prob_correct",
    "threshold_detection_prob_total",
    "threshold_detection_prob_vacuum",
    "exactly_total",
    "Qmat_hermitian",
    "Qmat_posdef",
    "jacobi",
    "schur_quad",
    "vacuum_cov_ok",
    "large_mean_ok"
   ],
   "note": "For every real symmetric positive semidefinite cov and hbar > 0: pattern probability = inclusion-exclusion over vacuum overlaps of reduced states (SpecThr.v), sum over all patterns = 1, no-click case. exp is any function with exp 0 = 1, exp(a+b) = exp a exp b and real values on reals; the mean is zero or has an entry above atol (large_mean_ok); np.linalg.inv/det are exact; Cholesky by contract (chol_ok)."
  },
  {
   "property": "C54",
   "status": "proved",
   "theorems": [
    "density_matrix_element_correct",
    "density_matrix_correct",
    "density_matrix_post_select",
    "density_matrix_normalised",
    "fock_rho_hermitian",
    "fock_rho_generating",
    "lhaf_rep_taylor",
    "taylor_unique",
    "fock_rho_pure",
    "pure_state_amplitude_correct",
    "pure_state_amplitude_impure",
    "state_vector_correct",
    "state_vector_post_select",
    "state_vector_impure",
    "probabilities_correct",
    "coherent_rho",
    "coherent_instance",
    "density_matrix_element_order_refuted"
   ],
   "note": "SpecFock.v defines <k|rho|l> from the generating function of the overlaps with coherent states (antinormally ordered covariances); lhaf_rep_taylor and taylor_unique show the loop hafnians used there are exactly the Taylor coefficients. Hypotheses: no nonzero entry small enough for the np.allclose / np.real_if_close / norm < tol shortcuts (quad_ok, disp_ok, means_ok, ric_ok; met by coherent_instance); exp with exp 0 = 1, exp(a+b) = exp a exp b, exp(conj a) = conj(exp a). probabilities assumes that a covariance accepted by is_pure_cov is exactly pure. Finding: density_matrix_element(i, j) is <j|rho|i>. The choi_r keyword of state_vector is not modelled."
  },
  {
   "property": "C55",
   "status": "proved",
   "theorems": [
    "is_valid_cov_correct",
    "is_classical_cov_correct",
    "psd_upto0",
    "is_pure_cov_exact",
    "is_pure_cov_accepts",
    "covariance_checks_reject",
    "classical_valid",
    "eigvals_exist",
    "spectral_theorem",
    "vacuum_checks"
   ],
   "note": "eigvalsh by contract, shown satisfiable. psd_upto atol M: v^* M v >= 0 or > -atol |v|^2 for all v; at atol = 0 plain positive semidefiniteness."
  },
  {
   "property": "C56",
   "status": "proved",
   "theorems": [
    "generate_hafnian_sample_law",
    "photon_means_order_perm",
    "invert_permutation_correct"
   ],
   "note": "Williamson, Cholesky and Amat results enter by name; the Gaussian draws are arbitrary. The statement is for every pattern q, including the rejected ones (probability 0)."
  },
  {
   "property": "C57",
   "status": "proved",
   "theorems": [
    "rank_one_law",
    "rank_one_multinomial",
    "haf_rank_one",
    "nb_dm"
   ],
   "note": "The negative-binomial draw of the number of pairs is given by its mass function nbinom_half; th = tanh(s) is any number with |c| sum |G|^2 = th."
  },
  {
   "property": "C58",
   "status": "proved",
   "theorems": [
    "random_interferometer_unitary",
    "random_interferometer_real",
    "random_interferometer_equivariant",
    "random_symplectic_correct",
    "random_symplectic_block_diag",
    "random_covariance_correct",
    "random_covariance_accepted",
    "random_covariance_block_diag"
   ],
   "note": "scipy.linalg.qr by its contract (q unitary, r upper triangular, real for real input); the diagonal of r need not be positive. np.exp: real on reals and exp(-x) exp(x) = 1. The draws are arbitrary invertible matrices (nonsing, met by random_interferometer_draw); the Gaussian law itself is not modelled: equivariance is the property of the algorithm that turns left invariance of the draws into Haar invariance of the result."
  },
  {
   "property": "C59",
   "status": "proved",
   "theorems": [
    "random_banded_interferometer_correct",
    "random_block_interferometer_correct",
    "random_block_interferometer_zero_refuted"
   ],
   "note": "Every draw of every call is arbitrary with invertible leading blocks (good_draw, met by good_draw_id)."
  },
  {
   "property": "C60",
   "status": "proved",
   "theorems": [
    "click_moments_correct",
    "click_cumulant_correct",
    "exactly_mean",
    "exactly_square",
    "exactly_clicked",
    "exactly_silent",
    "click_case"
   ],
   "note": "Real symmetric positive semidefinite cov, hbar > 0; each mean is zero or above the np.allclose tolerance (threshold_detection_prob treats smaller ones as zero); np.real, np.sqrt, np.linalg.det exact; exp by its functional equation. list(set(B)) is any enumeration of the distinct modes; the shortcut of reduced_gaussian for full-length lists (C42) is covered."
  },
  {
   "property": "C61",
   "status": "proved",
   "theorems": [
    "vonneumann_entropy_correct",
    "vonneumann_entropy_rejects",
    "vonneumann_entropy_ge0",
    "entropy_symplectic_invariant",
    "pure_entropy_zero",
    "entanglement_entropy_correct",
    "entanglement_entropy_symmetric",
    "log_negativity_correct",
    "log_negativity_rejects",
    "log_negativity_ppt",
    "log_negativity_detects",
    "log_negativity_uncorrelated",
    "log_negativity_symmetric",
    "state_spectrum_ge1",
    "complement_spectra",
    "thermal_example",
    "tmsv_log_negativity",
    "bipartite_example"
   ],
   "note": "Real symmetric cov, exact arithmetic; np.linalg.eigvals and eigvalsh by their contracts, np.log an arbitrary function (monotone with log 1 = 0 for nonnegativity, negative below 1 for the PPT converse). The reduced-state theorems take modes_A lists / ranges / split that get_partition resolves to plain ints; a list of Python bools used as a mask is not modelled. Concrete cases: N thermal modes and the two-mode squeezed vacuum with logarithmic negativity log 3."
  },
  {
   "property": "C62",
   "status": "proved",
   "theorems": [
    "scaled_state",
    "adj_scaling_correct",
    "adj_scaling_small",
    "adj_scaling_unattainable",
    "adj_scaling_attainable",
    "adj_to_qmat_correct",
    "adj_to_qmat_square",
    "adj_to_qmat_total",
    "mean_clicks_adj_correct",
    "adj_scaling_torontonian_correct",
    "adj_scaling_torontonian_range",
    "adj_scaling_torontonian_total",
    "adj_scaling_torontonian_boundary_refuted"
   ],
   "note": "Exact arithmetic. np.linalg.svd by its contract; scipy's root_scalar by a contract (error for equal signs at the ends of the bracket, otherwise a root or a sign-changing discontinuity); the continuity of the cost functions is proved. A / vals[0] for A = 0 (NaN) is excluded."
  },
  {
   "property": "C63",
   "status": "proved",
   "theorems": [
    "number_means_correct",
    "number_cov_correct",
    "number_means_library"
   ],
   "note": "Exact arithmetic, T square of the size of rs; np.sinh by the exponential equations at the squeezing parameters. sample is not modelled."
  },
  {
   "property": "C64",
   "status": "proved",
   "theorems": [
    "squeezed_state_distribution_correct",
    "convolve_correct",
    "pure_state_distribution_accepted",
    "pure_state_distribution_correct",
    "pure_state_distribution_tmsv",
    "pure_state_distribution_hbar_refuted"
   ],
   "note": "Exact arithmetic; contracts of svd, eigvalsh, nbinom.pmf, arctanh. hbar = 2 (for other values the theorem _accepted assumes that is_pure_cov accepts the matrix with hbar = 2, and _hbar_refuted shows that the vacuum with hbar = 1 is rejected)."
  },
  {
   "property": "C65",
   "status": "proved",
   "theorems": [
    "total_photon_number_distribution_correct",
    "total_photon_number_distribution_example"
   ],
   "note": "Exact arithmetic. Contracts: scipy.special.binom is the falling-factorial quotient, scipy.special.hyp2f1 at the argument used is the limit of the hypergeometric series, cosh > 0 and 1/cosh^2 = 1 - tanh^2. n and k natural numbers (real values of n, k, which the Python code accepts, are not covered). The example computes 64/91 for n = 0, two modes, tanh s = 3/5, eta = 1/2 over the algebraic numbers."
  },
  {
   "property": "C66",
   "status": "proved",
   "theorems": [
    "characteristic_function_correct",
    "characteristic_function_vacuum",
    "characteristic_function_example"
   ],
   "note": "Exact arithmetic; contracts as in C65 and exp(x + y) = exp(x) exp(y), exp(0) = 1. The distance from the truncated sum to the limit of the series is not bounded. For eta = 0 (value 0^m returned without a sum) only the definition is modelled. Negative or fractional poly_corr is not covered."
  }
 ]
}