{
 "claims": [
  {
   "property": "C01",
   "status": "proved",
   "theorems": [
    "Verif.Props.PUtil.C01_reduced_matsubara_accepts_exactly",
    "Verif.Props.PUtil.C01_reduced_matsubara_otherwise_valueerror"
   ],
   "note": ""
  },
  {
   "property": "C02",
   "status": "proved",
   "theorems": [
    "Verif.Props.PUtil.C02_range_check"
   ],
   "note": ""
  },
  {
   "property": "C03",
   "status": "proved",
   "theorems": [
    "Verif.Props.PUtil.C03_svd_shapes_accepted_iff",
    "Verif.Props.PUtil.C03_svd_shapes_otherwise_valueerror"
   ],
   "note": ""
  },
  {
   "property": "C04",
   "status": "proved",
   "theorems": [
    "Verif.Props.PSampling.C04_uhat_on_arrays",
    "Verif.Props.PSampling.C04_dlr_u_on_arrays",
    "Verif.Props.PSampling.C04_dlr_uhat_on_arrays",
    "Verif.Props.PSampling.C04_asymptotic_model_on_arrays"
   ],
   "note": "exact real arithmetic; integer frequencies for uhat and the asymptotic model"
  },
  {
   "property": "C05",
   "status": "proved",
   "theorems": [
    "Verif.Props.PUtil.C05_call_evaluates_last_accessed_object",
    "Verif.Props.PUtil.C05_uninterrupted_evaluation_correct",
    "Verif.Props.PUtil.C05_single_thread_correct",
    "Verif.Props.PUtil.C05_threads_sharing_one_object_correct",
    "Verif.Props.PUtil.C05_thread_isolation_refuted"
   ],
   "note": "thread isolation is refuted; see DESIGN.md findings"
  },
  {
   "property": "C06",
   "status": "proved",
   "theorems": [
    "Verif.Props.PRoots.C06_discrete_sign_changes"
   ],
   "note": ""
  },
  {
   "property": "C07",
   "status": "proved",
   "theorems": [
    "Verif.Props.PRoots.C07_continuous_roots"
   ],
   "note": "exact real arithmetic"
  },
  {
   "property": "C08",
   "status": "proved",
   "theorems": [
    "Verif.Props.PRoots.C08_ieee_bisection_terminates",
    "Verif.Props.PRoots.C08_ieee_bisection_always_terminates_refuted"
   ],
   "note": "IEEE double arithmetic on bracket ends; termination for all functions is refuted for underflowing grids"
  },
  {
   "property": "C09",
   "status": "proved",
   "theorems": [
    "Verif.Props.PRoots.C09_C10_discrete_extrema",
    "Verif.Props.PRoots.C09_unimodal_peak_found"
   ],
   "note": ""
  },
  {
   "property": "C10",
   "status": "proved",
   "theorems": [
    "Verif.Props.PRoots.C09_C10_discrete_extrema",
    "Verif.Props.PRoots.C10_extrema_ordered_refuted"
   ],
   "note": "ordering in general is refuted with a witness"
  },
  {
   "property": "C11",
   "status": "proved",
   "theorems": [
    "Verif.Props.PMatsubara.C11_symmetrize_sorted_nonnegative",
    "Verif.Props.PMatsubara.C11_symmetrize_otherwise_valueerror"
   ],
   "note": ""
  },
  {
   "property": "C12",
   "status": "proved",
   "theorems": [
    "Verif.Props.PMatsubara.C12_default_matsubara_points",
    "Verif.Props.PMatsubara.C12_requested_count",
    "Verif.Props.PMatsubara.C12_fallback_points_increasing_refuted",
    "Verif.Props.PMatsubara.C12_fallback_always_returns_refuted"
   ],
   "note": "basis functions enter as arbitrary functions on the integers; ordering in the fermionic fallback is refuted in general"
  },
  {
   "property": "C13",
   "status": "proved",
   "theorems": [
    "Verif.Props.PMatsubara.C13_fence_structure",
    "Verif.Props.PMatsubara.C13_fence_fails_only_on_empty",
    "Verif.Props.PMatsubara.C13_fence_symmetric_iff",
    "Verif.Props.PMatsubara.C13_fence_keeps_symmetry_refuted"
   ],
   "note": "symmetry is characterised exactly; general preservation is refuted"
  },
  {
   "property": "C14",
   "status": "proved",
   "theorems": [
    "Verif.Props.PMatsubara.C14_default_grid"
   ],
   "note": "holds for every pow2 exact at integers and accurate to a relative 2^-40 elsewhere"
  },
  {
   "property": "C15",
   "status": "proved",
   "theorems": [
    "Verif.Props.PGauss.C15_distances_kept",
    "Verif.Props.PGauss.C15_nodes_ordered_inside",
    "Verif.Props.PGauss.C15_nodes_ordered_inside_closed",
    "Verif.Props.PGauss.C15_new_interval",
    "Verif.Props.PGauss.C15_weight_sums",
    "Verif.Props.PGauss.C15_nested_rule_follows"
   ],
   "note": ""
  },
  {
   "property": "C16",
   "status": "proved",
   "theorems": [
    "Verif.Props.PGauss.C16_reseat_keeps_exactness",
    "Verif.Props.PGauss.C16_piecewise_exact_on_piecewise_polynomials"
   ],
   "note": "exact real arithmetic"
  },
  {
   "property": "C17",
   "status": "proved",
   "theorems": [
    "Verif.Props.PGauss.C17_piecewise_rejects_exactly_unordered",
    "Verif.Props.PGauss.C17_join_rejects_exactly_gaps",
    "Verif.Props.PGauss.C17_join_of_nothing"
   ],
   "note": "join of no rules and piecewise with fewer than two edges give the empty rule"
  },
  {
   "property": "C18",
   "status": "proved",
   "theorems": [
    "Verif.Props.PGauss.C18_value_and_derivative",
    "Verif.Props.PGauss.C18_polynomials_are_monic"
   ],
   "note": "exact real arithmetic"
  },
  {
   "property": "C19",
   "status": "proved",
   "theorems": [
    "Verif.Props.PGauss.C19_weights_sum_to_length",
    "Verif.Props.PGauss.C19_gauss_legendre_exact",
    "Verif.Props.PGauss.C19_recurrence_is_legendre",
    "Verif.Props.PGauss.C19_gauss_rule_exists_and_is_unique"
   ],
   "note": "exact real arithmetic; that the eigenvalue start leads to the zeros is a hypothesis, met by some run for every order"
  },
  {
   "property": "C20",
   "status": "proved",
   "theorems": [
    "Verif.Props.PGauss.C20_rule_iff_some_step_fails_to_halve",
    "Verif.Props.PGauss.C20_exact_start_fails",
    "Verif.Props.PGauss.C20_exact_arithmetic_fails",
    "Verif.Props.PGauss.C20_legendre_1_raises",
    "Verif.Props.PGauss.C20_legendre_0_raises"
   ],
   "note": "the eigenvalue solver and Newton corrections are arbitrary"
  },
  {
   "property": "C21",
   "status": "proved",
   "theorems": [
    "Verif.Props.PGauss.C21_rule_carries_the_constants",
    "Verif.Props.PGauss.C21_symmetric_positive_increasing",
    "Verif.Props.PGauss.C21_full_rule_error",
    "Verif.Props.PGauss.C21_embedded_rule_error"
   ],
   "note": "exact decimals and every double rounding of them"
  },
  {
   "property": "C22",
   "status": "proved",
   "theorems": [
    "Verif.Props.PGauss.C22_collocation_inverts_evaluation"
   ],
   "note": ""
  },
  {
   "property": "C23",
   "status": "proved",
   "theorems": [
    "Verif.Props.PPoly.C23_segment_lookup",
    "Verif.Props.PPoly.C23_evaluation",
    "Verif.Props.PPoly.C23_evaluation_outside",
    "Verif.Props.PPoly.C23_construction"
   ],
   "note": "exact real arithmetic"
  },
  {
   "property": "C24",
   "status": "proved",
   "theorems": [
    "Verif.Props.PPoly.C24_value_is_item_call",
    "Verif.Props.PPoly.C24_value_is_entry_of_call",
    "Verif.Props.PPoly.C24_succeeds_iff",
    "Verif.Props.PPoly.C24_index",
    "Verif.Props.PPoly.C24_exceptions",
    "Verif.Props.PPoly.C24_vectorised",
    "Verif.Props.PPoly.C24_vectorised_succeeds_iff",
    "Verif.Props.PPoly.C24_slice_then_call",
    "Verif.Props.PPoly.C24_slice_then_index",
    "Verif.Props.PPoly.C24_slice_then_deriv",
    "Verif.Props.PPoly.C24_index_then_deriv"
   ],
   "note": "exact real arithmetic"
  },
  {
   "property": "C25",
   "status": "proved",
   "theorems": [
    "Verif.Props.PPoly.C25_deriv_is_derivative",
    "Verif.Props.PPoly.C25_call_of_deriv",
    "Verif.Props.PPoly.C25_parity",
    "Verif.Props.PPoly.C25_stored_parity"
   ],
   "note": "exact real arithmetic; derivatives at interior knots are those of the segment to the right"
  },
  {
   "property": "C26",
   "status": "proved",
   "theorems": [
    "Verif.Props.PPoly.C26_even",
    "Verif.Props.PPoly.C26_odd",
    "Verif.Props.PPoly.C26_no_parity",
    "Verif.Props.PPoly.C26_roots_distinct_refuted"
   ],
   "note": "an even polynomial with a root in the centre returns it twice; see DESIGN.md findings"
  },
  {
   "property": "C27",
   "status": "proved",
   "theorems": [
    "Verif.Props.PBasis.C27_basis_uhat",
    "Verif.Props.PFT.C27_uhat_is_fourier_integral",
    "Verif.Props.PFT.C27_call_succeeds",
    "Verif.Props.PFT.C27_legendre_integral"
   ],
   "note": "exact real arithmetic; frequencies below the threshold, at bare level and for a basis"
  },
  {
   "property": "C28",
   "status": "proved",
   "theorems": [
    "Verif.Props.PFT.C28_conjugation",
    "Verif.Props.PFT.C28_real_or_imaginary"
   ],
   "note": "exact real arithmetic"
  },
  {
   "property": "C29",
   "status": "proved",
   "theorems": [
    "Verif.Props.PFT.C29_model_series",
    "Verif.Props.PFT.C29_model_at_zero",
    "Verif.Props.PFT.C29_switch",
    "Verif.Props.PFT.C29_exact_on_one_segment",
    "Verif.Props.PFT.C29_model_error",
    "Verif.Props.PFT.C29_slicing",
    "Verif.Props.PFT.C29_indexing",
    "Verif.Props.PFT.C29_indexing_any_refuted"
   ],
   "note": "exact real arithmetic; the error on several segments is also characterised"
  },
  {
   "property": "C30",
   "status": "proved",
   "theorems": [
    "Verif.Props.PFT.C30_derivative_not_evaluable",
    "Verif.Props.PFT.C30_derivative_constructible"
   ],
   "note": ""
  },
  {
   "property": "C31",
   "status": "proved",
   "theorems": [
    "Verif.Props.POverlap.C31_partition",
    "Verif.Props.POverlap.C31_tolerance",
    "Verif.Props.POverlap.C31_accuracy",
    "Verif.Props.POverlap.C31_defined",
    "Verif.Props.POverlap.C31_points_outside",
    "Verif.Props.POverlap.C31_too_many_intervals",
    "Verif.Props.POverlap.C31_exceptions",
    "Verif.Props.POverlap.C31_vanishing_product",
    "Verif.Props.POverlap.C31_integral_refuted"
   ],
   "note": "exact real arithmetic; the integrand is an arbitrary function that may raise; C31_integral_refuted shows that with a warning the value can be far from the integral"
  },
  {
   "property": "C32",
   "status": "proved",
   "theorems": [
    "Verif.Props.PPoly.C32_inner_product",
    "Verif.Props.PPoly.C32_orthonormal_iff"
   ],
   "note": "exact real arithmetic"
  },
  {
   "property": "C33",
   "status": "proved",
   "theorems": [
    "Verif.Props.PKernel.C33_logistic_formula",
    "Verif.Props.PKernel.C33_elementwise",
    "Verif.Props.PKernel.C33_outside_rejected"
   ],
   "note": "exact real arithmetic; the exponential may be arbitrary on positive arguments"
  },
  {
   "property": "C34",
   "status": "proved",
   "theorems": [
    "Verif.Props.PKernel.C34_bose_value",
    "Verif.Props.PKernel.C34_documented_formula_refuted"
   ],
   "note": "exact real arithmetic; the documented sign is refuted"
  },
  {
   "property": "C35",
   "status": "proved",
   "theorems": [
    "Verif.Props.PKernel.C35_centrosymmetric"
   ],
   "note": "exact real arithmetic"
  },
  {
   "property": "C36",
   "status": "proved",
   "theorems": [
    "Verif.Props.PKernel.C36_symmetrized_value",
    "Verif.Props.PKernel.C36_elementwise",
    "Verif.Props.PKernel.C36_signs",
    "Verif.Props.PKernel.C36_errors"
   ],
   "note": "exact real arithmetic; uninitialised memory and overflowing arguments are arbitrary"
  },
  {
   "property": "C37",
   "status": "proved",
   "theorems": [
    "Verif.Props.PKernel.C37_logistic_weight",
    "Verif.Props.PKernel.C37_bose_weight",
    "Verif.Props.PKernel.C37_bose_weighted_kernel"
   ],
   "note": ""
  },
  {
   "property": "C38",
   "status": "proved",
   "theorems": [
    "Verif.Props.PKernel.C38_segments_valid",
    "Verif.Props.PKernel.C38_symmetrized_segments",
    "Verif.Props.PKernel.C38_accepted_by_quadrature"
   ],
   "note": "exact real arithmetic; in doubles the segments of very large Lambda can coincide"
  },
  {
   "property": "C39",
   "status": "proved",
   "theorems": [
    "Verif.Props.PSVE.C39_prefix_and_limit",
    "Verif.Props.PSVE.C39_keeps_significant",
    "Verif.Props.PSVE.C39_outcomes"
   ],
   "note": ""
  },
  {
   "property": "C40",
   "status": "proved",
   "theorems": [
    "Verif.Props.PSVE.C40_common_prefix",
    "Verif.Props.PSVE.C40_length",
    "Verif.Props.PSVE.C40_threshold",
    "Verif.Props.PSVE.C40_errors"
   ],
   "note": "a float max_size below the cut raises TypeError (not part of the property)"
  },
  {
   "property": "C41",
   "status": "proved",
   "theorems": [
    "Verif.Props.PCompute.C41_gauge",
    "Verif.Props.PCompute.C41_defined"
   ],
   "note": "exact real arithmetic"
  },
  {
   "property": "C42",
   "status": "proved",
   "theorems": [
    "Verif.Props.PCompute.C42_sorted",
    "Verif.Props.PCompute.C42_parity",
    "Verif.Props.PCompute.C42_orthonormal",
    "Verif.Props.PCompute.C42_reconstructs",
    "Verif.Props.PCompute.C42_reconstructs_everywhere",
    "Verif.Props.PCompute.C42_reflected_knots_refuted"
   ],
   "note": "exact real arithmetic; argsort as parameter with its specification; equality at reflected knots of a discontinuous kernel is refuted with a witness"
  },
  {
   "property": "C43",
   "status": "proved",
   "theorems": [
    "Verif.Props.PCompute.C43_nodes_and_orthonormal"
   ],
   "note": "exact real arithmetic; Gauss rule and SVD of the sampled matrix as hypotheses"
  },
  {
   "property": "C44",
   "status": "proved",
   "theorems": [
    "Verif.Props.PSVE.C44_policy",
    "Verif.Props.PSVE.C44_dispatch",
    "Verif.Props.PSVE.C44_policy_is_dispatched",
    "Verif.Props.PSVE.C44_strategy_matters_refuted"
   ],
   "note": "the policy and the dispatch to SVD algorithms; finfo of the double-double type is a parameter"
  },
  {
   "property": "C45",
   "status": "proved",
   "theorems": [
    "Verif.Props.PBasis.C45_u",
    "Verif.Props.PBasis.C45_v",
    "Verif.Props.PBasis.C45_intervals",
    "Verif.Props.PBasis.C45_u_inner_products",
    "Verif.Props.PBasis.C45_v_inner_products",
    "Verif.Props.PBasis.C45_expansion",
    "Verif.Props.PKernel.C45_logistic_kernel",
    "Verif.Props.PKernel.C45_bose_kernel"
   ],
   "note": "for the regularised Bose kernel the expansion is 1/wmax^2 times the physical kernel; see DESIGN.md findings"
  },
  {
   "property": "C46",
   "status": "proved",
   "theorems": [
    "Verif.Props.PBasis.C46_accuracy_and_significance"
   ],
   "note": ""
  },
  {
   "property": "C47",
   "status": "proved",
   "theorems": [
    "Verif.Props.PBasis.C47_slice",
    "Verif.Props.PBasis.C47_nonpositive_bound",
    "Verif.Props.PBasis.C47_rejected",
    "Verif.Props.PBasis.C47_sequences",
    "Verif.Props.PBasis.C47_slice_never_enlarges_refuted"
   ],
   "note": "the SVE computation is an arbitrary function"
  },
  {
   "property": "C48",
   "status": "proved",
   "theorems": [
    "Verif.Props.PBasis.C48_rescale",
    "Verif.Props.PBasis.C48_sequences",
    "Verif.Props.PBasis.C48_errors",
    "Verif.Props.PBasis.C48_size_always_kept_refuted"
   ],
   "note": "exact real arithmetic; the Lambda check in double precision is C49"
  },
  {
   "property": "C49",
   "status": "proved",
   "theorems": [
    "Verif.Props.PRescale.C49_rescale_passes_the_check"
   ],
   "note": "every operation rounded with Flocq; exponents unbounded above (no overflow), |Lambda| >= 2^-900 and Lambda/new_beta not subnormal"
  },
  {
   "property": "C50",
   "status": "proved",
   "theorems": [
    "Verif.Props.PBasis.C50_tau_points",
    "Verif.Props.PBasis.C50_omega_points",
    "Verif.Props.PBasis.C50_default_number",
    "Verif.Props.PBasis.C50_points_distinct_refuted"
   ],
   "note": "exact real arithmetic; an even function with a root in the centre gives a repeated point, hence the hypothesis [regular]"
  },
  {
   "property": "C51",
   "status": "proved",
   "theorems": [
    "Verif.Props.PBasis.C51_rejects",
    "Verif.Props.PBasis.C51_accepts",
    "Verif.Props.PBasis.C51_substring_keyerror",
    "Verif.Props.PBasis.C51_kernel_without_lambda"
   ],
   "note": ""
  },
  {
   "property": "C52",
   "status": "proved",
   "theorems": [
    "Verif.Props.PBasis.C52_pair_shares",
    "Verif.Props.PBasis.C52_pair_exists",
    "Verif.Props.PBasis.C52_basis_set"
   ],
   "note": ""
  },
  {
   "property": "C53",
   "status": "proved",
   "theorems": [
    "Verif.Props.PSampling.C53_finite_temp_basis",
    "Verif.Props.PSampling.C53_augmented_basis",
    "Verif.Props.PSampling.C53_dlr_basis",
    "Verif.Props.PSampling.C53_tau_evaluate",
    "Verif.Props.PSampling.C53_matsubara_evaluate",
    "Verif.Props.PSampling.C53_C55_tau_fit",
    "Verif.Props.PSampling.C53_C55_matsubara_fit",
    "Verif.Props.PSampling.C53_tau_matrix",
    "Verif.Props.PSampling.C53_matsubara_matrix"
   ],
   "note": "exact real arithmetic; for FiniteTempBasis, AugmentedBasis (with np.complex) and DLR; fit under the hypothesis that numpy's SVD of the one matrix is one"
  },
  {
   "property": "C54",
   "status": "proved",
   "theorems": [
    "Verif.Props.PSampling.C54_tau",
    "Verif.Props.PSampling.C54_matsubara",
    "Verif.Props.PSampling.C54_last_axis_of_vectors",
    "Verif.Props.PSampling.C54_last_axis_refuted"
   ],
   "note": "the documented last axis is refuted for arrays of rank 2 and more"
  },
  {
   "property": "C55",
   "status": "proved",
   "theorems": [
    "Verif.Props.PSampling.C53_C55_tau_fit",
    "Verif.Props.PSampling.C53_C55_matsubara_fit",
    "Verif.Props.PSampling.C55_tau_recovers",
    "Verif.Props.PSampling.C55_matsubara_recovers"
   ],
   "note": "exact real arithmetic, exact SVD of the one matrix as hypothesis"
  },
  {
   "property": "C56",
   "status": "proved",
   "theorems": [
    "Verif.Props.PSampling.C56_positive_fit",
    "Verif.Props.PSampling.C56_positive_recovers",
    "Verif.Props.PSampling.C56_zero_frequency_row"
   ],
   "note": "exact real arithmetic, exact real SVD of the stacked matrix as hypothesis"
  },
  {
   "property": "C57",
   "status": "proved",
   "theorems": [
    "Verif.Props.PSampling.C57_tau_points",
    "Verif.Props.PSampling.C57_tau_points_accepted",
    "Verif.Props.PSampling.C57_matsubara_points",
    "Verif.Props.PSampling.C57_matsubara_points_accepted",
    "Verif.Props.PSampling.C57_given_order_iff_sorted",
    "Verif.Props.PSampling.C57_order_ignored",
    "Verif.Props.PSampling.C57_fit_points"
   ],
   "note": ""
  },
  {
   "property": "C58",
   "status": "proved",
   "theorems": [
    "Verif.Props.PSampling.C58_tau_warning",
    "Verif.Props.PSampling.C58_matsubara_warning",
    "Verif.Props.PSampling.C58_positive_warning",
    "Verif.Props.PSampling.C58_no_singular_value",
    "Verif.Props.PSampling.C58_well_conditioned"
   ],
   "note": "exact real arithmetic; with no nonzero singular value the check itself raises IndexError"
  },
  {
   "property": "C59",
   "status": "proved",
   "theorems": [
    "Verif.Props.PAugment.C59_hat_is_fourier",
    "Verif.Props.PAugment.C59_orthonormal",
    "Verif.Props.PAugment.C59_odd_frequencies",
    "Verif.Props.PAugment.C59_array_evaluation",
    "Verif.Props.PAugment.C59_matsubara_const",
    "Verif.Props.PAugment.C59_hat_every_call_refuted"
   ],
   "note": "The failures of hat on recent numpy and for scalars are part of the statement."
  },
  {
   "property": "C60",
   "status": "proved",
   "theorems": [
    "Verif.Props.PAugment.C60_derivatives",
    "Verif.Props.PAugment.C60_integer_arrays_refuted",
    "Verif.Props.PAugment.C60_matsubara_const"
   ],
   "note": "Float arrays; the truncation on integer arrays is refuted separately."
  },
  {
   "property": "C61",
   "status": "proved",
   "theorems": [
    "Verif.Props.PAugment.C61_u_layout",
    "Verif.Props.PAugment.C61_u_domain",
    "Verif.Props.PAugment.C61_uhat_layout",
    "Verif.Props.PAugment.C61_negative_index_from_the_end_refuted",
    "Verif.Props.PAugment.C61_slices",
    "Verif.Props.PAugment.C61_slice_errors",
    "Verif.Props.PAugment.C61_u_slices"
   ],
   "note": "Inner basis is a FiniteTempBasis."
  },
  {
   "property": "C62",
   "status": "proved",
   "theorems": [
    "Verif.Props.PAugment.C62_construction",
    "Verif.Props.PAugment.C62_created",
    "Verif.Props.PAugment.C62_objects",
    "Verif.Props.PAugment.C62_odd_frequency_raises",
    "Verif.Props.PAugment.C62_fermionic_uhat_raises"
   ],
   "note": ""
  },
  {
   "property": "C63",
   "status": "proved",
   "theorems": [
    "Verif.Props.PAugment.C63_accessors"
   ],
   "note": ""
  },
  {
   "property": "C64",
   "status": "proved",
   "theorems": [
    "Verif.Props.PDLR.C64_time_functions",
    "Verif.Props.PDLR.C64_outside",
    "Verif.Props.PDLR.C64_nan_or_zero_poles",
    "Verif.Props.PDLR.C64_constructor"
   ],
   "note": "exact real arithmetic"
  },
  {
   "property": "C65",
   "status": "proved",
   "theorems": [
    "Verif.Props.PDLR.C65_fourier_integral",
    "Verif.Props.PDLR.C65_zero_over_zero",
    "Verif.Props.PDLR.C65_no_parity_check"
   ],
   "note": "exact real arithmetic"
  },
  {
   "property": "C66",
   "status": "proved",
   "theorems": [
    "Verif.Props.PDLR.C66_constructor",
    "Verif.Props.PDLR.C66_to_IR",
    "Verif.Props.PDLR.C66_to_IR_exact",
    "Verif.Props.PDLR.C66_from_IR"
   ],
   "note": "exact real arithmetic; the SVD of the transfer matrix as hypothesis"
  },
  {
   "property": "C67",
   "status": "proved",
   "theorems": [
    "Verif.Props.PAdapter.C67_one_maximum_per_piece",
    "Verif.Props.PAdapter.C67_choice_is_determined",
    "Verif.Props.PAdapter.C67_no_values"
   ],
   "note": "values as reals"
  },
  {
   "property": "C68",
   "status": "proved",
   "theorems": [
    "Verif.Props.PAdapter.C68_fermionic_interval",
    "Verif.Props.PAdapter.C68_bosonic_interval",
    "Verif.Props.PAdapter.C68_bosonic_interval_of_nothing"
   ],
   "note": "integers as Z"
  },
  {
   "property": "C69",
   "status": "proved",
   "theorems": [
    "Verif.Props.PAdapter.C69_one_root_per_sign_change",
    "Verif.Props.PAdapter.C69_root_of_continuous_function",
    "Verif.Props.PAdapter.C69_finds_all_roots_refuted",
    "Verif.Props.PAdapter.C69_x_points",
    "Verif.Props.PAdapter.C69_y_points"
   ],
   "note": "exact real arithmetic; the bisection loop ends because each step halves the interval"
  },
  {
   "property": "C70",
   "status": "proved",
   "theorems": [
    "Verif.Props.PAdapter.C70_functions_of_the_expansion",
    "Verif.Props.PAdapter.C70_size",
    "Verif.Props.PAdapter.C70_accepted_statistics",
    "Verif.Props.PAdapter.C70_load",
    "Verif.Props.PAdapter.C70_derivatives"
   ],
   "note": "exact real arithmetic; sve.compute as parameter of load"
  },
  {
   "property": "C71",
   "status": "proved",
   "theorems": [
    "Verif.Props.PAdapter.C71_one_function",
    "Verif.Props.PAdapter.C71_all_functions",
    "Verif.Props.PAdapter.C71_fourier_integral"
   ],
   "note": "exact real arithmetic"
  },
  {
   "property": "C72",
   "status": "proved",
   "theorems": [
    "Verif.Props.PAdapter.C72_sampling_frequencies",
    "Verif.Props.PAdapter.C72_search_indices",
    "Verif.Props.PAdapter.C72_order_too_large"
   ],
   "note": "exact real arithmetic"
  },
  {
   "property": "C73",
   "status": "proved",
   "theorems": [
    "Verif.Props.PComputeFull.C73_well_formed",
    "Verif.Props.PComputeFull.C73_parity",
    "Verif.Props.PComputeFull.C73_basis_input"
   ],
   "note": "exact real arithmetic; hypotheses: exact Legendre rules, argsort sorts, the SVD returns non-increasing nonnegative values with matching vectors"
  },
  {
   "property": "C74",
   "status": "proved",
   "theorems": [
    "Verif.Props.PComputeFull.C74_error_centrosymmetric",
    "Verif.Props.PComputeFull.C74_error_sampling"
   ],
   "note": "exact real arithmetic; exactness of the SVD of the sampled matrices is a hypothesis"
  },
  {
   "property": "C75",
   "status": "proved",
   "theorems": [
    "Verif.Props.PComputeFull.C75_returns",
    "Verif.Props.PComputeFull.C75_default_cutoff",
    "Verif.Props.PComputeFull.C75_rejects",
    "Verif.Props.PComputeFull.C75_unknown_strategy"
   ],
   "note": "hypotheses on the external rules, argsort and SVD as in C73"
  },
  {
   "property": "C76",
   "status": "proved",
   "theorems": [
    "Verif.Props.PDefaults.C76_sign_changes",
    "Verif.Props.PDefaults.C76_extrema",
    "Verif.Props.PDefaults.C76_no_parity",
    "Verif.Props.PDefaults.C76_searched_values",
    "Verif.Props.PDefaults.C76_default_number"
   ],
   "note": "exact real arithmetic; the search grid is any strictly increasing list of non-negative indices (the actual one is C14)"
  },
  {
   "property": "C77",
   "status": "proved",
   "theorems": [
    "Verif.Props.PDefaults.C77_tau_sampling",
    "Verif.Props.PDefaults.C77_tau_augmented",
    "Verif.Props.PDefaults.C77_tau_augmented_constant",
    "Verif.Props.PDefaults.C77_tau_dlr",
    "Verif.Props.PDefaults.C77_matsubara_sampling",
    "Verif.Props.PDefaults.C77_matsubara_augmented",
    "Verif.Props.PDefaults.C77_matsubara_augmented_fermions",
    "Verif.Props.PDefaults.C77_matsubara_dlr",
    "Verif.Props.PDefaults.C77_matsubara_dlr_zero_pole"
   ],
   "note": "exact real arithmetic; the SVD is an arbitrary function, of matching shapes for positive_only; times where C50 gives them"
  },
  {
   "property": "C78",
   "status": "proved",
   "theorems": [
    "Verif.Props.PDefaults.C78_set",
    "Verif.Props.PDefaults.C78_exists",
    "Verif.Props.PDefaults.C78_refused"
   ],
   "note": "as C76 and C77"
  },
  {
   "property": "C79",
   "status": "proved",
   "theorems": [
    "Verif.Props.PHints.C79_gauss_points",
    "Verif.Props.PHints.C79_singular_values",
    "Verif.Props.PHints.C79_conv_radius",
    "Verif.Props.PHints.C79_symmetrized"
   ],
   "note": "exact real arithmetic"
  },
  {
   "property": "C80",
   "status": "proved",
   "theorems": [
    "Verif.Props.PDecomp.C80_created",
    "Verif.Props.PDecomp.C80_svd",
    "Verif.Props.PDecomp.C80_product",
    "Verif.Props.PDecomp.C80_lstsq",
    "Verif.Props.PDecomp.C80_matmul",
    "Verif.Props.PDecomp.C80_cond_of_zero",
    "Verif.Props.PDecomp.C80_split_created",
    "Verif.Props.PDecomp.C80_split_product",
    "Verif.Props.PDecomp.C80_split_form",
    "Verif.Props.PDecomp.C80_split_lstsq",
    "Verif.Props.PDecomp.C80_split_matmul"
   ],
   "note": "exact real arithmetic; where it matters, the SVD of the one matrix is a hypothesis"
  },
  {
   "property": "C81",
   "status": "proved",
   "theorems": [
    "Verif.Props.PDecomp.C81_documented",
    "Verif.Props.PDecomp.C81_library",
    "Verif.Props.PDecomp.C81_complex",
    "Verif.Props.PDecomp.C81_documented_for_complex_refuted",
    "Verif.Props.PDecomp.C81_errors",
    "Verif.Props.PDecomp.C81_warnings"
   ],
   "note": "exact real arithmetic; contracts of the four libraries for the one matrix are hypotheses"
  },
  {
   "property": "C82",
   "status": "proved",
   "theorems": [
    "Verif.Props.PTransform.C82_finite_temp_basis",
    "Verif.Props.PTransform.C82_augmented_basis",
    "Verif.Props.PTransform.C82_dlr",
    "Verif.Props.PTransform.C82_evaluate",
    "Verif.Props.PTransform.C82_time_to_frequency",
    "Verif.Props.PTransform.C82_frequency_to_time",
    "Verif.Props.PTransform.C82_positive_to_time",
    "Verif.Props.PTransform.C82_basis_time_to_frequency",
    "Verif.Props.PTransform.C82_basis_frequency_to_time",
    "Verif.Props.PTransform.C82_basis_positive_to_time"
   ],
   "note": "exact real arithmetic; the SVD of the matrix fitted with and its full rank are hypotheses"
  },
  {
   "property": "C83",
   "status": "proved",
   "theorems": [
    "Verif.Props.PSingular.C83_singular_centrosymmetric",
    "Verif.Props.PSingular.C83_singular_sampling"
   ],
   "note": "exact real arithmetic; the vectors the SVD library returns for the weighted matrices are singular triples (hypothesis)"
  },
  {
   "property": "C84",
   "status": "proved",
   "theorems": [
    "Verif.Props.PSingular.C84_best_centrosymmetric",
    "Verif.Props.PSingular.C84_best_sampling",
    "Verif.Props.PSingular.C84_nonempty_centrosymmetric",
    "Verif.Props.PSingular.C84_nonempty_sampling"
   ],
   "note": "exact real arithmetic; the SVD library returns exact decompositions with ordered nonnegative values for the weighted matrices (hypothesis)"
  },
  {
   "property": "C85",
   "status": "proved",
   "theorems": [
    "Verif.Props.PWhole.C85_constructor_computes",
    "Verif.Props.PWhole.C85_shape",
    "Verif.Props.PWhole.C85_diagonalizes_centrosymmetric",
    "Verif.Props.PWhole.C85_best_centrosymmetric",
    "Verif.Props.PWhole.C85_diagonalizes_sampling",
    "Verif.Props.PWhole.C85_best_sampling",
    "Verif.Props.PWhole.C85_default_kernel",
    "Verif.Props.PWhole.C85_bosonic_kernel",
    "Verif.Props.PWhole.C85_returns"
   ],
   "note": "exact real arithmetic; as for C83 and C84 the SVD library returns singular triples, or exact ordered decompositions for the best approximation and for returning (hypotheses on the weighted matrices)"
  },
  {
   "property": "C86",
   "status": "proved",
   "theorems": [
    "Verif.Props.PNear.C86_near_best_centrosymmetric",
    "Verif.Props.PNear.C86_near_best_sampling",
    "Verif.Props.PNear.C86_basis_centrosymmetric",
    "Verif.Props.PNear.C86_basis_sampling",
    "Verif.Props.PNear.C86_truncated_decompositions"
   ],
   "note": "exact real arithmetic after the decomposition; the vectors returned by the SVD library are taken to be exactly orthonormal, the product and the number of triples may be off by d"
  },
  {
   "property": "C87",
   "status": "proved",
   "theorems": [
    "Verif.Props.PLink.C87_same_result",
    "Verif.Props.PLink.C87_same_exceptions",
    "Verif.Props.PLink.C87_warnings",
    "Verif.Props.PLink.C87_near_best_centrosymmetric",
    "Verif.Props.PLink.C87_near_best_sampling",
    "Verif.Props.PLink.C87_basis"
   ],
   "note": "exact real arithmetic after the decompositions; what svd.compute returns for the two matrices is as documented up to an arbitrary error in each entry, with exactly orthonormal columns (hypothesis)"
  },
  {
   "property": "C88",
   "status": "proved",
   "theorems": [
    "Verif.Props.PKernelIEEE.C88_size",
    "Verif.Props.PKernelIEEE.C88_points",
    "Verif.Props.PKernelIEEE.C88_distances",
    "Verif.Props.PKernelIEEE.C88_reduced",
    "Verif.Props.PKernelIEEE.C88_doubles",
    "Verif.Props.PKernelIEEE.C88_logistic_doubles",
    "Verif.Props.PKernelIEEE.C88_exceptions",
    "Verif.Props.PKernelIEEE.C88_exact_arithmetic"
   ],
   "note": "every operation rounded with relative error u and absolute error eta below the smallest normal number, satisfied by Flocq's doubles (C88_doubles); overflow is not modelled and excluded by the bound on the cutoff; the accuracy of exp, expm1, sinh and cosh is a hypothesis"
  },
  {
   "property": "C89",
   "status": "proved",
   "theorems": [
    "Verif.Props.PGaussIEEE.C89_piecewise",
    "Verif.Props.PGaussIEEE.C89_exceptions",
    "Verif.Props.PGaussIEEE.C89_resolved",
    "Verif.Props.PGaussIEEE.C89_segments",
    "Verif.Props.PGaussIEEE.C89_matrix",
    "Verif.Props.PGaussIEEE.C89_reduced",
    "Verif.Props.PGaussIEEE.C89_returns",
    "Verif.Props.PGaussIEEE.C89_exact_arithmetic"
   ],
   "note": "as for C88; the accuracy of the reference rule is a hypothesis (rule_near), with weights and distances above 1e-20, segments at least 1e-100 long, and errors small enough for their products to be negligible (small_reference); the exact segments are given as representable numbers"
  },
  {
   "property": "C90",
   "status": "proved",
   "theorems": [
    "Verif.Props.PRounded.C90_segments",
    "Verif.Props.PRounded.C90_matrix",
    "Verif.Props.PRounded.C90_even_odd",
    "Verif.Props.PRounded.C90_centrosymmetric",
    "Verif.Props.PRounded.C90_sampling",
    "Verif.Props.PRounded.C90_basis_centrosymmetric",
    "Verif.Props.PRounded.C90_basis_sampling"
   ],
   "note": "as for C89; the hinted segments and everything after the decompositions are exact; the library's decomposition of the rounded matrix has exactly orthonormal vectors and is right up to an arbitrary error d (hypothesis)"
  },
  {
   "property": "C91",
   "status": "proved",
   "theorems": [
    "Verif.Props.PComputed.C91_near_orthonormal_centrosymmetric",
    "Verif.Props.PComputed.C91_near_orthonormal_sampling",
    "Verif.Props.PComputed.C91_basis_centrosymmetric",
    "Verif.Props.PComputed.C91_basis_sampling",
    "Verif.Props.PComputed.C91_rounded_centrosymmetric",
    "Verif.Props.PComputed.C91_rounded_sampling",
    "Verif.Props.PComputed.C91_covers_orthonormal"
   ],
   "note": "the errors of the decomposition (vectors and product) are arbitrary and appear in the bound; how small they are is a matter of the library and not modelled; matrices may be rounded as in C90; the polynomials made from the vectors are exact"
  },
  {
   "property": "C92",
   "status": "proved",
   "theorems": [
    "Verif.Props.PPolyIEEE.C92_call",
    "Verif.Props.PPolyIEEE.C92_set",
    "Verif.Props.PPolyIEEE.C92_covers",
    "Verif.Props.PPolyIEEE.C92_value_is_entry_of_call",
    "Verif.Props.PPolyIEEE.C92_value_is_item_call",
    "Verif.Props.PPolyIEEE.C92_array",
    "Verif.Props.PPolyIEEE.C92_array_exceptions",
    "Verif.Props.PPolyIEEE.C92_outside",
    "Verif.Props.PPolyIEEE.C92_computed_lengths",
    "Verif.Props.PPolyIEEE.C92_exact_lengths",
    "Verif.Props.PPolyIEEE.C92_doubles",
    "Verif.Props.PPolyIEEE.C92_exact_arithmetic"
   ],
   "note": "numpy's legval is modelled as its recurrence, in both forms found in numpy releases; the coefficients and knots are exact inputs; overflow is not modelled"
  },
  {
   "property": "C93",
   "status": "proved",
   "theorems": [
    "Verif.Props.PSamplingIEEE.C93_tau_evaluate",
    "Verif.Props.PSamplingIEEE.C93_matsubara_evaluate",
    "Verif.Props.PSamplingIEEE.C93_values_of_true_functions",
    "Verif.Props.PSamplingIEEE.C93_tau_fit",
    "Verif.Props.PSamplingIEEE.C93_matsubara_fit",
    "Verif.Props.PSamplingIEEE.C93_positive_only_fit",
    "Verif.Props.PSamplingIEEE.C93_data_of_true_functions",
    "Verif.Props.PSamplingIEEE.C93_tau_round_trip",
    "Verif.Props.PSamplingIEEE.C93_matsubara_round_trip",
    "Verif.Props.PSamplingIEEE.C93_positive_only_round_trip",
    "Verif.Props.PSamplingIEEE.C93_tau_warning",
    "Verif.Props.PSamplingIEEE.C93_matsubara_warning",
    "Verif.Props.PSamplingIEEE.C93_positive_only_warning",
    "Verif.Props.PSamplingIEEE.C93_tau_points",
    "Verif.Props.PSamplingIEEE.C93_matsubara_points",
    "Verif.Props.PSamplingIEEE.C93_any_order",
    "Verif.Props.PSamplingIEEE.C93_doubles",
    "Verif.Props.PSamplingIEEE.C93_exact_arithmetic",
    "Verif.Props.PSamplingIEEE.C93_exact_decomposition"
   ],
   "note": "the matrix of values and the singular value decomposition are taken as stored, with arbitrary errors that appear in the bounds; the matrix has full rank and at least as many rows as columns; overflow is not modelled"
  },
  {
   "property": "C94",
   "status": "proved",
   "theorems": [
    "Verif.Props.PAccess.C94_settings",
    "Verif.Props.PAccess.C94_statistics",
    "Verif.Props.PAccess.C94_sizes",
    "Verif.Props.PAccess.C94_significance_and_accuracy",
    "Verif.Props.PAccess.C94_significance_of_augmented_refuted",
    "Verif.Props.PAccess.C94_conditioning",
    "Verif.Props.PAccess.C94_same_expansion"
   ],
   "note": "histories of slicing, rescaling, augmenting and switching to poles; augmenting an augmented basis is not modelled; statistics and significance of augmented bases are characterised and the documented behaviour refuted"
  },
  {
   "property": "C95",
   "status": "proved",
   "theorems": [
    "Verif.Props.PSVEIEEE.C95_legendre_values",
    "Verif.Props.PSVEIEEE.C95_coefficients",
    "Verif.Props.PSVEIEEE.C95_functions",
    "Verif.Props.PSVEIEEE.C95_values",
    "Verif.Props.PSVEIEEE.C95_any_order",
    "Verif.Props.PSVEIEEE.C95_exact_arithmetic"
   ],
   "note": "numpy's legvander is modelled as its recurrence; the singular vectors and the segments are exact inputs; the working and the result type may round differently but with the same error bounds; overflow is not modelled"
  },
  {
   "property": "C96",
   "status": "proved",
   "theorems": [
    "Verif.Props.PRoundedCompute.C96_sampling",
    "Verif.Props.PRoundedCompute.C96_symmetric",
    "Verif.Props.PRoundedCompute.C96_truncation",
    "Verif.Props.PRoundedCompute.C96_returns"
   ],
   "note": "bounds are for the returned polynomials with exact knot differences as segment lengths (calling them in rounded arithmetic is C92); the rounding of the result type is monotone; decompositions are parameters with the errors of C91; overflow is not modelled"
  },
  {
   "property": "C97",
   "status": "proved",
   "theorems": [
    "Verif.Props.PFTIEEE.C97_transform",
    "Verif.Props.PFTIEEE.C97_rounded_library",
    "Verif.Props.PFTIEEE.C97_doubles",
    "Verif.Props.PFTIEEE.C97_high_frequency",
    "Verif.Props.PFTIEEE.C97_call_succeeds",
    "Verif.Props.PFTIEEE.C97_exact_arithmetic"
   ],
   "note": "np.pi, spherical_jn, cos, sin and products of complex numbers and matrices are parameters with given errors; products made of rounded operations in any order are shown to be such; the values of the high-frequency model are given; frequencies are integers; overflow is not modelled"
  },
  {
   "property": "C98",
   "status": "proved",
   "theorems": [
    "Verif.Props.PBasisIEEE.C98_singular_values",
    "Verif.Props.PBasisIEEE.C98_sizes",
    "Verif.Props.PBasisIEEE.C98_accuracy",
    "Verif.Props.PBasisIEEE.C98_truncation",
    "Verif.Props.PBasisIEEE.C98_u",
    "Verif.Props.PBasisIEEE.C98_v",
    "Verif.Props.PBasisIEEE.C98_covers",
    "Verif.Props.PBasisIEEE.C98_double_end_points",
    "Verif.Props.PBasisIEEE.C98_uhat",
    "Verif.Props.PBasisIEEE.C98_succeeds",
    "Verif.Props.PBasisIEEE.C98_every_expansion_refuted",
    "Verif.Props.PBasisIEEE.C98_double_stored",
    "Verif.Props.PBasisIEEE.C98_double_scales",
    "Verif.Props.PBasisIEEE.C98_exact_arithmetic"
   ],
   "note": "w**ypower is a parameter with given relative error, np.sqrt is correctly rounded, the stored expansion is given with segment lengths rounded once; the moments of the high-frequency model are not rounded; overflow is not modelled; the constructor can refuse expansions with very short segments at large beta (C98_every_expansion_refuted), and succeeds whenever the condition `tolerated` holds"
  },
  {
   "property": "C99",
   "status": "proved",
   "theorems": [
    "Verif.Props.PWholeIEEE.C99_constructor_computes",
    "Verif.Props.PWholeIEEE.C99_built",
    "Verif.Props.PWholeIEEE.C99_exact_version",
    "Verif.Props.PWholeIEEE.C99_singular_values",
    "Verif.Props.PWholeIEEE.C99_u",
    "Verif.Props.PWholeIEEE.C99_v",
    "Verif.Props.PWholeIEEE.C99_uhat",
    "Verif.Props.PWholeIEEE.C99_near_best_sampling",
    "Verif.Props.PWholeIEEE.C99_near_best_symmetric",
    "Verif.Props.PWholeIEEE.C99_exact_arithmetic"
   ],
   "note": "the library's decompositions are arbitrary with given errors (computed_svd); their values are nonincreasing and nonnegative (decompositions_shaped) and the cutoff keeps values away from underflow (fair_cutoff); the kernel's cutoff lies in [1e-50, 1e16] for near-optimality; above the threshold uhat is that of C97/C98; overflow is not modelled"
  },
  {
   "property": "C100",
   "status": "proved",
   "theorems": [
    "Verif.Props.PTransformIEEE.C100_tau_sampling",
    "Verif.Props.PTransformIEEE.C100_matsubara_sampling",
    "Verif.Props.PTransformIEEE.C100_evaluate_times",
    "Verif.Props.PTransformIEEE.C100_evaluate_frequencies",
    "Verif.Props.PTransformIEEE.C100_time_to_frequency",
    "Verif.Props.PTransformIEEE.C100_frequency_to_time",
    "Verif.Props.PTransformIEEE.C100_positive_to_time",
    "Verif.Props.PTransformIEEE.C100_rows",
    "Verif.Props.PTransformIEEE.C100_exact"
   ],
   "note": "the errors of u and uhat (fair_times, fair_frequencies), of the decompositions (decomposes) and of the inner products (arith_near) are hypotheses of the forms established in C93, C98 and C99; the matrix has full rank; frequencies are below the threshold of the high-frequency model; default sampling points are not rounded; overflow is not modelled"
  },
  {
   "property": "C101",
   "status": "proved",
   "theorems": [
    "Verif.Props.POpsIEEE.C101_slice",
    "Verif.Props.POpsIEEE.C101_rescale",
    "Verif.Props.POpsIEEE.C101_rescale_double",
    "Verif.Props.POpsIEEE.C101_rescale_errors",
    "Verif.Props.POpsIEEE.C101_every_temperature_refuted",
    "Verif.Props.POpsIEEE.C101_rescale_to_own_beta_refuted",
    "Verif.Props.POpsIEEE.C101_determined",
    "Verif.Props.POpsIEEE.C101_history",
    "Verif.Props.POpsIEEE.C101_routes",
    "Verif.Props.POpsIEEE.C101_significance",
    "Verif.Props.POpsIEEE.C101_significance_error",
    "Verif.Props.POpsIEEE.C101_lambda",
    "Verif.Props.POpsIEEE.C101_pair",
    "Verif.Props.POpsIEEE.C101_pair_succeeds",
    "Verif.Props.POpsIEEE.C101_basis_set",
    "Verif.Props.POpsIEEE.C101_exact_arithmetic"
   ],
   "note": "rescaling succeeds under the conditions of C98 on the new scales (fair_scale, tolerated); slices with a positive integer or no stop; for a general rounding the comparison of Lambda is a hypothesis, in doubles it is proved; overflow is not modelled"
  },
  {
   "property": "C102",
   "status": "proved",
   "theorems": [
    "Verif.Props.PDefaultsIEEE.C102_values",
    "Verif.Props.PDefaultsIEEE.C102_roots",
    "Verif.Props.PDefaultsIEEE.C102_points",
    "Verif.Props.PDefaultsIEEE.C102_source_exists",
    "Verif.Props.PDefaultsIEEE.C102_derivative",
    "Verif.Props.PDefaultsIEEE.C102_tau",
    "Verif.Props.PDefaultsIEEE.C102_tau_sampling",
    "Verif.Props.PDefaultsIEEE.C102_omega",
    "Verif.Props.PDefaultsIEEE.C102_exact_arithmetic"
   ],
   "note": "knots of the expansion are doubles (those of sve.compute are after conversion); the location of roots assumes segments long enough for values to be meaningful (accurate); roots of odd functions other than the centre are covered by the location and symmetry statements but not by the report of sign changes; overflow is not modelled"
  },
  {
   "property": "C103",
   "status": "proved",
   "theorems": [
    "Verif.Props.PMatsubaraIEEE.C103_sign_changes",
    "Verif.Props.PMatsubaraIEEE.C103_values",
    "Verif.Props.PMatsubaraIEEE.C103_true_values",
    "Verif.Props.PMatsubaraIEEE.C103_located",
    "Verif.Props.PMatsubaraIEEE.C103_extrema",
    "Verif.Props.PMatsubaraIEEE.C103_maxima",
    "Verif.Props.PMatsubaraIEEE.C103_no_parity",
    "Verif.Props.PMatsubaraIEEE.C103_sampling",
    "Verif.Props.PMatsubaraIEEE.C103_exact_arithmetic"
   ],
   "note": "values of the high-frequency model are a parameter (the model is the one the searched transform uses, not compared with its exact value); declared parities are exactly 1 or -1; the search grid is any strictly increasing grid of two or more indices that are not negative (that the default grid is one is C14); overflow is not modelled"
  },
  {
   "property": "C104",
   "status": "proved",
   "theorems": [
    "Verif.Props.PTailIEEE.C104_moments",
    "Verif.Props.PTailIEEE.C104_any_frequency",
    "Verif.Props.PTailIEEE.C104_series",
    "Verif.Props.PTailIEEE.C104_zero_frequency",
    "Verif.Props.PTailIEEE.C104_call",
    "Verif.Props.PTailIEEE.C104_integral",
    "Verif.Props.PTailIEEE.C104_basis",
    "Verif.Props.PTailIEEE.C104_exact_arithmetic"
   ],
   "note": "the polynomials have right end 1, n u <= 1/200 and a last segment that is not too short (good_end); frequencies with 1000 eta |n| <= u; the integral needs the left end -1, the parity of the index and is corrected by the jumps at inner knots; overflow is not modelled"
  },
  {
   "property": "C105",
   "status": "proved",
   "theorems": [
    "Verif.Props.PDLRIEEE.C105_time_functions",
    "Verif.Props.PDLRIEEE.C105_loss_grows",
    "Verif.Props.PDLRIEEE.C105_outside",
    "Verif.Props.PDLRIEEE.C105_frequency_functions",
    "Verif.Props.PDLRIEEE.C105_zero_over_zero",
    "Verif.Props.PDLRIEEE.C105_refuses",
    "Verif.Props.PDLRIEEE.C105_matrix",
    "Verif.Props.PDLRIEEE.C105_to_IR",
    "Verif.Props.PDLRIEEE.C105_to_IR_same_function",
    "Verif.Props.PDLRIEEE.C105_from_IR",
    "Verif.Props.PDLRIEEE.C105_round_trip",
    "Verif.Props.PDLRIEEE.C105_doubles",
    "Verif.Props.PDLRIEEE.C105_exact_arithmetic"
   ],
   "note": "np.tanh and the functions behind the kernel are parameters with given relative errors, beta times the largest pole is at most 1e89, underflow is negligible at the poles considered (fair_pole); the decomposition has the errors of C93 and full rank; poles are given (default poles are C102); overflow is not modelled"
  },
  {
   "property": "C106",
   "status": "proved",
   "theorems": [
    "Verif.Props.PAugmentIEEE.C106_values",
    "Verif.Props.PAugmentIEEE.C106_derivatives",
    "Verif.Props.PAugmentIEEE.C106_hat",
    "Verif.Props.PAugmentIEEE.C106_refuses",
    "Verif.Props.PAugmentIEEE.C106_u",
    "Verif.Props.PAugmentIEEE.C106_u_domain",
    "Verif.Props.PAugmentIEEE.C106_uhat",
    "Verif.Props.PAugmentIEEE.C106_uhat_domain",
    "Verif.Props.PAugmentIEEE.C106_doubles",
    "Verif.Props.PAugmentIEEE.C106_exact_arithmetic"
   ],
   "note": "underflow is negligible at the temperature and the frequencies (fair_beta, fair_freq; met in doubles by the ranges given); accuracy of np.pi is a hypothesis; hat of TauConst needs np.complex and hat of TauLinear an array, as in C59; overflow is not modelled"
  },
  {
   "property": "C107",
   "status": "proved",
   "theorems": [
    "Verif.Props.POverlapIEEE.C107_partition",
    "Verif.Props.POverlapIEEE.C107_tolerance",
    "Verif.Props.POverlapIEEE.C107_sums",
    "Verif.Props.POverlapIEEE.C107_halving",
    "Verif.Props.POverlapIEEE.C107_exact_arithmetic"
   ],
   "note": "radix is 2 (the default, and the only one overlap uses); the value is compared with the exact sum of the computed products, not with the integral (the errors of computed polynomials are C92); sums are any with given relative error, which those made of rounded additions are (C107_sums); calls that raise are not characterised in doubles; overflow is not modelled"
  }
 ]
}