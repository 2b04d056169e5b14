{
 "claims": [
  {
   "property": "C01",
   "status": "proved",
   "theorems": [
    "C01_chain_forward_composes",
    "C01_chain_inverse_composes",
    "C01_chain_round_trip",
    "C01_chain_round_trip_inverse",
    "C01_chain_methods_agree"
   ],
   "note": ""
  },
  {
   "property": "C02",
   "status": "proved",
   "theorems": [
    "C02_chain_log_det_is_sum",
    "C02_chain_inverse_log_det_opposite",
    "C02_chain_log_det_true_jacobian"
   ],
   "note": ""
  },
  {
   "property": "C03",
   "status": "proved",
   "theorems": [
    "C03_chain_construction"
   ],
   "note": ""
  },
  {
   "property": "C04",
   "status": "proved",
   "theorems": [
    "C04_base_constructor",
    "C04_nesting_stays_coherent",
    "C04_wrappers_never_rejected"
   ],
   "note": ""
  },
  {
   "property": "C05",
   "status": "proved",
   "theorems": [
    "C05_inverse_swaps",
    "C05_inverse_involution",
    "C05_inverse_of_chain"
   ],
   "note": ""
  },
  {
   "property": "C06",
   "status": "proved",
   "theorems": [
    "C06_block_forward",
    "C06_block_inverse",
    "C06_block_methods_agree",
    "C06_block_rejects_exactly_negative",
    "C06_block_metadata",
    "C06_block_nested"
   ],
   "note": ""
  },
  {
   "property": "C07",
   "status": "proved",
   "theorems": [
    "C07_sum_last_entries",
    "C07_sum_last_nonpositive",
    "C07_sum_last_too_many_axes",
    "C07_sum_last_compose",
    "C07_sum_last_total"
   ],
   "note": ""
  },
  {
   "property": "C08",
   "status": "proved",
   "theorems": [
    "C08_block_any_bijector_true_jacobian",
    "C08_block_log_det_true_jacobian"
   ],
   "note": ""
  },
  {
   "property": "C09",
   "status": "proved",
   "theorems": [
    "C09_masked_coupling_values",
    "C09_masked_coupling_round_trip",
    "C09_masked_coupling_methods_agree"
   ],
   "note": ""
  },
  {
   "property": "C10",
   "status": "proved",
   "theorems": [
    "C10_masked_coupling_any_event_true_jacobian",
    "C10_masked_coupling_log_det_true_jacobian"
   ],
   "note": "C10_masked_coupling_log_det_true_jacobian: scalar inner bijectors, one event of any shape, no differentiability assumed beyond the existence of the Jacobian of the coupling map. C10_masked_coupling_any_event_true_jacobian: any batch shape, any inner event shape."
  },
  {
   "property": "C11",
   "status": "proved",
   "theorems": [
    "C11_masked_coupling_constructor",
    "C11_masked_coupling_inner_mismatch",
    "C11_split_coupling_constructor",
    "C11_split_coupling_inner"
   ],
   "note": ""
  },
  {
   "property": "C12",
   "status": "proved",
   "theorems": [
    "C12_split_coupling_any_event_true_jacobian",
    "C12_split_coupling_values",
    "C12_split_coupling_round_trip",
    "C12_split_parts_exist",
    "C12_split_coupling_log_det_true_jacobian",
    "C12_split_coupling_swapped_log_det_true_jacobian"
   ],
   "note": ""
  },
  {
   "property": "C13",
   "status": "proved",
   "theorems": [
    "C13_scalar_affine_values",
    "C13_scalar_affine_round_trip",
    "C13_scalar_affine_both_rejected",
    "C13_affine_log_derivative",
    "C13_shift_values",
    "C13_shift_round_trip"
   ],
   "note": ""
  },
  {
   "property": "C14",
   "status": "proved",
   "theorems": [
    "C14_tanh_bijection",
    "C14_tanh_log_det",
    "C14_tanh_inverse_log_det",
    "C14_tanh_array_round_trip"
   ],
   "note": ""
  },
  {
   "property": "C15",
   "status": "partial",
   "theorems": [
    "C15_sigmoid_round_trip_partial",
    "C15_sigmoid_log_det_partial",
    "C15_sigmoid_error_bound",
    "C15_sigmoid_range",
    "C15_sigmoid_round_trip_refuted",
    "C15_sigmoid_not_injective_refuted",
    "C15_sigmoid_log_det_refuted"
   ],
   "note": "False of the code for x < -9: more_stable_sigmoid replaces sigmoid by exp there (sigmoid.py:77-79), so the inverse is not exact, forward is not injective across -9 and the reported log-det is not the log-derivative. Exact for x >= -9 (log-det x > -9) and the error is bounded."
  },
  {
   "property": "C16",
   "status": "proved",
   "theorems": [
    "C16_gumbel_bijection",
    "C16_gumbel_log_det",
    "C16_gumbel_inverse_log_det",
    "C16_gumbel_array_round_trip"
   ],
   "note": ""
  },
  {
   "property": "C17",
   "status": "proved",
   "theorems": [
    "C17_constructor_accepts_exactly",
    "C17_knots_and_slopes_valid",
    "C17_bin_sizes"
   ],
   "note": ""
  },
  {
   "property": "C18",
   "status": "proved",
   "theorems": [
    "C18_spline_elementwise",
    "C18_strictly_increasing_onto",
    "C18_interpolates_knots_and_linear_tails",
    "C18_zero_params_identity"
   ],
   "note": ""
  },
  {
   "property": "C19",
   "status": "proved",
   "theorems": [
    "C19_spline_inverse",
    "C19_spline_array_round_trip",
    "C19_nondegenerate_sufficient"
   ],
   "note": ""
  },
  {
   "property": "C20",
   "status": "proved",
   "theorems": [
    "C20_spline_log_det",
    "C20_spline_inverse_log_det",
    "C20_spline_C1"
   ],
   "note": ""
  },
  {
   "property": "C21",
   "status": "proved",
   "theorems": [
    "C21_affine_inverse_undoes_forward",
    "C21_affine_forward_undoes_inverse",
    "C21_affine_log_det_true_jacobian",
    "C21_diag_linear",
    "C21_triangular_linear",
    "C21_triangular_constructor",
    "C21_diag_constructor"
   ],
   "note": ""
  },
  {
   "property": "C22",
   "status": "proved",
   "theorems": [
    "C22_lower_upper_triangular_affine",
    "C22_unconstrained_affine",
    "C22_unconstrained_constructor",
    "C22_lower_upper_constructor"
   ],
   "note": ""
  },
  {
   "property": "C23",
   "status": "proved",
   "theorems": [
    "C23_diag_plus_low_rank",
    "C23_determinant_lemma",
    "C23_constructor"
   ],
   "note": ""
  },
  {
   "property": "C24",
   "status": "proved",
   "theorems": [
    "C24_lambda_rejects",
    "C24_lambda_methods",
    "C24_lambda_metadata"
   ],
   "note": "inv, log_det_scalar and is_constant_jacobian are arbitrary functions here; C25 and C26 are about them."
  },
  {
   "property": "C25",
   "status": "partial",
   "theorems": [
    "C25_inv_inverts",
    "C25_inv_refuses_unsupported",
    "C25_constant_base_power_refuted",
    "C25_even_and_odd_powers_refuted",
    "C25_chain_inverted",
    "C25_one_result",
    "C25_unused_argument"
   ],
   "note": "Proved for programs of any length and nesting on the region where every step is invertible by its registered rule. False of the code for c ** x (the rule for pow does not distinguish the variable's side), for even functions at negative arguments (wrong sign) and for odd integer powers at negative arguments (NaN): see the _refuted theorems."
  },
  {
   "property": "C26",
   "status": "partial",
   "theorems": [
    "C26_constant_jacobian_sound",
    "C26_constant_jacobian_affine",
    "C26_repeated_argument_refuted"
   ],
   "note": "Proved for programs whose nested calls neither pass one variable twice nor return one inner variable twice; false without that (C26_repeated_argument_refuted: dict(zip(..)) keeps the last occurrence). That jax.jacfwd computes the Jacobian and make_jaxpr traces it faithfully is a premise."
  },
  {
   "property": "C27",
   "status": "proved",
   "theorems": [
    "C27_same_as_sound",
    "C27_same_as_reflexive",
    "C27_same_as_symmetry_refuted",
    "C27_lambda_never_same"
   ],
   "note": "same_as implies equal behaviour for all nestings. Also shown: it is reflexive except for Lambda and classes without an override, and it is not symmetric (a side remark, not part of the property)."
  },
  {
   "property": "C28",
   "status": "proved",
   "theorems": [
    "C28_sample",
    "C28_sample_and_log_prob",
    "C28_batch_shape"
   ],
   "note": ""
  },
  {
   "property": "C29",
   "status": "partial",
   "theorems": [
    "C29_basic_index_unchanged",
    "C29_integer_arrays",
    "C29_integer_arrays_illegal",
    "C29_mask",
    "C29_mask_illegal",
    "C29_slicing",
    "C29_slice_shape",
    "C29_slice_positions",
    "C29_legal_indices",
    "C29_unbatched_refuted",
    "C29_mixed_tuples",
    "C29_mixed_legal",
    "C29_mvn_tri",
    "C29_mvn_diag",
    "C29_mvn_full_covariance",
    "C29_mvn_diag_plus_low_rank"
   ],
   "note": "Index normalisation, shape of the result and the position every entry is taken from, for integers and slices of any non-zero step; slicing of the four multivariate normal classes. Refuted: slicing an unbatched distribution (see theorem comment). None (newaxis) and Ellipsis are covered; integer-array indices (tuples of arrays, broadcast together) boolean masks, and tuples that mix these with ints, slices, None and Ellipsis too (C29_mixed_tuples, C29_mixed_legal)."
  },
  {
   "property": "C30",
   "status": "partial",
   "theorems": [
    "C30_normal",
    "C30_laplace",
    "C30_gumbel",
    "C30_log_stddev_normal",
    "C30_uniform",
    "C30_deterministic",
    "C30_clipped",
    "C30_independent",
    "C30_joint",
    "C30_quantized",
    "C30_transformed",
    "C30_transformed_whole"
   ],
   "note": "Proved for every class that overrides the default: Normal, Laplace, Gumbel, Uniform, Deterministic, LogStddevNormal, Transformed, Clipped, Independent, Joint, and Quantized without eps on draws of positive probability; all other classes inherit the default, which is sample followed by log_prob. False for Quantized with eps or on a zero-probability draw (C46_eps_lost_refuted, C45_zero_probability_draw_refuted)."
  },
  {
   "property": "C31",
   "status": "proved",
   "theorems": [
    "C31_constructor_checks",
    "C31_shapes",
    "C31_sample_is_forward",
    "C31_log_prob_density",
    "C31_interval_mass",
    "C31_expectation",
    "C31_total_mass",
    "C31_inverse_log_det",
    "C31_tanh",
    "C31_affine_normal",
    "C31_log_prob_jacobian",
    "C31_log_prob_block"
   ],
   "note": ""
  },
  {
   "property": "C32",
   "status": "proved",
   "theorems": [
    "C32_refused_unless_declared",
    "C32_mean",
    "C32_mode",
    "C32_entropy",
    "C32_entropy_hint",
    "C32_entropy_average",
    "C32_mean_vector"
   ],
   "note": ""
  },
  {
   "property": "C33",
   "status": "partial",
   "theorems": [
    "C33_kl_invariant",
    "C33_kl_outcomes",
    "C33_kl_sound_partial",
    "C33_kl_ignores_constants_refuted"
   ],
   "note": "Proved: KL is invariant under a common smooth bijection; the function returns the base KL, or raises, in every case (C33_kl_outcomes); whenever a KL is returned the bijectors compute the same function, provided programs with equal text captured equal constants (C33_kl_sound_partial). False without that proviso: the comparison is of the printed jaxpr, which omits captured constants (transformed.py, C33_kl_ignores_constants_refuted). 'NotImplementedError otherwise' is one-sided: equal functions with different programs are also refused."
  },
  {
   "property": "C34",
   "status": "proved",
   "theorems": [
    "C34_constructor",
    "C34_probs",
    "C34_log_prob",
    "C34_shift_invariant",
    "C34_scale_invariant",
    "C34_sample",
    "C34_mode"
   ],
   "note": ""
  },
  {
   "property": "C35",
   "status": "proved",
   "theorems": [
    "C35_cdf",
    "C35_cdf_monotone"
   ],
   "note": ""
  },
  {
   "property": "C36",
   "status": "proved",
   "theorems": [
    "C36_bernoulli_categorical_agree",
    "C36_entropy",
    "C36_kl",
    "C36_kl_infinite_iff"
   ],
   "note": ""
  },
  {
   "property": "C37",
   "status": "partial",
   "theorems": [
    "C37_integers_agree_partial",
    "C37_floats_disagree_refuted"
   ],
   "note": "Proved for integer values; refuted for non-integer floats inside the accepted interval (log_prob=0, prob=0, cdf=0): categorical.py:101-144."
  },
  {
   "property": "C38",
   "status": "proved",
   "theorems": [
    "C38_constructor",
    "C38_logits",
    "C38_prob",
    "C38_cdf",
    "C38_moments",
    "C38_sample",
    "C38_entropy",
    "C38_kl",
    "C38_outside_support"
   ],
   "note": "C38_outside_support records that prob(2)=3p-1, i.e. values outside {0,1} are not rejected; the property is about the support."
  },
  {
   "property": "C39",
   "status": "proved",
   "theorems": [
    "C39_agrees",
    "C39_sample_mode"
   ],
   "note": ""
  },
  {
   "property": "C40",
   "status": "proved",
   "theorems": [
    "C40_greedy",
    "C40_epsilon_greedy",
    "C40_softmax",
    "C40_softmax_shift"
   ],
   "note": ""
  },
  {
   "property": "C41",
   "status": "partial",
   "theorems": [
    "C41_constructor",
    "C41_weights",
    "C41_log_prob",
    "C41_mean",
    "C41_variance",
    "C41_total_variance",
    "C41_mixture_density",
    "C41_sample",
    "C41_infinite_sample_refuted",
    "C41_component_count_refuted"
   ],
   "note": "Proved for finite component samples and for components whose batch size equals the number of mixture weights; refuted otherwise: selection multiplies by a one-hot mask (mixture_same_family.py:84), so one infinite component sample turns the draw into NaN (C41_infinite_sample_refuted), and the constructor does not compare the number of components with the number of weights (C41_component_count_refuted)."
  },
  {
   "property": "C42",
   "status": "proved",
   "theorems": [
    "C42_constructor",
    "C42_prob_b",
    "C42_log_prob",
    "C42_sample",
    "C42_mixture_density"
   ],
   "note": ""
  },
  {
   "property": "C43",
   "status": "partial",
   "theorems": [
    "C43_constructor",
    "C43_log_prob",
    "C43_edge_density_refuted",
    "C43_density",
    "C43_mean_variance",
    "C43_entropy",
    "C43_sample",
    "C43_zero_probability_bin_refuted"
   ],
   "note": "Everything of the statement proved except at bin edges, where the closed component densities are added (C43_edge_density_refuted), and with a zero-probability bin, where every sample is NaN (C43_zero_probability_bin_refuted)."
  },
  {
   "property": "C44",
   "status": "partial",
   "theorems": [
    "C44_constructor",
    "C44_log_prob",
    "C44_total_mass",
    "C44_sample",
    "C44_slicing",
    "C44_clipped_normal",
    "C44_clipped_logistic",
    "C44_atom_at_maximum_refuted"
   ],
   "note": "Proved for bases without an atom at the maximum (all continuous bases: C44_clipped_normal, C44_clipped_logistic). Refuted for a base with an atom there: clipped.py:60-66 uses P(X > max), C44_atom_at_maximum_refuted."
  },
  {
   "property": "C45",
   "status": "partial",
   "theorems": [
    "C45_constructor",
    "C45_cdf",
    "C45_prob",
    "C45_pmf",
    "C45_total",
    "C45_total_limit",
    "C45_sample",
    "C45_cdf_event",
    "C45_zero_probability_draw_refuted",
    "C45_quantized_normal",
    "C45_quantized_logistic",
    "C45_quantized_uniform"
   ],
   "note": "Everything proved (without eps) except that sample_and_log_prob returns NaN where log_prob returns -inf when a value of probability zero is drawn: C45_zero_probability_draw_refuted (quantized.py:139-159 lacks the isinf guard of log_prob)."
  },
  {
   "property": "C46",
   "status": "partial",
   "theorems": [
    "C46_log_prob",
    "C46_guard",
    "C46_sample_and_log_prob",
    "C46_slicing",
    "C46_eps_lost_refuted"
   ],
   "note": "False of the code: __getitem__ drops eps (327-332) and _sample_n_and_log_prob ignores it (139-159): C46_eps_lost_refuted. Proved: what log_prob with eps computes, and that slicing and sample_and_log_prob are right for the distribution without eps."
  },
  {
   "property": "C47",
   "status": "proved",
   "theorems": [
    "C47_uniform_distribution",
    "C47_uniform_moments",
    "C47_uniform_sample",
    "C47_uniform_kl"
   ],
   "note": ""
  },
  {
   "property": "C48",
   "status": "proved",
   "theorems": [
    "C48_normal_distribution",
    "C48_normal_moments",
    "C48_normal_kl",
    "C48_normal_sample"
   ],
   "note": ""
  },
  {
   "property": "C49",
   "status": "proved",
   "theorems": [
    "C49_laplace_distribution",
    "C49_laplace_moments",
    "C49_laplace_kl",
    "C49_laplace_sample"
   ],
   "note": ""
  },
  {
   "property": "C50",
   "status": "proved",
   "theorems": [
    "C50_logistic_distribution",
    "C50_logistic_moments",
    "C50_logistic_sample"
   ],
   "note": "Mean, second central moment, entropy, mode and median are the integrals/extrema of the density (variance via sum 1/k^2 = pi^2/6, proved in Base/Basel.v)."
  },
  {
   "property": "C51",
   "status": "proved",
   "theorems": [
    "C51_gumbel_distribution",
    "C51_gumbel_moments",
    "C51_gumbel_kl",
    "C51_gumbel_sample"
   ],
   "note": "euler_gamma is any number that is the limit of sum_{k<=n} 1/k - ln n, lgamma any function computing ln of the Euler integral; mean, variance, entropy and KL are then the integrals over the density. The premises are shown satisfiable in C51_nonvacuous."
  },
  {
   "property": "C52",
   "status": "proved",
   "theorems": [
    "C52_deterministic",
    "C52_deterministic_kl",
    "C52_infinite_loc_refuted"
   ],
   "note": "Proved for all real locs. For an infinite loc C52_infinite_loc_refuted shows prob(sample)=0 while sample_and_log_prob reports 0 (|inf-inf| is NaN)."
  },
  {
   "property": "C53",
   "status": "partial",
   "theorems": [
    "C53_scale",
    "C53_kl",
    "C53_slice_without_max",
    "C53_slice_refuted"
   ],
   "note": "Scale, monotonicity and KL proved; slicing preserves the distribution only without max_scale: with max_scale C53_slice_refuted shows the code's __getitem__ always shrinks the scale."
  },
  {
   "property": "C54",
   "status": "proved",
   "theorems": [
    "C54_product_law",
    "C54_constructor",
    "C54_log_prob",
    "C54_entropy",
    "C54_kl",
    "C54_samples",
    "C54_slicing",
    "C54_univariate",
    "C54_normal"
   ],
   "note": ""
  },
  {
   "property": "C55",
   "status": "partial",
   "theorems": [
    "C55_constructor",
    "C55_mixed_batch_shapes_refuted",
    "C55_log_prob",
    "C55_log_cdf",
    "C55_entropy",
    "C55_kl",
    "C55_sample"
   ],
   "note": "Proved: factorisation of log_prob/log_cdf/entropy/KL, sampling with the split keys, what the constructor accepts. False: leaves with different batch shapes are accepted when the empty ones come first (joint.py:58), C55_mixed_batch_shapes_refuted."
  },
  {
   "property": "C56",
   "status": "partial",
   "theorems": [
    "C56_constructor",
    "C56_sample",
    "C56_law",
    "C56_normalised",
    "C56_log_prob_partial",
    "C56_log_prob_refuted",
    "C56_log_prob_negative",
    "C56_moments",
    "C56_covariance",
    "C56_entropy",
    "C56_getitem",
    "C56_fractional_total_refuted",
    "C56_shapes"
   ],
   "note": "Proved on count vectors. Refuted: log_prob does not check that the counts sum to total_count, so off-support vectors can get a positive log-probability (C56_log_prob_refuted), and a fractional total_count is accepted and gives ceil(total_count) draws (C56_fractional_total_refuted)."
  },
  {
   "property": "C57",
   "status": "partial",
   "theorems": [
    "C57_dirichlet_constructor",
    "C57_dirichlet_log_prob",
    "C57_dirichlet_is_density",
    "C57_dirichlet_moments",
    "C57_dirichlet_entropy",
    "C57_dirichlet_kl",
    "C57_dirichlet_kl_zero",
    "C57_dirichlet_kl_errors",
    "C57_dirichlet_mode",
    "C57_beta_is_dirichlet",
    "C57_beta_dirichlet_kl",
    "C57_dirichlet_boundary",
    "C57_gamma_log_prob",
    "C57_gamma_is_density",
    "C57_gamma_moments",
    "C57_gamma_entropy",
    "C57_gamma_kl",
    "C57_gamma_mode",
    "C57_gamma_cdf",
    "C57_gamma_sample",
    "C57_gamma_negative",
    "C57_gamma_log_prob_zero_refuted",
    "C57_log_beta",
    "C57_beta_log_prob",
    "C57_beta_is_density",
    "C57_beta_moments",
    "C57_beta_entropy",
    "C57_beta_kl",
    "C57_beta_mode",
    "C57_beta_mode_nan_refuted",
    "C57_beta_log_prob_zero",
    "C57_beta_reflection",
    "C57_beta_outside",
    "C57_beta_cdf",
    "C57_batched"
   ],
   "note": "Gamma, Beta, Dirichlet: log_prob is the log of the textbook density (normalised: integral 1, with Euler's Gamma function defined as an integral and lgamma/digamma as oracles with an existence proof), mean/variance/covariance/entropy/KL are the corresponding integrals (over the simplex for Dirichlet), KL >= 0 and 0 iff equal parameters, modes are unique maximisers, Beta = 2-component Dirichlet. Refuted parts: Gamma(1,r).log_prob(0) is NaN although the density extends to r there; Beta.mode is NaN for (alpha<1, beta=1) and (alpha=1, beta<1), cases the docstring does not list."
  },
  {
   "property": "C58",
   "status": "partial",
   "theorems": [
    "C58_log_prob",
    "C58_periodic",
    "C58_not_finite",
    "C58_mode",
    "C58_moments",
    "C58_entropy",
    "C58_kl",
    "C58_convert_angle",
    "C58_half_open_refuted",
    "C58_mean_unreduced",
    "C58_log_cdf",
    "C58_batched",
    "C58_variance_shape_refuted",
    "C58_cdf_partial",
    "C58_cdf_reflect",
    "C58_cdf_uniform",
    "C58_cdf_exact",
    "C58_cdf_accurate",
    "C58_cdf_tangent",
    "C58_cdf_conc_tangent",
    "C58_sample_tangent",
    "C58_cdf_tangent_zero_refuted",
    "C58_sampler_law",
    "C58_sampler_loop",
    "C58_sample_range",
    "C58_sample_pi_refuted",
    "C58_zero_concentration_refuted"
   ],
   "note": "Density, normalization, circular mean/variance, entropy, KL (integrals; zero iff same law), angle reduction, cdf/survival range, complementarity, reflection, uniform case, accuracy of the 20-term series (within 2e-7 of the integral of the density, every loc and value, concentration below 10.5), tangents, sampler law and loop proved. Partial: for concentration >= 10.5 the accuracy of the normal approximation of the cdf is not proved (C58_cdf_exact shows the surrounding reduction is exact). Refuted: pi is returned although [-pi, pi) is documented; variance/entropy ignore loc's batch shape; cdf tangent is NaN at concentration 0; at concentration 0 the sampler never accepts."
  },
  {
   "property": "C59",
   "status": "proved",
   "theorems": [
    "C59_gaussian_law",
    "C59_gaussian_marginals",
    "C59_sample_law_triangular",
    "C59_sample_moments",
    "C59_from_bijector",
    "C59_tri",
    "C59_full_covariance",
    "C59_diag",
    "C59_diag_plus_low_rank",
    "C59_diag_cdf_needs_positive_scale"
   ],
   "note": "Every parametrisation: covariance, precision, mean, entropy, log_prob against the density of the Gaussian. lgamma-free; MultivariateNormalDiag.cdf needs positive scales (C59_diag_cdf_needs_positive_scale)."
  },
  {
   "property": "C60",
   "status": "proved",
   "theorems": [
    "C60_kl_closed_form",
    "C60_kl_branches_agree",
    "C60_kl_self",
    "C60_kl_dimension_mismatch"
   ],
   "note": "Closed form on every branch of the KL registry, proved equal to the integral of p (ln p - ln q), non-negative, zero iff the laws agree; matrices over exact reals."
  },
  {
   "property": "C61",
   "status": "partial",
   "theorems": [
    "C61_constructor",
    "C61_parameters",
    "C61_forward_partial",
    "C61_bounds",
    "C61_clipping_refuted",
    "C61_impossible_refuted"
   ],
   "note": "Exact (log of the sum over all paths, filtering alphas) when no forward message lies strictly between 0 and 1e-15; without that proviso the claim is false (C61_clipping_refuted, C61_impossible_refuted: _normalize clips at eps and replaces a zero normaliser by 1) and C61_bounds gives what remains: never an underestimate, and for discrete observations at most (1+N*eps)^T-1 too large."
  },
  {
   "property": "C62",
   "status": "partial",
   "theorems": [
    "C62_posterior_partial",
    "C62_clipping_refuted"
   ],
   "note": "Proved when no message lies strictly between 0 and 1e-15; refuted otherwise (C62_clipping_refuted)."
  },
  {
   "property": "C63",
   "status": "partial",
   "theorems": [
    "C63_forward",
    "C63_forward_backward_refuted",
    "C63_length_zero_refuted"
   ],
   "note": "Forward part proved exactly for all paddings and 0 < length <= seq_len. The backward part is false for every model: C63_forward_backward_refuted (all gammas are 0 when length < seq_len). length=0 acts as length=1."
  },
  {
   "property": "C64",
   "status": "proved",
   "theorems": [
    "C64_viterbi"
   ],
   "note": ""
  },
  {
   "property": "C65",
   "status": "partial",
   "theorems": [
    "C65_multiply_no_nan",
    "C65_mul_exp",
    "C65_power_no_nan",
    "C65_log_diff",
    "C65_log_diff_refuted",
    "C65_multiply_jvp",
    "C65_multiply_jvp_constant",
    "C65_mul_exp_jvp",
    "C65_mul_exp_jvp_zero",
    "C65_power_jvp_partial",
    "C65_power_jvp_refuted"
   ],
   "note": "multiply_no_nan, mul_exp, power_no_nan and log_expbig_minus_expsmall are proved against exact limits, and the custom JVPs of multiply_no_nan, mul_exp and power_no_nan (x>0) against derivatives. Refuted: power_no_nan's JVP is NaN for x <= 0 with y != 0 (log of a non-positive base); log_expbig_minus_expsmall(-inf,-inf) is NaN although the exact value is -inf."
  },
  {
   "property": "C66",
   "status": "partial",
   "theorems": [
    "C66_ratios",
    "C66_ratios_edge",
    "C66_ratios_unbiased",
    "C66_kl_proposal_partial",
    "C66_kl_proposal_refuted",
    "C66_kl_unbiased",
    "C66_kl_reparameterized_unbiased",
    "C66_reparameterized_check",
    "C66_kl_gradient",
    "C66_best_effort",
    "C66_mode",
    "C66_kl_proposal_any_law",
    "C66_kl_unbiased_any_law",
    "C66_ratios_any_law",
    "C66_kl_gradient_any_law",
    "C66_iid_draws"
   ],
   "note": "Unbiasedness is proved as an exact expectation, over finitely supported laws of n iid draws and (C66_*_any_law) over any law with a density with respect to any integral, using only linearity of the average and the law of each draw; C66_iid_draws instantiates this with n independent real draws (iterated integrals against the product density). The gradient statement for densities ends at the integral of the derivative (exchanging the two is left to the user). Refuted: with a proposal, a draw of zero mass under distribution_a makes mc_estimate_kl NaN (0 * -inf)."
  },
  {
   "property": "C67",
   "status": "partial",
   "theorems": [
    "C67_as_bijector",
    "C67_as_bijector_functions",
    "C67_as_distribution",
    "C67_to_tfp",
    "C67_to_tfp_idempotent_refuted",
    "C67_event_ndims",
    "C67_event_shape",
    "C67_log_det_event_ndims",
    "C67_from_tfp",
    "C67_from_tfp_bad_shape",
    "C67_round_trip",
    "C67_as_float_array"
   ],
   "note": "Refuted part: converting the TFP-compatible wrapper of a distrax bijector with to_tfp wraps it a second time (the wrapper is not recognised as a TFP bijector); everything else is proved."
  },
  {
   "property": "C68",
   "status": "partial",
   "theorems": [
    "C68_leaves",
    "C68_round_trip",
    "C68_substitute",
    "C68_too_many",
    "C68_too_few",
    "C68_same_structure",
    "C68_primitive_refuted"
   ],
   "note": "Proved: flatten/unflatten round trip, substitution and structure preservation for JAX data. Refuted: a Python number substituted for an array leaf becomes part of the structure."
  },
  {
   "property": "C69",
   "status": "partial",
   "theorems": [
    "C69_one_hot",
    "C69_other_classes",
    "C69_categorical_refuted",
    "C69_categorical_batch_refuted",
    "C69_invalid_refuted"
   ],
   "note": "Proved for OneHotCategorical with legal parameters. Refuted: a plain Categorical passes the class check but gets a wrong shape (or an error), and invalid parameters give NaN instead of -1."
  },
  {
   "property": "C70",
   "status": "proved",
   "theorems": [
    "C70_survival_functions",
    "C70_survival_multivariate",
    "C70_prob",
    "C70_stddev",
    "C70_cross_entropy"
   ],
   "note": ""
  },
  {
   "property": "C71",
   "status": "partial",
   "theorems": [
    "C71_normal",
    "C71_laplace",
    "C71_logistic",
    "C71_uniform",
    "C71_gumbel_partial",
    "C71_gumbel_entropy_refuted",
    "C71_constructor"
   ],
   "note": "False of the code for Gumbel.entropy (gumbel.py:101 uses the unbroadcast scale): C71_gumbel_entropy_refuted; proved for everything else."
  },
  {
   "property": "C72",
   "status": "proved",
   "theorems": [
    "C72_lengths",
    "C72_law",
    "C72_support"
   ],
   "note": ""
  },
  {
   "property": "C73",
   "status": "partial",
   "theorems": [
    "C73_sample_n",
    "C73_sample",
    "C73_array_size_refuted",
    "C73_shapes",
    "C73_log_prob",
    "C73_name",
    "C73_inherited",
    "C73_sample_and_log_prob",
    "C73_twice",
    "C73_survival",
    "C73_survival_refuted",
    "C73_getitem",
    "C73_pytree"
   ],
   "note": "Proved for scalar, sequence and 1-d array sample shapes and for inherited code that reads shapes only through their dimensions. Refuted: (1) a 0-d array sample_shape, accepted by the wrapped distribution, is a TypeError; (2) the base class's survival_function/log_survival_function test `not self.event_shape`, and TFP's TensorShape is documented truthy even for (), so both raise NotImplementedError on the wrapper of a univariate distribution. The semantics of TensorShape.__bool__ is a parameter (`truth`) of the model: TFP's source is not available here."
  },
  {
   "property": "C74",
   "status": "proved",
   "theorems": [
    "C74_tri",
    "C74_full_covariance",
    "C74_diag",
    "C74_diag_plus_low_rank",
    "C74_from_bijector"
   ],
   "note": "All five constructors, every combination of given and missing arguments."
  },
  {
   "property": "C75",
   "status": "proved",
   "theorems": [
    "C75_sample",
    "C75_sample_and_log_prob",
    "C75_survival",
    "C75_round_trip"
   ],
   "note": "Events are single arrays (not TFP joint distributions); the methods that return TFP's value unchanged are not restated."
  },
  {
   "property": "C76",
   "status": "proved",
   "theorems": [
    "C76_masked_coupling_law",
    "C76_masked_coupling_mass",
    "C76_block_law",
    "C76_block_mass",
    "C76_split_coupling_law",
    "C76_split_coupling_mass"
   ],
   "note": "Iterated (improper Riemann) integrals, conditioning (masked / kept) coordinates outermost. The expectation statement takes the smooth iterated integrability of the base integrand as premise; for product densities (C76_*_mass) it is derived."
  },
  {
   "property": "C77",
   "status": "partial",
   "theorems": [
    "C77_categorical",
    "C77_categorical_methods",
    "C77_policies",
    "C77_bernoulli",
    "C77_mixture_same_family",
    "C77_mixture_of_two",
    "C77_categorical_uniform",
    "C77_dirichlet",
    "C77_normal",
    "C77_laplace",
    "C77_logistic",
    "C77_gumbel",
    "C77_gumbel_entropy_refuted",
    "C77_uniform",
    "C77_deterministic",
    "C77_independent",
    "C77_gamma",
    "C77_beta",
    "C77_von_mises"
   ],
   "note": "Univariate classes and Independent over them, Categorical, OneHotCategorical, Bernoulli, Greedy, EpsilonGreedy and Softmax, MixtureSameFamily (Categorical mixing; Normal, Laplace, Logistic, Uniform, Gamma or Beta components), MixtureOfTwo, CategoricalUniform and Dirichlet, exceptions included. Slicing of Multinomial, Clipped/Quantized and the multivariate normals is in C56, C44/C46 and C29. Gumbel.entropy is refuted (C77_gumbel_entropy_refuted): entropy() is computed from the unbroadcast scale; VonMises.variance/entropy have the same defect (C58_variance_shape_refuted) and are not in C77_von_mises. An unbatched distribution ignores its index (C29), so batch_shape must be non-empty."
  },
  {
   "property": "C78",
   "status": "proved",
   "theorems": [
    "C78_sample_in_support",
    "C78_sample_has_density",
    "C78_prob",
    "C78_cdf",
    "C78_needs_finite_range",
    "C78_high_is_returned"
   ],
   "note": "Every binary dtype; two roundings or a fused multiply-add; the needed premise (range does not overflow) is shown necessary (C78_needs_finite_range), and the upper end point is attained (C78_high_is_returned)."
  },
  {
   "property": "C79",
   "status": "proved",
   "theorems": [
    "C79_bernoulli_frequency",
    "C79_bernoulli_small"
   ],
   "note": ""
  },
  {
   "property": "C80",
   "status": "proved",
   "theorems": [
    "C80_entries_are_probabilities",
    "C80_order_preserved",
    "C80_total_is_one"
   ],
   "note": "The sum is accumulated in the dtype of the array, in any order."
  },
  {
   "property": "C81",
   "status": "proved",
   "theorems": [
    "C81_affine_round_trip",
    "C81_shift_round_trip",
    "C81_power_of_two_exact"
   ],
   "note": ""
  },
  {
   "property": "C82",
   "status": "proved",
   "theorems": [
    "C82_position",
    "C82_denominator_positive",
    "C82_log_argument_positive",
    "C82_output_above_left_knot",
    "C82_log_det_defined",
    "C82_inverse_position",
    "C82_inverse_in_bin"
   ],
   "note": "Forward and inverse inside a bin; the knots and slopes are given floats (C88 covers the knots)."
  },
  {
   "property": "C83",
   "status": "proved",
   "theorems": [
    "C83_logistic_draw_in_open_interval"
   ],
   "note": ""
  },
  {
   "property": "C84",
   "status": "partial",
   "theorems": [
    "C84_normal",
    "C84_laplace",
    "C84_logistic_partial",
    "C84_gumbel_partial",
    "C84_logistic_gumbel_overflow_refuted"
   ],
   "note": "Logistic and Gumbel carry _partial: NaN when (v - loc)/scale overflows to -infinity (C84_logistic_gumbel_overflow_refuted)."
  },
  {
   "property": "C85",
   "status": "proved",
   "theorems": [
    "C85_log_softmax",
    "C85_softmax",
    "C85_undefined"
   ],
   "note": "log/exp are any functions meeting log_fn and exp_fn (Spec/Rounding.v), inhabited by correctly rounded functions (Proofs/FloatLib.v)."
  },
  {
   "property": "C86",
   "status": "proved",
   "theorems": [
    "C86_mixture_sample",
    "C86_categorical",
    "C86_straight_through"
   ],
   "note": "Bit-exact for every summation order."
  },
  {
   "property": "C87",
   "status": "partial",
   "theorems": [
    "C87_sample",
    "C87_cdf",
    "C87_prob",
    "C87_large_values_refuted"
   ],
   "note": "Beyond 2^(mant+1) prob is 0 everywhere (C87_large_values_refuted)."
  },
  {
   "property": "C88",
   "status": "partial",
   "theorems": [
    "C88_knots_increasing",
    "C88_min_bin_size_refuted"
   ],
   "note": "Sufficient margin proved; without it the constructor accepts ranges on which knots collapse (C88_min_bin_size_refuted)."
  },
  {
   "property": "C89",
   "status": "partial",
   "theorems": [
    "C89_promotion_is_least_upper_bound",
    "C89_narrowest_unique",
    "C89_sample_dtype",
    "C89_bool_rejected",
    "C89_log_prob_dtype",
    "C89_sample_and_log_prob_dtype",
    "C89_statistics_dtype",
    "C89_mean_dtype_refuted",
    "C89_discrete_dtype",
    "C89_deterministic_dtype",
    "C89_deterministic_log_prob_refuted"
   ],
   "note": "JAX's promotion rules are modelled from their documentation (Base/JaxDtype.v).  Refuted: mean dtype for mixed parameters, integer log_prob of Deterministic.sample_and_log_prob; VonMises raises KeyError in bfloat16."
  },
  {
   "property": "C90",
   "status": "partial",
   "theorems": [
    "C90_reported_dtype_is_sample_dtype",
    "C90_mixture_same_family_dtype",
    "C90_mixture_keeps_dtype_refuted",
    "C90_deterministic_refuted",
    "C90_mvn_integer_refuted"
   ],
   "note": "Joint, Quantized and sigmoid/spline bijectors not in the dtype tree.  Refuted: weak Deterministic below Transformed, MultivariateNormalFromBijector with integer parameters, mixtures of float16 components."
  },
  {
   "property": "C91",
   "status": "partial",
   "theorems": [
    "C91_prob_without_tolerance",
    "C91_prob_with_tolerance",
    "C91_prob_refuted",
    "C91_unsigned_tolerance_refuted",
    "C91_cdf",
    "C91_cdf_without_tolerance",
    "C91_cdf_refuted",
    "C91_float_prob",
    "C91_float_prob_tolerance",
    "C91_float_cdf"
   ],
   "note": "Refuted for signed overflow, unsigned tolerance and large integers in cdf; proved on the complement."
  },
  {
   "property": "C92",
   "status": "partial",
   "theorems": [
    "C92_categorical",
    "C92_multinomial",
    "C92_multinomial_total",
    "C92_float_saturates",
    "C92_multinomial_refuted",
    "C92_categorical_refuted"
   ],
   "note": "Exact up to the capacity of the dtype; refuted beyond it (float counts saturate at 2^mant, integer indices wrap)."
  },
  {
   "property": "C93",
   "status": "partial",
   "theorems": [
    "C93_tanh_log_det",
    "C93_sigmoid_log_det",
    "C93_tanh_sample_and_log_prob",
    "C93_sigmoid_sample_and_log_prob",
    "C93_tanh_log_prob_at_bounds",
    "C93_sigmoid_log_prob_at_bounds",
    "C93_tanh_saturates",
    "C93_log_prob_of_sample_refuted",
    "C93_sigmoid_forward"
   ],
   "note": "Accuracy proved for library functions with bounded relative error; log_prob of a saturated sample refuted (NaN, documented)."
  },
  {
   "property": "C94",
   "status": "proved",
   "theorems": [
    "C94_standardize",
    "C94_normal",
    "C94_laplace",
    "C94_logistic",
    "C94_gumbel"
   ],
   "note": "Error bounds with explicit constants for library functions of bounded relative error."
  },
  {
   "property": "C95",
   "status": "partial",
   "theorems": [
    "C95_normal_log_prob",
    "C95_laplace_log_prob",
    "C95_sample",
    "C95_normal_consistency",
    "C95_laplace_consistency",
    "C95_exact_consistency_refuted"
   ],
   "note": "Agreement up to evaluation rounding plus the drift of the sample proved; exact agreement refuted for large loc/scale."
  },
  {
   "property": "C96",
   "status": "partial",
   "theorems": [
    "C96_prob",
    "C96_log_prob",
    "C96_cdf_ends",
    "C96_cdf_accuracy",
    "C96_cdf_monotone",
    "C96_cdf_exceeds_one_refuted"
   ],
   "note": "Exact selection, ends, accuracy and monotonicity proved; cdf <= 1 refuted (float32 counterexample; log_survival_function is NaN)."
  },
  {
   "property": "C97",
   "status": "partial",
   "theorems": [
    "C97_nan_preference",
    "C97_greedy",
    "C97_epsilon_greedy",
    "C97_exploration",
    "C97_preferred_most_likely",
    "C97_any_epsilon_explores_refuted"
   ],
   "note": "Accuracy, ordering and positivity proved; exploration for arbitrarily small epsilon refuted (conversion of the Python number underflows)."
  },
  {
   "property": "C98",
   "status": "partial",
   "theorems": [
    "C98_forward",
    "C98_range",
    "C98_underflow_refuted"
   ],
   "note": "length=None. forward_backward is C99, viterbi C100."
  },
  {
   "property": "C99",
   "status": "proved",
   "theorems": [
    "C99_posterior"
   ],
   "note": "length=None. The hypotheses exclude underflow and clipping, where C61-C63 and C98 show that the result is wrong."
  },
  {
   "property": "C100",
   "status": "proved",
   "theorems": [
    "C100_optimal",
    "C100_probability",
    "C100_float32",
    "C100_many_states_refuted"
   ],
   "note": "Full: C100_optimal (exact optimality of the float score) and C100_probability (near-optimality in probability); C100_many_states_refuted shows the limit on the number of states in the statement is needed. The tables are inputs: log_softmax and log_prob in floats are C82 and C94."
  },
  {
   "property": "C101",
   "status": "proved",
   "theorems": [
    "C101_sum",
    "C101_impossible",
    "C101_nan",
    "C101_independent_normal"
   ],
   "note": "Full: C101_sum for the reduction, C101_independent_normal for the composition with Normal.log_prob."
  },
  {
   "property": "C102",
   "status": "proved",
   "theorems": [
    "C102_logsumexp",
    "C102_all_impossible",
    "C102_mixture",
    "C102_float32"
   ],
   "note": "Full: C102_mixture (any dtype) with C102_float32 as a concrete instance; the component log_prob and log_softmax in floats are C94 and C82."
  },
  {
   "property": "C103",
   "status": "proved",
   "theorems": [
    "C103_mvn_diag",
    "C103_subnormal_scale_refuted"
   ],
   "note": "Full within the stated range: C103_mvn_diag; C103_subnormal_scale_refuted shows that the condition on the inverse scales in the statement is needed."
  },
  {
   "property": "C104",
   "status": "proved",
   "theorems": [
    "C104_normal",
    "C104_laplace",
    "C104_uniform",
    "C104_self",
    "C104_normal_nonnegative",
    "C104_normal_cancellation_refuted",
    "C104_normal_self_refuted"
   ],
   "note": "Full: C104_normal, C104_laplace, C104_uniform (against the integral definition), C104_self, C104_normal_nonnegative; the two refuted theorems show that the conditions in the statement are needed."
  },
  {
   "property": "C105",
   "status": "proved",
   "theorems": [
    "C105_entropy",
    "C105_kl",
    "C105_kl_infinite",
    "C105_entropy_nonnegative",
    "C105_entropy_probs_nonnegative",
    "C105_entropy_point",
    "C105_kl_self",
    "C105_float32",
    "C105_kl_underflow_refuted"
   ],
   "note": "Full: C105_entropy, C105_kl (with the non-negativity of the exact values), C105_kl_infinite, C105_entropy_nonnegative, C105_entropy_probs_nonnegative, C105_entropy_point, C105_kl_self, C105_float32; C105_kl_underflow_refuted shows why C105_kl_infinite asks for a positive float probability."
  },
  {
   "property": "C106",
   "status": "proved",
   "theorems": [
    "C106_entropy",
    "C106_kl",
    "C106_kl_self",
    "C106_kl_infinite",
    "C106_log_prob",
    "C106_entropy_logits",
    "C106_entropy_symmetric",
    "C106_entropy_nonnegative",
    "C106_certain",
    "C106_small_probability_refuted",
    "C106_float32"
   ],
   "note": "Full: C106_log_prob, C106_entropy, C106_entropy_logits, C106_kl, C106_kl_infinite, C106_kl_self, C106_certain, C106_entropy_nonnegative, C106_entropy_symmetric, C106_float32; C106_small_probability_refuted shows that the error from probs is not relative and that C106_kl_infinite needs a positive float probability."
  },
  {
   "property": "C107",
   "status": "proved",
   "theorems": [
    "C107_normal",
    "C107_logistic",
    "C107_gumbel",
    "C107_laplace",
    "C107_mirror",
    "C107_normal_accuracy",
    "C107_logistic_accuracy",
    "C107_laplace_accuracy",
    "C107_laplace_log_accuracy",
    "C107_gumbel_accuracy",
    "C107_gumbel_upper_tail_refuted",
    "C107_laplace_tails_refuted",
    "C107_correctly_rounded"
   ],
   "note": "Full: C107_normal, C107_laplace, C107_logistic, C107_gumbel (range, monotonicity, limits), C107_mirror, C107_normal_accuracy, C107_logistic_accuracy, C107_laplace_accuracy, C107_laplace_log_accuracy, C107_gumbel_accuracy, C107_correctly_rounded (the assumptions are met); C107_gumbel_upper_tail_refuted and C107_laplace_tails_refuted show that the tail errors are not relative. Accuracy of log_ndtr is not claimed."
  },
  {
   "property": "C108",
   "status": "proved",
   "theorems": [
    "C108_pass",
    "C108_log_prob",
    "C108_sample_and_log_prob",
    "C108_affine_inverse",
    "C108_affine_forward",
    "C108_tanh_forward",
    "C108_tanh_inverse",
    "C108_sigmoid_forward"
   ],
   "note": "Full: C108_pass (any chain), C108_log_prob, C108_sample_and_log_prob, C108_affine_inverse, C108_affine_forward, C108_tanh_forward, C108_tanh_inverse, C108_sigmoid_forward (these bijectors are such layers); C108_float32, C108_layers_float32 and C108_squashed_float32 instantiate them. Sigmoid below -9, where the code returns exp(x), is not a layer here (the function jumps there, see C15)."
  },
  {
   "property": "C109",
   "status": "proved",
   "theorems": [
    "C109_uniform_mean",
    "C109_uniform_mean_refuted",
    "C109_uniform_spread",
    "C109_entropy",
    "C109_spread",
    "C109_gumbel_centre",
    "C109_uniform_entropy"
   ],
   "note": "Full: C109_uniform_mean, C109_uniform_spread, C109_uniform_entropy, C109_entropy, C109_spread, C109_gumbel_centre; C109_uniform_mean_refuted (in every dtype the mean of some Uniform is +inf); C109_float32 instantiates them."
  },
  {
   "property": "C110",
   "status": "proved",
   "theorems": [
    "C110_threshold",
    "C110_kl",
    "C110_kl_self_refuted"
   ],
   "note": "Full: C110_threshold, C110_kl; C110_kl_self_refuted (float32: KL(p, p) < 0 for some p with scale 1); C110_float32 instantiates them."
  },
  {
   "property": "C111",
   "status": "proved",
   "theorems": [
    "C111_self",
    "C111_equal_scales_nonnegative",
    "C111_overflow_refuted",
    "C111_gumbel"
   ],
   "note": "Full: C111_gumbel, C111_self, C111_equal_scales_nonnegative; C111_overflow_refuted (every dtype: NaN when the difference of the locations overflows, the divergence itself being positive); C111_float32 instantiates them."
  },
  {
   "property": "C112",
   "status": "proved",
   "theorems": [
    "C112_scaled",
    "C112_mode",
    "C112_probabilities",
    "C112_greedy_limit_refuted"
   ],
   "note": "Full: C112_scaled, C112_mode, C112_probabilities; C112_greedy_limit_refuted (every dtype: all NaN at a small temperature, against the docstring's 'for temperature -> 0 the distribution becomes fully greedy'); C112_float32 instantiates them."
  }
 ]
}