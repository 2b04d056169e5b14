{
 "C15": {
  "note": "False of the code for x < -9: more_stable_sigmoid replaces sigmoid by exp there (sigmoid.py:77-79), so the inverse is not exact, forward is not injective across -9 and the reported log-det is not the log-derivative. Exact for x >= -9 (log-det x > -9) and the error is bounded."
 },
 "C10": {
  "note": "C10_masked_coupling_log_det_true_jacobian: scalar inner bijectors, one event of any shape, no differentiability assumed beyond the existence of the Jacobian of the coupling map. C10_masked_coupling_any_event_true_jacobian: any batch shape, any inner event shape."
 },
 "C25": {
  "note": "Proved for programs of any length and nesting on the region where every step is invertible by its registered rule. False of the code for c ** x (the rule for pow does not distinguish the variable's side), for even functions at negative arguments (wrong sign) and for odd integer powers at negative arguments (NaN): see the _refuted theorems."
 },
 "C26": {
  "note": "Proved for programs whose nested calls neither pass one variable twice nor return one inner variable twice; false without that (C26_repeated_argument_refuted: dict(zip(..)) keeps the last occurrence). That jax.jacfwd computes the Jacobian and make_jaxpr traces it faithfully is a premise."
 },
 "C27": {
  "status": "proved",
  "note": "same_as implies equal behaviour for all nestings. Also shown: it is reflexive except for Lambda and classes without an override, and it is not symmetric (a side remark, not part of the property)."
 },
 "C24": {
  "note": "inv, log_det_scalar and is_constant_jacobian are arbitrary functions here; C25 and C26 are about them."
 },
 "C52": {
  "status": "proved",
  "note": "Proved for all real locs. For an infinite loc C52_infinite_loc_refuted shows prob(sample)=0 while sample_and_log_prob reports 0 (|inf-inf| is NaN)."
 },
 "C53": {
  "note": "Scale, monotonicity and KL proved; slicing preserves the distribution only without max_scale: with max_scale C53_slice_refuted shows the code's __getitem__ always shrinks the scale."
 },
 "C50": {
  "note": "Mean, second central moment, entropy, mode and median are the integrals/extrema of the density (variance via sum 1/k^2 = pi^2/6, proved in Base/Basel.v)."
 },
 "C51": {
  "note": "euler_gamma is any number that is the limit of sum_{k<=n} 1/k - ln n, lgamma any function computing ln of the Euler integral; mean, variance, entropy and KL are then the integrals over the density. The premises are shown satisfiable in C51_nonvacuous."
 },
 "C71": {
  "note": "False of the code for Gumbel.entropy (gumbel.py:101 uses the unbroadcast scale): C71_gumbel_entropy_refuted; proved for everything else."
 },
 "C30": {
  "status": "partial",
  "note": "Proved for every class that overrides the default: Normal, Laplace, Gumbel, Uniform, Deterministic, LogStddevNormal, Transformed, Clipped, Independent, Joint, and Quantized without eps on draws of positive probability; all other classes inherit the default, which is sample followed by log_prob. False for Quantized with eps or on a zero-probability draw (C46_eps_lost_refuted, C45_zero_probability_draw_refuted)."
 },
 "C38": {
  "status": "proved",
  "note": "C38_outside_support records that prob(2)=3p-1, i.e. values outside {0,1} are not rejected; the property is about the support."
 },
 "C37": {
  "status": "partial",
  "note": "Proved for integer values; refuted for non-integer floats inside the accepted interval (log_prob=0, prob=0, cdf=0): categorical.py:101-144."
 },
 "C29": {
  "note": "Index normalisation, shape of the result and the position every entry is taken from, for integers and slices of any non-zero step; slicing of the four multivariate normal classes. Refuted: slicing an unbatched distribution (see theorem comment). None (newaxis) and Ellipsis are covered; integer-array indices (tuples of arrays, broadcast together) boolean masks, and tuples that mix these with ints, slices, None and Ellipsis too (C29_mixed_tuples, C29_mixed_legal)."
 },
 "C41": {
  "status": "partial",
  "note": "Proved for finite component samples and for components whose batch size equals the number of mixture weights; refuted otherwise: selection multiplies by a one-hot mask (mixture_same_family.py:84), so one infinite component sample turns the draw into NaN (C41_infinite_sample_refuted), and the constructor does not compare the number of components with the number of weights (C41_component_count_refuted)."
 },
 "C43": {
  "status": "partial",
  "note": "Everything of the statement proved except at bin edges, where the closed component densities are added (C43_edge_density_refuted), and with a zero-probability bin, where every sample is NaN (C43_zero_probability_bin_refuted)."
 },
 "C44": {
  "status": "partial",
  "note": "Proved for bases without an atom at the maximum (all continuous bases: C44_clipped_normal, C44_clipped_logistic). Refuted for a base with an atom there: clipped.py:60-66 uses P(X > max), C44_atom_at_maximum_refuted."
 },
 "C45": {
  "status": "partial",
  "note": "Everything proved (without eps) except that sample_and_log_prob returns NaN where log_prob returns -inf when a value of probability zero is drawn: C45_zero_probability_draw_refuted (quantized.py:139-159 lacks the isinf guard of log_prob)."
 },
 "C46": {
  "status": "partial",
  "note": "False of the code: __getitem__ drops eps (327-332) and _sample_n_and_log_prob ignores it (139-159): C46_eps_lost_refuted. Proved: what log_prob with eps computes, and that slicing and sample_and_log_prob are right for the distribution without eps."
 },
 "C55": {
  "status": "partial",
  "note": "Proved: factorisation of log_prob/log_cdf/entropy/KL, sampling with the split keys, what the constructor accepts. False: leaves with different batch shapes are accepted when the empty ones come first (joint.py:58), C55_mixed_batch_shapes_refuted."
 },
 "C61": {
  "note": "Exact (log of the sum over all paths, filtering alphas) when no forward message lies strictly between 0 and 1e-15; without that proviso the claim is false (C61_clipping_refuted, C61_impossible_refuted: _normalize clips at eps and replaces a zero normaliser by 1) and C61_bounds gives what remains: never an underestimate, and for discrete observations at most (1+N*eps)^T-1 too large."
 },
 "C62": {
  "note": "Proved when no message lies strictly between 0 and 1e-15; refuted otherwise (C62_clipping_refuted)."
 },
 "C63": {
  "note": "Forward part proved exactly for all paddings and 0 < length <= seq_len. The backward part is false for every model: C63_forward_backward_refuted (all gammas are 0 when length < seq_len). length=0 acts as length=1."
 },
 "C65": {
  "note": "multiply_no_nan, mul_exp, power_no_nan and log_expbig_minus_expsmall are proved against exact limits, and the custom JVPs of multiply_no_nan, mul_exp and power_no_nan (x>0) against derivatives. Refuted: power_no_nan's JVP is NaN for x <= 0 with y != 0 (log of a non-positive base); log_expbig_minus_expsmall(-inf,-inf) is NaN although the exact value is -inf."
 },
 "C66": {
  "note": "Unbiasedness is proved as an exact expectation, over finitely supported laws of n iid draws and (C66_*_any_law) over any law with a density with respect to any integral, using only linearity of the average and the law of each draw; C66_iid_draws instantiates this with n independent real draws (iterated integrals against the product density). The gradient statement for densities ends at the integral of the derivative (exchanging the two is left to the user). Refuted: with a proposal, a draw of zero mass under distribution_a makes mc_estimate_kl NaN (0 * -inf)."
 },
 "C67": {
  "note": "Refuted part: converting the TFP-compatible wrapper of a distrax bijector with to_tfp wraps it a second time (the wrapper is not recognised as a TFP bijector); everything else is proved."
 },
 "C68": {
  "note": "Proved: flatten/unflatten round trip, substitution and structure preservation for JAX data. Refuted: a Python number substituted for an array leaf becomes part of the structure."
 },
 "C69": {
  "note": "Proved for OneHotCategorical with legal parameters. Refuted: a plain Categorical passes the class check but gets a wrong shape (or an error), and invalid parameters give NaN instead of -1."
 },
 "C56": {
  "note": "Proved on count vectors. Refuted: log_prob does not check that the counts sum to total_count, so off-support vectors can get a positive log-probability (C56_log_prob_refuted), and a fractional total_count is accepted and gives ceil(total_count) draws (C56_fractional_total_refuted)."
 },
 "C57": {
  "note": "Gamma, Beta, Dirichlet: log_prob is the log of the textbook density (normalised: integral 1, with Euler's Gamma function defined as an integral and lgamma/digamma as oracles with an existence proof), mean/variance/covariance/entropy/KL are the corresponding integrals (over the simplex for Dirichlet), KL >= 0 and 0 iff equal parameters, modes are unique maximisers, Beta = 2-component Dirichlet. Refuted parts: Gamma(1,r).log_prob(0) is NaN although the density extends to r there; Beta.mode is NaN for (alpha<1, beta=1) and (alpha=1, beta<1), cases the docstring does not list."
 },
 "C58": {
  "note": "Density, normalization, circular mean/variance, entropy, KL (integrals; zero iff same law), angle reduction, cdf/survival range, complementarity, reflection, uniform case, accuracy of the 20-term series (within 2e-7 of the integral of the density, every loc and value, concentration below 10.5), tangents, sampler law and loop proved. Partial: for concentration >= 10.5 the accuracy of the normal approximation of the cdf is not proved (C58_cdf_exact shows the surrounding reduction is exact). Refuted: pi is returned although [-pi, pi) is documented; variance/entropy ignore loc's batch shape; cdf tangent is NaN at concentration 0; at concentration 0 the sampler never accepts."
 },
 "C73": {
  "note": "Proved for scalar, sequence and 1-d array sample shapes and for inherited code that reads shapes only through their dimensions. Refuted: (1) a 0-d array sample_shape, accepted by the wrapped distribution, is a TypeError; (2) the base class's survival_function/log_survival_function test `not self.event_shape`, and TFP's TensorShape is documented truthy even for (), so both raise NotImplementedError on the wrapper of a univariate distribution. The semantics of TensorShape.__bool__ is a parameter (`truth`) of the model: TFP's source is not available here."
 },
 "C59": {
  "note": "Every parametrisation: covariance, precision, mean, entropy, log_prob against the density of the Gaussian. lgamma-free; MultivariateNormalDiag.cdf needs positive scales (C59_diag_cdf_needs_positive_scale)."
 },
 "C60": {
  "note": "Closed form on every branch of the KL registry, proved equal to the integral of p (ln p - ln q), non-negative, zero iff the laws agree; matrices over exact reals."
 },
 "C74": {
  "note": "All five constructors, every combination of given and missing arguments."
 },
 "C75": {
  "note": "Events are single arrays (not TFP joint distributions); the methods that return TFP's value unchanged are not restated."
 },
 "C76": {
  "note": "Iterated (improper Riemann) integrals, conditioning (masked / kept) coordinates outermost. The expectation statement takes the smooth iterated integrability of the base integrand as premise; for product densities (C76_*_mass) it is derived."
 },
 "C33": {
  "note": "Proved: KL is invariant under a common smooth bijection; the function returns the base KL, or raises, in every case (C33_kl_outcomes); whenever a KL is returned the bijectors compute the same function, provided programs with equal text captured equal constants (C33_kl_sound_partial). False without that proviso: the comparison is of the printed jaxpr, which omits captured constants (transformed.py, C33_kl_ignores_constants_refuted). 'NotImplementedError otherwise' is one-sided: equal functions with different programs are also refused."
 },
 "C77": {
  "note": "Univariate classes and Independent over them, Categorical, OneHotCategorical, Bernoulli, Greedy, EpsilonGreedy and Softmax, MixtureSameFamily (Categorical mixing; Normal, Laplace, Logistic, Uniform, Gamma or Beta components), MixtureOfTwo, CategoricalUniform and Dirichlet, exceptions included. Slicing of Multinomial, Clipped/Quantized and the multivariate normals is in C56, C44/C46 and C29. Gumbel.entropy is refuted (C77_gumbel_entropy_refuted): entropy() is computed from the unbroadcast scale; VonMises.variance/entropy have the same defect (C58_variance_shape_refuted) and are not in C77_von_mises. An unbatched distribution ignores its index (C29), so batch_shape must be non-empty.",
  "status": "partial"
 },
 "C78": {
  "note": "Every binary dtype; two roundings or a fused multiply-add; the needed premise (range does not overflow) is shown necessary (C78_needs_finite_range), and the upper end point is attained (C78_high_is_returned)."
 },
 "C80": {
  "note": "The sum is accumulated in the dtype of the array, in any order."
 },
 "C82": {
  "note": "Forward and inverse inside a bin; the knots and slopes are given floats (C88 covers the knots)."
 },
 "C84": {
  "note": "Logistic and Gumbel carry _partial: NaN when (v - loc)/scale overflows to -infinity (C84_logistic_gumbel_overflow_refuted)."
 },
 "C85": {
  "note": "log/exp are any functions meeting log_fn and exp_fn (Spec/Rounding.v), inhabited by correctly rounded functions (Proofs/FloatLib.v)."
 },
 "C86": {
  "note": "Bit-exact for every summation order."
 },
 "C87": {
  "note": "Beyond 2^(mant+1) prob is 0 everywhere (C87_large_values_refuted)."
 },
 "C88": {
  "note": "Sufficient margin proved; without it the constructor accepts ranges on which knots collapse (C88_min_bin_size_refuted)."
 },
 "C89": {
  "note": "JAX's promotion rules are modelled from their documentation (Base/JaxDtype.v).  Refuted: mean dtype for mixed parameters, integer log_prob of Deterministic.sample_and_log_prob; VonMises raises KeyError in bfloat16."
 },
 "C90": {
  "note": "Joint, Quantized and sigmoid/spline bijectors not in the dtype tree.  Refuted: weak Deterministic below Transformed, MultivariateNormalFromBijector with integer parameters, mixtures of float16 components."
 },
 "C91": {
  "note": "Refuted for signed overflow, unsigned tolerance and large integers in cdf; proved on the complement."
 },
 "C92": {
  "note": "Exact up to the capacity of the dtype; refuted beyond it (float counts saturate at 2^mant, integer indices wrap)."
 },
 "C93": {
  "note": "Accuracy proved for library functions with bounded relative error; log_prob of a saturated sample refuted (NaN, documented)."
 },
 "C94": {
  "note": "Error bounds with explicit constants for library functions of bounded relative error."
 },
 "C95": {
  "note": "Agreement up to evaluation rounding plus the drift of the sample proved; exact agreement refuted for large loc/scale."
 },
 "C96": {
  "note": "Exact selection, ends, accuracy and monotonicity proved; cdf <= 1 refuted (float32 counterexample; log_survival_function is NaN)."
 },
 "C97": {
  "note": "Accuracy, ordering and positivity proved; exploration for arbitrarily small epsilon refuted (conversion of the Python number underflows)."
 },
 "C98": {
  "note": "length=None. forward_backward is C99, viterbi C100."
 },
 "C99": {
  "note": "length=None. The hypotheses exclude underflow and clipping, where C61-C63 and C98 show that the result is wrong."
 },
 "C100": {
  "note": "Full: C100_optimal (exact optimality of the float score) and C100_probability (near-optimality in probability); C100_many_states_refuted shows the limit on the number of states in the statement is needed. The tables are inputs: log_softmax and log_prob in floats are C82 and C94.",
  "status": "proved"
 },
 "C101": {
  "note": "Full: C101_sum for the reduction, C101_independent_normal for the composition with Normal.log_prob."
 },
 "C102": {
  "note": "Full: C102_mixture (any dtype) with C102_float32 as a concrete instance; the component log_prob and log_softmax in floats are C94 and C82."
 },
 "C103": {
  "note": "Full within the stated range: C103_mvn_diag; C103_subnormal_scale_refuted shows that the condition on the inverse scales in the statement is needed.",
  "status": "proved"
 },
 "C104": {
  "note": "Full: C104_normal, C104_laplace, C104_uniform (against the integral definition), C104_self, C104_normal_nonnegative; the two refuted theorems show that the conditions in the statement are needed.",
  "status": "proved"
 },
 "C105": {
  "note": "Full: C105_entropy, C105_kl (with the non-negativity of the exact values), C105_kl_infinite, C105_entropy_nonnegative, C105_entropy_probs_nonnegative, C105_entropy_point, C105_kl_self, C105_float32; C105_kl_underflow_refuted shows why C105_kl_infinite asks for a positive float probability.",
  "status": "proved"
 },
 "C106": {
  "note": "Full: C106_log_prob, C106_entropy, C106_entropy_logits, C106_kl, C106_kl_infinite, C106_kl_self, C106_certain, C106_entropy_nonnegative, C106_entropy_symmetric, C106_float32; C106_small_probability_refuted shows that the error from probs is not relative and that C106_kl_infinite needs a positive float probability.",
  "status": "proved"
 },
 "C107": {
  "note": "Full: C107_normal, C107_laplace, C107_logistic, C107_gumbel (range, monotonicity, limits), C107_mirror, C107_normal_accuracy, C107_logistic_accuracy, C107_laplace_accuracy, C107_laplace_log_accuracy, C107_gumbel_accuracy, C107_correctly_rounded (the assumptions are met); C107_gumbel_upper_tail_refuted and C107_laplace_tails_refuted show that the tail errors are not relative. Accuracy of log_ndtr is not claimed.",
  "status": "proved"
 },
 "C108": {
  "note": "Full: C108_pass (any chain), C108_log_prob, C108_sample_and_log_prob, C108_affine_inverse, C108_affine_forward, C108_tanh_forward, C108_tanh_inverse, C108_sigmoid_forward (these bijectors are such layers); C108_float32, C108_layers_float32 and C108_squashed_float32 instantiate them. Sigmoid below -9, where the code returns exp(x), is not a layer here (the function jumps there, see C15).",
  "status": "proved"
 },
 "C109": {
  "note": "Full: C109_uniform_mean, C109_uniform_spread, C109_uniform_entropy, C109_entropy, C109_spread, C109_gumbel_centre; C109_uniform_mean_refuted (in every dtype the mean of some Uniform is +inf); C109_float32 instantiates them.",
  "status": "proved"
 },
 "C110": {
  "note": "Full: C110_threshold, C110_kl; C110_kl_self_refuted (float32: KL(p, p) < 0 for some p with scale 1); C110_float32 instantiates them.",
  "status": "proved"
 },
 "C111": {
  "note": "Full: C111_gumbel, C111_self, C111_equal_scales_nonnegative; C111_overflow_refuted (every dtype: NaN when the difference of the locations overflows, the divergence itself being positive); C111_float32 instantiates them.",
  "status": "proved"
 },
 "C112": {
  "note": "Full: C112_scaled, C112_mode, C112_probabilities; C112_greedy_limit_refuted (every dtype: all NaN at a small temperature, against the docstring's 'for temperature -> 0 the distribution becomes fully greedy'); C112_float32 instantiates them.",
  "status": "proved"
 }
}