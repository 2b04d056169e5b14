{"id": "C01", "title": "Chain composes right-to-left and inverts", "statement": "Chain([f1,...,fN]).forward(x) is f1(f2(...fN(x))); forward and the first component of forward_and_log_det agree, likewise for inverse; and when every link's inverse undoes its forward on the points it is given, Chain.inverse undoes Chain.forward and vice versa.", "quantifier": "every non-empty list of bijectors (any length), every input, including inputs on which a link raises", "why_tests_cant": "Chains are unbounded in length and the composition order error only shows with particular pairs of non-commuting bijectors.", "anchors": ["distrax/_src/bijectors/chain.py: Chain.forward, Chain.inverse, Chain.forward_and_log_det, Chain.inverse_and_log_det"]}
{"id": "C02", "title": "Chain log-det obeys the chain rule", "statement": "The log-det returned by Chain.forward_and_log_det is the sum of the links' log-dets at the intermediate points; if each link reports log|det J| of its own true (Frechet) Jacobian then the chain reports log|det J| of the composed map; the inverse log-det at forward(x) is minus the forward log-det at x.", "quantifier": "all chains of any length, all dimensions, all differentiable links, all inputs", "why_tests_cant": "Needs the multivariate chain rule for arbitrary composed maps; finite differences on samples cannot establish it.", "anchors": ["distrax/_src/bijectors/chain.py: Chain.forward_and_log_det, Chain.inverse_and_log_det"]}
{"id": "C03", "title": "Chain construction accepts exactly the composable lists", "statement": "Chain(bijectors) raises exactly when the list is empty or some neighbouring pair has outer.event_ndims_in != inner.event_ndims_out; otherwise its event_ndims_in is the last link's, its event_ndims_out the first link's, and is_constant_jacobian / is_constant_log_det hold iff they hold for all links (so the base constructor never rejects).", "quantifier": "all lists of bijectors with all combinations of event ndims and flags", "why_tests_cant": "The error position and flag combination ranges over unbounded lists.", "anchors": ["distrax/_src/bijectors/chain.py: Chain.__init__", "distrax/_src/bijectors/bijector.py: Bijector.__init__"]}
{"id": "C04", "title": "Bijector metadata is always coherent", "statement": "Every successfully constructed bijector has non-negative event ndims and never claims a constant Jacobian with a non-constant log-det; the constructor raises exactly on the incoherent arguments, event_ndims_out defaults to event_ndims_in and is_constant_log_det to is_constant_jacobian; any nesting of Chain, Inverse and Block over coherent bijectors stays coherent and none of the wrappers is rejected by the base constructor.", "quantifier": "all constructor arguments (integers, optional flags), all finite nestings of Chain/Inverse/Block", "why_tests_cant": "Nestings are unbounded; tests enumerate a few.", "anchors": ["distrax/_src/bijectors/bijector.py: Bijector.__init__", "distrax/_src/bijectors/inverse.py: Inverse.__init__", "distrax/_src/bijectors/block.py: Block.__init__", "distrax/_src/bijectors/chain.py: Chain.__init__"]}
{"id": "C05", "title": "Inverse swaps directions and is an involution", "statement": "Inverse(b).forward/inverse/forward_log_det_jacobian/inverse_log_det_jacobian/forward_and_log_det/inverse_and_log_det are b's opposite methods with event ndims swapped; Inverse(Inverse(b)) behaves as b on every method; Inverse(Chain([f1..fN])) behaves as Chain([Inverse(fN)..Inverse(f1)]).", "quantifier": "all bijectors, all chains, all inputs (including those raising)", "why_tests_cant": "Universally quantified observational equivalence.", "anchors": ["distrax/_src/bijectors/inverse.py: Inverse", "distrax/_src/bijectors/chain.py: Chain"]}
{"id": "C06", "title": "Block sums the log-det over exactly the promoted dimensions", "statement": "Block(b,k) returns b's outputs unchanged and b's log-det summed over its last k axes (shape loses its last k axes); it raises ValueError exactly when k<0 or the input has fewer than k+event_ndims dims; Block(Block(b,m),n) behaves as Block(b,m+n); Block(b,0) as b up to the rank check; all six methods agree with each other.", "quantifier": "all bijectors b, all k, all arrays of any rank and shape", "why_tests_cant": "Ranks, shapes and k are unbounded.", "anchors": ["distrax/_src/bijectors/block.py: Block", "distrax/_src/utils/math.py: sum_last", "distrax/_src/bijectors/bijector.py: Bijector._check_forward_input_shape"]}
{"id": "C07", "title": "sum_last sums the trailing axes", "statement": "sum_last(x,n) returns x when n<=0 and otherwise an array whose shape is x's shape without its last n axes and whose entry at idx is the sum of x over all completions of idx; sum_last(sum_last(x,m),n)=sum_last(x,m+n); summing over all axes gives the total.", "quantifier": "all arrays of all ranks and shapes, all n not exceeding the rank", "why_tests_cant": "Ranks and shapes are unbounded.", "anchors": ["distrax/_src/utils/math.py: sum_last"]}
{"id": "C08", "title": "Block reports log|det J| of the whole block", "statement": "For an elementwise differentiable scalar bijector with nonzero derivative, Block's log-det on an n-vector event equals log|det| of the true n x n Frechet Jacobian of the vector map; and for any inner bijector (events of any rank) that reports its own true log|det J| at every position, Block's log-det is log|det| of the Jacobian of the map applying them all side by side to the enlarged event, in every batch position.", "quantifier": "all n, all event and batch shapes, all inner bijectors satisfying their own log-det law, all inputs", "why_tests_cant": "Ranges over all dimensions and all inputs; determinants of arbitrary size.", "anchors": ["distrax/_src/bijectors/block.py: Block.forward_and_log_det", "distrax/_src/utils/math.py: sum_last"]}
{"id": "C09", "title": "MaskedCoupling leaves masked entries alone and inverts exactly", "statement": "MaskedCoupling.forward returns masked entries unchanged, evaluates the conditioner only on where(mask,x,0), transforms the others by the conditioned inner bijector, and inverse(forward(x))=x, forward(inverse(y))=y whenever the inner bijectors invert.", "quantifier": "all masks, all event sizes, all conditioners (arbitrary functions), all inner bijector families, all inputs", "why_tests_cant": "Arbitrary conditioner networks and masks; a leak of unmasked input into the conditioner is invisible for particular conditioners.", "anchors": ["distrax/_src/bijectors/masked_coupling.py: MaskedCoupling.forward_and_log_det, inverse_and_log_det"]}
{"id": "C10", "title": "MaskedCoupling log-det is log|det J|", "statement": "The reported log-det (sum over unmasked positions of the inner log-dets) equals log|det| of the true Frechet Jacobian of the coupling map, even though that Jacobian is not diagonal because the conditioner depends on the masked inputs; inverse log-det is its negative.", "quantifier": "all batch shapes, masked shapes and inner event shapes, all masks, all differentiable conditioners and inner bijectors, all inputs", "why_tests_cant": "Determinant identity over arbitrary dimensions and functions.", "anchors": ["distrax/_src/bijectors/masked_coupling.py: MaskedCoupling.forward_and_log_det"]}
{"id": "C11", "title": "Coupling constructors reject exactly the invalid configurations", "statement": "MaskedCoupling rejects exactly a non-boolean mask and an event_ndims (explicit, or defaulted to mask.ndim + inner_event_ndims) that is negative or smaller than inner_event_ndims; SplitCoupling rejects negative split_index, non-negative split_axis, event_ndims<0, axis outside the event and (via the inner bijector) event ndims larger than event_ndims or mismatching in/out; otherwise both accept.", "quantifier": "all integer arguments and inner bijector ndims", "why_tests_cant": "Decision rules over unbounded integers.", "anchors": ["distrax/_src/bijectors/masked_coupling.py: MaskedCoupling.__init__, _inner_bijector", "distrax/_src/bijectors/split_coupling.py: SplitCoupling.__init__, _inner_bijector"]}
{"id": "C12", "title": "SplitCoupling passes one part through, inverts exactly and reports log|det J|", "statement": "SplitCoupling.forward leaves the part selected by split_index/split_axis/swap unchanged, conditions only on it, keeps each part in its original position, and inverse(forward(x))=x and forward(inverse(y))=y when inner bijectors invert; the log-dets of the two directions are opposite; the reported log-det is log|det| of the Jacobian of the map on the whole event, for any batch shape, event rank and split axis.", "quantifier": "all split indices, both swap values, all sizes, all conditioners, all inner bijectors", "why_tests_cant": "Recombination order errors only show for asymmetric splits; conditioners are arbitrary.", "anchors": ["distrax/_src/bijectors/split_coupling.py: SplitCoupling._split, _recombine, forward_and_log_det, inverse_and_log_det"]}
{"id": "C13", "title": "ScalarAffine and Shift invert and report the true log-derivative", "statement": "ScalarAffine computes scale*x+shift with inverse and constant log-det log|scale| (whether given scale or log_scale; giving both raises); inverse o forward = id when scale != 0; the log-det is log of |derivative|; Shift is the scale=1 case with log-det 0.", "quantifier": "all real shifts, nonzero scales, log-scales and inputs", "why_tests_cant": "Universally quantified algebra and calculus.", "anchors": ["distrax/_src/bijectors/scalar_affine.py: ScalarAffine", "distrax/_src/bijectors/shift.py: Shift"]}
{"id": "C14", "title": "Tanh inverts and reports the true log-derivative", "statement": "Tanh.forward maps R bijectively onto (-1,1); atanh inverse undoes it; 2(log2 - x - softplus(-2x)) equals log of the derivative of tanh at x; the inverse log-det is minus the forward log-det at the inverse.", "quantifier": "all real inputs, all y in (-1,1)", "why_tests_cant": "Identity over all reals.", "anchors": ["distrax/_src/bijectors/tanh.py: Tanh"]}
{"id": "C15", "title": "Sigmoid inverts and reports the true log-derivative", "statement": "Sigmoid.forward maps R into (0,1) monotonically, inverse (log y - log1p(-y)) undoes it, and the log-det is the log of the derivative of forward.", "quantifier": "all real inputs", "why_tests_cant": "The numerically stabilised branch (x < -9) changes the function; only a proof over all x shows where the claim holds and fails.", "anchors": ["distrax/_src/bijectors/sigmoid.py: Sigmoid, _more_stable_sigmoid, _more_stable_softplus"]}
{"id": "C16", "title": "GumbelCDF inverts and reports the true log-derivative", "statement": "GumbelCDF.forward x = exp(-exp(-x)) maps R onto (0,1), inverse -log(-log y) undoes it in both directions, the log-det -x-exp(-x) is the log of the derivative and the inverse log-det is its negative at the inverse point.", "quantifier": "all reals, all y in (0,1)", "why_tests_cant": "Identity over all reals.", "anchors": ["distrax/_src/bijectors/gumbel_cdf.py: GumbelCDF"]}
{"id": "C17", "title": "Spline parameters are always normalised to valid knots", "statement": "For any unconstrained parameters, the bin widths and heights used by RationalQuadraticSpline are at least min_bin_size and sum to the range, so the knot positions start at range_min, end at range_max and are strictly increasing; every knot slope is at least min_knot_slope; the constructor rejects exactly the documented bad arguments and the boundary_slopes option determines the two end slopes (unconstrained, lower/upper/both identity = slope 1, circular = equal).", "quantifier": "all parameter vectors of any length, all numbers of bins, all valid ranges and minima", "why_tests_cant": "Any network output can be a parameter vector.", "anchors": ["distrax/_src/bijectors/rational_quadratic_spline.py: _normalize_bin_sizes, _normalize_knot_slopes, RationalQuadraticSpline.__init__"]}
{"id": "C18", "title": "The spline is a strictly increasing bijection of the line", "statement": "RationalQuadraticSpline.forward is strictly increasing on all of R, interpolates the knots, maps [range_min,range_max] onto itself, equals the linear tails outside, and is onto R.", "quantifier": "all parameter vectors, all numbers of bins, all reals x", "why_tests_cant": "Monotonicity over the continuum for every parameter vector.", "anchors": ["distrax/_src/bijectors/rational_quadratic_spline.py: _rational_quadratic_spline_fwd"]}
{"id": "C19", "title": "The spline inverse undoes the forward", "statement": "inverse(forward(x)) = x for every x and forward(inverse(y)) = y for every y: the bin search lands in the same bin and the quadratic root formula chosen (stable branch) is the unique root in [0,1].", "quantifier": "all parameter vectors, all reals", "why_tests_cant": "Root selection and bin-boundary cases over the continuum.", "anchors": ["distrax/_src/bijectors/rational_quadratic_spline.py: _rational_quadratic_spline_inv, _safe_quadratic_root"]}
{"id": "C20", "title": "The spline log-det is the log of the true derivative and it is C1", "statement": "The returned forward log-det is the log of the derivative of forward at every x (including knots and both range ends when slopes match the tails), and inverse log-det at forward(x) is minus it.", "quantifier": "all parameter vectors, all reals", "why_tests_cant": "Derivative across knots for every parameter vector.", "anchors": ["distrax/_src/bijectors/rational_quadratic_spline.py: _rational_quadratic_spline_fwd, _rational_quadratic_spline_inv"]}
{"id": "C21", "title": "Diagonal and triangular linear bijectors compute A x, A^-1 y and log|det A|", "statement": "DiagLinear and TriangularLinear (either is_lower) multiply by the stated matrix (with the other triangle ignored), solve it exactly when the diagonal has no zero, and report log|det A|, which is also log|det| of the Jacobian of the map.", "quantifier": "all n, all matrices, all vectors", "why_tests_cant": "Determinants and inverses for all sizes.", "anchors": ["distrax/_src/bijectors/diag_linear.py: DiagLinear", "distrax/_src/bijectors/triangular_linear.py: TriangularLinear", "distrax/_src/bijectors/linear.py: Linear"]}
{"id": "C22", "title": "LowerUpperTriangularAffine and UnconstrainedAffine compute A x + b, invert and report log|det A|", "statement": "LowerUpperTriangularAffine computes L U x + b with L unit-lower and U upper triangular parts of the input matrix, its inverse undoes it when diag has no zeros, its log-det is log|det(LU)|=sum log|diag|; UnconstrainedAffine computes A x + b, its inverse solves it for invertible A, log-det is log|det A|; constructors reject exactly the bad shapes.", "quantifier": "all n, all matrices, biases and inputs", "why_tests_cant": "All sizes and all matrices.", "anchors": ["distrax/_src/bijectors/lower_upper_triangular_affine.py: LowerUpperTriangularAffine", "distrax/_src/bijectors/unconstrained_affine.py: UnconstrainedAffine, check_affine_parameters"]}
{"id": "C23", "title": "DiagPlusLowRankLinear inverts and reports log|det| by the determinant lemma", "statement": "DiagPlusLowRankLinear multiplies by S+UV^T, its inverse computed through the small K x K system (Woodbury) is the exact inverse, and its log-det computed as log|det(I+V^T S^-1 U)|+sum log|diag| equals log|det(S+UV^T)|.", "quantifier": "all n, all ranks k, all matrices with nonzero diag and nonsingular capacitance", "why_tests_cant": "Matrix identities for all sizes.", "anchors": ["distrax/_src/bijectors/diag_plus_low_rank_linear.py: DiagPlusLowRankLinear, _IdentityPlusLowRankLinear, _get_small_matrix"]}
{"id": "C24", "title": "Lambda construction resolves missing functions or raises", "statement": "Lambda raises exactly when neither forward nor inverse is given, when event_ndims_in is missing while some log-det function was given incompletely, as documented; otherwise all four functions are defined, given ones are used unchanged, missing inverse comes from automatic inversion and missing log-dets from differentiation.", "quantifier": "all subsets of optional arguments", "why_tests_cant": "Decision table over all optional-argument combinations with the derived state.", "anchors": ["distrax/_src/bijectors/lambda_bijector.py: Lambda.__init__"]}
{"id": "C25", "title": "Automatic inversion returns a true inverse", "statement": "If distrax's inv(f) succeeds on a function made of registered primitives with a single dependency path, then inv(f)(f(x)) = x on the domain where each step is injective, and it does succeed on every chain of registered steps; unsupported primitives and two-variable equations, several results and an unused argument raise instead of returning a wrong value.", "quantifier": "all straight-line programs of registered primitives of any length, all inputs", "why_tests_cant": "Programs are unbounded; the violation (c ** x, even powers, cosh at negative x) appears only for specific primitives/argument positions.", "anchors": ["distrax/_src/utils/transformations.py: inv, _inverse_registry, _identify_variable_in_eqn, _interpret_inverse"]}
{"id": "C26", "title": "is_constant_jacobian never claims a constant Jacobian wrongly", "statement": "If is_constant_jacobian(f) returns True then f is affine, i.e. has the same Jacobian everywhere; likewise is_constant_log_det is True only if the log-det does not depend on the input.", "quantifier": "all straight-line programs (with nested calls), all inputs", "why_tests_cant": "Soundness of a static analysis over all programs.", "anchors": ["distrax/_src/utils/transformations.py: is_constant_jacobian, is_constant_log_det, _dependent_variables, _get_outer_name"]}
{"id": "C27", "title": "same_as implies identical behaviour", "statement": "If b1.same_as(b2) returns True then forward, inverse and both log-dets of b1 and b2 agree on every input; Chain, Inverse, Block, Shift, ScalarAffine etc. compare the objects that determine behaviour.", "quantifier": "all pairs of (nested) bijectors", "why_tests_cant": "Nestings are unbounded and behaviour is over all inputs.", "anchors": ["distrax/_src/bijectors/bijector.py: Bijector.same_as", "distrax/_src/bijectors/chain.py: Chain.same_as", "distrax/_src/bijectors/block.py: Block.same_as", "distrax/_src/bijectors/inverse.py: Inverse.same_as", "distrax/_src/bijectors/scalar_affine.py: ScalarAffine.same_as", "distrax/_src/bijectors/lambda_bijector.py: Lambda.same_as"]}
{"id": "C28", "title": "sample has shape sample_shape + batch_shape + event_shape and is a reshape of n iid draws", "statement": "dist.sample(seed, sample_shape) and dist.sample_and_log_prob return arrays whose leading axes are sample_shape (an int n meaning (n,)), with the element at multi-index idx equal to draw number ravel(idx) of the n=prod(sample_shape) draws; log_prob gets the corresponding reshaped values.", "quantifier": "all sample shapes (any rank, incl. zero sizes and ints), all batch/event shapes", "why_tests_cant": "Shapes are unbounded.", "anchors": ["distrax/_src/distributions/distribution.py: Distribution.sample, sample_and_log_prob, convert_seed_and_sample_shape"]}
{"id": "C29", "title": "Slicing a distribution slices its batch and keeps whole events", "statement": "to_batch_shape_index(batch_shape, idx) yields an index that addresses only batch dimensions: an Ellipsis-free index is padded so that event dims are untouched, an Ellipsis expands to exactly the missing batch dims, and an index with too many entries raises. Indexing the parameters by it gives an array of NumPy's shape for that index followed by the event shape, holding at each position exactly the event NumPy's indexing (integers, slices of any start, stop and non-zero step, tuples of integer arrays broadcast together, boolean masks, and tuples mixing all of these, whose array axes stay in place if the arrays are adjacent and come first if not) selects; indexing a multivariate normal gives the multivariate normal whose mean and scale at every batch position are those of the position selected.", "quantifier": "all batch shapes, index tuples, slices and steps, and all multivariate normals", "why_tests_cant": "Index tuples and ranks are unbounded.", "anchors": ["distrax/_src/distributions/distribution.py: to_batch_shape_index", "distrax/_src/distributions/mvn_tri.py, mvn_diag.py, mvn_full_covariance.py, mvn_diag_plus_low_rank.py: __getitem__"]}
{"id": "C30", "title": "sample_and_log_prob is consistent with log_prob", "statement": "For every distribution that overrides _sample_n_and_log_prob (Normal, Laplace, Logistic, Gumbel, Uniform, Deterministic, LogStddevNormal, Transformed, Independent, Joint, Quantized), the returned log-probabilities equal log_prob of the returned samples.", "quantifier": "all parameters, all random draws", "why_tests_cant": "Must hold for every draw, including boundary draws.", "anchors": ["distrax/_src/distributions/distribution.py: Distribution._sample_n_and_log_prob", "distrax/_src/distributions/normal.py: Normal._sample_n_and_log_prob", "distrax/_src/distributions/laplace.py: Laplace._sample_n_and_log_prob", "distrax/_src/distributions/logistic.py: Logistic._sample_n_and_log_prob", "distrax/_src/distributions/gumbel.py: Gumbel._sample_n_and_log_prob", "distrax/_src/distributions/uniform.py: Uniform._sample_n_and_log_prob", "distrax/_src/distributions/transformed.py: Transformed._sample_n_and_log_prob", "distrax/_src/distributions/quantized.py: Quantized._sample_n_and_log_prob"]}
{"id": "C31", "title": "Transformed.log_prob is the pushed-forward density", "statement": "exp(Transformed.log_prob(y)) = exp(base.log_prob(f^-1(y)))*|det J f^-1(y)|, and in one dimension the mass it assigns to [f(a),f(b)] equals the base mass of [a,b] for every differentiable strictly monotone bijector; sample is forward of a base sample.", "quantifier": "all base densities, all smooth bijectors, all intervals", "why_tests_cant": "Integral identity over all intervals and functions.", "anchors": ["distrax/_src/distributions/transformed.py: Transformed.log_prob, _sample_n, _sample_n_and_log_prob"]}
{"id": "C32", "title": "Transformed mean, mode, entropy are exact or refused", "statement": "Transformed.mean/mode are forward(base mean/mode) exactly when the bijector declares a constant Jacobian / constant log-det and otherwise raise NotImplementedError; under the declared property forward(mean) is the mean of the pushed-forward finite distribution and forward(mode) maximises the transformed density; entropy is base entropy plus the constant log-det.", "quantifier": "all bijectors with the declared property, all finite-support base distributions / all base densities", "why_tests_cant": "Quantifies over all distributions and maps.", "anchors": ["distrax/_src/distributions/transformed.py: Transformed.mean, mode, entropy"]}
{"id": "C33", "title": "KL of two Transformed distributions equals the base KL only for equal bijectors", "statement": "kl_divergence of Transformed distributions returns the KL of the bases whenever both bijectors compute the same function and raises NotImplementedError otherwise; KL is invariant under a common bijection.", "quantifier": "all pairs of bijectors and base distributions", "why_tests_cant": "The equality test is a syntactic comparison of traced programs; only a proof/counterexample over programs decides soundness.", "anchors": ["distrax/_src/distributions/transformed.py: _kl_divergence_transformed_transformed"]}
{"id": "C34", "title": "Categorical probabilities are a distribution and logits/probs agree", "statement": "For any finite logits (or non-negative, not all zero probs) the distribution's probs are >=0 and sum to 1, log_prob(k)=log(prob(k)) including -inf for zero-probability categories, values outside 0..K-1 get probability 0 / log_prob -inf, and adding a constant to the logits (scaling the probs) changes nothing.", "quantifier": "all K >= 1, all logits/probs vectors, all integer values", "why_tests_cant": "All vectors of all lengths.", "anchors": ["distrax/_src/distributions/categorical.py: Categorical.__init__, log_prob, prob, probs, logits", "distrax/_src/utils/math.py: normalize"]}
{"id": "C35", "title": "Categorical cdf is the cumulative probability", "statement": "cdf(k) = sum of prob(j) for j<=k, 0 below 0 and 1 from K-1 on, monotone; log_cdf is its log.", "quantifier": "all K, all probability vectors, all integers k", "why_tests_cant": "All vectors of all lengths, all integers.", "anchors": ["distrax/_src/distributions/categorical.py: Categorical.cdf"]}
{"id": "C36", "title": "Categorical entropy, cross-entropy and KL obey information inequalities", "statement": "entropy = -sum p log p (0 log 0 = 0) lies in [0, log K]; KL(p,q) >= 0, is 0 iff p = q, is +inf exactly when some p_k>0 has q_k=0, mismatched numbers of categories raise; Bernoulli, OneHotCategorical and Categorical agree; cross_entropy = entropy + KL.", "quantifier": "all K, all probability vectors including zeros", "why_tests_cant": "Gibbs inequality over all vectors; zero/infinity corner cases.", "anchors": ["distrax/_src/distributions/categorical.py: Categorical.entropy, _kl_divergence_categorical_categorical", "distrax/_src/distributions/bernoulli.py: _kl_divergence_bernoulli_bernoulli", "distrax/_src/distributions/distribution.py: Distribution.cross_entropy", "distrax/_src/utils/math.py: multiply_no_nan, mul_exp"]}
{"id": "C37", "title": "Categorical log_prob, prob and cdf agree on every value they accept", "statement": "For every value in the accepted domain, including floating-point ones, log_prob(value)=log(prob(value)) and cdf(value)=sum of prob(j), j<=value.", "quantifier": "all real values, all probability vectors", "why_tests_cant": "Tests use integer values only.", "anchors": ["distrax/_src/distributions/categorical.py: Categorical.log_prob, prob, cdf"]}
{"id": "C38", "title": "Bernoulli is coherent", "statement": "probs lie in [0,1], prob(1)+prob(0)=1, log_prob(v)=log prob(v) for v in {0,1}, cdf is the step function on the whole line, samples lie in {0,1}, mean=p, variance=p(1-p), mode = 1 iff p > 1/2, entropy is -p log p - (1-p) log(1-p), from logits (including +-inf) or probs alike; KL >= 0, 0 iff equal, +inf exactly when an outcome possible under the first is impossible under the second.", "quantifier": "all logits (finite or infinite) and all probs in [0,1]; prob/log_prob at the two values of the support, cdf at every real", "why_tests_cant": "All reals incl. boundary p=0,1.", "anchors": ["distrax/_src/distributions/bernoulli.py: Bernoulli"]}
{"id": "C39", "title": "OneHotCategorical mirrors Categorical", "statement": "log_prob/prob of the one-hot vector of k equals Categorical's of k, samples are one-hot vectors, mode is a one-hot vector of a most probable category, entropy equals Categorical's.", "quantifier": "all K, all parameters", "why_tests_cant": "All vectors of all lengths.", "anchors": ["distrax/_src/distributions/one_hot_categorical.py: OneHotCategorical"]}
{"id": "C40", "title": "Greedy, EpsilonGreedy and Softmax policies are correct distributions", "statement": "Greedy spreads probability 1 uniformly over exactly the argmax set; EpsilonGreedy gives every action at least epsilon/K, its probs are (1-eps)*greedy + eps/K and sum to 1; Softmax is invariant to constant shifts, strictly monotone in preferences and equals Categorical(preferences/temperature).", "quantifier": "all K>=1, all preference vectors (with ties), all eps in [0,1], all temperatures>0", "why_tests_cant": "Tie patterns and vectors are unbounded.", "anchors": ["distrax/_src/distributions/greedy.py: Greedy, _argmax_with_random_tie_breaking", "distrax/_src/distributions/epsilon_greedy.py: EpsilonGreedy, _mix_with_uniform", "distrax/_src/distributions/softmax.py: Softmax"]}
{"id": "C41", "title": "MixtureSameFamily is the convex combination of its components", "statement": "exp(log_prob(x)) = sum_k w_k exp(component_k.log_prob(x)); mean = sum w_k mean_k; variance equals the second moment minus squared mean of the mixture (law of total variance) and is >= 0; a sample is exactly the component sample selected by the drawn index.", "quantifier": "all K, all weights, all component densities", "why_tests_cant": "All K and all components.", "anchors": ["distrax/_src/distributions/mixture_same_family.py: MixtureSameFamily.log_prob, mean, variance, _sample_n"]}
{"id": "C42", "title": "MixtureOfTwo is the two-component convex combination", "statement": "exp(log_prob(x)) = p*exp(lp_a(x)) + (1-p)*exp(lp_b(x)), samples come from a or b according to the uniform draw, so that a is chosen exactly when the draw is below prob_a.", "quantifier": "all p, components and draws", "why_tests_cant": "Universally quantified.", "anchors": ["distrax/_src/distributions/mixture_of_two.py: MixtureOfTwo"]}
{"id": "C43", "title": "CategoricalUniform is a piecewise-uniform distribution", "statement": "Its density is p_k/C on bin k and 0 outside [0,1), integrates to 1; inverse-CDF sampling maps a uniform draw with cumulative mass in bin k to a point of bin k, and the sampled point's cdf is the draw; mean/variance/entropy are those of that density.", "quantifier": "all numbers of bins, all probability vectors, all uniform draws", "why_tests_cant": "All vectors and all draws, including boundary draws and zero-probability bins.", "anchors": ["distrax/_src/distributions/categorical_uniform.py: CategoricalUniform"]}
{"id": "C44", "title": "Clipped puts the excess mass on the boundary", "statement": "Clipped.sample always lies in [minimum,maximum]; log_prob is -inf outside, the base log_prob strictly inside, and at the boundaries the log of the total base probability of the clipped-off region, so that total mass is 1.", "quantifier": "all base distributions, all min<max, all draws/values", "why_tests_cant": "Must hold for every base distribution, including those with atoms.", "anchors": ["distrax/_src/distributions/clipped.py: Clipped._sample_n, log_prob, _sample_n_and_log_prob"]}
{"id": "C45", "title": "Quantized is the ceiling-quantisation of its base", "statement": "prob(k)=F(k)-F(k-1) truncated to [ceil low, floor high] (with boundary mass added at the ends), probabilities of the integers in range sum to 1, non-integers and out-of-range values get 0/-inf, log_prob=log prob, cdf is the base cdf at floor(value) inside the range and 0/1 outside, samples are integers in range, sample_and_log_prob agrees with log_prob.", "quantifier": "all base cdfs, all bounds (or none), all reals", "why_tests_cant": "Telescoping sum over unbounded ranges, all values.", "anchors": ["distrax/_src/distributions/quantized.py: Quantized"]}
{"id": "C46", "title": "Quantized respects eps when slicing and sampling", "statement": "A Quantized distribution built with eps behaves the same after slicing (dist[idx]) and its sample_and_log_prob matches its log_prob.", "quantifier": "all eps, all indices, all draws", "why_tests_cant": "Only visible where the mass is below the round-off eps.", "anchors": ["distrax/_src/distributions/quantized.py: Quantized.__getitem__, _sample_n_and_log_prob, log_prob"]}
{"id": "C47", "title": "Uniform is coherent", "statement": "pdf is 1/(b-a) on the support and 0 outside, cdf is its integral (0 below, 1 above), log_cdf=log cdf, mean/variance/median/entropy exact, samples lie in [a,b), KL is log ratio when the support is contained and +inf otherwise (exactly).", "quantifier": "all a<b, all reals, all draws", "why_tests_cant": "All parameters and reals.", "anchors": ["distrax/_src/distributions/uniform.py: Uniform, _kl_divergence_uniform_uniform"]}
{"id": "C48", "title": "Normal's closed forms are consistent", "statement": "pdf is the derivative of cdf (given the standard normal cdf), log_survival(x)=log cdf reflected, mean=mode=median, variance=stddev^2, KL(p,q)>=0 with equality iff equal parameters, sample = loc+scale*eps with matching log_prob, entropy formula.", "quantifier": "all locs, positive scales, reals", "why_tests_cant": "All parameters and reals.", "anchors": ["distrax/_src/distributions/normal.py: Normal, _kl_divergence_normal_normal"]}
{"id": "C49", "title": "Laplace's closed forms are consistent", "statement": "cdf is monotone from 0 to 1 with derivative pdf away from loc, log_cdf = log cdf, log_survival = log(1-cdf), sampling by inverse cdf of the uniform draw, KL(p,q)>=0 and 0 iff equal.", "quantifier": "all parameters, reals and draws", "why_tests_cant": "All parameters and reals, both branches.", "anchors": ["distrax/_src/distributions/laplace.py: Laplace, _kl_divergence_laplace_laplace"]}
{"id": "C50", "title": "Logistic's closed forms are consistent", "statement": "cdf is the logistic function with derivative pdf, survival = 1-cdf, log versions are their logs, sampling is the inverse cdf, mean=mode=median=loc, and mean(), variance(), entropy() are the corresponding integrals of the density (variance = pi^2 scale^2/3).", "quantifier": "all parameters, reals and draws", "why_tests_cant": "All parameters and reals.", "anchors": ["distrax/_src/distributions/logistic.py: Logistic"]}
{"id": "C51", "title": "Gumbel's closed forms are consistent", "statement": "cdf exp(-exp(-z)) has derivative pdf, log_cdf=log cdf, log_survival= log(1-cdf), mode=loc maximises the density, median has cdf 1/2; mean(), variance(), entropy() and kl_divergence() are the corresponding integrals of the densities (mean uses the Euler-Mascheroni constant, variance = pi^2 scale^2/6), KL >= 0 with equality exactly for equal parameters; sampling is loc + scale * a standard Gumbel draw.", "quantifier": "all parameters, reals and draws", "why_tests_cant": "All parameters and reals.", "anchors": ["distrax/_src/distributions/gumbel.py: Gumbel, _kl_divergence_gumbel_gumbel"]}
{"id": "C52", "title": "Deterministic is a point mass with tolerance", "statement": "prob(x) is 1 iff |x-loc| <= atol+rtol*|loc| else 0, log_prob is its log, cdf steps at loc - slack, samples equal loc, entropy/variance 0; KL(p,q) is -log q.prob(p.loc): 0 or +inf.", "quantifier": "all real locs, nonnegative tolerances and values (an infinite loc is a documented counterexample)", "why_tests_cant": "All reals incl. boundary.", "anchors": ["distrax/_src/distributions/deterministic.py: Deterministic, _kl_divergence_deterministic_deterministic"]}
{"id": "C53", "title": "LogStddevNormal is a Normal with scale exp(log_scale) below max_scale", "statement": "scale=exp(log_scale) (softly thresholded strictly below max_scale when given, monotone in the input), KL equals the Normal KL, and slicing preserves the distribution.", "quantifier": "all parameters and indices", "why_tests_cant": "Slicing law over all parameters; the violation needs max_scale together with slicing.", "anchors": ["distrax/_src/distributions/log_stddev_normal.py: LogStddevNormal"]}
{"id": "C54", "title": "Independent reinterprets batch dims as event dims", "statement": "Independent(d,k) moves the last k batch dims into the event, its log_prob/entropy are sums over those dims, KL of two Independents is the summed KL, defaults to all but the first batch dim, raises exactly when k<0 or k > batch rank; sampling and moments are unchanged.", "quantifier": "all batch shapes, k, underlying distributions", "why_tests_cant": "Ranks unbounded.", "anchors": ["distrax/_src/distributions/independent.py: Independent"]}
{"id": "C55", "title": "Joint factorises over its tree and has one common batch shape", "statement": "Joint.log_prob is the sum of the leaves' log_probs, entropy and KL are sums, sample gives leaf samples with independent keys; construction is rejected when leaves' batch shapes differ.", "quantifier": "all trees of distributions of any shape and size", "why_tests_cant": "Trees are unbounded; the batch-shape check has an order-dependent hole.", "anchors": ["distrax/_src/distributions/joint.py: Joint"]}
{"id": "C56", "title": "Multinomial counts and moments", "statement": "samples are non-negative integer vectors summing to total_count, mean n p, covariance n(diag p - p p^T) (rows sum to 0, diagonal = variance), log_prob is the log of n!/prod k_i! prod p_i^k_i and these sum to 1 over all count vectors; zero-probability categories are never drawn.", "quantifier": "all n, all K, all probability vectors, all draws", "why_tests_cant": "All sizes; multinomial theorem.", "anchors": ["distrax/_src/distributions/multinomial.py: Multinomial"]}
{"id": "C57", "title": "Dirichlet, Beta and Gamma moments and KL are consistent", "statement": "Dirichlet mean sums to 1, covariance is symmetric with rows summing to 0 and diagonal equal to variance; Beta equals the two-component Dirichlet in mean/variance/log_prob/entropy/KL; Gamma variance=stddev^2, mean; modes maximise the density; KL(p,p)=0.", "quantifier": "all positive parameters, all dimensions (with lgamma/digamma as oracles)", "why_tests_cant": "All parameters and dimensions.", "anchors": ["distrax/_src/distributions/dirichlet.py: Dirichlet", "distrax/_src/distributions/beta.py: Beta", "distrax/_src/distributions/gamma.py: Gamma", "distrax/_src/utils/math.py: log_beta, log_beta_multivariate"]}
{"id": "C58", "title": "VonMises treats angles modulo 2 pi", "statement": "log_prob is the log of a 2pi-periodic density with maximum at loc that integrates to one over a turn; samples and loc are reported as angles in [-pi, pi) congruent to the raw angle; cdf and survival_function lie in [0, 1], are complementary, are 0 / 1 at the support's ends and approximate the integral of the density (to 2e-7 below concentration 10.5); mean, variance, entropy, KL and the sampler's law are those of the density.", "quantifier": "all locs, concentrations, angles", "why_tests_cant": "All reals incl. half-turn boundary.", "anchors": ["distrax/_src/distributions/von_mises.py: VonMises, _convert_angle_to_standard"]}
{"id": "C59", "title": "Multivariate normal covariance equals A A^T in every parametrisation", "statement": "covariance = A A^T for the scale matrix A, variance is its diagonal, mean = loc; MultivariateNormalTri(is_lower either), Diag, DiagPlusLowRank (defaults u=0/v=u) and FullCovariance describe that Gaussian; log_prob is the Gaussian log-density with that covariance.", "quantifier": "all dimensions, all parameters", "why_tests_cant": "All sizes.", "anchors": ["distrax/_src/distributions/mvn_from_bijector.py: MultivariateNormalFromBijector", "distrax/_src/distributions/mvn_tri.py", "distrax/_src/distributions/mvn_diag.py", "distrax/_src/distributions/mvn_diag_plus_low_rank.py", "distrax/_src/distributions/mvn_full_covariance.py"]}
{"id": "C60", "title": "Multivariate normal KL matches the closed form on every branch", "statement": "KL between MVNs equals 1/2(tr(S2^-1 S1)+(m2-m1)^T S2^-1 (m2-m1) - n + log det S2/det S1), the diagonal shortcut agrees with the general branch, KL(p,p)=0 and KL>=0.", "quantifier": "all dimensions, all invertible scales", "why_tests_cant": "All sizes; branch agreement.", "anchors": ["distrax/_src/distributions/mvn_from_bijector.py: _kl_divergence_mvn_mvn, _compute_norm..., _has_diagonal_scale"]}
{"id": "C61", "title": "HMM forward gives the exact likelihood", "statement": "HMM.forward's log-likelihood is the log of the sum over all hidden paths of initial*transition*observation probabilities, and its alphas are the normalised filtering distributions.", "quantifier": "all numbers of states, all sequence lengths, all observation sequences and parameters", "why_tests_cant": "Exponential number of paths, unbounded lengths.", "anchors": ["distrax/_src/utils/hmm.py: HMM.forward, _normalize"]}
{"id": "C62", "title": "HMM forward/backward give posterior marginals", "statement": "forward_backward's gammas at time t are the posterior state probabilities given all observations: proportional to the sum over paths through that state, summing to 1; the alphas it returns are the filtering distributions and the betas the future likelihoods up to a factor per time step.", "quantifier": "all sizes, lengths and parameters with positive likelihood", "why_tests_cant": "Exponential sums.", "anchors": ["distrax/_src/utils/hmm.py: HMM.backward, forward_backward"]}
{"id": "C63", "title": "HMM length argument restricts to the prefix", "statement": "With length=L, forward returns the likelihood of the first L observations and forward_backward returns posteriors of the prefix, ignoring later observations.", "quantifier": "all lengths L <= sequence length, all padding contents", "why_tests_cant": "All paddings and lengths.", "anchors": ["distrax/_src/utils/hmm.py: HMM.forward, backward, forward_backward"]}
{"id": "C64", "title": "Viterbi returns a most probable path", "statement": "HMM.viterbi returns a state path whose joint log-probability with the observations is maximal among all paths of that length.", "quantifier": "all sizes, lengths, parameters (including zero probabilities), all observation sequences", "why_tests_cant": "Exponentially many competitors.", "anchors": ["distrax/_src/utils/hmm.py: HMM.viterbi"]}
{"id": "C65", "title": "NaN-safe products implement the measure-theoretic convention", "statement": "multiply_no_nan(x,y) is 0 whenever y = 0 even for x = +-inf/nan and x*y otherwise; mul_exp(x,logp) is x*exp(logp) with 0 when logp=-inf; power_no_nan(x,y) is 1 when y=0; their JVP rules are the true derivatives on finite inputs; log_expbig_minus_expsmall(a,b)=log(e^a-e^b).", "quantifier": "all extended reals incl. inf and nan", "why_tests_cant": "All IEEE special-value combinations and all reals.", "anchors": ["distrax/_src/utils/math.py: multiply_no_nan, mul_exp, power_no_nan, log_expbig_minus_expsmall"]}
{"id": "C66", "title": "Importance ratios and Monte Carlo estimators are unbiased", "statement": "importance_sampling_ratios returns target probability / sampling probability, whose weighted mean is an unbiased estimate of an expectation under the target; mc_estimate_kl (with or without a proposal) and mc_estimate_kl_with_reparameterized have as expectation, over independent draws, the exact KL divergence, and the reparameterized one refuses a distribution without reparameterized samples; estimate_kl_best_effort uses the exact formula whenever one is registered and the estimate otherwise; mc_estimate_mode returns a drawn sample of maximal log-probability.", "quantifier": "all sample sizes, weights, finite-support distributions and distributions with a density", "why_tests_cant": "Expectation over all samples.", "anchors": ["distrax/_src/utils/importance_sampling.py: importance_sampling_ratios", "distrax/_src/utils/monte_carlo.py: mc_estimate_kl, mc_estimate_kl_with_reparameterized, mc_estimate_mode, estimate_kl_best_effort"]}
{"id": "C67", "title": "Conversions are idempotent and reject foreign objects", "statement": "as_bijector returns bijectors unchanged, wraps TFP bijectors and callables, and raises TypeError otherwise; as_distribution likewise; to_tfp of a TFP object is itself and round-trips preserve behaviour; sum_last/ndims bookkeeping of tfp-compatible bijectors is consistent.", "quantifier": "all objects", "why_tests_cant": "Decision rules on all object kinds.", "anchors": ["distrax/_src/utils/conversion.py: as_bijector, as_distribution, to_tfp, as_float_array", "distrax/_src/bijectors/tfp_compatible_bijector.py"]}
{"id": "C68", "title": "Jittable pytrees flatten and unflatten losslessly", "statement": "Flattening any Jittable object and unflattening restores an object with the same attributes, array leaves in the children and the rest in the static part, for every substitution of the leaves.", "quantifier": "all attribute dictionaries", "why_tests_cant": "All objects and all leaf substitutions.", "anchors": ["distrax/_src/utils/jittable.py: Jittable.tree_flatten, tree_unflatten"]}
{"id": "C69", "title": "Straight-through estimators do not change values", "statement": "straight_through_wrapper returns a distribution whose samples have exactly the same value as the base samples, and gradient that of the probs.", "quantifier": "all samples and probability vectors", "why_tests_cant": "All values.", "anchors": ["distrax/_src/distributions/straight_through.py: straight_through_wrapper"]}
{"id": "C70", "title": "Survival, log-cdf and cross-entropy defaults are consistent", "statement": "Default survival_function = 1 - cdf, log_survival_function = log(1-exp(log_cdf)), prob=exp(log_prob), stddev = sqrt(variance), cross_entropy = entropy + KL for every distribution.", "quantifier": "all distributions and values", "why_tests_cant": "All distributions.", "anchors": ["distrax/_src/distributions/distribution.py: Distribution"]}
{"id": "C71", "title": "Statistics of batched univariate distributions are elementwise", "statement": "For Normal, Laplace, Logistic, Gumbel and Uniform with parameters of any broadcastable shapes, mean, variance, stddev, mode, median and entropy have shape batch_shape and hold at each batch index the statistic of the scalar distribution with the parameters at that index; log_prob and cdf have the shape of the value broadcast against batch_shape, elementwise.", "quantifier": "all parameter and value arrays of broadcastable shapes", "why_tests_cant": "All combinations of shapes; the violation needs a scale of smaller shape than loc.", "anchors": ["distrax/_src/distributions/normal.py: Normal", "distrax/_src/distributions/laplace.py: Laplace", "distrax/_src/distributions/logistic.py: Logistic", "distrax/_src/distributions/gumbel.py: Gumbel.entropy", "distrax/_src/distributions/uniform.py: Uniform"]}
{"id": "C72", "title": "HMM.sample draws from the joint law of states and observations", "statement": "HMM.sample returns seq_len states and observations; with independent draws from the component distributions the probability of returning a given state path and observation sequence is initial * transitions * emissions; only transitions of positive probability are ever taken and observation t is the draw of the component of state t.", "quantifier": "all numbers of states, all sequence lengths, all parameters, all draws", "why_tests_cant": "Exponentially many paths; statement about the whole law.", "anchors": ["distrax/_src/utils/hmm.py: HMM.sample"]}
{"id": "C73", "title": "A distribution wrapped for TFP behaves as the wrapped distribution", "statement": "tfp_compatible_distribution(d) draws the same events from the same seed as d for every sample shape, has d's log_prob, event and batch shapes (as TensorShape) and local measure; every method inherited from d's class computes on the wrapper what it computes on d; indexing the wrapper wraps the indexed distribution under the same name; wrapping twice changes nothing; the name is the requested one or a default; the wrapper flattens to no leaves and is rebuilt unchanged.", "quantifier": "all distributions whose _sample_n returns n draws, all seeds, sample shapes, values, names, and all code of inherited methods", "why_tests_cant": "The wrapper subclasses the class of whatever distribution it is given at run time; tests try a few classes and a few methods.", "anchors": ["distrax/_src/distributions/tfp_compatible_distribution.py: tfp_compatible_distribution", "distrax/_src/distributions/distribution.py: sample, sample_and_log_prob, survival_function, log_survival_function, convert_seed_and_sample_shape"]}
{"id": "C74", "title": "Multivariate normal constructors accept exactly the arguments that fit", "statement": "MultivariateNormalTri, -Diag, -FullCovariance, -DiagPlusLowRank and -FromBijector build a distribution exactly when at least one of the alternatives is given, every given array has enough dimensions, all agree on the number of dimensions (square matrices; equal, non-zero numbers of columns of the low-rank factors; scale_v_matrix only with scale_u_matrix) and the batch shapes broadcast; the distribution then has that broadcast batch shape and that event size. All other arguments raise ValueError (AssertionError when MultivariateNormalDiag gets neither argument).", "quantifier": "all combinations of given and missing arguments of all ranks and shapes", "why_tests_cant": "Ranks, sizes and batch shapes are unbounded and the combinations of missing arguments, defaults and broadcasting multiply.", "anchors": ["distrax/_src/distributions/mvn_tri.py: _check_parameters, MultivariateNormalTri.__init__", "distrax/_src/distributions/mvn_diag.py: _check_parameters, MultivariateNormalDiag.__init__", "distrax/_src/distributions/mvn_full_covariance.py: _check_parameters, MultivariateNormalFullCovariance.__init__", "distrax/_src/distributions/mvn_diag_plus_low_rank.py: _check_parameters, MultivariateNormalDiagPlusLowRank.__init__", "distrax/_src/distributions/mvn_from_bijector.py: MultivariateNormalFromBijector.__init__"]}
{"id": "C75", "title": "A TFP distribution used through distrax keeps its draws and densities", "statement": "A distribution obtained from a TFP distribution samples, for every seed and sample shape, an array of shape sample_shape + batch_shape + event_shape holding the draws TFP makes for that seed; sample_and_log_prob returns that same sample with TFP's log-probability of each draw; the survival functions complement TFP's cdf for univariate distributions and are refused for others; wrapping it back for TFP returns TFP's own draws, log-probabilities and shapes.", "quantifier": "all TFP distributions with array events that honour TFP's documented shapes, all seeds, sample shapes and values", "why_tests_cant": "Any TFP distribution may be passed, with any batch, event and sample shapes.", "anchors": ["distrax/_src/distributions/distribution_from_tfp.py: distribution_from_tfp", "distrax/_src/distributions/distribution.py: sample, sample_and_log_prob, survival_function, log_survival_function"]}
{"id": "C76", "title": "A flow's log_prob is the density of its samples", "statement": "For a Transformed distribution whose bijector is a MaskedCoupling or a SplitCoupling over scalar bijectors, or a Block of a scalar bijector, exp(log_prob) integrates to one over the image of the support, the conditioning coordinates keep their law, and for every test function phi the integral of phi * exp(log_prob) equals the expectation of phi(forward(X)) under the base - i.e. log_prob is the log-density of what sample returns.", "quantifier": "all event shapes, masks, split points, split axes, swap flags, conditioners, smooth invertible scalar maps with finite or infinite ranges, base densities (product densities for the mass statement), points of the support, test functions", "why_tests_cant": "Integrals over R^n of densities for every conditioner and mask; Monte-Carlo checks only compare moments at a few parameters.", "anchors": ["distrax/_src/distributions/transformed.py: Transformed.log_prob, _sample_n", "distrax/_src/bijectors/masked_coupling.py: MaskedCoupling", "distrax/_src/bijectors/block.py: Block", "distrax/_src/bijectors/split_coupling.py: SplitCoupling"]}
{"id": "C77", "title": "Indexing a distribution commutes with evaluating it", "statement": "For a batched distribution d, an index ix (ints, slices, Ellipsis, None, integer arrays, boolean masks, or a tuple mixing them) and an array x of the batch shape, d[ix].log_prob(x[ix]) equals d.log_prob(x)[ix], and likewise for cdf, mean, variance, stddev, mode, median and entropy; leading sample axes of x are left alone; if ix is illegal for the batch shape, d[ix] raises exactly when d.log_prob(x)[ix] does. The same for Independent, where x[ix] takes whole events, and for Categorical, Bernoulli and the policies, whose logits or preferences carry a trailing category axis that the index never touches; and for MixtureSameFamily, MixtureOfTwo, CategoricalUniform and Dirichlet.", "quantifier": "all batch shapes (with any broadcasting between the parameters), parameters, index objects, values, sample shapes", "why_tests_cant": "Unit tests compare a handful of slices of a 3-dimensional batch; broadcasting of unequal parameter shapes against every index object is unbounded.", "anchors": ["distrax/_src/distributions/distribution.py: to_batch_shape_index", "distrax/_src/distributions/normal.py, laplace.py, logistic.py, gumbel.py, uniform.py, gamma.py, beta.py, von_mises.py, deterministic.py, categorical.py: __getitem__", "distrax/_src/distributions/independent.py: Independent.__getitem__"]}
{"id": "C78", "title": "Uniform samples stay in the support in floating point", "statement": "In every binary floating-point dtype, with every operation rounded to nearest (and whether or not the compiler fuses the multiply and add), a Uniform(low, high) sample lies in [low, high] for every possible output of the random generator, so its prob is the density 1/(high-low), never 0; the computed cdf is 0 up to low, 1 from high on, within [0, 1] and non-decreasing over all representable values. (The upper end point itself can be returned.) This needs high - low not to overflow; when it does, samples are infinite or NaN.", "quantifier": "all dtypes (any significand and exponent width), all representable low < high with finite difference, all generator outputs, all representable values", "why_tests_cant": "2^23 draws times every pair of float parameters; an out-of-support sample occurs at isolated draws and parameters.", "anchors": ["distrax/_src/distributions/uniform.py: Uniform.range, _sample_n, prob, cdf"]}
{"id": "C79", "title": "Bernoulli samples have the right frequency in floating point", "statement": "Over the equally likely outputs of the generator in dtype t, Bernoulli(probs=p).sample is 1 with a frequency f satisfying p <= f < p + 2^(1-mant(t)); f is 0 exactly for p = 0 and 1 exactly for p > 1 - 2^(1-mant(t)). Hence every positive probability below 2^(1-mant) is sampled with frequency 2^(1-mant).", "quantifier": "all dtypes, all p in [0, 1]", "why_tests_cant": "Frequencies of order 2^-23 cannot be measured by sampling, and p is arbitrary.", "anchors": ["distrax/_src/distributions/bernoulli.py: Bernoulli._sample_n"]}
{"id": "C80", "title": "Normalised probabilities are probabilities in floating point", "statement": "For non-negative representable weights whose sum, computed in floating point in any order of additions, is finite and positive, every entry of normalize(probs=...) (hence of Categorical(probs=...).probs) is a representable number in [0, 1], is 0 where the weight is 0 and 1 where it is the whole sum, keeps the order of the weights, and the entries add up to 1 within 2 (depth+1) eps plus half the smallest subnormal per entry, where depth is the depth of the addition tree.", "quantifier": "all dtypes, all weights, all numbers of categories, all summation orders", "why_tests_cant": "The summation order is chosen by the compiler and the weights are arbitrary floats.", "anchors": ["distrax/_src/utils/math.py: normalize", "distrax/_src/distributions/categorical.py: Categorical.__init__, probs"]}
{"id": "C81", "title": "The affine bijector round trip error in floating point", "statement": "In every dtype with unit roundoff eps, ScalarAffine.inverse(forward(x)) differs from x by at most ((1+eps)^5 - 1)|x| + eps (1+eps)^3 |shift/scale| when nothing over- or underflows; Shift's round trip by at most eps|x| + eps(1+eps)|x+shift|; with a power-of-two scale and no shift the round trip is exact.", "quantifier": "all dtypes, all representable shift, scale != 0 and x without over- or underflow", "why_tests_cant": "Tests compare a few values with a tolerance; the bound is for all floats.", "anchors": ["distrax/_src/bijectors/scalar_affine.py: ScalarAffine", "distrax/_src/bijectors/shift.py: Shift"]}
{"id": "C82", "title": "The spline's log-determinant is well defined in floating point", "statement": "As the source comments claim, in every dtype and for every input x (infinite ones included) the position in the bin is clipped into [0, 1] and the three logarithms in the rational-quadratic spline's log-determinant are taken of positive finite floating-point numbers: the computed denominator is at least an eighth of the bin slope and the other argument at least a quarter of the smaller knot slope; the computed output is never below the left knot. The slopes must be away from under- and overflow. In the inverse direction the stable quadratic root always gives a position in [0, 1], the resulting x is never NaN, never left of the bin, and the lower end of a bin is mapped back exactly.", "quantifier": "all dtypes, all inputs, all knot positions, all slopes in [8 tiny, max/16]", "why_tests_cant": "A NaN appears at isolated inputs where rounding makes an argument zero or negative.", "anchors": ["distrax/_src/bijectors/rational_quadratic_spline.py: _rational_quadratic_spline_fwd", "distrax/_src/bijectors/rational_quadratic_spline.py: _rational_quadratic_spline_inv, _safe_quadratic_root"]}
{"id": "C83", "title": "Logistic never draws 0 or 1", "statement": "In every dtype the uniform variate from which Logistic samples lies strictly between 0 and 1 for every output of the generator, so log(u) and log1p(-u) are finite.", "quantifier": "all dtypes, all generator outputs", "why_tests_cant": "The extreme outputs occur with probability 2^-23.", "anchors": ["distrax/_src/distributions/logistic.py: Logistic._sample_n"]}
{"id": "C84", "title": "log_prob of the location-scale families in floating point", "statement": "In every binary dtype, for every value, location and positive scale, Normal.log_prob and Laplace.log_prob are never NaN, finite at the location, and never larger at a value farther from the location; Logistic and Gumbel log_prob are not NaN unless the standardised value overflows to -infinity (where both return NaN instead of -infinity).", "quantifier": "all dtypes, all finite values and parameters, all library log/exp/softplus that are monotone and exact at a few points", "why_tests_cant": "Overflow in (v - loc)/scale and the rounding of z*z occur on isolated input combinations.", "anchors": ["distrax/_src/distributions/normal.py: Normal.log_prob", "distrax/_src/distributions/laplace.py: Laplace.log_prob", "distrax/_src/distributions/logistic.py: Logistic.log_prob", "distrax/_src/distributions/gumbel.py: Gumbel.log_prob"]}
{"id": "C85", "title": "Normalised logits in floating point", "statement": "For any vector of logits with a finite maximum, normalising in floating point gives log-probabilities that are at most 0, ordered as the logits, -infinity for -infinity; probabilities lie in [0, 1], in the same order; the largest logit has a finite log-probability.  If all logits are -infinity or one is +infinity, all entries are NaN.", "quantifier": "all dtypes, vector lengths, logits, summation orders", "why_tests_cant": "The sum of exponentials depends on the order of the additions and on the lengths.", "anchors": ["distrax/_src/utils/math.py: normalize", "distrax/_src/distributions/categorical.py: Categorical.probs"]}
{"id": "C86", "title": "Selecting by a one-hot mask is exact in floating point", "statement": "Whatever the order of summation, MixtureSameFamily.sample returns the chosen component's sample bit for bit (finite samples), Categorical.prob and log_prob return the chosen entry bit for bit even if others are infinite or NaN-producing, 0 for an index outside the range, and a straight-through sample equals the sample bit for bit.", "quantifier": "all dtypes, sizes, indices, summation orders, entries", "why_tests_cant": "Exactness for all orders and entries.", "anchors": ["distrax/_src/distributions/mixture_same_family.py: MixtureSameFamily._sample_n", "distrax/_src/distributions/categorical.py: Categorical.log_prob, Categorical.prob", "distrax/_src/distributions/straight_through.py: straight_through_wrapper"]}
{"id": "C87", "title": "Quantized in floating point", "statement": "Quantized.sample returns an integer of the dtype within the cutoffs, the ceiling of the base sample or the nearest cutoff; prob of an integer of magnitude up to 2^mant is the correctly rounded difference of the base cdf or survival values, between 0 and 1.  Beyond 2^(mant+1) every value has prob 0 although it can be sampled (refuted part).", "quantifier": "all dtypes, samples, cutoffs, base cdfs", "why_tests_cant": "The failing values are rare, large integers.", "anchors": ["distrax/_src/distributions/quantized.py: Quantized._sample_n, Quantized.prob, Quantized.cdf, Quantized.survival_function"]}
{"id": "C88", "title": "Spline knots are strictly increasing in floating point", "statement": "If min_bin_size exceeds (9 n + 4 D + 40) * 2^-mant * max(|range_min|, |range_max|), the knots computed by RationalQuadraticSpline in floating point are finite and strictly increasing for every parameter vector and every summation order.  Without such a margin a bin can collapse to width 0 although the constructor accepts the arguments, and the inverse is then NaN on it (refuted part).", "quantifier": "all dtypes, ranges, numbers of bins, softmax outputs, summation orders", "why_tests_cant": "Collapsing knots depend on the rounding of the cumulative sum.", "anchors": ["distrax/_src/bijectors/rational_quadratic_spline.py: _normalize_bin_sizes, RationalQuadraticSpline.__init__"]}
{"id": "C89", "title": "Dtypes of samples, log probabilities and statistics", "statement": "Every integer or floating parameter (array or Python number) is accepted and booleans are rejected; samples of Normal, Laplace, Logistic, Gumbel, Uniform, Gamma, Beta and VonMises have the narrowest floating dtype that holds what the parameters ask for (a floating array asks for its dtype, a Python float for nothing, integers for the default float) and are not weakly typed; log_prob of a floating value has the narrowest dtype holding value and parameters, log_prob(sample) and sample_and_log_prob have the dtype of the samples; mean, variance and entropy have it when both parameters ask for the same; the discrete families return the requested dtype.  VonMises raises KeyError in bfloat16.  Refuted parts: with mixed parameter dtypes the mean's dtype differs from the samples'; Deterministic.sample_and_log_prob returns an integer log_prob for an integer loc.", "quantifier": "all families, all dtypes and weak-type flags of parameters and values, jax_enable_x64 on or off", "why_tests_cant": "Thousands of combinations of dtypes, weak types and the x64 flag, which tests sample with float32 only.", "anchors": ["distrax/_src/utils/conversion.py: as_float_array", "distrax/_src/distributions/normal.py: Normal._sample_n, Normal.log_prob", "distrax/_src/distributions/von_mises.py: _von_mises_sample", "distrax/_src/distributions/categorical.py: Categorical.__init__", "distrax/_src/distributions/deterministic.py: Deterministic._sample_n_and_log_prob"]}
{"id": "C90", "title": "The dtype property of nested distributions", "statement": "For every nesting of Independent, MixtureSameFamily, MixtureOfTwo, Clipped, Transformed (any chain of affine, shift, tanh and linear bijectors) and multivariate normals whose leaves draw strongly typed floats, the dtype property is the dtype of the arrays sample returns; MixtureSameFamily always samples the default float dtype.  Refuted parts: a Transformed weakly typed Deterministic, and MultivariateNormalFromBijector with integer parameters, report a dtype their samples do not have; a mixture does not keep the dtype of its components.", "quantifier": "all nestings, dtypes, weak-type flags, bijector chains, jax_enable_x64 on or off", "why_tests_cant": "Unbounded nesting and all dtype combinations.", "anchors": ["distrax/_src/distributions/distribution.py: Distribution.dtype", "distrax/_src/distributions/transformed.py: Transformed._infer_shapes_and_dtype, Transformed.dtype", "distrax/_src/distributions/mvn_from_bijector.py: MultivariateNormalFromBijector.__init__", "distrax/_src/distributions/mixture_same_family.py: MixtureSameFamily._sample_n"]}
{"id": "C91", "title": "Deterministic in the arithmetic of its arrays", "statement": "Deterministic.prob(value) is 1 if |value - loc| <= atol + rtol * |loc| and 0 otherwise, and cdf(value) is 1 from loc - (atol + rtol * |loc|) on, in the fixed-width integer or floating-point arithmetic of the arrays, as long as the integer difference does not overflow and the values fit the float type of the tolerances; for floats with the default tolerances prob is 1 exactly at loc.  Refuted parts: for signed integers prob is also 1 half the range away from loc, for unsigned integers values just below loc are rejected although within the tolerance, and cdf is 1 below loc for integers beyond 2^mant.", "quantifier": "all integer widths and signs, float dtypes, values, locations and tolerances", "why_tests_cant": "The failures are at particular wrapped differences and at large integers.", "anchors": ["distrax/_src/distributions/deterministic.py: Deterministic.slack, Deterministic.prob, Deterministic.cdf"]}
{"id": "C92", "title": "Discrete samples in the requested dtype", "statement": "A Categorical sample, cast to the requested integer or floating-point dtype, is the drawn category, and a Multinomial sample counts how often each category was drawn in total_count draws (the loop ends, the entries are non-negative and sum to total_count), whenever the category index respectively total_count is at most the largest integer up to which the dtype holds all integers (2^(bits-1)-1, 2^bits-1, or 2^mant).  Refuted beyond it: in a floating-point dtype a count never exceeds 2^mant, so Multinomial(5000, ..., dtype=float16) over two categories never returns counts summing to 5000, and Categorical(dtype=int8) returns -56 for category 200.", "quantifier": "all integer widths and signs, float dtypes, counts and sequences of drawn categories", "why_tests_cant": "Every dtype, count and sequence of draws; saturation appears only at counts beyond the mantissa.", "anchors": ["distrax/_src/distributions/multinomial.py: Multinomial.__init__, Multinomial._sample_n_scalar", "distrax/_src/distributions/categorical.py: Categorical._sample_n, Categorical.mode"]}
{"id": "C93", "title": "Tanh and Sigmoid in floating point: sample_and_log_prob versus log_prob", "statement": "Tanh and Sigmoid compute the forward log-determinant of every input |x| <= max/128 to within a fixed number of units of roundoff times 1 + |x| of the exact log |f'(x)|, so Transformed.sample_and_log_prob is finite and accurate for every base sample and log-probability in range, even where the output rounds to the end of the range.  Transformed.log_prob inverts the bijector, and at the ends of the range (1, -1 for Tanh; 0, 1 for Sigmoid) it is NaN whenever the base has no density at infinity; tanh of every x >= mant rounds to 1, so log_prob(sample) = sample_and_log_prob is refuted (as the docstrings warn).", "quantifier": "all float dtypes, inputs, base log-probabilities and library functions of bounded relative error", "why_tests_cant": "An error bound for every input; NaN appears only at saturated samples.", "anchors": ["distrax/_src/bijectors/tanh.py: Tanh", "distrax/_src/bijectors/sigmoid.py: Sigmoid, _more_stable_sigmoid, _more_stable_softplus", "distrax/_src/distributions/transformed.py: Transformed.log_prob, Transformed._sample_n_and_log_prob"]}
{"id": "C94", "title": "Accuracy of log_prob of the location-scale families in floating point", "statement": "For Normal, Laplace, Logistic and Gumbel, log_prob of a representable value with representable loc and positive scale is finite and within an explicit number of units of roundoff, times the size of the terms of the formula (1 + z^2 + |log scale| for Normal, similar for the others), of the exact log-density; the standardised value is accurate to 9/4 units of relative roundoff however large the cancellation in value - loc.", "quantifier": "all float dtypes, all representable values and parameters in a stated range, all library log/exp/softplus of bounded relative error", "why_tests_cant": "An error bound over every float input and dtype; tests compare a few points with a tolerance.", "anchors": ["distrax/_src/distributions/normal.py: Normal.log_prob", "distrax/_src/distributions/laplace.py: Laplace.log_prob", "distrax/_src/distributions/logistic.py: Logistic.log_prob", "distrax/_src/distributions/gumbel.py: Gumbel.log_prob"]}
{"id": "C95", "title": "sample_and_log_prob versus log_prob of the sample in floating point (Normal, Laplace)", "statement": "The log-probability returned by sample_and_log_prob is accurate for the exact point loc + scale * draw; the returned sample is that point up to a drift of about roundoff * (|draw| + |loc| / scale), and log_prob of the sample differs from the returned value by evaluation rounding plus the effect of that drift.  Without the drift term the agreement is refuted: float32 Normal(2^24, 1) returns a sample equal to loc whose log_prob is more than 0.12 above the value returned with it.", "quantifier": "all float dtypes, draws, locs, positive scales in a stated range, all library logs of bounded relative error", "why_tests_cant": "The discrepancy depends on |loc| / scale and shows only outside the range tests use; the bound is over all floats.", "anchors": ["distrax/_src/distributions/normal.py: Normal._sample_n_and_log_prob, Normal.log_prob", "distrax/_src/distributions/laplace.py: Laplace._sample_n_and_log_prob, Laplace.log_prob"]}
{"id": "C96", "title": "Categorical.prob, log_prob, cdf and survival functions in floating point", "statement": "prob(k) and log_prob(k) return exactly the stored probability / logit of category k, whatever the other entries are (infinite or NaN) and in whatever order the reduction adds; outside the support they are 0 and -inf. cdf is 0 below the support and 1 from the last category on; in between it is finite, at least every probability it includes, within the rounding of the partial sum, and nondecreasing for a left-to-right cumulative sum. That cdf never exceeds 1 is refuted: in float32, Categorical(probs=[2, 4, 1, 2^-30]) has cdf(2) = 1 + 2^-23 > cdf(3) = 1, so survival_function(2) is negative and log_survival_function(2) is NaN although P[X > 2] > 0.", "quantifier": "all float dtypes, numbers of categories, stored entries, integer values and orders of summation", "why_tests_cant": "Depends on rounding of every partial sum and on the reduction order; tests compare a few vectors with a tolerance.", "anchors": ["distrax/_src/distributions/categorical.py: Categorical.prob, Categorical.log_prob, Categorical.cdf", "distrax/_src/utils/math.py: multiply_no_nan", "distrax/_src/distributions/distribution.py: Distribution.survival_function, Distribution.log_survival_function"]}
{"id": "C97", "title": "Greedy and EpsilonGreedy in floating point", "statement": "With no NaN preference, the actions of maximal preference share one positive probability and the others another one (0 for Greedy), within 17 units of roundoff of (1 - epsilon) / ties + epsilon / n and epsilon / n; after the Categorical's normalisation the preferred actions are still the most likely. Every action keeps a positive probability as long as epsilon is at least 4 n times the smallest positive number; for smaller positive epsilon this is refuted (a Python epsilon of 2^-160 is 0 in float32). One NaN preference makes every probability NaN.", "quantifier": "all preferences (infinite ones included), numbers of actions up to 2^mant, epsilons in [0, 1], float dtypes and orders of summation", "why_tests_cant": "Rounding of every probability over all preference vectors, counts of ties and dtypes.", "anchors": ["distrax/_src/distributions/epsilon_greedy.py: _argmax_with_random_tie_breaking, _mix_probs_with_uniform, EpsilonGreedy", "distrax/_src/distributions/greedy.py: Greedy"]}
{"id": "C98", "title": "HMM.forward in floating point", "statement": "For a hidden Markov model whose parameters are floats, the filtering probabilities returned by forward at step t are within 2(2 + t(d1 + 3)) + d2 + 1 roundings (relative, each a factor between 1 - eps and 1 / (1 - eps)) of P(state at t | observations up to t) computed over all hidden paths, exact zeros stay zero, and the log-likelihood is within an explicit bound that grows quadratically with the number of observations times eps (d1, d2: depths of the two sums over the states). This holds for every length of sequence as long as no exact message or filtering probability is positive but below twice the dtype's smallest normal number (or the clipping threshold 1e-15). Without that condition the probabilities still lie in [0, 1] and the log-likelihood is not NaN, but it is refuted that a tiny likelihood is reported as such: in float32, when every message underflows the log-likelihood returned is 0 (likelihood 1) and all probabilities are 0.", "quantifier": "all float dtypes, numbers of states, parameters, observation sequences (any length within the stated bound), orders of the sums, library logs of bounded relative error", "why_tests_cant": "Rounding errors accumulate over the whole sequence; tests compare short sequences with a tolerance.", "anchors": ["distrax/_src/utils/hmm.py: _normalize, HMM.forward"]}
{"id": "C99", "title": "HMM.forward_backward in floating point", "statement": "The marginals returned by forward_backward at step t are within 2(3 + t(d1 + 3) + (T - t)(d3 + 3)) + d2 + 1 roundings (relative, each a factor between 1 - eps and 1 / (1 - eps)) of P(state at t | all observations) computed over all hidden paths; they lie in [0, 1] and exact zeros stay zero (T: last step; d1, d3, d2: depths of the sums over the states). This holds for every length of sequence as long as none of the exact forward and backward messages, their products and their normalised values is positive but below twice the smallest normal number of the dtype (messages: or the clipping threshold 1e-15).", "quantifier": "all float dtypes, numbers of states, parameters, observation sequences within the stated bound, time steps, orders of the sums, library logs", "why_tests_cant": "Errors of two recursions over the whole sequence combine; tests compare short sequences with a tolerance.", "anchors": ["distrax/_src/utils/hmm.py: _normalize, HMM.forward, HMM.backward, HMM.forward_backward"]}
{"id": "C100", "title": "HMM.viterbi in floating point", "statement": "For float log-probability tables (-inf allowed) with at most 2^mant states (mant: precision of JAX's default float), HMM.viterbi returns a sequence of existing states of the right length, and no other sequence has a larger log-probability when added from left to right in the same dtype: the dynamic programming and the back-tracking through a one-hot float product lose nothing on top of that rounding. Consequently, if each table entry is within delta of the true log-probability, no path is more than exp(4 L (delta + eps (4 L B + 2))) times as probable as the returned one (L observations, entries of size at most B), and an impossible path is never returned when a possible one exists; in float32 with correctly rounded tables, L <= 50 and B <= 20, at most 6% more probable. The limit on the number of states is needed: with 2^24 + 2 states in float32 a path of probability 0 is returned although one of probability 1 exists.", "quantifier": "all float dtypes, numbers of states up to 2^mant, tables, observation sequences (any length within the bound 16 L eps <= 1), orders of the backward sum", "why_tests_cant": "Optimality is a statement about all n^L paths; tests check short sequences over two or three states, and the effect of ties, -inf entries and rounding depends on the inputs.", "anchors": ["distrax/_src/utils/hmm.py: HMM.viterbi"]}
{"id": "C101", "title": "Summing over event dimensions in floating point", "statement": "Independent and Block reduce per-coordinate log-probabilities, entropies, log-cdfs, KL divergences and log-determinants with a float sum. If every coordinate is within tol_i of its true value t_i, the reduced value is within sum tol_i + 2 depth eps sum (|t_i| + tol_i) of the true sum, whatever order the sum takes (depth: the longest chain of additions) unless the total size reaches a quarter of the dtype's range. One impossible coordinate (-inf) makes the whole event -inf and a NaN coordinate makes it NaN. In particular Independent(Normal(loc, s)).log_prob is within (k + 25 + 5 depth) eps sum (1 + z_i^2 + |ln s_i|) of the exact log-density.", "quantifier": "all float dtypes, event sizes, summation orders, coordinates, and log implementations accurate to k units", "why_tests_cant": "Tests compare a few event shapes to a reference with a tolerance; the order XLA sums in and the sizes at which the error stays small range over infinitely many cases.", "anchors": ["distrax/_src/distributions/independent.py: Independent.log_prob, entropy, log_cdf, _kl_divergence_independent_independent", "distrax/_src/bijectors/block.py: Block", "distrax/_src/utils/math.py: sum_last"]}
{"id": "C102", "title": "MixtureSameFamily.log_prob in floating point", "statement": "MixtureSameFamily.log_prob adds each component's log_prob to its log-weight and applies logsumexp in floats. If each table entry is within delta of the true log (or -inf exactly when the density or weight is zero), the result is within 2 delta + units*eps of the log of the exact mixture density sum w_i f_i, and it is -inf exactly when that density is zero; it never becomes NaN, although -inf terms occur. In float32 with up to 64 components and log terms of size up to 20, the error on top of 2 delta is below 1e-4.", "quantifier": "all float dtypes, numbers of components, component log-densities and weights including -inf, summation orders, log and exp implementations accurate to k units", "why_tests_cant": "Cancellation, underflow of the exponentials and -inf terms depend on the values of all components; tests check a few mixtures of two or three components.", "anchors": ["distrax/_src/distributions/mixture_same_family.py: MixtureSameFamily.log_prob"]}
{"id": "C103", "title": "MultivariateNormalDiag.log_prob in floating point", "statement": "For representable inputs whose inverse scales neither overflow nor underflow, MultivariateNormalDiag(loc, scale).log_prob(y), which inverts a shift and a scaling, evaluates a standard normal and adds the log-determinants, is within (6 k + 200 + 5 depth1 + 4 depth3) eps sum (1 + z_i^2 + |ln |s_i||) of the exact log-density sum_i log N(y_i; loc_i, |s_i|), also for negative scales. The condition on the scales is needed: with a subnormal scale the log_prob at the mean is NaN.", "quantifier": "all float dtypes, event sizes, loc, scale and y with |y_i - loc_i| below a quarter of the range, summation orders and log implementations accurate to k units", "why_tests_cant": "Tests compare with TFP for a few batches within a tolerance; the error must stay proportional to the size of the terms for every input.", "anchors": ["distrax/_src/distributions/mvn_diag.py: MultivariateNormalDiag", "distrax/_src/distributions/mvn_from_bijector.py: MultivariateNormalFromBijector", "distrax/_src/distributions/transformed.py: Transformed.log_prob", "distrax/_src/bijectors/diag_linear.py: DiagLinear"]}
{"id": "C104", "title": "KL divergences in floating point", "statement": "The float value of kl_divergence between two Normals, two Laplaces or two Uniforms is close to the integral that defines the divergence. For Normal the error is at most 16 eps (1 + |loc1/scale2| + |loc2/scale2|)(1 + |loc1 - loc2|/scale2) + 12 delta (1 + (scale1/scale2)^2) with delta = (k+5) eps (1 + |ln scale1| + |ln scale2|); for Laplace 12 delta (1 + scale1/scale2) + 10 eps |loc1 - loc2|/scale2; for Uniform 3 (k+5) eps times the size of the logs when the supports are nested, and exactly +inf when they are not. A distribution's divergence from itself is exactly 0, and the Normal divergence is never negative, however the operations round, if expm1(x) is not rounded below x. The dependence of the Normal bound on loc/scale is real: the code subtracts loc1/scale2 - loc2/scale2, so in float32 two Normals with divergence above 2^70 can get 0, and when loc/scale overflows the divergence of a distribution from itself is NaN.", "quantifier": "all float dtypes, representable locations, scales and bounds in range, and log, exp, expm1 implementations accurate to k units", "why_tests_cant": "Tests compare a handful of parameters near 1 with a reference; cancellation and overflow appear only for particular combinations of magnitudes.", "anchors": ["distrax/_src/distributions/normal.py: _kl_divergence_normal_normal", "distrax/_src/distributions/laplace.py: _kl_divergence_laplace_laplace", "distrax/_src/distributions/uniform.py: _kl_divergence_uniform_uniform"]}
{"id": "C105", "title": "Categorical entropy and KL divergence in floating point", "statement": "For logits that are -inf or of size at most B, the float entropy of a Categorical is within (6u + 4k + 6d + 2) eps (1 + H) of its exact Shannon entropy H, and the float KL divergence within (10u + 4k + 6d + 4) eps (3 + D) of the exact relative entropy D, where u = 5k + k ln n + 12B + 10d + ln n + 6 and d is the depth of the summation; for float32, up to 1024 categories, logits within 30 and pairwise sums this is (1 + H)/4000 and (3 + D)/2500. If the first distribution gives positive (float) probability to a category of logit -inf in the second, the KL divergence is exactly +inf. With no bound on the logits: the float entropy is never negative nor NaN (also from probs in [0,1]), the entropy of a point mass is exactly 0, and the divergence from itself is exactly 0. The guard of mul_exp is exp(log p) = 0, which also holds when exp underflows: logits (0, -200) against (0, -inf) give KL 0 in float32, where the exact value is +inf.", "quantifier": "all float dtypes, numbers of categories, logits (including -inf), summation orders, and log and exp implementations accurate to k units", "why_tests_cant": "Tests compare a few logit vectors with scipy at a tolerance; masked categories, underflow and the order of summation depend on the values and the backend.", "anchors": ["distrax/_src/distributions/categorical.py: entropy, _kl_divergence_categorical_categorical", "distrax/_src/utils/math.py: mul_exp"]}
{"id": "C106", "title": "Bernoulli log_prob, entropy and KL divergence in floating point", "statement": "For a Bernoulli built from logits of size at most B or from probabilities, with success probability p in (0, 1) whose logarithms ln p and ln(1-p) are at most M in size, the float log_prob of 0 and 1 has relative error k eps, the float entropy is within 14 (k+1) eps (1+M) of the exact entropy, and the float KL divergence from another such Bernoulli (built either way) within 33 (k+1) eps (1+M). From logits the entropy error is even relative: (4k+4) eps H. If the second distribution has probs 0 or 1 and the float probability of the outcome it forbids is positive, the divergence is exactly +inf; the divergence from itself is exactly 0, also for probs 0 and 1, whose entropy is exactly 0; entropy is never negative nor NaN, and is bit for bit the same for opposite logits. From probs the error is only absolute: probs1 is computed as 1 - (1 - p), so for p = 2^-30 in float32 the entropy is less than a seventh of the exact one and the divergence from probs = 0 is a negative number, not +inf.", "quantifier": "all float dtypes, logits and probabilities in range, both ways of building each distribution, and log, log1p, sigmoid and softplus implementations accurate to k units", "why_tests_cant": "Tests compare a few parameters with scipy at a tolerance; the loss of small probabilities and the infinities depend on the values.", "anchors": ["distrax/_src/distributions/bernoulli.py: log_prob, entropy, _probs_and_log_probs, _kl_divergence_bernoulli_bernoulli", "distrax/_src/utils/math.py: multiply_no_nan"]}
{"id": "C107", "title": "cdf, survival function and their logarithms in floating point", "statement": "For Normal, Laplace, Logistic and Gumbel with any location and positive scale of the dtype, and any value of the dtype including the infinities (NaN excluded): cdf and survival_function are floats in [0, 1] and their logarithms are never positive and never NaN; cdf and log_cdf never decrease and survival_function and log_survival_function never increase as the value grows, also across the branches of Laplace's log_cdf; at minus and plus infinity they are exactly 0, 1, -inf and 0. For Normal and Logistic the survival function, and for them and Laplace its logarithm, are bit for bit the cdf (log_cdf) of the law mirrored at the origin. However large the standardised value z, the error of cdf and survival_function is at most k+2 (Normal, Logistic) or k+7 (Laplace) units of roundoff of 1, log_cdf and log_survival_function of Logistic are within (2k+5) eps (1+|z|) and those of Laplace within (2k+12) eps (1+|z|), and the cdf and survival_function of Gumbel are within 4k+5 and 4k+6 units of roundoff of 1. The error is not relative for Gumbel's upper tail and Laplace's tails: 24 scales above the location Gumbel's survival_function is 0 and its log_survival_function -inf, and Laplace's cdf 24 scales below is 0 although the same object's log_cdf is right.", "quantifier": "all float dtypes, locations, positive scales and values, monotone library functions (correctly rounded ones qualify), accurate to k units where accuracy is claimed", "why_tests_cant": "Tests compare some values with scipy at a tolerance; monotonicity, the range and the limits concern every pair of floats.", "anchors": ["distrax/_src/distributions/normal.py: cdf, log_cdf, survival_function, log_survival_function", "distrax/_src/distributions/laplace.py: cdf, log_cdf, log_survival_function, _log_cdf_laplace", "distrax/_src/distributions/logistic.py: cdf, log_cdf, survival_function, log_survival_function", "distrax/_src/distributions/gumbel.py: log_cdf", "distrax/_src/distributions/distribution.py: cdf, survival_function, log_survival_function"]}
{"id": "C108", "title": "Transformed.log_prob and sample_and_log_prob through a Chain in floating point", "statement": "For a Transformed distribution over a Chain of any number n of scalar bijectors, each Lipschitz with a Lipschitz log-derivative on a domain and computed in floats up to a stated error there: as long as the exact intermediate points stay inside those domains by the error accumulated so far (an error a leaves a layer as err + lip*a), the float pass through the chain is finite, its point is off by at most the accumulated error and its log_det by at most the sum of the layers' errors plus one rounding per layer relative to the sum S of the absolute log-derivatives. log_prob is then within phi (the base's own error) + Lam * (error of the base point) + that bound, plus one rounding, of the exact change of variables formula, and sample_and_log_prob likewise. ScalarAffine's inverse is such a layer with error 4 eps (Z+1) at most Z scales from the shift, and its forward map with error 4 eps (scale*X + |shift| + 1) on inputs of size at most X; so are Tanh's forward map on inputs of size at most X (error k eps + tiny, log-derivative within (5k+13) eps (1+X)), Tanh's inverse on values of size at most tanh X, and Sigmoid's forward map from -9 up. In float32 with a standard Normal base and n <= 1000 layers x -> 2x+1, log_prob(1) is within (4n^2+10n+200) eps of its exact value; for a policy squashed by Chain([Tanh, ScalarAffine(1, 2)]) and any base sample of size at most 4 the sample is within 42 eps and its log-probability within (450+|base log_prob|) eps.", "quantifier": "all float dtypes, chains of any length, values and base samples inside the domains, libraries accurate to k units", "why_tests_cant": "Tests evaluate short chains at a tolerance; how rounding errors accumulate concerns chains of every length.", "anchors": ["distrax/_src/bijectors/chain.py: forward_and_log_det, inverse_and_log_det", "distrax/_src/distributions/transformed.py: log_prob, sample_and_log_prob", "distrax/_src/bijectors/scalar_affine.py: ScalarAffine"]}
{"id": "C109", "title": "Moments, medians and entropies in floating point", "statement": "Uniform.mean (and median) of two floats low <= high whose sum does not overflow is finite, lies in [low, high], and has a relative error of at most 9/4 eps (plus underflow). When low + high overflows, mean and median are +inf, outside the support, although the mean of two floats is always representable up to rounding. The standard deviations and variances of Uniform, Normal, Laplace, Logistic and Gumbel have relative errors of at most 5/12 (Uniform), 0/4, 3/4, 7/24 and 7/24 eps plus a few smallest normal numbers, for every scale of the dtype whose square does not come near overflow. Uniform's entropy is within k eps |ln(high-low)| + 4 eps, Normal's and Gumbel's within (3k+20) eps (1+|ln scale|), Laplace's and Logistic's within (2k+10) eps (1+|ln scale|), for a log accurate to k units. Gumbel's mean and median have an error of eps of the result plus 3 eps of the term added to the location.", "quantifier": "all float dtypes, bounds, locations and positive scales, constants within one unit, library logs accurate to k units", "why_tests_cant": "Tests compare a few parameters with TFP at a tolerance; the bounds and the range of the mean concern every pair of floats.", "anchors": ["distrax/_src/distributions/uniform.py: entropy, mean, variance, stddev, median", "distrax/_src/distributions/normal.py: entropy, variance", "distrax/_src/distributions/laplace.py: entropy, stddev, variance", "distrax/_src/distributions/logistic.py: entropy, stddev, variance", "distrax/_src/distributions/gumbel.py: entropy, mean, stddev, variance, median"]}
{"id": "C110", "title": "LogStddevNormal in floating point", "statement": "With a softplus that is nonnegative and monotone and a monotone exp, LogStddevNormal(loc, log_scale, max_scale) in floats has a log scale of at most log(max_scale) and a scale of at most exp(log(max_scale)) for every log_scale of the dtype, and the log scale grows with the parameter. The KL divergence of two LogStddevNormals whose scales are the library's exp of the log scales, accurate to k units, is within (25k+60) eps (q + |log_scale1| + |log_scale2| + 1) of the divergence of the Gaussians with scales e^log_scale, with q = (scale1^2 + (loc1-loc2)^2) / (2 scale2^2), while the variances stay inside the range. The computed divergence of a distribution from itself can be negative.", "quantifier": "all float dtypes, locations, log scales and max_scales, library functions with the stated accuracy", "why_tests_cant": "Tests compare a few parameters with TFP at a tolerance; the bounds concern every float.", "anchors": ["distrax/_src/distributions/log_stddev_normal.py: LogStddevNormal.__init__, _kl_logstddevnormal_logstddevnormal"]}
{"id": "C111", "title": "Gumbel's KL divergence in floating point", "statement": "With W = 1 + |ln scale1| + |ln scale2| + scale1/scale2 + |z| + |G| + 1 + e^(G - z), z = (loc1 - loc2)/scale2 and G = ln Gamma(scale1/scale2 + 1), the computed kl_divergence of two Gumbels is within (3k+40) eps W + 2 (6 eps (|z|+|G|+1) + tau) e^(G - z) of the KL divergence of the densities, for a log and an expm1 accurate to k units, an lgamma within tau and a constant within eps, while these quantities stay inside the range. The computed divergence of a Gumbel from itself is exactly 0, and between equal scales it is never negative; when the difference of the locations overflows it is NaN.", "quantifier": "all float dtypes, locations, positive scales, library functions with the stated accuracy", "why_tests_cant": "Tests compare a few parameters with TFP at a tolerance; the bounds concern every pair of parameters.", "anchors": ["distrax/_src/distributions/gumbel.py: _kl_divergence_gumbel_gumbel"]}
{"id": "C112", "title": "Softmax's temperature in floating point", "statement": "Dividing the logits by a positive temperature in floats keeps -inf and never reverses the order of two logits, so the stored logits are at most 0, -inf where the logit is, and ordered as the logits: the largest logit has the largest probability at every temperature at which no quotient overflows. The rounding of the quotients changes each category's probability by a factor between exp(-2 delta) and exp(2 delta), delta = eps B + the smallest normal number, with B the largest |logit / temperature|. As the temperature tends to 0 the distribution does not become greedy: in every dtype some temperature makes a quotient overflow, and then every log-probability is NaN.", "quantifier": "all float dtypes, logits (finite or -inf), positive temperatures, orders of summation", "why_tests_cant": "Tests check a few temperatures; the claims concern every logit vector and temperature of the dtype.", "anchors": ["distrax/_src/distributions/softmax.py: Softmax.__init__", "distrax/_src/distributions/categorical.py: Categorical.__init__", "distrax/_src/utils/math.py: normalize"]}
