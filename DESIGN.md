# Formal model of google-deepmind/distrax in Rocq (Coq 8.16.1)

## 1. What is modelled, and how

* **Numbers.** Array entries are exact real numbers (`R` of Coq's standard library) in C01-C77:
  float rounding, overflow and dtypes are *not* modelled there.  C78 onwards are about rounding: `Base/Float.v`
  defines the binary dtypes (any significand and exponent width; float16, bfloat16, float32,
  float64 are instances) with every operation rounded to nearest even, gradual underflow and
  overflow to infinity, using Flocq's `round`; `Proofs/FloatIEEE.v` proves that +, -, * and / are
  those of Flocq's IEEE 754 formalisation (zeros identified; a zero divisor counts as +0).  Flush-to-zero of
  subnormals and higher-precision accumulation are not modelled.  Where the behaviour at `inf`/`nan` is the
  point (categorical families, `multiply_no_nan`, clipped, quantized, mixtures, KL = inf)
  the entries are `XR = Fin r | PInf | NInf | NaN` with the IEEE-754 rules for special
  values (`Base/XR.v`).
* **Arrays.** `tensor A` = shape (list of nat) + row-major data (`Base/Tensor.v`), of any rank
  and size.  Broadcasting (`bshape`, `bindex`), reshaping, reductions over trailing axes,
  basic indexing and splitting are functions on tensors.  Elementwise code is given as the
  formula for one element plus an array-level wrapper that broadcasts it (`Model/ArrayDist.v`,
  `Base/Lift.v`); families over the last axis (categoricals, Dirichlet, multinomial) as the
  formula for one row, batched by `Base/Rows.v` where the code's batching is not plain
  broadcasting.
* **Linear algebra.** mathcomp matrices over `R` (`Base/Rmx.v` gives R a mathcomp field
  structure built from the standard library's reals; nothing axiomatic of ours).
* **Exceptions** are values of `result A = Ok a | Err e`, `e` being the Python exception class.
* **Randomness** is an explicit argument: the draws (uniforms, normals, category indices)
  are universally quantified functions of the key.  Laws of samplers are proved as statements
  about the map from draws to samples (pushforward of the base law), with exact expectations
  over finitely supported laws where the property is about averages.  PRNG quality is not modelled.
* **External numerics** (`lgamma`, `digamma`, `i0e`, `i1e`, `igamma`, `betainc`, Cholesky,
  triangular solves) are arguments with the mathematical facts used stated as explicit premises
  of the theorem; the premises are shown satisfiable next to the theorems.
* **Traced programs** (`transformations.py`, KL of Transformed) are a deep embedding of
  straight-line jaxprs with nested calls.
* **Objects.** Identity (`is`), attribute dictionaries, class checks and lazily filled slots
  are modelled where the property depends on them (C24, C27, C67, C68, C73).

Layout: `rocq/theories/Base` (infrastructure), `Model` (definitions, each citing file+lines
of /repo), `Spec` (small independent specifications), `Proofs` (lemmas), `Props` (property
theorems with `Print Assumptions` and non-vacuity `Example`s).

Suffixes: `_partial` = only part of the English property; `_refuted` = the (full) English
property is false of the faithful model, with a witness (a finding about the code).

## 2. Trusted base

* Coq 8.16.1's kernel (no `native_compute`; `vm_compute` is kernel).
* Axioms: only the standard library's; section 5 lists them for every theorem.
  (`ClassicalDedekindReals.sig_forall_dec`, `sig_not_dec` and functional extensionality come with the
  standard library's real numbers; `classic` and `constructive_indefinite_description` with
  its `Classical` and `ClassicalEpsilon`, used by mathcomp-style decidable equality on `R`
  and by Coquelicot's limits.)  Names such as `Rdefinitions.RbaseSymbolsImpl.*`, `ssrunder.*` or mathcomp's
  locked constants that an audit of *module fields* may show are opaque *definitions* in
  sealed modules of those libraries, not axioms: `Print Assumptions` does not list them.
* Faithfulness of the hand-written model (each definition cites its source).
* JAX / NumPy / TFP primitives behave as their documentation says on exact reals.

## 3. Code covered

All non-test modules of `distrax/_src`:

| source | model | remarks |
|---|---|---|
| bijectors/bijector.py, chain.py, inverse.py, block.py | `Model/Bijector.v` | all methods, constructors, metadata; name and jit caching not modelled |
| bijectors/masked_coupling.py, split_coupling.py | `Model/Coupling.v` | conditioner and inner bijector arbitrary functions |
| bijectors/scalar_affine.py, shift.py, tanh.py, sigmoid.py, gumbel_cdf.py | `Model/ScalarBij.v` | including `same_as`-relevant fields in `Model/SameAs.v` |
| bijectors/rational_quadratic_spline.py | `Model/RQS.v` | constructor, knots, forward/inverse, tails |
| bijectors/linear.py, diag_linear.py, triangular_linear.py, lower_upper_triangular_affine.py, unconstrained_affine.py, diag_plus_low_rank_linear.py | `Model/Linear.v` | |
| bijectors/lambda_bijector.py | `Model/Lambda.v` | slots filled on first use |
| utils/transformations.py | `Model/Jaxpr.v` | scalar primitives with registered inverses; `vectorize` not modelled |
| bijectors/bijector_from_tfp.py, tfp_compatible_bijector.py, utils/conversion.py | `Model/Conversion.v` | TFP objects are records with the documented attributes |
| distributions/distribution.py | `Model/Distribution.v`, `Model/AdvIndex.v` and `Model/Slicing.v` (indexing), `Model/Compose.v` (`pdist`) | sampling, defaults, slicing; dtype in `Model/Dtypes.v`; jit not modelled |
| distributions/normal.py, laplace.py, logistic.py, gumbel.py, uniform.py, deterministic.py, log_stddev_normal.py | `Model/ScalarDist.v` (formulas), `Model/ArrayDist.v` (arrays) | |
| distributions/gamma.py, beta.py, dirichlet.py | `Model/GammaFamily.v`, `Model/MixSlicing.v` (Dirichlet `__getitem__`) | |
| distributions/von_mises.py | `Model/VonMises.v` | including cdf, custom JVP and rejection sampler |
| distributions/categorical.py, one_hot_categorical.py, bernoulli.py, greedy.py, epsilon_greedy.py, softmax.py | `Model/Categorical.v`, `Model/CatSlicing.v` (`__getitem__`) | |
| distributions/categorical_uniform.py, mixture_same_family.py, mixture_of_two.py | `Model/Mixture.v`, `Model/MixSlicing.v` (`__getitem__`) | |
| distributions/multinomial.py | `Model/Multinomial.v` | |
| distributions/clipped.py, quantized.py | `Model/Clipped.v`, `Model/Quantized.v` | base: any univariate distribution |
| distributions/independent.py, joint.py | `Model/Compose.v` | |
| distributions/transformed.py | `Model/Transformed.v` | KL by jaxpr comparison included |
| distributions/mvn_*.py | `Model/Mvn.v` | TFP distributions as second KL argument are modelled as the same objects |
| distributions/straight_through.py | `Model/StraightThrough.v` | with forward tangents |
| distributions/tfp_compatible_distribution.py | `Model/TfpCompatible.v` | `TensorShape.__bool__` is a parameter |
| distributions/distribution_from_tfp.py | `Model/FromTfp.v` | TFP distribution = record of functions |
| float versions of parts of uniform.py, bernoulli.py, normal.py, laplace.py, logistic.py, gumbel.py, categorical.py, mixture_same_family.py, straight_through.py, scalar_affine.py, shift.py, rational_quadratic_spline.py, math.py | `Model/FloatDist.v` | one element (or one row) at a time; library log, exp and softplus are any functions meeting `log_fn`, `exp_fn`, `softplus_fn` of `Spec/Rounding.v` |
| float versions of quantized.py; of the knots in rational_quadratic_spline.py | `Model/FloatQuantized.v`, `Model/FloatSplineInit.v` | base cdf and survival function, and the softmax outputs, are arbitrary floats |
| utils/math.py | `Model/MathUtils.v`, `Model/MathMore.v` | custom JVPs included |
| utils/hmm.py | `Model/HMM.v` | |
| utils/importance_sampling.py, monte_carlo.py | `Model/MonteCarlo.v` | |
| utils/jittable.py | `Model/Jittable.v` | |
| the types (dtype, weak flag) of the arrays in normal.py, laplace.py, logistic.py, gumbel.py, uniform.py, gamma.py, beta.py, von_mises.py, the discrete families, deterministic.py, independent.py, mixtures, clipped.py, transformed.py, mvn_from_bijector.py and the affine bijectors | `Model/Dtypes.v` | over JAX's documented promotion lattice (`Base/JaxDtype.v`: external semantics; complex and sub-byte types left out; `where`, `expand_dims`, `repeat`, `zeros_like`, `vmap` keep the weak flag) |
| deterministic.py in fixed-width integers and floats | `Model/FixedDeterministic.v` | integers wrap as in XLA |
| tanh.py, sigmoid.py, transformed.py log_prob in floats | `Model/FloatBij.v` | library functions as parameters with error bounds (`Spec/Accuracy.v`) |
| normal.py, laplace.py `_sample_n_and_log_prob` in floats | `Model/FloatSample.v` | one element; draw, log and constant as parameters |
| categorical.py prob/log_prob/cdf in floats | `Model/FloatCategorical.v` | one batch element, integer values, any reduction order |
| categorical.py casts and multinomial.py sampling loop in the requested dtype | `Model/FixedDiscrete.v` | loop counter without overflow; draws arbitrary |
| utils/equivalence.py | not modelled | test helper, no user-visible behaviour |

Not modelled anywhere: how the library rounds its transcendental functions (in the float models they are parameters, assumed monotone
or accurate to k units) and its linear algebra, gradients through reverse-mode AD (except the
custom JVP rules), XLA compilation and tracing semantics (`jit`, `vmap` are taken as the identity
on meaning), names, PRNG quality.

## 4. Plan and outcome per property

| id | what is modelled and stated | how it is proved / what is missing |
|----|------------------------------|-------------------------------------|
| C01 | Chain's six methods on a list of bijector records | induction over the list |
| C02 | the log-det of Chain: sum along the path, and log abs of the determinant of the Jacobian of the composition | induction; multivariate chain rule and `det_mulmx` on Frechet derivatives |
| C03 | Chain's constructor: accepts iff neighbouring event ranks fit | induction |
| C04 | base constructor decision table; metadata of every nesting | structural induction on nestings |
| C05 | Inverse's six methods, nesting, interaction with Chain | case analysis, induction |
| C06, C07 | Block and `sum_last` on tensors | index lemmas on row-major arrays |
| C08 | Block over a scalar or over any inner bijector with event: log-det = log abs det of the Jacobian of the whole flattened block | block-diagonal determinant (`Proofs/BlockDiag.v`, `Proofs/Blockwise.v`) |
| C09 | MaskedCoupling values and round trip | pointwise case analysis on the mask |
| C10 | MaskedCoupling log-det = log abs det of the Jacobian, any batch and inner event shape | Leibniz expansion for the triangular-by-mask pattern |
| C11 | both coupling constructors accept exactly the valid configurations | case analysis |
| C12 | SplitCoupling values, round trip, Jacobian for any batch shape, event rank and axis | split/append index lemmas, block-triangular determinant |
| C13-C16 | scalar bijectors: inverse and log-derivative | Coquelicot derivatives; C15 refuted below -9 with an error bound |
| C17-C20 | rational-quadratic spline | list induction for knots, algebra in one bin, gluing of monotone pieces, C1 at knots |
| C21-C23 | linear bijectors as matrices | triangular determinants and solves, LU, Woodbury, determinant lemma by block matrices |
| C24 | Lambda's decision table and lazily derived slots | case analysis |
| C25, C26 | program inversion and constant-Jacobian analysis; chains of registered steps and unused arguments in `Spec/JaxprChain.v` | induction on programs; refutations by witness |
| C27 | `same_as` over a heap with addresses | mutual induction |
| C28 | `sample`, `sample_and_log_prob`, `batch_shape` on tensors | reshape/ravel lemmas |
| C29 | index normalisation, shape and source position of every entry, slicing of the MVN classes | index arithmetic; unbatched slicing refuted; integer-array, mask and mixed tuples in `Model/AdvIndex.v`, `Props/MixedIndex.v`: NumPy's rules as inductive relations (`Spec/AdvIndex.v`), proved sound and complete by induction on the tuple |
| C30 | every override of `_sample_n_and_log_prob` agrees with `log_prob` | algebra per class; Quantized refuted with eps |
| C31 | Transformed: density of the pushforward, mass of intervals, expectations, n-dim density with Jacobian | substitution in integrals; Jacobian of the inverse |
| C32 | mean, mode and entropy exact or refused; vector-valued mean | algebra, expectation |
| C33 | KL of Transformed | invariance under bijections; captured constants refuted |
| C34-C40 | categorical family and policies over `XR` lists | list sums, Gibbs inequality; C37 refuted for non-integers |
| C41-C43 | mixtures, piecewise uniform | finite sums, total variance, prefix sums; edge and count cases refuted |
| C44-C46 | Clipped and Quantized over any univariate base | case analysis, telescoping; atoms and eps refuted |
| C47-C53 | univariate distributions: density integrates to cdf, total mass 1, moments and entropy are the integrals, KL is the integral and non-negative, sampler has that law | improper integrals via Coquelicot; Basel series, Euler's constant |
| C54 | Independent: product law, shapes, nesting into batch | index arithmetic, product measures on finite laws |
| C55 | Joint over a tree of components | structural induction; mixed batch shapes refuted |
| C56 | Multinomial law as counts of iid draws, moments, entropy | multinomial theorem, finite sums |
| C57 | Gamma, Beta, Dirichlet: densities, moments, entropy, KL, modes | Euler integrals, simplex integrals by iterated substitution |
| C58 | VonMises: density, moments, entropy, KL, angle reduction, cdf, sampler | Bessel integrals; the 20-term cdf series is within 2e-7 of the true integral (differential equation with one residual term); accuracy of the normal approximation (concentration >= 10.5) is not proved |
| C59, C60 | MVN in every parametrisation: law, covariance, samples, KL | trace/det algebra, n-dim Gaussian integrals |
| C61-C64 | HMM scans as folds | induction on the sequence; path enumeration as specification; clipping refuted |
| C65 | NaN-safe maths and their JVPs | exhaustive cases over `XR`, limits |
| C66 | importance ratios and Monte Carlo estimators | exact expectation over lists of iid draws; for densities linearity of the average, instantiated by iterated integrals |
| C67 | conversions and TFP bijector bridge | decision functions; to_tfp idempotence refuted |
| C68 | Jittable flatten/unflatten | structural induction on pytrees |
| C69 | straight-through wrapper: value and tangent | algebra; plain Categorical refuted |
| C70 | base-class defaults | algebra |
| C71 | array-level statistics of univariate classes are elementwise | broadcasting lemmas; Gumbel.entropy refuted |
| C72 | HMM.sample draws from the joint law | finite laws, induction on length |
| C73 | TFP-compatible wrapper of any distribution | case analysis over inherited code as a function of the object's interface; 0-d array and truthy-TensorShape cases refuted |
| C74 | MVN constructors accept exactly the fitting shapes | case analysis over missing arguments, broadcasting lemmas |
| C75 | distributions wrapped *from* TFP: sample, sample_and_log_prob, survival, round trip with C73 | instance of C28 over the TFP interface |
| C76 | log_prob of Transformed over MaskedCoupling / SplitCoupling / Block against iterated integrals over all coordinates (`Spec/Flow.v`) | one-dimensional substitution per coordinate, induction over the coordinates |
| C77 | `__getitem__` of the univariate classes and Independent (`Model/Slicing.v`), of Categorical, OneHotCategorical, Bernoulli and the policies (`Model/CatSlicing.v`), of the mixtures, CategoricalUniform and Dirichlet (`Model/MixSlicing.v`) against indexing of the result (`Spec/Slicing.v`) | every method is elementwise in the broadcast operands; the sliced parameters read the broadcast ones at the selected positions |
| C78 | `Uniform` in floating point (`Model/FloatDist.v`): samples (two roundings or fused), prob, cdf; the generator's outputs are the multiples of 2^(1-mant) in [0,1) (`Spec/Rounding.v`) | if the rounded range exceeds the exact one it is its successor, so range * u is at most the predecessor; monotonicity of rounding.  Overflowing range shown to break it |
| epsilon_greedy.py, greedy.py in floats | `Model/FloatPolicies.v` | one batch element; Python epsilon of type `host` |
| `Model/FloatHMM.v` | utils/hmm.py 28-44, 165-232, 262-280 (length=None): `_normalize`, `HMM.forward`, `backward`, `forward_backward` in floats; vectors over states are functions, the sums take arbitrary orders |
| `Model/FloatViterbi.v` | utils/hmm.py 293-323: `HMM.viterbi` in floats, given the log-probability tables of lines 290-291 and 299; the backward one-hot product takes an arbitrary order |
| `Model/FloatReduce.v` | independent.py 104-121, 147-149, 175-177, block.py 90-112, mixture_same_family.py 116-124, mvn_diag.py 92-93 with mvn_from_bijector.py 80-87 and transformed.py 161-166, in floats, with arbitrary summation orders; jax's logsumexp as documented there |
| `Model/FloatKL.v` | normal.py 163-167, laplace.py 165-169, uniform.py 158-161 in floats, one batch element |
| `Model/FloatCatInfo.v` | math.mul_exp, Categorical.entropy and the Categorical KL divergence in floats (math.py 114-129, categorical.py 117-123, 165-200), one batch element |
| `Model/FloatBernoulli.v` | Bernoulli log_prob, entropy and KL in floats (bernoulli.py 101-106, 116-120, 142-148, 170-185, 188-214), one batch element |
| `Model/FloatCdf.v` | cdf, log_cdf, survival_function, log_survival_function of Normal, Laplace, Logistic, Gumbel in floats (normal.py 98-112, laplace.py 35-40 and 107-123, logistic.py 97-111, gumbel.py 103-106, distribution.py 208-259), one element |
| `Model/FloatTransformed.v` | Chain.forward_and_log_det and inverse_and_log_det (chain.py 95-109) ScalarAffine (scalar_affine.py 68-71, 98-128), Tanh and Sigmoid in floats, one scalar event; Transformed is `Model/FloatBij.v` |
| `Model/FloatMoments.v` | entropy, mean, variance, stddev, median of Uniform, Normal, Laplace, Logistic, Gumbel in floats (uniform.py 103-121, normal.py 117-129, laplace.py 103-135, logistic.py 93-123, gumbel.py 99-126), one element |
| `Model/FloatLogStddev.v` | LogStddevNormal's soft threshold, scale and KL divergence in floats (log_stddev_normal.py 61-67, 98-101), one element |
| `Model/FloatGumbelKl.v` | Gumbel's KL divergence in floats (gumbel.py 148-152), one element |
| `Model/FloatTemperature.v` | Softmax's scaled and stored logits in floats (softmax.py 50-51 and Categorical's normalisation) |
| C79 | Bernoulli's comparison against all generator outputs, counted | induction on the number of outputs |
| C80 | `math.normalize(probs=)` for every addition tree | each partial sum dominates its leaves; relative error per addition, induction on the tree |
| C81 | ScalarAffine and Shift forward/inverse | standard error analysis with one relative error per operation; example reaching the bound |
| C82 | the rational-quadratic spline's bin position, denominator, log arguments, output; inverse through `_safe_quadratic_root` | interval bounds through monotone rounding; sign analysis of the quadratic's coefficients after rounding |
| C83 | `jax.random.uniform(minval=tiny)` as used by Logistic | idem |
| C84 | log_prob of Normal, Laplace, Logistic, Gumbel in floats; the library functions log, exp, softplus only assumed monotone with a few exact or bounded values (`Spec/Rounding.v`; `Proofs/FloatLib.v` shows correctly rounded functions satisfy this) | monotonicity of every rounded operation; NaN only from inf - inf, located |
| C85 | log_softmax / softmax with any summation order | the maximum's exponential is 1, so the sum is at least 1; monotonicity |
| C86 | one-hot selection, straight-through | all other summands are zeros, adding 0 is exact; p - p = 0 |
| C87 | Quantized: sample, cdf, survival, prob | ceiling is representable; k - 1 is exact up to 2^mant; absorption beyond |
| C88 | bin sizes, cumulative sums, knots; Python scalars in the host type | forward error bounds on each knot, compared with min_bin_size |
| C89 | the JAX types (dtype, weak flag) flowing through constructors, `_sample_n`, `log_prob`, `_sample_n_and_log_prob`, mean, variance, entropy of the eight two-parameter families, the discrete families and Deterministic | finite case analysis by the kernel over all types and flags against an independent "narrowest dtype" specification |
| C90 | the same for nested distributions and bijector chains; the `dtype` property | structural induction; invariant: samples are strongly typed floats |
| C91 | Deterministic.slack/prob/cdf in two's-complement integers and in floats | modular arithmetic; monotone rounding, gradual underflow |
| C92 | Multinomial._sample_n_scalar and the Categorical cast in fixed-width integers and floats | invariant of the while loop; rounding of 2^mant + 1 to even |
| C93 | Tanh and Sigmoid log-determinants and Transformed.sample_and_log_prob/log_prob in floats | forward error analysis; infinities and NaN at the ends of the range |
| C94 | log_prob of Normal, Laplace, Logistic, Gumbel in floats against the exact log-density | forward error analysis (`close` calculus) |
| C95 | sample_and_log_prob of Normal, Laplace in floats, against log_prob of the sample | forward error analysis; concrete float32 counterexample for exact agreement |
| C96 | Categorical prob/log_prob/cdf/survival functions in floats | induction over summation orders; IEEE evaluation of the counterexample |
| C97 | Greedy and EpsilonGreedy probabilities in floats | forward error analysis; monotonicity of rounding |
| C98 | HMM.forward in floats | relative-error calculus (`Proofs/FloatNear.v`), induction over the sequence with the product of the normalisers as ghost state, connected to the path sums of `Spec/HMM.v`; concrete float32 counterexample for underflow |
| C99 | HMM.forward_backward in floats | the calculus of C98 for the backward recursion and the product of messages; connected to the path sums of `Spec/HMM.v` |
| C100 | HMM.viterbi in floats | monotone rounded addition, induction over the sequence (the maximum equals the score of the traced path and bounds every score); exactness of the one-hot product; error induction for the probability bound; concrete model with 2^24 + 2 states for the limit |
| C101 | sums over event dimensions in floats | induction over the summation tree with signed error bounds; composition with C94 |
| C102 | MixtureSameFamily.log_prob in floats | largest term exact, others through exp's accuracy, C101's sum, then log's condition number on [1, n] |
| C103 | MultivariateNormalDiag.log_prob in floats | relative error of the standardised coordinate, perturbation of the quadratic form, C94 for the base, C101 for both sums |
| C104 | KL divergences of Normal, Laplace, Uniform in floats | error calculus for each term, perturbation of exp, C47-C49 for the integral; monotone rounding for non-negativity; concrete float32 values for the limits |
| C105 | Categorical entropy and KL in floats | log-sum-exp error of C102, a weighted-sum lemma for p * t with both factors perturbed, C101 for the sum; exact sums of zeros; a float32 underflow |
| C106 | Bernoulli log_prob, entropy, KL in floats | error calculus for both ways of building the distribution, a relative term bound for logits, exact special cases; concrete float32 value for the limit |
| C107 | cdf and survival functions in floats | monotonicity of rounding through each formula; mean-value bound with a uniformly bounded slope times argument for accuracy; float32 values for the lost tails |
| C108 | Transformed through a Chain in floats | induction on the layers with the accumulated error of the point and of the log determinant |
| C109 | moments, medians, entropies in floats | relative and underflow errors through a product, quotient and square; doubling is exact, so the rounded sum stays between 2 low and 2 high |
| C110 | LogStddevNormal in floats | relative errors through the squares and the quotient, absolute errors through the three additions; IEEE evaluation of the negative case |
| C111 | Gumbel KL in floats | closeness through each operation; the exponent's absolute error becomes a relative error of e^(G - z); the real KL is C51's |
| C112 | Softmax temperature in floats | monotone rounding of the quotients, C85 for the normalisation; weights perturbed by exp(+-delta) |

Not expressible: nothing in the list is dropped.  Statistical quality of the PRNG and
reverse-mode gradients are outside every property's statement.

## 5. Axioms per theorem (`Print Assumptions`; generated by tools/axioms.py)

Full names: `ClassicalDedekindReals.sig_forall_dec`, `ClassicalDedekindReals.sig_not_dec`, `FunctionalExtensionality.functional_extensionality_dep`, `Classical_Prop.classic`, `ClassicalEpsilon.constructive_indefinite_description`.

* **`sig_forall_dec`, `sig_not_dec`, `classic`, `functional_extensionality_dep`** (455 theorems): C100_float32, C100_many_states_refuted, C100_optimal, C100_probability, C101_impossible, C101_independent_normal, C101_nan, C101_sum, C102_all_impossible, C102_float32, C102_logsumexp, C102_mixture, C103_mvn_diag, C103_subnormal_scale_refuted, C104_laplace, C104_normal, C104_normal_cancellation_refuted, C104_normal_nonnegative, C104_normal_self_refuted, C104_self, C104_uniform, C105_entropy, C105_entropy_nonnegative, C105_entropy_point, C105_entropy_probs_nonnegative, C105_float32, C105_kl, C105_kl_infinite, C105_kl_self, C105_kl_underflow_refuted, C106_certain, C106_entropy, C106_entropy_logits, C106_entropy_nonnegative, C106_entropy_symmetric, C106_float32, C106_kl, C106_kl_infinite, C106_kl_self, C106_log_prob, C106_small_probability_refuted, C107_correctly_rounded, C107_gumbel, C107_gumbel_accuracy, C107_gumbel_upper_tail_refuted, C107_laplace, C107_laplace_accuracy, C107_laplace_log_accuracy, C107_laplace_tails_refuted, C107_logistic, C107_logistic_accuracy, C107_mirror, C107_normal, C107_normal_accuracy, C108_affine_forward, C108_affine_inverse, C108_log_prob, C108_pass, C108_sample_and_log_prob, C108_sigmoid_forward, C108_tanh_forward, C108_tanh_inverse, C109_entropy, C109_gumbel_centre, C109_spread, C109_uniform_entropy, C109_uniform_mean, C109_uniform_mean_refuted, C109_uniform_spread, C110_kl, C110_kl_self_refuted, C110_threshold, C111_equal_scales_nonnegative, C111_gumbel, C111_overflow_refuted, C111_self, C112_greedy_limit_refuted, C112_mode, C112_probabilities, C112_scaled, C13_affine_log_derivative, C13_scalar_affine_round_trip, C13_scalar_affine_values, C14_tanh_array_round_trip, C14_tanh_bijection, C14_tanh_inverse_log_det, C14_tanh_log_det, C15_sigmoid_error_bound, C15_sigmoid_log_det_partial, C15_sigmoid_log_det_refuted, C15_sigmoid_not_injective_refuted, C15_sigmoid_range, C15_sigmoid_round_trip_partial, C15_sigmoid_round_trip_refuted, C16_gumbel_array_round_trip, C16_gumbel_bijection, C16_gumbel_inverse_log_det, C16_gumbel_log_det, C17_bin_sizes, C17_constructor_accepts_exactly, C17_knots_and_slopes_valid, C18_interpolates_knots_and_linear_tails, C18_spline_elementwise, C18_strictly_increasing_onto, C18_zero_params_identity, C19_nondegenerate_sufficient, C19_spline_array_round_trip, C19_spline_inverse, C20_spline_C1, C20_spline_inverse_log_det, C20_spline_log_det, C21_diag_constructor, C26_constant_jacobian_affine, C26_repeated_argument_refuted, C30_clipped, C30_deterministic, C30_gumbel, C30_laplace, C30_log_stddev_normal, C30_normal, C30_quantized, C30_uniform, C31_affine_normal, C31_expectation, C31_interval_mass, C31_inverse_log_det, C31_log_prob_density, C31_tanh, C31_total_mass, C32_entropy, C32_mean, C33_kl_invariant, C34_constructor, C34_log_prob, C34_mode, C34_probs, C34_sample, C34_scale_invariant, C34_shift_invariant, C35_cdf, C35_cdf_monotone, C36_bernoulli_categorical_agree, C36_entropy, C36_kl, C36_kl_infinite_iff, C37_floats_disagree_refuted, C37_integers_agree_partial, C38_cdf, C38_entropy, C38_kl, C38_logits, C38_moments, C38_outside_support, C38_prob, C38_sample, C39_agrees, C39_sample_mode, C40_epsilon_greedy, C40_greedy, C40_softmax, C40_softmax_shift, C41_component_count_refuted, C41_constructor, C41_infinite_sample_refuted, C41_log_prob, C41_mean, C41_sample, C41_variance, C42_log_prob, C43_edge_density_refuted, C43_entropy, C43_log_prob, C43_mean_variance, C44_atom_at_maximum_refuted, C44_clipped_logistic, C44_clipped_normal, C44_log_prob, C44_sample, C44_slicing, C45_cdf, C45_constructor, C45_prob, C45_quantized_logistic, C45_quantized_normal, C45_quantized_uniform, C45_sample, C45_zero_probability_draw_refuted, C46_eps_lost_refuted, C46_log_prob, C46_sample_and_log_prob, C46_slicing, C47_uniform_distribution, C47_uniform_kl, C47_uniform_moments, C47_uniform_sample, C48_normal_distribution, C48_normal_kl, C48_normal_moments, C48_normal_sample, C49_laplace_distribution, C49_laplace_kl, C49_laplace_moments, C49_laplace_sample, C50_logistic_distribution, C50_logistic_moments, C50_logistic_sample, C51_gumbel_distribution, C51_gumbel_kl, C51_gumbel_moments, C51_gumbel_sample, C52_deterministic, C52_deterministic_kl, C52_infinite_loc_refuted, C53_kl, C53_scale, C53_slice_refuted, C53_slice_without_max, C54_entropy, C54_kl, C54_log_prob, C54_normal, C54_product_law, C54_univariate, C55_entropy, C55_kl, C55_log_cdf, C55_log_prob, C56_constructor, C56_covariance, C56_entropy, C56_fractional_total_refuted, C56_getitem, C56_law, C56_log_prob_negative, C56_log_prob_partial, C56_log_prob_refuted, C56_moments, C56_normalised, C56_sample, C57_batched, C57_beta_cdf, C57_beta_dirichlet_kl, C57_beta_entropy, C57_beta_is_density, C57_beta_is_dirichlet, C57_beta_kl, C57_beta_log_prob, C57_beta_log_prob_zero, C57_beta_mode, C57_beta_mode_nan_refuted, C57_beta_moments, C57_beta_outside, C57_beta_reflection, C57_dirichlet_boundary, C57_dirichlet_entropy, C57_dirichlet_is_density, C57_dirichlet_kl, C57_dirichlet_kl_zero, C57_dirichlet_log_prob, C57_dirichlet_mode, C57_dirichlet_moments, C57_gamma_cdf, C57_gamma_entropy, C57_gamma_is_density, C57_gamma_kl, C57_gamma_log_prob, C57_gamma_log_prob_zero_refuted, C57_gamma_mode, C57_gamma_moments, C57_gamma_negative, C57_gamma_sample, C57_log_beta, C58_batched, C58_cdf_accurate, C58_cdf_conc_tangent, C58_cdf_exact, C58_cdf_partial, C58_cdf_reflect, C58_cdf_tangent, C58_cdf_uniform, C58_entropy, C58_kl, C58_log_cdf, C58_log_prob, C58_mode, C58_moments, C58_not_finite, C58_periodic, C58_sample_pi_refuted, C58_sample_range, C58_sample_tangent, C58_sampler_law, C58_sampler_loop, C58_variance_shape_refuted, C58_zero_concentration_refuted, C61_bounds, C61_clipping_refuted, C61_forward_partial, C61_impossible_refuted, C61_parameters, C62_clipping_refuted, C62_posterior_partial, C63_forward, C63_forward_backward_refuted, C63_length_zero_refuted, C64_viterbi, C65_log_diff, C65_power_jvp_partial, C65_power_jvp_refuted, C65_power_no_nan, C66_kl_gradient, C66_kl_gradient_any_law, C66_kl_proposal_any_law, C66_kl_proposal_partial, C66_kl_proposal_refuted, C66_kl_reparameterized_unbiased, C66_kl_unbiased, C66_kl_unbiased_any_law, C66_ratios, C66_ratios_any_law, C66_ratios_edge, C69_categorical_batch_refuted, C69_categorical_refuted, C69_invalid_refuted, C69_one_hot, C69_other_classes, C70_cross_entropy, C70_prob, C70_survival_functions, C70_survival_multivariate, C71_constructor, C71_gumbel_entropy_refuted, C71_gumbel_partial, C71_laplace, C71_logistic, C71_normal, C71_uniform, C72_support, C73_survival, C73_survival_refuted, C74_from_bijector, C75_survival, C76_block_law, C76_block_mass, C76_masked_coupling_law, C76_masked_coupling_mass, C76_split_coupling_law, C76_split_coupling_mass, C77_bernoulli, C77_beta, C77_categorical, C77_categorical_methods, C77_deterministic, C77_dirichlet, C77_gamma, C77_gumbel, C77_gumbel_entropy_refuted, C77_independent, C77_laplace, C77_logistic, C77_mixture_of_two, C77_mixture_same_family, C77_normal, C77_policies, C77_uniform, C77_von_mises, C78_cdf, C78_high_is_returned, C78_needs_finite_range, C78_prob, C78_sample_has_density, C78_sample_in_support, C80_entries_are_probabilities, C80_order_preserved, C80_total_is_one, C81_affine_round_trip, C81_power_of_two_exact, C81_shift_round_trip, C82_denominator_positive, C82_inverse_in_bin, C82_inverse_position, C82_log_argument_positive, C82_log_det_defined, C82_output_above_left_knot, C82_position, C83_logistic_draw_in_open_interval, C84_gumbel_partial, C84_laplace, C84_logistic_gumbel_overflow_refuted, C84_logistic_partial, C84_normal, C85_log_softmax, C85_softmax, C85_undefined, C86_categorical, C86_mixture_sample, C86_straight_through, C87_cdf, C87_large_values_refuted, C87_prob, C87_sample, C88_knots_increasing, C88_min_bin_size_refuted, C91_cdf, C91_cdf_refuted, C91_cdf_without_tolerance, C91_float_cdf, C91_float_prob, C91_float_prob_tolerance, C91_prob_refuted, C91_prob_with_tolerance, C91_prob_without_tolerance, C91_unsigned_tolerance_refuted, C92_categorical, C92_categorical_refuted, C92_float_saturates, C92_multinomial, C92_multinomial_refuted, C92_multinomial_total, C93_log_prob_of_sample_refuted, C93_sigmoid_forward, C93_sigmoid_log_det, C93_sigmoid_log_prob_at_bounds, C93_sigmoid_sample_and_log_prob, C93_tanh_log_det, C93_tanh_log_prob_at_bounds, C93_tanh_sample_and_log_prob, C93_tanh_saturates, C94_gumbel, C94_laplace, C94_logistic, C94_normal, C94_standardize, C95_exact_consistency_refuted, C95_laplace_consistency, C95_laplace_log_prob, C95_normal_consistency, C95_normal_log_prob, C95_sample, C96_cdf_accuracy, C96_cdf_ends, C96_cdf_exceeds_one_refuted, C96_cdf_monotone, C96_log_prob, C96_prob, C97_any_epsilon_explores_refuted, C97_epsilon_greedy, C97_exploration, C97_greedy, C97_nan_preference, C97_preferred_most_likely, C98_forward, C98_range, C98_underflow_refuted, C99_posterior

* **none** (78 theorems): C04_base_constructor, C05_inverse_involution, C05_inverse_swaps, C13_scalar_affine_both_rejected, C24_lambda_metadata, C24_lambda_rejects, C26_constant_jacobian_sound, C27_lambda_never_same, C27_same_as_reflexive, C27_same_as_symmetry_refuted, C28_batch_shape, C28_sample, C29_basic_index_unchanged, C29_integer_arrays, C29_integer_arrays_illegal, C29_legal_indices, C29_mask, C29_mask_illegal, C29_mixed_legal, C29_mixed_tuples, C29_slice_positions, C29_slice_shape, C29_slicing, C29_unbatched_refuted, C38_constructor, C42_constructor, C54_constructor, C54_slicing, C55_constructor, C55_sample, C56_shapes, C57_dirichlet_constructor, C61_constructor, C65_log_diff_refuted, C66_reparameterized_check, C67_as_bijector, C67_as_bijector_functions, C67_as_distribution, C67_as_float_array, C67_event_ndims, C67_to_tfp, C67_to_tfp_idempotent_refuted, C68_leaves, C68_primitive_refuted, C68_round_trip, C68_same_structure, C68_substitute, C68_too_few, C68_too_many, C72_lengths, C73_array_size_refuted, C73_getitem, C73_inherited, C73_log_prob, C73_name, C73_pytree, C73_sample, C73_sample_n, C73_shapes, C73_twice, C75_round_trip, C75_sample, C89_bool_rejected, C89_deterministic_dtype, C89_deterministic_log_prob_refuted, C89_discrete_dtype, C89_log_prob_dtype, C89_mean_dtype_refuted, C89_narrowest_unique, C89_promotion_is_least_upper_bound, C89_sample_and_log_prob_dtype, C89_sample_dtype, C89_statistics_dtype, C90_deterministic_refuted, C90_mixture_keeps_dtype_refuted, C90_mixture_same_family_dtype, C90_mvn_integer_refuted, C90_reported_dtype_is_sample_dtype

* **`sig_forall_dec`, `sig_not_dec`, `constructive_indefinite_description`, `classic`, `functional_extensionality_dep`** (55 theorems): C02_chain_log_det_true_jacobian, C08_block_any_bijector_true_jacobian, C08_block_log_det_true_jacobian, C10_masked_coupling_any_event_true_jacobian, C10_masked_coupling_log_det_true_jacobian, C12_split_coupling_any_event_true_jacobian, C12_split_coupling_log_det_true_jacobian, C12_split_coupling_swapped_log_det_true_jacobian, C21_affine_forward_undoes_inverse, C21_affine_inverse_undoes_forward, C21_affine_log_det_true_jacobian, C21_diag_linear, C21_triangular_constructor, C21_triangular_linear, C22_lower_upper_constructor, C22_lower_upper_triangular_affine, C22_unconstrained_affine, C22_unconstrained_constructor, C23_constructor, C23_diag_plus_low_rank, C25_chain_inverted, C25_constant_base_power_refuted, C25_even_and_odd_powers_refuted, C25_inv_inverts, C25_inv_refuses_unsupported, C25_one_result, C25_unused_argument, C27_same_as_sound, C29_mvn_diag, C29_mvn_diag_plus_low_rank, C29_mvn_full_covariance, C29_mvn_tri, C31_log_prob_block, C31_log_prob_jacobian, C32_mean_vector, C33_kl_ignores_constants_refuted, C33_kl_sound_partial, C59_diag, C59_diag_cdf_needs_positive_scale, C59_diag_plus_low_rank, C59_from_bijector, C59_full_covariance, C59_gaussian_law, C59_gaussian_marginals, C59_sample_law_triangular, C59_sample_moments, C59_tri, C60_kl_branches_agree, C60_kl_closed_form, C60_kl_dimension_mismatch, C60_kl_self, C74_diag, C74_diag_plus_low_rank, C74_full_covariance, C74_tri

* **`sig_forall_dec`** (47 theorems): C01_chain_forward_composes, C01_chain_inverse_composes, C01_chain_methods_agree, C01_chain_round_trip, C01_chain_round_trip_inverse, C02_chain_log_det_is_sum, C03_chain_construction, C04_nesting_stays_coherent, C04_wrappers_never_rejected, C05_inverse_of_chain, C06_block_metadata, C06_block_methods_agree, C06_block_rejects_exactly_negative, C07_sum_last_nonpositive, C07_sum_last_too_many_axes, C07_sum_last_total, C09_masked_coupling_methods_agree, C11_masked_coupling_constructor, C11_masked_coupling_inner_mismatch, C11_split_coupling_constructor, C11_split_coupling_inner, C12_split_coupling_round_trip, C12_split_coupling_values, C12_split_parts_exist, C13_shift_values, C28_sample_and_log_prob, C30_independent, C30_joint, C30_transformed, C30_transformed_whole, C31_constructor_checks, C31_sample_is_forward, C31_shapes, C32_entropy_hint, C32_refused_unless_declared, C43_constructor, C44_constructor, C54_samples, C55_mixed_batch_shapes_refuted, C58_mean_unreduced, C67_event_shape, C67_from_tfp, C67_from_tfp_bad_shape, C67_log_det_event_ndims, C67_round_trip, C75_sample_and_log_prob, C77_categorical_uniform

* **`sig_forall_dec`, `functional_extensionality_dep`** (32 theorems): C02_chain_inverse_log_det_opposite, C06_block_forward, C06_block_inverse, C06_block_nested, C07_sum_last_compose, C07_sum_last_entries, C09_masked_coupling_round_trip, C09_masked_coupling_values, C13_shift_round_trip, C24_lambda_methods, C32_entropy_average, C32_mode, C41_mixture_density, C41_total_variance, C42_mixture_density, C42_prob_b, C42_sample, C44_total_mass, C45_cdf_event, C45_pmf, C45_total, C45_total_limit, C57_dirichlet_kl_errors, C65_multiply_jvp, C65_multiply_jvp_constant, C65_multiply_no_nan, C66_iid_draws, C66_mode, C66_ratios_unbiased, C72_law, C79_bernoulli_frequency, C79_bernoulli_small

* **`sig_forall_dec`, `sig_not_dec`, `functional_extensionality_dep`** (13 theorems): C41_weights, C43_density, C43_sample, C43_zero_probability_bin_refuted, C46_guard, C58_cdf_tangent_zero_refuted, C58_convert_angle, C58_half_open_refuted, C65_mul_exp, C65_mul_exp_jvp, C65_mul_exp_jvp_zero, C66_best_effort, C70_stddev

* **`sig_forall_dec`, `constructive_indefinite_description`, `classic`, `functional_extensionality_dep`** (1 theorems): C23_determinant_lemma

* **`functional_extensionality_dep`** (1 theorems): C73_sample_and_log_prob

* **`constructive_indefinite_description`, `classic`** (1 theorems): C33_kl_outcomes

