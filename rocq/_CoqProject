-Q theories Verif
theories/Base/Axes.v
theories/Base/Basel.v
theories/Base/Cholesky.v
theories/Base/Float.v
theories/Base/GammaFn.v
theories/Base/Gauss.v
theories/Base/Improper.v
theories/Base/Integral.v
theories/Base/IntegralSub.v
theories/Base/JaxDtype.v
theories/Base/Lift.v
theories/Base/Mellin.v
theories/Base/MultiInt.v
theories/Base/Result.v
theories/Base/Rmx.v
theories/Base/Rows.v
theories/Base/Sums.v
theories/Base/Tensor.v
theories/Base/Tree.v
theories/Base/XR.v
theories/Model/AdvIndex.v
theories/Model/ArrayDist.v
theories/Model/Bijector.v
theories/Model/CatSlicing.v
theories/Model/Categorical.v
theories/Model/Clipped.v
theories/Model/Compose.v
theories/Model/Conversion.v
theories/Model/Coupling.v
theories/Model/Distribution.v
theories/Model/Dtypes.v
theories/Model/FixedDeterministic.v
theories/Model/FixedDiscrete.v
theories/Model/FloatBernoulli.v
theories/Model/FloatBij.v
theories/Model/FloatCatInfo.v
theories/Model/FloatCategorical.v
theories/Model/FloatCdf.v
theories/Model/FloatDist.v
theories/Model/FloatGumbelKl.v
theories/Model/FloatHMM.v
theories/Model/FloatKL.v
theories/Model/FloatLogStddev.v
theories/Model/FloatMoments.v
theories/Model/FloatPolicies.v
theories/Model/FloatQuantized.v
theories/Model/FloatReduce.v
theories/Model/FloatSample.v
theories/Model/FloatSplineInit.v
theories/Model/FloatTemperature.v
theories/Model/FloatTransformed.v
theories/Model/FloatViterbi.v
theories/Model/FromTfp.v
theories/Model/GammaFamily.v
theories/Model/HMM.v
theories/Model/Jaxpr.v
theories/Model/Jittable.v
theories/Model/Lambda.v
theories/Model/Linear.v
theories/Model/MathMore.v
theories/Model/MathUtils.v
theories/Model/MixSlicing.v
theories/Model/Mixture.v
theories/Model/MonteCarlo.v
theories/Model/Multinomial.v
theories/Model/Mvn.v
theories/Model/Quantized.v
theories/Model/RQS.v
theories/Model/SameAs.v
theories/Model/ScalarBij.v
theories/Model/ScalarDist.v
theories/Model/Slicing.v
theories/Model/StraightThrough.v
theories/Model/TfpCompatible.v
theories/Model/Transformed.v
theories/Model/VonMises.v
theories/Proofs/ArrayDist.v
theories/Proofs/Bijector.v
theories/Proofs/Block.v
theories/Proofs/BlockDiag.v
theories/Proofs/Blockwise.v
theories/Proofs/Categorical.v
theories/Proofs/CategoricalUniform.v
theories/Proofs/Compose.v
theories/Proofs/Coupling.v
theories/Proofs/CouplingJac.v
theories/Proofs/Density.v
theories/Proofs/Dirichlet.v
theories/Proofs/Distribution.v
theories/Proofs/FiniteLaw.v
theories/Proofs/FloatIEEE.v
theories/Proofs/FloatLib.v
theories/Proofs/FloatNear.v
theories/Proofs/FloatOrder.v
theories/Proofs/Flow.v
theories/Proofs/GammaFamily.v
theories/Proofs/GaussianN.v
theories/Proofs/Gibbs.v
theories/Proofs/Gumbel.v
theories/Proofs/GumbelGamma.v
theories/Proofs/HMM.v
theories/Proofs/Jacobian.v
theories/Proofs/JaxDtype.v
theories/Proofs/Jaxpr.v
theories/Proofs/JaxprPrims.v
theories/Proofs/Lambda.v
theories/Proofs/Laplace.v
theories/Proofs/Linear.v
theories/Proofs/LogDet.v
theories/Proofs/Logistic.v
theories/Proofs/LogisticVar.v
theories/Proofs/MathUtils.v
theories/Proofs/Mixture.v
theories/Proofs/Multinomial.v
theories/Proofs/Mvn.v
theories/Proofs/MvnKl.v
theories/Proofs/MvnPad.v
theories/Proofs/Quantized.v
theories/Proofs/RQS.v
theories/Proofs/RQSInit.v
theories/Proofs/SameAs.v
theories/Proofs/ScalarBij.v
theories/Proofs/SplitGen.v
theories/Proofs/SplitJac.v
theories/Proofs/Transformed.v
theories/Proofs/Univariate.v
theories/Proofs/Viterbi.v
theories/Proofs/VonMises.v
theories/Proofs/VonMisesCdf.v
theories/Proofs/VonMisesSeries.v
theories/Props/AdvIndex.v
theories/Props/ArrayDist.v
theories/Props/Auto.v
theories/Props/AutoChain.v
theories/Props/Bases.v
theories/Props/Bernoulli.v
theories/Props/Blockwise.v
theories/Props/CatSlicing.v
theories/Props/Categorical.v
theories/Props/CategoricalUniform.v
theories/Props/Clipped.v
theories/Props/ClippedBases.v
theories/Props/Combinators.v
theories/Props/Compose.v
theories/Props/ComposeBases.v
theories/Props/Continuous.v
theories/Props/Conversion.v
theories/Props/Coupling.v
theories/Props/CouplingJac.v
theories/Props/Dirichlet.v
theories/Props/Distribution.v
theories/Props/Dtypes.v
theories/Props/FixedDeterministic.v
theories/Props/FixedDiscrete.v
theories/Props/FloatAccuracy.v
theories/Props/FloatAffine.v
theories/Props/FloatBernoulli.v
theories/Props/FloatBij.v
theories/Props/FloatCatInfo.v
theories/Props/FloatCategorical.v
theories/Props/FloatCdf.v
theories/Props/FloatGumbelKl.v
theories/Props/FloatHMM.v
theories/Props/FloatKL.v
theories/Props/FloatKnots.v
theories/Props/FloatLogProb.v
theories/Props/FloatLogStddev.v
theories/Props/FloatMVN.v
theories/Props/FloatMixture.v
theories/Props/FloatMoments.v
theories/Props/FloatNormalize.v
theories/Props/FloatPolicies.v
theories/Props/FloatQuantized.v
theories/Props/FloatReduce.v
theories/Props/FloatSample.v
theories/Props/FloatSelect.v
theories/Props/FloatSigmoid.v
theories/Props/FloatSoftmax.v
theories/Props/FloatSpline.v
theories/Props/FloatSplineInverse.v
theories/Props/FloatTemperature.v
theories/Props/FloatTransformed.v
theories/Props/FloatTransformedTanh.v
theories/Props/FloatUniform.v
theories/Props/FloatViterbi.v
theories/Props/Flow.v
theories/Props/FlowSplit.v
theories/Props/FromTfp.v
theories/Props/GammaBeta.v
theories/Props/Gumbel.v
theories/Props/HMM.v
theories/Props/HMMSample.v
theories/Props/Jittable.v
theories/Props/Laplace.v
theories/Props/Linear.v
theories/Props/LogDet.v
theories/Props/Logistic.v
theories/Props/MathUtils.v
theories/Props/MixSlicing.v
theories/Props/MixedIndex.v
theories/Props/Mixture.v
theories/Props/MonteCarlo.v
theories/Props/MonteCarloAny.v
theories/Props/Multinomial.v
theories/Props/Mvn.v
theories/Props/MvnDiag.v
theories/Props/MvnInit.v
theories/Props/MvnKl.v
theories/Props/MvnSlice.v
theories/Props/Policies.v
theories/Props/Quantized.v
theories/Props/QuantizedBases.v
theories/Props/RQS.v
theories/Props/SameAs.v
theories/Props/Scalar.v
theories/Props/Slicing.v
theories/Props/StraightThrough.v
theories/Props/TfpCompatible.v
theories/Props/Transformed.v
theories/Props/TransformedJac.v
theories/Props/Uniform.v
theories/Props/VonMises.v
theories/Props/VonMisesCdf.v
theories/Props/VonMisesSample.v
theories/Spec/Accuracy.v
theories/Spec/AdvIndex.v
theories/Spec/ArrayDist.v
theories/Spec/BernInfo.v
theories/Spec/Bijector.v
theories/Spec/Blockwise.v
theories/Spec/CatInfo.v
theories/Spec/CatSlicing.v
theories/Spec/Categorical.v
theories/Spec/CategoricalUniform.v
theories/Spec/Coupling.v
theories/Spec/Density.v
theories/Spec/Distribution.v
theories/Spec/Dtypes.v
theories/Spec/Expectation.v
theories/Spec/FiniteLaw.v
theories/Spec/Flow.v
theories/Spec/GammaFamily.v
theories/Spec/Gumbel.v
theories/Spec/HMM.v
theories/Spec/Jacobian.v
theories/Spec/Jaxpr.v
theories/Spec/JaxprChain.v
theories/Spec/Jittable.v
theories/Spec/Lambda.v
theories/Spec/Layers.v
theories/Spec/Linear.v
theories/Spec/MixSlicing.v
theories/Spec/Mixture.v
theories/Spec/MonteCarlo.v
theories/Spec/Multinomial.v
theories/Spec/Mvn.v
theories/Spec/MvnDist.v
theories/Spec/MvnInit.v
theories/Spec/Near.v
theories/Spec/Product.v
theories/Spec/RQS.v
theories/Spec/Rounding.v
theories/Spec/SameAs.v
theories/Spec/Scalar.v
theories/Spec/Slicing.v
theories/Spec/Tails.v
theories/Spec/Transformed.v
theories/Spec/TransformedJac.v
theories/Spec/Univariate.v
theories/Spec/VonMises.v
