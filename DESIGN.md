# Formal model of efax in Rocq (Coq 8.16.1)

The source modelled is `/repo/efax/_src`. Nothing was executed: the model is a transcription of the
Python text, function by function; every definition cites file and lines.

## 1. Layers of the model (`rocq/theories/`)

| layer | files | content |
|---|---|---|
| scalars | `Base.v`, `XReal.v` | results with exceptions as values; extended reals `Fin r / PInf / NInf / NaN` with IEEE-style special values, so that 0/0, log 0, log(-1) are *values* and never silently total; complex numbers as pairs |
| arrays | `Tensor.v` (facts in `TensorFacts*.v`, `BroadcastFacts.v`) | numpy-like n-dimensional arrays (shape and row-major data), right-aligned broadcasting, slices, reductions, concatenation; failing operations return an error value |
| supports | `Support.v` (facts in `Support*.v`, `PlaneFacts.v`, `Clamp*.v`) | rings and supports of `parameter.py`: flattened, unflattened, clamp, adjust |
| objects | `Dist.v` | distribution objects: class, minimizer, parameter fields in declaration order, named sub-distributions; the table of all exported NP / EP / VP classes |
| generic code | `Iteration.v`, `Structure.v`, `Tools.v`, `Joint.v`, `Generate.v` | `iteration.py`, `structure.py` (Structure, Flattener, MaximumLikelihoodEstimator, generate_random), `tools.py`, `transform/joint.py`, `parametrization.py`, `natural_parametrization.py`, `expectation_parametrization.py`, `mixins/has_entropy.py` |
| array programs | `Expr.v`, `SpecFun.v`, `GammaFn.v`, `BesselFn.v`, ... | a deep embedding of jax.numpy expressions and its evaluator; the special functions |
| families | `Fam.v`, `Var.v`, `Conj.v`, `Sample.v`, `Fisher.v` | the methods of each distribution class, as array programs: log_normalizer and its JVP, to_exp, to_nat, carrier_measure, sufficient_statistics, expected_carrier_measure, the ExpToNat search, variance parametrizations, conjugate priors, samplers, Fisher information |
| specifications | `*Spec.v` | the vocabulary of the statements, independent of the programs |
| statements | `Prop*.v` | the property theorems, each `exact lemma`, with an `Example` meeting the hypotheses |

Exceptions are values: `result A := Ok a | Err e`.

Two semantic levels are used. The structural properties (C01-C18, C27, C33-C35, C39, C40) are proved
directly about the array programs. The analytic ones (C19-C32, C36-C38) go through a *pointwise value
theorem*: at a batch index where the parameters are finite and in their domain, every entry that a method
returns is the finite real number given by a closed formula (`FamR.v`, `FamVal.v`, `LeafVal.v`), and the
property is then proved about these formulas with Coquelicot. The domain (`nat_dom`, `exp_dom` in
`PointSpec.v`) is written down independently of the code.

## 2. What is idealised

* Floating point numbers are extended reals: no rounding, overflow or signed zero. `x/0` for `x<>0` is
  the infinity with the sign of `x`.
* `tjax`, `jax`, `tfp`, `optimistix` are external: `softplus`, `inverse_softplus`, `logit`, `expit`,
  `gammaln`, `digamma`, Bessel functions are their mathematical definitions; PRNG primitives are
  oracles; `jit`, `vmap`, pytree registration and dtype promotion between float widths are not modelled;
  automatic differentiation is the mathematical derivative except where efax installs its own rule.
* Solvers (`optimistix`) are oracles; C74 also models the bisection, idealised.

## 3. Plan per property

For each property in `properties.jsonl`: how it is modelled and proved.

* C01, C02, C12, C13, C15, C39, C40: structural induction over arbitrary finite distribution trees.
* C03, C05: induction over the post-order list of infos; the flat vector is the concatenation of the
  flattened parameters; key lemma: slicing a concatenation at the accumulated offset.
* C04, C06, C33, C34: per-ring real-analysis lemmas (softplus/logit bijections) lifted to arrays.
* C07, C08: induction over nested association lists (Python dicts are insertion-ordered).
* C09, C10, C11: induction over parameter lists; C11 is expected to be *refuted* (positional zip).
* C14: invariant over the traversal with a counter.
* C16, C17, C18: generic algebra of the dot product over trees.
* C19-C22: per family, over R with Coquelicot (derivatives, convexity), lifted to arrays of any shape.
* C23-C25: series (discrete families), improper integrals (one coordinate) and iterated improper integrals (vectors, the simplex, complex numbers) over the sample space; the Gamma, Beta and Gaussian integrals are proved in GammaInt.v from the definition of Gamma in GammaFn.v, moments by differentiating or shifting the normalisers; for the two matrix families the coordinates are integrated out one at a time by Schur complements (IntMat.v). VonMisesFisher: the surface integral over the unit sphere in hyperspherical angles (`sphere`, IntSpec.v); the integral of exp(v.x) is a modified Bessel function of |v| (SphereInt.v: one angle at a time, rotation invariance from Bessel's equation, Poisson's integral), means by differentiating it (IntSphere.v). Joint distributions: the iterated integral over the sample spaces of the leaves (`integral_joint`, JointIntSpec.v), by induction on the list of leaves (JointInt.v).
* C42: the sections of the flattened vector (TraceSpec.v) against the per-parameter sums, by induction over the leaves (FisherTrace.v).
* C43: Category.v models the methods; the probabilities against the density of the one-hot observations (MethodSpec.v, CategoryThms.v).
* C44: Kappa.v models arctan2 by cases on the signs; polar coordinates by the standard library's atan (KappaThms.v).
* C45: Moment.v models `variance`; the second moments under the density are those of C25 (MomentThms.v).
* C46: Jeffreys.v models `jeffreys_prior` (the determinant is the Leibniz/Laplace one); FlatLin.v shows that `unflatten` is linear in the flattened vector, FisherMat.v and FisherMat2.v that the Hessian is a sum of non-negative quadratic forms, and that a positive semidefinite matrix has a non-negative determinant.
* C47, C48: CovSpec.v names a linear function of the sufficient statistics; the cumulant generating function is the normalisation of the shifted distribution (Covar.v); moments by differentiating it at 0 under the integral sign (Moments.v), with a dominated convergence theorem for the integrals of C23 (DomConv.v, DomConv2.v).
* C49: LawSpec.v writes down, for each `jax.random` function used, the density its documentation states up to a constant; a change of variables per sampler carries it to the density of C23 (Law.v, Law2.v, LawThms.v), a Gamma mixture of Poisson laws for the negative binomial (Law3.v), and the four samplers that miss part of their space are refuted (Law4.v). Draws at different indices being independent is jax's concern: the theorem is about the law of one sample.
* C50: from the moments of C25, and for GammaVP the second moment by shifting the shape parameter (VarMean.v).
* C51: the unit vectors of the flattened parameters are directions in the sense of C48, and the entries of the Hessian (FisherMat2.v) are the covariances of Covar.v (FisherCov.v).
* C52: surjectivity of the mean maps (digamma, log minus digamma, Bessel ratio, the fixed point equation of the Dirichlet mean) by the intermediate value theorem on explicit brackets, uniqueness from the injectivity of C21, monotonicity of each gradient from C23-C26's facts (MeanFacts.v, MeanThms.v).
* C53: directional derivatives of the tensors the code computes along x + s v (GradSpec.v); the gradient of the log normalizer is C24; for the entropy, the divergence between p + s v and p is squeezed between 0 and a function with derivative 0 (GradFacts.v, GradThms.v). For the families whose to_nat searches there is no formula for the natural parameters: their continuity along the line follows from the strict convexity of the log normalizer and the compactness of a small box around the start (BoxFacts.v, SearchCont.v, SearchDir.v, GradSearch.v). The minimum is C18 with C19.
* C54: as C28, keeping the residual (ResidThms.v): it is the difference of the flattened parameters for the default search, the error of `mean_log` for Gamma, and bounds the error of the mean along its own direction for von Mises-Fisher; brackets from the monotonicity of C52 (BracketThms.v).
* C55: the loop of `examples/optimization.py` (Optim.v), with `grad` given by its specification (OptimSpec.v). The gradient is the difference of probabilities; each step contracts the distance to the target by a factor below 1 that is uniform on the starting interval (OptimFacts.v), so the norm tends to 0; the loss decreases because its second derivative is at most 1/4 (OptimThms.v).
* C56: TextSpec.v writes down the textbook densities and the relation of conventional to natural parameters given by the docstrings, without the model's vocabulary. The exponential-family value of pdf (DensVal.v) is
  rewritten into each (TextFacts.v, TextVec.v, TextMat.v); the matrix families need the determinants of inverses (DetInv.v).
* C57: Scipy.v models `scipy_replacement/*`: an array of objects is a function of the index, a generator an arbitrary state type. The loops over `np.ndindex` are `mapM` over all indices; induction over the list of indices (ScipyShaped.v).
* C58: the density of the complex normal classes is that of the multivariate normal of (real, imaginary part). BlockDet.v: the determinant and inverse of the real 2n x 2n block matrix of a Hermitian n x n matrix, by induction with Schur complements; with it the density is the
  textbook density of TextSpec.v, which C56 relates to `NP.pdf` (ScipyFacts.v, ScipyThms.v, ScipyAgree.v).
* C59: rows of probabilities; the recursion between `gamma` and the beta parameters (ScipyRest.v, ScipyDir.v).
* C60: the draws written to an array of the wrong shape or dtype; concrete parameters for the constructors (ScipyRest.v, ScipyRvs.v).
* C61: the density of `from_mc` with the mean and covariance computed from the expectation parameters is shown to be the textbook density of C56, matrix by matrix (ScipyMvFacts.v; diagonal matrices by induction on the dimension); von Mises by cos(x - loc), geometric by the shift of one (ScipyVm.v).
* C62: the value of entropy() as a real expression (C24: minus the dot product of the two parametrizations plus the log normalizer minus the expected carrier measure) is computed per family and compared with the textbook entropy of EntSpec.v in the parameters of C56 (EntFacts.v). Matrix families: trace of S times its inverse is n; generalized Dirichlet: a telescoping sum. For scipy: two normal densities that agree everywhere have the same maximum, hence covariances with equal determinants (ScipyEnt.v).
* C63: C19 gives kl_divergence as a Bregman divergence of log-normalizers. Per family (DivFacts.v) that expression is computed in the usual parameters of C56 and compared with the textbook divergence of DivSpec.v; matrix families use the trace and determinant lemmas of C62. DivThms.v lifts it to trees by C23.
* C64: the value of to_exp at a batch index (C21) is computed per family in the usual parameters of C56 and compared with the moments of ParSpec.v (ParFacts.v); to_nat follows because its result converts back to the given expectation parameters.
* C65: Combine.v models parameter_map with jnp.add and with multiplication by a real; the parameters of the result are those of p plus h times those of q (h = 1 with q, h = c - 1 with p itself), so lp_comb gives the log-density, and C23 the constant; closure of the domains family by family (`cone`, CombThms.v).
* C66: ConjBayes.v: the prior's arguments are evaluated at any expectation parameters the code does not divide by (so that the statistics of one observation, on the boundary of the domain, are covered); family by family, the pairing of these arguments with the statistics of the prior at the observation of P is the log-likelihood of T under P (conj_alg); the sum of natural parameters is C65's; the pooled prior by the same closed forms. Exponential is refuted by x = 1, means 1 and 2 (ln 2 <> 3/4).
* C67: EstThms.v: both estimators are read off the leaves (C12's structures; conversion keeps fixed parameters); domain_support is compared with the tree by the correspondence of infos and nodes; the variance densities from C56 at the converted point.
* C68: HistThms.v: induction on the list of observations with C66 as the step (the invariant is "in-domain, of the prior's class and dimensions"); order: the posterior's parameters are the initial ones plus the sum of the evidence, invariant under Permutation.
* C69: ScipyJoin.v: C16/C17 on one side and C57 on the other, exp of a sum of log densities (which may be -inf) as the product, permutation of the keys; the defaults of ScipyComplexNormal by reduction to all arguments given.
* C70: KlTri.v: the divergence and the inner products as sums over the leaves (KlPos.t_kl_value, DotLaws.dot_value), where the divergence of a leaf is the Bregman divergence of its log-normalizer; the laws are then algebra, with C19 for the inequality.
* C71: MixThms.v: the domains are convex family by family (MatHess.v for the matrix ones); the convexity gap of a leaf is (1 - s) B(m, p) + s B(m, q) with B the Bregman divergence of C19, summed over the leaves.
* C72: CentThms.v: the three-point law (C70) for each p_k, summed; bilinearity of parameter_dot_product (C10) for the average computed by parameter_map. The average of n distributions is stated through inner products (CentSpec.v).
* C73: ProjThms.v, MaxEnt.v: log_pdf is linear in the sufficient statistics, so linearity of the iterated integral (DomConv2.v) over an arbitrary integrand P turns the moments into the closed form of kl_divergence and entropy; Gibbs' inequality from exp x >= 1 + x and monotonicity of the integral.
* C74: Bisect.v models the bisection of optimistix.py (interval of one to each side of the start, doubled until the gradient has opposite signs, then halved; optimistix itself is external, so the loop idealises it). BisectThms.v: induction on the doublings and halvings; the gradient is increasing (C52_increasing) and continuous (GammaFn.v, BesselFn.v), so a short bracket has a small residual, and C54 turns the residual into the distance of the expectation parameters.
* C75: Initial.v models initial_search_parameters and its overrides as array expressions; InitialThms.v computes their values (Val.v), shows them positive before inverse_softplus, and puts them into C74. Batches (InitBatch.v): C27 (each method acts on each batch element alone) and the largest of finitely many step counts. Logarithmic (LogBisect.v): its gradient is constant below log-probability -50, so the loops are compared with those of x - r, which have the same signs at every point. Choice.v models the solver chosen by __post_init__. Joint distributions (InitJoint.v): the conversions act on each leaf alone (JointThms.v). The round trip from natural parameters (NatBisect.v): q is the image of the root, the bisection ends near the root, and search_to_natural is Lipschitz in its one search parameter.
* C41: linearity of the same integral applied to the log-likelihood ratio, with C23 and C25 (JointKl.v).
* C26: from C19 by algebra.
* C27: each array operation commutes with batch indexing.
* C28: solver is an oracle; pure algebra over flatten injectivity.
* C29, C30: Hessians by Coquelicot; C29 is expected to be *refuted*.
* C31, C36, C37, C38: per family algebra over R.
* C32, C35: draws are universally quantified oracles; several expected *refutations*.

Theorems whose English claim is false of the code are stated as `..._refuted` with a witness.

## 4. Trusted base

* Coq 8.16.1 kernel.
* Axioms listed by `Print Assumptions`: only those of the Coq standard library's real numbers
  (`ClassicalDedekindReals.sig_forall_dec`, `ClassicalDedekindReals.sig_not_dec`,
  `FunctionalExtensionality.functional_extensionality_dep`) and `Classical_Prop.classic`
  (the exact list per theorem is in `AXIOMS.md`, generated by `tools/audit.py` from `Print Assumptions`).
* The faithfulness of the transcription.
* These external functions are modelled by their documentation: `tjax.outer_product` (x_i conj(y_j)),
  `matrix_vector_mul`, `matrix_dot_product` (sum of products), `softplus` and its inverse (exact), `jax.vjp`
  (the pairing is the real part of the bilinear product), `jax.jvp` / `jacfwd` / `grad` (mathematical
  derivatives, stated as Coquelicot derivatives of the evaluated program), `jax.random` (every draw lies in
  the documented support of its distribution), `jax.scipy.special` (mathematical definitions; existence and
  the facts used are proved in `GammaFn.v`, `TrigammaFn.v`, `BesselFn*.v`), `optimistix.root_find` and the
  minimizers (an arbitrary function).

## 5. Modelled and not modelled

Modelled, with citations in each definition: `parameter.py`, `iteration.py`, `structure.py`, `tools.py`,
`parametrization.py`, `natural_parametrization.py`, `expectation_parametrization.py`,
`mixins/has_entropy.py`, `mixins/exp_to_nat/*`, `mixins/transformed_parametrization.py`,
`transform/joint.py`, `interfaces/conjugate_prior.py`, and every class in `distributions/`
(all public methods listed in the table above), the loop of `examples/optimization.py`,
and `scipy_replacement/*` (Scipy.v, ScipyMv.v; of `ScipyGeometric` only `pmf`, its `rvs` and `entropy` only call scipy).

Not modelled: the conversion of `jit`, `vmap` and pytree registration, dtypes and
rounding, and the iteration order of the solvers.

## 6. Findings

Behaviours of the code that contradict the English property; each one is a theorem with suffix `_refuted`
(or is stated in the note of its property).

* C01: `assemble`, `__getitem__` and `parameter_map` drop a custom minimizer; an empty joint cannot be reassembled.
* C07: `flatten_mapping` drops empty sub-mappings.
* C11: two joint distributions with the same keys in a different order are paired by position.
* C14: `general_sample`-style methods silently omit leaves that are not samplable.
* C19: `kl_divergence` accepts distributions with different fixed parameters, and can then be negative.
* C21, C22: `LogarithmicNP.to_exp` is exact only between -50 and -1e-7, and `LogarithmicEP.to_nat` returns +inf at chi = 1;
  the von Mises-Fisher log normalizer at 0 is NaN, so a mixture of two opposite natural parameters leaves the domain (C71_von_mises_fisher_refuted); an unflattened Hermitian or second moment parameter can be outside its domain.
* C29: `fisher_information_diagonal` unflattens unmapped values as if they were plane coordinates, and `jnp.diagonal` mixes batch axes. C42: `fisher_information_trace` inherits this: the trace of an exponential distribution comes back negative. For a complex parameter the information of the imaginary direction comes back as the imaginary part of the "trace" (C42_complex_refuted).
* C31: the conjugate prior of the exponential distribution is not conjugate (it uses the reversed divergence); the generalized
  prior of the multinomial distribution raises on inputs of the documented shape; on arrays with one more entry, which it accepts,
  it has one dimension more than the observation, sticks centred at the probabilities rather than at the remaining fractions, and,
  for equal counts, a negative `gamma`, outside its declared support.
* C32: `GeometricEP.sample` never returns 0 and returns NaN for means below 1; `MultinomialNP.sample` never returns the last
  category; `ComplexUnitNormalEP.sample` and `ComplexMultivariateUnitNormalEP.sample` use one key for both parts.
* C33, C34: `ComplexField` maps 0 to NaN; `SimplexSupport.clamp` can return a point whose sum is at least 1; `clamp` is the
  identity for complex, integral and circular supports; the real round trip holds only strictly inside the adjusted interval.
* C25: in the range where `LogarithmicNP.to_exp` clips, the expected statistic is finite and `to_exp` returns +inf.
* C35: `IntegralRing.generate` multiplies by ten and can violate its bounds; `CircularBoundedSupport.generate` leaves the disk;
  simplex and square supports raise; the variance of a generated diagonal normal VP can be negative.
* C46: the flattened parameters of `ComplexCircularlySymmetricNormalNP` include the imaginary parts of the diagonal of its Hermitian
  matrix, so that its `jeffreys_prior` is 0 in one dimension and NaN at the identity precision in two.
* C49: for every parameter, samples of `Multinomial` follow its law conditional on the last category not being drawn; samples of
  `Geometric` follow the law on 1, 2, ... with the right mean, not the density (on 0, 1, ...) of `pdf`; samples of the complex unit
  normals have perfectly correlated parts, each of unit variance instead of 1/2.
* C52: the declared supports of `BetaEP`, `DirichletEP` and `GeneralizedDirichletEP` contain parameters of no distribution, for which
  `to_nat` has no root to find; `LogarithmicEP` has none above the mean at log-probability -2^-23.
* C56: docstrings that do not describe the code. `GeometricNP` and `NegativeBinomialNP` exchange the roles of success and failure (`C56_geometric_docstring_refuted`); the parameters
  `ComplexNormalNP` documents as `-1/Var(x)` and `1/PVar(x)` are entries of the inverse of the augmented covariance matrix (`C56_complex_normal_docstring_refuted`); `ComplexCircularlySymmetricNormalNP`'s
  `negative_precision` is the complex conjugate (transpose) of `-1/Var(x)` for `Var(x) = E(x x^H)`.
* C59: `ScipyDirichlet(alpha).pdf(x)` with a vector alpha and x with three or more axes looks for the components along the first axis and raises (`C59_dirichlet_axes_refuted`).
* C60: `ScipyComplexNormal` and `ScipyComplexMultivariateNormal` given only real arrays have a real dtype, so `rvs` drops every imaginary part (`C60_real_parameters_refuted`). `as_multivariate_normal()` keeps the `rvs_shape` of the
  complex distribution, so that its `rvs` always raises (`C60_as_multivariate_refuted`, `C60_as_multivariate_vector_refuted`). The multivariate constructor does not compare pseudo-variance and variance: it accepts a pseudo-variance
  whose covariance matrix is not positive semidefinite (`C60_accepts_incompatible_refuted`). The univariate one accepts |pseudo-variance| = variance, where `pdf` raises (`C60_degenerate_refuted`).
* C66: the Gamma prior of ExponentialEP does not update by Bayes' rule: combining the priors of data divides by the observations instead of summing them (same cause as C31's finding).
* C36, C39: `GammaVP.shape` drops a batch axis.

## 7. Coverage by family

All families are covered by the conversion, derivative, divergence, likelihood and Fisher-information theorems; determinants,
inverses and definiteness of the matrix parameters are proved by induction on the Schur complement (MatFacts.v, MatVal.v, MatDeriv.v,
MatHess.v). The integration theorems (C23-C25) cover every family. For every
theorem with the suffix `_partial` the comment above it says what is missing.
