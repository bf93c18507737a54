#!/usr/bin/env python3
"""Generate ../properties.jsonl from the table below (one property per entry)."""
import json, pathlib

P = []


def p(id_, title, statement, quantifier, why, anchors):
    P.append(dict(id=id_, title=title, statement=statement, quantifier=quantifier,
                  why_tests_cant=why, anchors=anchors))


S = 'efax/_src/'
D = S + 'distributions/'

p('C01', 'Disassembling and reassembling a distribution is the identity',
  'Structure.create(d).assemble(parameters(d)) returns a distribution equal to d: same class at '
  'every node, same sub-distribution names, every parameter array identical.',
  'every distribution object, including joint distributions nested to any depth with any names',
  'Nesting depth, names and shapes are unbounded; a test fixes one tree.',
  [S + 'structure.py: Structure.create, Structure.assemble', S + 'iteration.py: parameters'])
p('C02', 'parameters() lists every parameter exactly once, and fixed/variable split is a partition',
  'The keys returned by parameters(d) are pairwise different; following a key as an attribute/'
  'sub-distribution path from d leads to exactly the associated value; every parameter field '
  'reachable in d is listed; fixed=True and fixed=False results are disjoint and their union is '
  'the unfiltered result.',
  'every distribution tree, every value of the fixed argument',
  'Key collisions depend on name choices in an unbounded family of trees.',
  [S + 'iteration.py: parameters'])
p('C03', 'Flatten/unflatten round trip without mapping is exact',
  'If (f, v) = Flattener.flatten(d, map_to_plane=False) then f.unflatten(v) equals d.',
  'every well-formed distribution tree, batch shape, dimension, and every parameter value '
  '(no range restriction; symmetric/Hermitian matrix parameters must be symmetric/Hermitian)',
  'The offsets of the slices depend on all dimensions and all supports at once.',
  [S + 'structure.py: Flattener.flatten, Flattener.unflatten, _make_flat', S + 'parameter.py'])
p('C04', 'Flatten/unflatten round trip with mapping to the plane',
  'If (f, v) = Flattener.flatten(d) (map_to_plane=True) then v is finite and f.unflatten(v) equals '
  'd, whenever every parameter lies strictly inside its (open) support.',
  'every well-formed distribution tree and every in-support parameter value',
  'The maps are real functions over infinite ranges; only finitely many points can be tested.',
  [S + 'structure.py: Flattener', S + 'parameter.py: RealField, ComplexField, CircularBoundedSupport'])
p('C05', 'Flattened length is determined by the structure; unflatten rejects every other length',
  'flatten produces a last axis whose length is the sum of num_elements(dimensions) over all '
  'variable parameters; unflatten raises ValueError("Incompatible array") for every array whose '
  'last axis has any other length, and never silently drops or re-uses entries.',
  'every flattener, every input array length',
  'All lengths, all trees.',
  [S + 'structure.py: Flattener.unflatten, Flattener.flatten'])
p('C06', 'unflatten from the plane always produces in-support parameters',
  'With mapped_to_plane=True, unflattening any finite real vector gives real-field parameters '
  'strictly inside the declared interval, and re-flattening gives back the same vector '
  '(plane and support are in bijection).',
  'every finite vector, every RealField interval',
  'Infinite ranges.',
  [S + 'parameter.py: RealField.flattened, RealField.unflattened'])
p('C07', 'flatten_mapping and unflatten_mapping are mutually inverse',
  'unflatten_mapping(flatten_mapping(m)) == m for every nested mapping without empty '
  'sub-mappings, and flatten_mapping(unflatten_mapping(f)) == f for every flat mapping whose paths '
  'are non-empty and prefix-free.',
  'every nested mapping of any depth; every flat mapping',
  'Unbounded nesting and key choices.',
  [S + 'iteration.py: flatten_mapping, unflatten_mapping'])
p('C08', 'join_mappings transposes a family of mappings',
  'join_mappings(**fs)[k][n] is defined exactly when k is a key of fs[n], and then equals fs[n][k]; '
  'keys appear in first-appearance order.',
  'every finite family of finite mappings',
  'All key sets and overlaps.',
  [S + 'tools.py: join_mappings'])
p('C09', 'parameter_map acts on exactly the variable parameters',
  'parameter_map(op, x, *ys) has the structure and fixed parameters of x; each variable parameter '
  'is op of the corresponding variable parameters; parameter_map(id) is the identity and '
  'parameter_map distributes over composition; a different number of variable parameters raises.',
  'every operation, tree and argument list',
  'Quantifies over all functions and trees.',
  [S + 'tools.py: parameter_map'])
p('C10', 'parameter_dot_product is bilinear and sums over all variable parameters',
  'parameter_dot_product(x, y) is the sum over variable parameters of the real part of the '
  'elementwise product summed over the support axes; it is additive and homogeneous in each '
  'argument and ignores fixed parameters.',
  'every pair of structurally matching distributions with finite parameters',
  'Infinite value range and unbounded trees.',
  [S + 'tools.py: parameter_dot_product, _parameter_dot_product'])
p('C11', 'Operations on two joint distributions pair sub-distributions by name',
  'kl_divergence, parameter_dot_product and parameter_map of two joint distributions with the same '
  'named sub-distributions do not depend on the insertion order of the names.',
  'every pair of joint distributions that are equal up to the order of their names',
  'A test uses one order; mis-pairing is silent when supports agree.',
  [S + 'tools.py: parameter_dot_product, parameter_map', S + 'structure.py: Structure.reinterpret'])
p('C12', 'Structure conversion commutes with value conversion',
  'Structure.create(d).to_exp() equals Structure.create(d.to_exp()) and to_exp/to_nat on structures '
  'are mutually inverse.',
  'every natural (resp. expectation) distribution tree',
  'All trees and classes.',
  [S + 'structure.py: Structure.to_nat, Structure.to_exp', S + 'transform/joint.py'])
p('C13', 'reinterpret copies values into the target structure',
  'Structure.create(p).reinterpret(q) has the structure of p and the parameter values of q in '
  'order; reinterpreting p with its own structure is the identity; a different parameter count '
  'raises.',
  'every pair of trees',
  'All trees, including nested joints where traversal orders could differ.',
  [S + 'structure.py: Structure.reinterpret'])
p('C14', 'Joint sampling gives every leaf its own key',
  'general_sample splits the key into as many keys as there are samplable leaves and passes each '
  'leaf a different one; the sample is a nested dict with exactly the tree shape of the samplable '
  'leaves.',
  'every joint tree and every key',
  'Key reuse shows only as statistical correlation and only for particular trees.',
  [S + 'transform/joint.py: JointDistribution.general_sample, general_method'])
p('C15', 'as_dict, flat_dict_of_parameters and flat_dict_of_observations list every leaf under its path',
  'flat_dict_of_parameters(d) maps exactly the leaf paths of d to the leaf objects. flat_dict_of_observations(x) maps exactly the paths of the arrays in the nested mapping x to them, and the empty path to x if x is an array.',
  'every distribution tree, every nested mapping of observations',
  'Unbounded trees.',
  [S + 'iteration.py: flat_dict_of_parameters, flat_dict_of_observations', S + 'transform/joint.py: as_dict'])
p('C16', 'log_pdf of a joint distribution is the sum of the leaf log_pdfs',
  'For a joint natural distribution and an observation dict with the same tree shape, log_pdf '
  'equals the sum over leaves of leaf.log_pdf(observation at that path), independently of the '
  'order of the observation dict.',
  'every joint tree, every observation, every key order',
  'Unbounded trees and orders.',
  [S + 'natural_parametrization.py: log_pdf', S + 'structure.py: MaximumLikelihoodEstimator',
   S + 'transform/joint.py: log_normalizer, carrier_measure'])
p('C17', 'Log-normalizer, KL divergence, cross entropy and entropy of a joint are sums',
  'Each of these quantities of a joint distribution equals the sum of the same quantity over its '
  'leaves.',
  'every joint tree and parameter values',
  'Unbounded trees, all values.',
  [S + 'transform/joint.py', S + 'expectation_parametrization.py: kl_divergence',
   S + 'mixins/has_entropy.py'])
p('C18', 'KL divergence equals cross entropy minus entropy, and vanishes on the diagonal',
  'p.kl_divergence(q) = p.cross_entropy(q) - p.entropy() and p.kl_divergence(p) = 0, whenever the '
  'values are finite.',
  'every distribution pair of the same structure (simple or joint)',
  'Real identity over all parameter values.',
  [S + 'expectation_parametrization.py: kl_divergence', S + 'mixins/has_entropy.py'])
p('C19', 'KL divergence is non-negative and zero only for equal distributions',
  'For in-support parameters p.kl_divergence(q) >= 0, with equality iff the natural parameters are '
  'equal.',
  'every pair of in-support parameters of a family, every batch shape',
  'An inequality over a continuum.',
  [S + 'expectation_parametrization.py: kl_divergence', D])
p('C20', 'The custom JVP of log_normalizer is its true derivative',
  'For every tangent direction the derivative of log_normalizer equals '
  'parameter_dot_product(tangent, to_exp()); equivalently to_exp() is the gradient of '
  'log_normalizer.',
  'every in-support natural parameter, every tangent, every batch shape, per family',
  'JAX trusts the custom rule: no numeric differentiation happens at run time; derivative over a '
  'continuum.',
  [S + 'natural_parametrization.py: log_normalizer_jvp', D])
p('C21', 'to_exp and to_nat are mutually inverse (closed-form families)',
  'd.to_exp().to_nat() = d for in-support natural parameters and p.to_nat().to_exp() = p for '
  'attainable expectation parameters.',
  'every in-support parameter value and batch shape, per family',
  'Continuum of values.',
  [D])
p('C22', 'Conversions stay inside the supports and are finite',
  'to_exp of in-support natural parameters gives finite in-support expectation parameters, and '
  'conversely for to_nat; log_normalizer is finite.',
  'every in-support parameter value',
  'Continuum of values; failure shows at boundaries only.',
  [D])
p('C23', 'pdf is a probability mass function / density',
  'pdf(x) >= 0 and pdf sums (integrates) to one over the domain.',
  'every in-support natural parameter',
  'Infinite sums/integrals cannot be executed.',
  [S + 'natural_parametrization.py: pdf, log_pdf', D])
p('C24', 'entropy is minus the expected log-pdf; expected_carrier_measure is the expected carrier',
  'entropy() = -E[log_pdf(X)] and expected_carrier_measure() = E[carrier_measure(X)] for X '
  'distributed as pdf.',
  'every in-support parameter',
  'Infinite sums/integrals.',
  [S + 'mixins/has_entropy.py', D])
p('C25', 'Expectation parameters are the expected sufficient statistics',
  'to_exp() = E[sufficient_statistics(X)] for X distributed as pdf.',
  'every in-support parameter',
  'Infinite sums/integrals.',
  [D])
p('C26', 'Averaging sufficient statistics gives the maximum-likelihood distribution',
  'For any finite data set whose mean sufficient statistics are attainable, the distribution with '
  'those expectation parameters maximises the total log_pdf of the data over all natural '
  'parameters.',
  'every data set of any size, every competing parameter',
  'Optimality over a continuum.',
  [S + 'structure.py: MaximumLikelihoodEstimator', S + 'tools.py: parameter_mean'])
p('C27', 'Batch elements do not interact',
  'For every batch index i, f(d)[i] = f(d[i]) for log_normalizer, to_exp, to_nat, carrier_measure, '
  'log_pdf, entropy and kl_divergence.',
  'every batch shape of any rank and every index',
  'Unbounded ranks/shapes; axis mistakes show only at particular shapes.',
  [D, S + 'parametrization.py: __getitem__'])
p('C28', 'Search-based to_nat is correct whenever the solver returns a root',
  'For families using ExpToNat, if the solver returns s with search_gradient(s) = 0 then '
  'to_exp(search_to_natural(s)) equals the original expectation parameters.',
  'every expectation parameter and every solver result',
  'Quantifies over solver behaviours.',
  [S + 'mixins/exp_to_nat/exp_to_nat.py'])
p('C29', 'fisher_information_diagonal returns the diagonal of the Fisher information matrix',
  'The returned object holds, for every variable parameter, the corresponding diagonal entry of '
  'the Hessian of log_normalizer.',
  'every natural distribution and batch shape',
  'Continuum of values; no executable oracle.',
  [S + 'natural_parametrization.py: fisher_information_diagonal, fisher_information_trace'])
p('C30', 'apply_fisher_information multiplies by the Hessian of log_normalizer',
  'apply_fisher_information(v) returns (to_exp(), J^T v) and J, the Jacobian of to_exp, is the '
  'symmetric positive semidefinite Hessian of log_normalizer.',
  'every in-support parameter and vector',
  'Continuum.',
  [S + 'natural_parametrization.py: apply_fisher_information, _fisher_information_matrix'])
p('C31', 'Conjugate priors are conjugate',
  'p.conjugate_prior_distribution(n) has log density at the observation of any p\' equal, up to a '
  'constant independent of p\', to n times the expected log-likelihood of p under p\'; '
  'its density is maximal at p.conjugate_prior_observation().',
  'every in-support p, p\' and n',
  'Continuum.',
  [S + 'interfaces/conjugate_prior.py', D])
p('C32', 'Samples lie in the domain and can reach all of it',
  'sample(key, shape) has shape shape + d.shape + event shape, every sample lies in the domain '
  'support, and every domain point with positive pmf can be produced.',
  'every key, shape and in-support parameter',
  'All keys; reachability cannot be observed by sampling.',
  [D + '*: sample'])
p('C33', 'Every support round-trips single parameters',
  'support.unflattened(support.flattened(x, map_to_plane=m), dimensions, map_from_plane=m) = x and '
  'flattened(x) has num_elements(dimensions) entries, for every support kind.',
  'every support kind, dimension, batch shape and in-support value',
  'All dimensions (triangular numbers) and values.',
  [S + 'parameter.py'])
p('C34', 'clamp produces in-support values and fixes interior ones',
  'support.clamp(x) lies inside the support for every finite x and equals x for x already inside '
  '(by at least eps).',
  'every finite array',
  'Continuum.',
  [S + 'parameter.py: clamp'])
p('C35', 'generate produces in-support values',
  'support.generate(rng, shape, dimensions) and Structure.generate_random(rng, shape) produce '
  'values of the right shape inside the support, whatever the generator draws.',
  'every sequence of generator outputs',
  'All generator outputs.',
  [S + 'parameter.py: generate', S + 'structure.py: generate_random'])
p('C36', 'Variance parametrizations agree with the natural/expectation ones',
  'NormalVP/GammaVP/MultivariateDiagonalNormalVP/MultivariateNormalVP: to_exp().to_nat() equals '
  'to_nat(), to_variance_parametrization inverts them, and shape is the batch shape.',
  'every in-support value',
  'Continuum.',
  [D + 'normal/normal.py: NormalVP', D + 'gamma.py: GammaVP',
   D + 'multivariate_normal/diagonal.py', D + 'multivariate_normal/arbitrary.py'])
p('C37', 'Transformed families satisfy the change-of-variables formula',
  'For Rayleigh, Weibull, Chi and ChiSquare: pdf(x) = base.pdf(g(x)) |g\'(x)| where g is the '
  'documented transformation to the base family.',
  'every in-support parameter and domain point',
  'Continuum.',
  [S + 'mixins/transformed_parametrization.py', D + 'rayleigh.py', D + 'weibull.py', D + 'chi.py',
   D + 'chi_square.py'])
p('C38', 'Special cases agree',
  'log_pdf of UnitNormal = Normal with variance one; Geometric = NegativeBinomial(1); Multinomial '
  'in one dimension = Bernoulli; Exponential = Gamma of shape one; Beta = two-category Dirichlet; '
  'Isotropic/unit/fixed-variance = diagonal normal.',
  'every parameter and observation',
  'Continuum.',
  [D])
p('C39', 'Indexing a distribution indexes every parameter',
  'd[i] has the structure of d and each parameter indexed by i, its shape is d.shape[i:], and '
  'd[i][j] = d[i, j].',
  'every tree, batch shape and index',
  'Unbounded shapes.',
  [S + 'parametrization.py: Distribution.__getitem__'])
p('C40', 'Conversions and maps never change fixed parameters',
  'to_exp, to_nat, sufficient_statistics, unflatten and parameter_map keep every fixed parameter '
  'unchanged.',
  'every distribution with fixed parameters',
  'All values.',
  [D + 'weibull.py', D + 'negative_binomial.py', D + 'multivariate_normal/fixed_variance.py'])
p('C41', 'kl_divergence and cross_entropy are expectations',
  'p.kl_divergence(q) is the expected value under pdf of p of log_pdf of p minus log_pdf of q, and cross_entropy '
  'of p to q is the expected value of minus log_pdf of q, for single and joint distributions.',
  'every pair of distributions of the same structure with the same fixed parameters, every parameter value',
  'Infinite sums and integrals over the sample space.',
  [S + 'mixins/has_entropy.py: cross_entropy', S + 'expectation_parametrization.py: kl_divergence',
   S + 'natural_parametrization.py: kl_divergence', S + 'transform/joint.py'])
p('C42', 'fisher_information_trace sums the diagonal of the Fisher information per parameter',
  'Each variable parameter of fisher_information_trace() is a scalar: the sum of the diagonal entries of the Fisher information '
  'that belong to that parameter; fixed parameters are kept.',
  'every distribution, every number of dimensions',
  'All sizes and structures.',
  [S + 'natural_parametrization.py: fisher_information_trace'])
p('C43', 'nat_to_probability and nat_to_surprisal describe every category',
  'nat_to_probability() has one entry for each category, the last one included: they are positive, sum to one, and each is the '
  'pdf of the observation of that category; nat_to_surprisal() is minus the log_pdf of it.',
  'every Bernoulli and multinomial distribution, every number of categories and parameter value',
  'All sizes and real values.',
  [D + 'bernoulli.py: nat_to_probability, nat_to_surprisal', D + 'multinomial.py: nat_to_probability, nat_to_surprisal'])
p('C44', 'kappa and to_kappa_angle are the polar coordinates of a von Mises-Fisher distribution',
  'kappa() is the norm of the natural parameter; on the circle to_kappa_angle() returns its polar coordinates with the angle in '
  '(-pi, pi]; in any other dimension it raises ValueError.',
  'every von Mises-Fisher distribution, the uniform one included, every dimension',
  'All real values.',
  [D + 'von_mises.py: kappa, to_kappa_angle'])
p('C45', 'variance() is the expected squared deviation from the mean',
  'variance() of the expectation parametrization of a normal distribution is the integral over the sample space of the squared '
  'deviation from the mean times the pdf: per coordinate (diagonal), the whole covariance matrix (multivariate) or averaged over '
  'the coordinates (isotropic).',
  'every scalar, diagonal, isotropic and multivariate normal distribution, every dimension',
  'Integrals over the sample space for all real parameters.',
  [D + 'normal/normal.py: variance', D + 'multivariate_normal/diagonal.py: variance', D + 'multivariate_normal/isotropic.py: variance',
   D + 'multivariate_normal/arbitrary.py: variance'])

p('C46', 'The Fisher information matrix is positive semidefinite and jeffreys_prior is the root of its determinant',
  'The Fisher information matrix, the Hessian of the log-normalizer with respect to the flattened natural parameters, exists, is '
  'symmetric and positive semidefinite at every element of the batch, and jeffreys_prior returns the (real, non-negative) square root '
  'of its determinant.',
  'every distribution object and joint distribution with natural parameters in the domain, every batch shape and dimension',
  'Second derivatives and all quadratic forms at every real parameter.',
  ['efax/_src/natural_parametrization.py: jeffreys_prior, _fisher_information_matrix, _flat_log_normalizer'])

p('C47', 'log_normalizer is the cumulant generating function of the sufficient statistics',
  'If q and q + s v are both distributions, the expected value under q of exp(s <v, T(x)>) is '
  'exp((q + s v).log_normalizer() - q.log_normalizer()), where T(x) are the sufficient statistics that maximum likelihood estimation '
  'computes and <,> is parameter_dot_product; and q + s v is a distribution for all small enough s.',
  'every distribution and joint distribution with parameters in the domain, every batch shape, every direction v of the same structure, every real s',
  'Integrals over unbounded sample spaces for all real parameters.',
  [S + 'natural_parametrization.py: log_normalizer, pdf', S + 'structure.py: MaximumLikelihoodEstimator.sufficient_statistics', S + 'tools.py: parameter_dot_product'])

p('C48', 'The Fisher information is the covariance of the sufficient statistics',
  'The expected value under q of <u, T(x)> is <u, q.to_exp()>, and the covariance under q of <u, T(x)> and <v, T(x)> is <u, J v>, '
  'J being the Jacobian of to_exp (the Fisher information of the natural parameters); the first two derivatives of log_normalizer '
  'along v are the mean and variance of <v, T(x)>.',
  'every distribution and joint distribution with parameters in the domain (for to_exp of the logarithmic distribution: inside the interval to which it clips), every batch shape, all pairs of directions u and v',
  'Second moments are integrals over unbounded sample spaces, for all real parameters.',
  [S + 'natural_parametrization.py: log_normalizer, _fisher_information_matrix', S + 'structure.py: MaximumLikelihoodEstimator.sufficient_statistics', D])

p('C49', 'Samples follow the density of their distribution',
  'sample(key, shape) of q is distributed according to pdf: given that every draw of jax.random follows the distribution its documentation '
  'states for the arguments it is given, the expected value of every function of a sample of q is its expected value under the density of q.',
  'every sampler of every class in natural, expectation or variance parameters, every batch shape and index, every requested shape, all parameters in the domain, every function with an expected value under the density',
  'A test compares finitely many moments of finitely many samples at a few parameters, within a tolerance.',
  [D + '*: sample', S + 'interfaces/samplable.py: Samplable.sample'])

p('C50', 'Variance parameters are the mean and variance of the distribution',
  'The mean and variance parameters of a variance parametrization are the expected value and the variance (the covariance matrix, '
  'for the multivariate normal distribution) of an observation under the density of the distribution.',
  'NormalVP, GammaVP, MultivariateDiagonalNormalVP and MultivariateNormalVP, every batch shape and index, every number of dimensions, all parameters in the domain',
  'Moments are integrals over unbounded sample spaces, for all real parameters.',
  [D + 'normal/normal.py: NormalVP', D + 'gamma.py: GammaVP', D + 'multivariate_normal/diagonal.py: MultivariateDiagonalNormalVP', D + 'multivariate_normal/arbitrary.py: MultivariateNormalVP'])

p('C51', 'The Fisher information matrix is the covariance matrix of the sufficient statistics',
  'Entry [a, c] of the Fisher information matrix (the second derivative of log_normalizer with respect to the flattened parameters) is the covariance, under the '
  'density, of the sufficient statistics that belong to the entries a and c of the flattened parameters.',
  'every distribution and joint distribution with parameters in the domain, every batch shape and index, every pair of entries',
  'Covariances are integrals over unbounded sample spaces, for all real parameters.',
  [S + 'natural_parametrization.py: _fisher_information_matrix, _flat_log_normalizer', S + 'structure.py: Flattener, MaximumLikelihoodEstimator.sufficient_statistics'])

p('C52', 'The search of to_nat has exactly one answer, and the expectation parameters that have one are known',
  'Expectation parameters in the domain of a family belong to a distribution of that family exactly when, for Beta and Dirichlet, the exponentials of mean_log_probability add up to less than 1 '
  'and, for Logarithmic, chi is within the range of its formula; for every other family with a closed description they always do. The gradient that to_nat searches for a zero of has a zero '
  'exactly when such a distribution exists within the range of the search parameters, never has two, always has one for Gamma and VonMisesFisher, and increases with the search parameter '
  'when there is only one, so that bisection on its sign is sound.',
  'every expectation-parameter distribution with parameters in the domain, every batch shape and index, every finite search parameter',
  'Existence and uniqueness of a root of digamma and Bessel equations over unbounded intervals of real parameters.',
  [S + 'mixins/exp_to_nat/exp_to_nat.py: ExpToNat.search_gradient, search_to_natural, to_nat', S + 'mixins/exp_to_nat/optimistix.py: default_bisection_minimizer',
   D + 'gamma.py: GammaEP.search_gradient', D + 'von_mises.py: VonMisesFisherEP.search_gradient', D + 'dirichlet_common.py', D + 'logarithmic.py'])

p('C53', 'Gradients of cross entropy and entropy, and the minimum of the cross entropy',
  'The derivative of p.cross_entropy(q) with respect to the natural parameters q is q.to_exp() minus p, and over q it is least exactly at the distribution whose expectation parameters are p. '
  'p.entropy() treats p.to_nat() as a constant when it is differentiated, and the derivative so obtained is nevertheless the derivative of the entropy.',
  'every distribution and joint distribution with parameters in the domain, every batch shape and index, every direction in parameter space',
  'A derivative is a limit, and a minimum ranges over a continuum; finite differences at sample points settle neither.',
  [S + 'mixins/has_entropy.py: HasEntropyEP.cross_entropy, HasEntropyEP.entropy, HasEntropyNP.entropy', 'README.rst: Optimization'])

p('C54', 'An approximate solution of the search gives approximate parameters',
  'However the numerical solver stops, the expectation parameters of e.to_nat() differ from e by at most the residual: if every entry of search_gradient at the parameters it returns is at most eps '
  'in absolute value, every parameter of e.to_nat().to_exp() is within eps of that of e. The root of a one-parameter search lies between any two search parameters whose gradients have opposite signs.',
  'every searched family, every distribution with parameters in the domain, every solver, every eps, every finite search parameter',
  'The solver returns inexact results that depend on the input; the bound must hold for each of them, for all real parameters.',
  [S + 'mixins/exp_to_nat/exp_to_nat.py: ExpToNat.to_nat, search_gradient, search_to_natural', S + 'mixins/exp_to_nat/optimistix.py: OptimistixRootFinder.solve',
   D + 'gamma.py: GammaEP.search_gradient', D + 'von_mises.py: VonMisesFisherEP.search_gradient', S + 'mixins/transformed_parametrization.py: TransformedExpectationParametrization.to_nat'])

p('C55', 'The optimization loop of the README terminates at the target',
  'Gradient descent on the summed cross entropy p.cross_entropy(q), written with parameter_map and parameter_dot_product as in the README, lowers the loss at every step, stops from every start for every '
  'learning rate below 8 and every positive threshold, and returns log odds whose probabilities are within the square root of the threshold of p.',
  'Bernoulli distributions of every batch shape, every target strictly between 0 and 1, every finite start, every learning rate between 0 and 8, every positive threshold, every sequence of iterations',
  'The number of iterations is unbounded and depends on the start; a run from one start says nothing about the others.',
  ['examples/optimization.py: cross_entropy_loss, apply, body_fun, cond_fun', S + 'mixins/has_entropy.py: HasEntropyEP.cross_entropy', S + 'tools.py: parameter_map, parameter_dot_product', D + 'bernoulli.py'])

p('C56', 'pdf is the density of the named distribution',
  'For every class, q.pdf(x) equals the textbook density or probability mass function of the distribution the class is named after, in its conventional parameters, when the natural parameters are related to these as the class docstring says; '
  'and every natural parameter in the domain is that of such a distribution.',
  'every family, every batch shape and number of dimensions, every natural parameter in the domain, every observation in the sample space',
  'Comparing with scipy at sampled parameters cannot exclude a wrong normalizer elsewhere in the parameter space or in other dimensions.',
  [S + 'natural_parametrization.py: pdf', S + 'natural_parametrization.py: log_pdf', D + '*.py: log_normalizer, sufficient_statistics, carrier_measure'])

p('C57', 'Arrays and joints of scipy-style distributions act index by index and part by part',
  'For a ShapedDistribution, pdf(x)[i] is objects[i].pdf(x[i]), entropy()[i] is objects[i].entropy(), and rvs(size) draws exactly once from every object in the order of the indices and puts the draw at [i]; '
  'for a ScipyJointDistribution pdf is the product of the parts (by key, in whatever order the keys come), entropy the sum, rvs the draws of the parts in order, and observations with missing or extra keys are an error.',
  'every shape, every array of objects, every observation, every generator state, every size argument, every set of keys',
  'Shapes, key orders and generator states are unbounded; tests use one shape and one seed.',
  [S + 'scipy_replacement/shaped_distribution.py: ShapedDistribution', S + 'scipy_replacement/joint.py: ScipyJointDistribution'])
p('C58', 'The scipy-style complex normal distributions have the density of the corresponding NP',
  'ScipyComplexNormal and ScipyComplexMultivariateNormal built from the mean, variance and pseudo-variance of q.to_exp() have at every x the density q.pdf(x), for ComplexNormal, ComplexUnitNormal, ComplexMultivariateUnitNormal and '
  'ComplexCircularlySymmetricNormal; the covariance matrix of (real, imaginary part) has E|z-m|^2 and E(z-m)^2 equal to variance and pseudo-variance, is symmetric and (univariate) positive semidefinite; '
  'the univariate constructor accepts exactly |pseudo-variance| <= variance, and init_using_angle exactly |polarization| <= 1.',
  'every batch shape and dimension, every natural parameter in the domain, every observation',
  'The tests compare the two densities at sampled points; equality of the formulas for every matrix and dimension needs linear algebra.',
  [S + 'scipy_replacement/complex_normal.py', S + 'scipy_replacement/complex_multivariate_normal.py', S + 'scipy_replacement/multivariate_normal.py'])
p('C59', 'The scipy-style Dirichlet distributions have the density of the corresponding NP',
  'ScipyDirichlet(alpha).pdf(x) is the Dirichlet density for every row of x on the simplex and equals DirichletNP.pdf(x[..., :-1]); rows that do not sum to 1 are rejected; '
  'ScipyGeneralizedDirichlet.pdf is the density of Connor and Mosimann and equals GeneralizedDirichletNP.pdf; its samples are strictly inside of the simplex.',
  'every batch shape and dimension, every positive alpha and beta, every observation inside of the simplex, every sequence of beta samples',
  'A density is compared at finitely many points by a test; the recursion from gamma to beta parameters holds in every dimension only by induction.',
  [S + 'scipy_replacement/dirichlet.py: ScipyDirichlet, ScipyGeneralizedDirichlet'])
p('C60', 'Draws of the scipy-style complex normal distributions',
  'rvs of ScipyComplexNormal and ScipyComplexMultivariateNormal returns the generator\'s multivariate normal draws with the covariance of real and imaginary part, paired into complex numbers; as_multivariate_normal() is usable for drawing; '
  'constructors only accept parameters some distribution has.',
  'every batch shape, dimension, size argument and generator',
  'Draws depend on an unbounded generator state and on the dtype of the arguments.',
  [S + 'scipy_replacement/complex_normal.py: rvs, as_multivariate_normal', S + 'scipy_replacement/complex_multivariate_normal.py: rvs, as_multivariate_normal, __init__'])
p('C61', 'The real scipy-style distributions have the density of the corresponding NP',
  'ScipyMultivariateNormal.from_mc(mean, cov) has the multivariate normal density, and with the mean and covariance of q.to_exp() the density q.pdf, for all five real multivariate normal families; a covariance with a non-positive leading minor is rejected. '
  'ScipyVonMises(*q.to_kappa_angle()) at t has the density of q at (cos t, sin t), ScipyVonMisesFisher(mu, kappa) that of q at the same unit vector, and ScipyGeometric(1 / (1 + mean)) at x + 1 the probability of q at x.',
  'every batch shape and dimension, every natural parameter in the domain, every observation',
  'The tests compare the two densities at sampled points; equality for every matrix and dimension needs linear algebra, and the conversions of conventions (trials or failures, angle or vector) hold at every point only by proof.',
  [S + 'scipy_replacement/multivariate_normal.py', S + 'scipy_replacement/von_mises.py', S + 'scipy_replacement/geometric.py', 'tests/create_info.py'])

p('C62', 'entropy() is the textbook entropy of every family',
  'q.entropy() and q.to_exp().entropy() return the entropy (in nats) that textbooks give for the distribution in its usual parameters, for each of the 24 families with an entropy method: e.g. half the log of det(2 pi e S) for a multivariate normal with covariance S, '
  'ln B(a, b) - (a-1) psi(a) - (b-1) psi(b) + (a+b-2) psi(a+b) for Beta. The entropy() of the scipy-style normal distributions built from q.to_exp() is the same number.',
  'every family with entropy, batch shape, batch index, dimension and natural parameter in the domain',
  'The tests compare with scipy.stats at sampled parameters, and the matrix and special function identities behind the closed forms (traces, determinants, telescoping digamma sums) hold for every dimension only by proof.',
  [S + 'mixins/has_entropy.py', S + 'distributions', S + 'scipy_replacement/multivariate_normal.py'])

p('C63', 'kl_divergence() is the textbook Kullback-Leibler divergence of every family',
  'p.kl_divergence(q) returns the divergence (in nats) that textbooks give for the two distributions in their usual parameters, for each of the 27 families: e.g. half of tr(T^-1 S) + (m-n)^T T^-1 (m-n) - d + ln det T / det S for multivariate normals (m, S) and (n, T), '
  'and l ln(l/m) - l + m for Poisson distributions with means l and m. For joint distributions it is the sum over the components.',
  'every pair of simple or joint distributions of the same structure, batch shape, batch index, dimension and natural parameters in the domain, with p given by natural or expectation parameters',
  'The implementation computes a Bregman divergence of log-normalizers; that this is the divergence of the two distributions, with the arguments in the right order and the fixed parameters in the right place, is an identity for each family and every dimension. The tests only estimate it by automatic differentiation or sampling at random parameters.',
  [S + 'natural_parametrization.py', S + 'expectation_parametrization.py', S + 'distributions', 'efax/_src/structure.py'])

p('C64', 'to_exp and to_nat convert between the textbook natural and expectation parameters',
  'For each of the 27 families, in its usual parameters, q.to_exp() holds the moments that textbooks give: e.g. mean a/r and mean log psi(a) - ln r for a gamma distribution, mean m and second moment m m^T + S for a multivariate normal, mean direction times I_{n/2}(k)/I_{n/2-1}(k) for von Mises-Fisher. '
  'e.to_nat() are the natural parameters of the distribution with the moments e. Joint distributions are converted component by component.',
  'every simple or joint distribution, batch shape, batch index, dimension and parameters in the domain (for Logarithmic: not clipped)',
  'A round trip test passes when both conversions share a wrong convention (e.g. rate for scale, precision for half precision); agreement with the moments of the named distribution holds for every parameter and dimension only by proof.',
  [S + 'distributions', S + 'transform', S + 'natural_parametrization.py', S + 'expectation_parametrization.py', S + 'mixins/exp_to_nat'])

p('C65', 'Adding natural parameters multiplies densities, scaling them raises the density to a power',
  'For every family and any two distributions p and q of it with the same fixed parameters, the distribution whose natural parameters are the sums of those of p and q (parameter_map with jnp.add), whenever these are allowed parameters, has the density proportional to the product of the densities of p and q, the carrier factor exp(carrier_measure) being counted once; the constant is the integral of the product.  With the parameters multiplied by c the density is proportional to the c-th power, the carrier factor again counted once.  For Bernoulli, Multinomial, Poisson, Geometric, Logarithmic, NegativeBinomial, Exponential, Rayleigh, Weibull and all the normal families the sum, and any positive multiple, are always allowed.  Joint distributions are combined sub-distribution by sub-distribution.',
  'all families, parameters, batch indices, observations and scales', 'the documented purpose of the parametrization, about densities at every observation; no test combines distributions',
  ['README.rst', S+'natural_parametrization.py:NaturalParametrization', S+'tools.py:parameter_map', S+'natural_parametrization.py:NaturalParametrization.pdf', S+'natural_parametrization.py:NaturalParametrization.carrier_measure'])

p('C66', "The conjugate priors obey Bayes' rule and accumulate pseudo-observations",
  "Adding to the natural parameters of any distribution c of the prior family those of the conjugate prior, with one pseudo-observation, of the sufficient statistics of an observation x gives the posterior: a proper distribution of the same family whose log-density at conjugate_prior_observation() of any parameters is that of c plus the log-likelihood of x under these parameters, up to a constant.  Adding the priors of p1 with n1 and of p2 with n2 pseudo-observations gives the prior of the weighted mean with n1 + n2.",
  'all families with a conjugate prior, priors, parameters, observations (also those on the boundary of the expectation domain), batch shapes and indices',
  'the tests compare the mode of the prior with the parameters for sampled cases; that the update is Bayes\' rule for every prior, observation and pair of parameters, and so for every history of observations, is not testable',
  [S+'interfaces/conjugate_prior.py:HasConjugatePrior.conjugate_prior_distribution', S+'interfaces/conjugate_prior.py:HasConjugatePrior.conjugate_prior_observation', S+'tools.py:parameter_map', S+'distributions/bernoulli.py:BernoulliEP.conjugate_prior_distribution', S+'distributions/multinomial.py:MultinomialEP.conjugate_prior_distribution', S+'distributions/poisson.py:PoissonEP.conjugate_prior_distribution', S+'distributions/exponential.py:ExponentialEP.conjugate_prior_distribution'])

p('C67', "Equivalent estimators, supports and densities agree",
  "For every distribution q: create_estimator(q.to_exp()) and create_estimator_from_natural(q) are the same estimator (structure and fixed parameters), and likewise from e and e.to_nat(); create_simple_estimator(type_p, **fixed) with the fixed parameters of a simple q computes the same statistics as the estimator of q.  Structure.create(q).domain_support() holds exactly the simple distributions of q, at their paths with their own supports, and is the same for q.to_exp().  NormalVP(mean, variance).pdf and log_pdf, and MultivariateDiagonalNormalVP.pdf, are the textbook densities of that mean and variance.",
  'all trees of distributions (any depth, width and names), batch shapes, fixed parameters, paths, observations, means and positive variances',
  'the tests use one estimator per family on sampled parameters; agreement on every tree, path and observation is a universal statement',
  [S+'structure.py:MaximumLikelihoodEstimator.create_estimator', S+'structure.py:MaximumLikelihoodEstimator.create_simple_estimator', S+'structure.py:MaximumLikelihoodEstimator.create_estimator_from_natural', S+'structure.py:Structure.domain_support', S+'distributions/normal/normal.py:NormalVP.pdf', S+'distributions/normal/normal.py:NormalVP.log_pdf', S+'distributions/multivariate_normal/diagonal.py:MultivariateDiagonalNormalVP.pdf'])

p('C68', "Bayesian updating is right after any history of observations, in any order",
  "For every family whose conjugate prior obeys Bayes' rule for one observation (C66: all but Exponential): updating any distribution of the prior family by the observations of any finite history in turn succeeds, stays in the domain, and the log density of the posterior at two values of the parameters differs exactly as the initial log density plus the log-likelihood of the whole history does.  For every family with a conjugate prior (Exponential included) the posterior does not depend on the order of the observations.",
  'all families with a conjugate prior, initial distributions, finite histories of observations of any length, their permutations, pairs of parameters, batch shapes and indices',
  'histories are unbounded; a test updates by a few observations',
  [S+'interfaces/conjugate_prior.py:HasConjugatePrior.conjugate_prior_distribution', S+'interfaces/conjugate_prior.py:HasConjugatePrior.conjugate_prior_observation', S+'tools.py:parameter_map', S+'structure.py:MaximumLikelihoodEstimator.sufficient_statistics', S+'natural_parametrization.py:NaturalParametrization.log_pdf'])

p('C69', "Joint scipy replacements agree with joint distributions, and ScipyComplexNormal reports its parameters",
  "For every joint distribution of simple distributions and every ScipyJointDistribution with the same names whose parts have the density (entropy) of the corresponding parts, pdf (entropy) of the two agree at every batch index, in whatever order the names are listed in the two distributions and in the two mappings of observations.  ScipyComplexNormal(mean, variance, pseudo_variance).mean, .variance and .pseudo_variance are the arrays given, and 0, 1 and 0 for those that are not; if none is given it raises ValueError.",
  'all joint distributions of simple distributions, replacements, observations with keys in any order, batch shapes and indices; all combinations of given and omitted arguments and dtypes',
  'the orders of keys and combinations of parts are unbounded; the project compares one joint distribution, sampled',
  [S+'scipy_replacement/joint.py:ScipyJointDistribution', S+'scipy_replacement/complex_normal.py:ScipyComplexNormal', S+'transform/joint.py:JointDistribution', S+'natural_parametrization.py:NaturalParametrization.pdf'])

p('C70', "kl_divergence obeys the three-point and Pythagorean laws",
  "For natural parameters p, q, r of one structure, p.kl_divergence(r) = p.kl_divergence(q) + q.kl_divergence(r) + <r - q, q.to_exp() - p.to_exp()>, where the inner product is parameter_dot_product.  Hence p.kl_divergence(q) + q.kl_divergence(p) = <p - q, p.to_exp() - q.to_exp()>; and if the expectation parameters of p and q agree along r - q then p.kl_divergence(r) is the sum of the other two divergences, so that q is closer to p than r is, strictly unless q = r.",
  'all triples of natural parametrizations, simple or joint, of one structure and in their domains, all batch shapes and indices',
  'an identity between three divergences over continuous parameters, for every family and every joint distribution; a test compares sampled triples up to tolerance',
  [S+'expectation_parametrization.py: kl_divergence', S+'natural_parametrization.py', S+'tools.py: parameter_dot_product', S+'transform/joint.py'])

p('C71', "Mixing natural parameters stays in the domain, where log_normalizer and kl_divergence are strictly convex",
  "If p and q are natural parameters of one structure with the same fixed parameters and 0 <= s <= 1, then m = (1 - s) p + s q (by parameter_map) has the same structure and is in the domain (unless a component is von Mises-Fisher and the mixture is its uniform distribution, which log_normalizer does not support); m.log_normalizer() <= (1 - s) p.log_normalizer() + s q.log_normalizer(), and x.kl_divergence(m) <= (1 - s) x.kl_divergence(p) + s x.kl_divergence(q) for every x, with equality for 0 < s < 1 only if p = q.  The gap of the log normalizers is (1 - s) m.kl_divergence(p) + s m.kl_divergence(q).",
  'all pairs of natural parametrizations, simple or joint, of one structure, all weights s in [0, 1], all x, all batch shapes and indices',
  'convexity quantifies over a continuum of segments and weights, for every family and every joint distribution',
  [S+'natural_parametrization.py', S+'parametrization.py', S+'expectation_parametrization.py: kl_divergence', D])

p('C72', "The average of expectation parameters is the distribution closest to all of them",
  "If the expectation parameters of m are the weighted average (weights w_k that sum to one) of those of p_1, ..., p_n, computed by parameter_map, then for every x of that structure sum w_k p_k.kl_divergence(x) = sum w_k p_k.kl_divergence(m) + m.kl_divergence(x).  Hence m is the one distribution that minimises the weighted divergence.  With weights that are not negative, m.kl_divergence(x) <= sum w_k p_k.kl_divergence(x), with equality only if every p_k of positive weight equals m.",
  'all finite lists of distributions, simple or joint, of one structure and weights, all x, all batch shapes and indices',
  'the number of distributions is unbounded, the parameters are continuous, and minimality quantifies over every alternative x',
  [S+'expectation_parametrization.py: kl_divergence', S+'natural_parametrization.py', S+'tools.py: parameter_dot_product, parameter_map'])

p('C73', "Moment matching is the best fit to any density, and has the largest entropy",
  "Let P be any probability density on the sample space of p (not necessarily of the family, and with the parts of a joint distribution dependent in any way) whose expected sufficient statistics are p.to_exp().  Then for every q of the structure of p the expected value under P of p.log_pdf - q.log_pdf is p.kl_divergence(q), so p has the least expected loss -log_pdf, and is the only distribution that has it.  If P also gives the carrier measures their expected values, the expected loss of p is p.entropy(), and the entropy of P is at most p.entropy().",
  'all simple and joint distributions p and q, all densities P on the sample space, all batch shapes and indices',
  'it quantifies over every density, over integrals on infinite sample spaces and over every alternative q',
  [S+'natural_parametrization.py: log_pdf, kl_divergence', S+'expectation_parametrization.py: kl_divergence', S+'mixins/has_entropy.py: entropy, cross_entropy', S+'structure.py: MaximumLikelihoodEstimator'])

p('C74', "Bisection solves the searches with one parameter",
  "For every Gamma and VonMisesFisher, and for every ChiSquare and Chi whose search has a root, whatever initial search parameter the bisection starts from: after enough doublings and halvings of its interval e.to_nat() is a proper distribution whose to_exp() is as close to e as one likes.  Each halving keeps the opposite signs of search_gradient at the ends of the interval and halves its width.",
  'all proper unbatched expectation parameters of these classes, all starting points, all tolerances, all numbers of steps from some number on',
  'the limit over the number of steps and the starting point cannot be tested; the project tests a few parameters with the fixed number of steps',
  [S+'mixins/exp_to_nat/optimistix.py: OptimistixRootFinder, default_bisection_minimizer', S+'mixins/exp_to_nat/exp_to_nat.py: ExpToNat.to_nat, ExpToNat.search_gradient', S+'distributions/gamma.py: GammaEP.search_gradient', S+'distributions/von_mises.py: VonMisesFisherEP.search_gradient', S+'distributions/chi_square.py: ChiSquareEP'])

p('C75', "The searches start from a finite point, from which the default bisection converges",
  "For every proper e, e.initial_search_parameters() is one finite number for each search parameter.  For Gamma its softplus s is positive and solves log(mean) - mean_log = (3 s + 1) / (s (6 s + 1)); for VonMisesFisher in n dimensions with a mean of length mu it is mu (n - mu^2) / (1 - mu^2), which is positive.  The default bisection, started there, makes e.to_nat().to_exp() as close to e as one likes after enough steps (Gamma and VonMisesFisher always; ChiSquare, Chi and Logarithmic when the search has a root, which for Logarithmic must be above log-probability -50), and likewise every element of a batch and every leaf of a joint distribution.  It also makes q.to_exp().to_nat() as close to q as one likes, for every element of a batch and every leaf of a joint distribution (ChiSquare with k / 2 - 1 above -1 + 2^-23, Logarithmic with log-probability between -50 and -2^-23).  When no minimizer is given, the bisection is the solver exactly when there is one search parameter.",
  'all proper expectation parameters whose conversion is a search, all batch shapes and indices, all dimensions and tolerances',
  'a start that is not a number for some parameters is found only at those parameters, and convergence is a limit',
  [S+'mixins/exp_to_nat/exp_to_nat.py: ExpToNat.__post_init__, ExpToNat.initial_search_parameters', S+'distributions/gamma.py: GammaEP.initial_search_parameters', S+'distributions/von_mises.py: VonMisesFisherEP.initial_search_parameters', S+'mixins/exp_to_nat/optimistix.py: OptimistixRootFinder, default_bisection_minimizer'])

out = pathlib.Path(__file__).resolve().parent.parent / 'properties.jsonl'
out.write_text(''.join(json.dumps(x) + '\n' for x in P))
print(len(P), 'properties')
