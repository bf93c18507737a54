#!/usr/bin/env python3
"""Write MANIFEST.json from the theorem names in rocq/theories/Prop*.v and the table below."""
import collections
import glob
import json
import re

NOTES = {}


def n(pid, status, note):
    NOTES[pid] = (status, note)


n('C01', 'proved', 'All trees without empty joints. Findings: a custom minimizer is reset (C01_custom_minimizer_refuted), a joint without '
  'sub-distributions cannot be reassembled (C01_empty_joint_refuted).')
n('C02', 'proved', '')
n('C03', 'proved', 'Finding: a custom minimizer is reset.')
n('C04', 'proved', 'In-support means strictly inside the interval the code uses (bounds moved inward by the float epsilon, complex values not zero). '
  'Findings: outside of it the flat vector is NaN (two _refuted theorems).')
n('C05', 'proved', '')
n('C06', 'proved', 'Real fields: every finite vector. Complex sections must not be zero; semidefiniteness is not ensured (two _refuted theorems).')
n('C07', 'proved', 'The two excluded cases are shown to fail.')
n('C08', 'proved', '')
n('C09', 'proved', '')
n('C11', 'partial', 'The property is false of the code: parameters are paired by position. Both refutations are proved; when names are in the same '
  'order pairing by name is part of C09 and C10.')
n('C13', 'proved', '')
n('C14', 'proved', 'Finding: a leaf that is not samplable is silently left out of the sample.')
n('C15', 'proved', '')
n('C33', 'proved', 'All support kinds but the simplex, for which the code fails for every value (C33_simplex_refuted).')
n('C39', 'proved', 'Finding: GammaVP.shape drops the last batch axis (C39_gamma_vp_shape_refuted).')
n('C10', 'proved', 'Additivity and homogeneity together: (u x + c x2).y = u x.y + c x2.y for finite parameters; with symmetry this is both arguments.')
n('C12', 'proved', '')
n('C16', 'proved', '')
n('C17', 'proved', 'All conversions of the 24+ families are modelled; the numerical solver of the ExpToNat classes is an arbitrary function.')
n('C18', 'proved', 'At every batch index where the parameters, log normalizers and the expected carrier measure are finite.')
n('C20', 'partial', 'Proved for every family (the matrix families with arbitrary, also non-symmetric, tangents), trees of any shape; the derivative is that of the function the code computes along the line. Not true, and refuted, for LogarithmicNP outside the range where to_exp uses its formula: there the tangent is infinite (C20_log_normalizer_jvp_refuted).')
n('C21', 'proved', 'Every closed-form family, in trees of any shape; to_exp is injective for every family, so that the natural parameters found by search are unique (C28_to_exp_to_nat).')
n('C22', 'partial', 'Proved for every family (to_nat: the closed-form ones; the searched ones are C28). Not true, and refuted, in two corners: the log normalizer of the uniform von Mises-Fisher distribution is NaN, '
  'to_exp of a logarithmic distribution near probability one is infinite (two _refuted theorems).')
n('C27', 'proved', 'For every tree of the modelled classes without a custom minimizer (indexing resets it, see C39) and every full batch index.')
n('C34', 'partial', 'Proved for real-valued supports (any bounds); for the simplex the entrywise bounds and the fixed interior points. Findings (_refuted): a clamped simplex point can sum to one; clamp ignores complex moduli, integer bounds, the disk and semidefiniteness.')
n('C35', 'partial', 'The generator is an oracle: any sequence of draws. Proved for scalar, vector and symmetric/Hermitian (semidefinite) supports and for generate_random on trees of any shape without von Mises-Fisher expectation parameters. Findings (_refuted): bounded integers, the disk, zero normal draws, simplex and square supports, negative variances in the diagonal VP.')
n('C36', 'partial', 'All conversions between NP, EP and VP classes, both ways, for every batch element in the domain. GammaVP.to_exp().to_nat() needs the search to find a root (C28); MultivariateNormalVP.to_exp().to_nat() is C21. Not true, and refuted: the claim about shape for GammaVP: GammaVP.shape drops the last batch axis (C36_shape_refuted).')
n('C37','proved','pdf of Rayleigh, Weibull, Chi and ChiSquare equals the pdf of the base distribution at g(x) times |g\'(x)|, at every batch element, for every in-domain parameter and x > 0.')
n('C38','proved','log_pdf agrees for UnitNormal/Normal, Geometric/NegativeBinomial(1), Bernoulli/one-dimensional Multinomial, Exponential/Gamma(1), Exponential/Weibull(1), Beta/two-category Dirichlet, Normal/one-dimensional diagonal, Isotropic, unit and fixed-variance/diagonal, ComplexUnitNormal/one-dimensional ComplexMultivariateUnitNormal.')
n('C28','proved','For Beta, Dirichlet, GeneralizedDirichlet, Logarithmic, ChiSquare, Gamma, VonMisesFisher (and Chi through ChiSquare): every finite root of search_gradient, for any batch shape, gives through search_to_natural natural parameters in their domain whose to_exp is the original; and to_nat of an unbatched distribution does so whenever the solver, an arbitrary function, returns a root for the distribution it is given. C27 extends the second to batches.')
n('C19','proved','For every pair of distributions (trees of any shape) of every family with the same fixed parameters: finite, >= 0, and 0 exactly when all parameters agree; also for expectation parameters, where those without a closed-form to_nat need the search to have found a root (C28). Finding: kl_divergence accepts different fixed parameters and then returns a negative number (C19_kl_divergence_refuted).')
n('C26','proved','the parameters whose expectation parameters are the mean of the sufficient statistics maximise the likelihood of any data set, uniquely, for every family and for joint distributions')
n('C29','partial','false as stated: C29_diagonal_refuted (the diagonal is mapped from the plane into the support: a negative number is returned for a Fisher information of 1) and C29_batch_refuted (with a batch axis jnp.diagonal mixes the batch and the matrix axes and values are lost). Proved: without batch dimensions the image in the plane of the returned object is the diagonal, and the unmapped flattened object is the diagonal when all parameters range over unbounded reals, vectors or symmetric matrices')
n('C30','proved','for every family: the Jacobian of to_exp is the Hessian of log_normalizer, symmetric and positive semidefinite, and apply_fisher_information returns to_exp and the product with it; jax.vjp enters as the pullback it promises. Tangent vectors of matrix parameters are symmetric (Hermitian), so that the line stays in the domain')
n('C31','partial','for every family with a conjugate prior but the exponential one, the log density of the prior at the observation of p1 is, up to a constant, -n times the divergence from p to p1; for all of them it is maximal exactly at the observation of p. Findings: the prior of an exponential distribution uses the reversed divergence (C31_exponential_refuted, C31_exponential_reversed), and the generalized prior of a multinomial distribution rejects n of the documented shape (C31_generalized_multinomial_refuted); for the shape it accepts its sticks are given by C31_generalized_multinomial_sticks, and its gamma is outside the declared support (C31_generalized_multinomial_support_refuted)')
n('C32','partial','the shape of a sample is proved for every class; samples are in the sample space and reach all of it for every class of every family but four, for which the exact set of samples is proved. Findings: Multinomial never samples its last category, Geometric never samples 0 and samples NaN when the mean is below 1, and the two complex unit normals draw the real and imaginary parts with the same key, so their difference is constant')
n('C23','proved','pdf is positive on the sample space and sums or integrates to one (sums, improper and iterated improper integrals, the surface integral over the sphere), for every batch element of every family and of every joint distribution (iterated over its leaves)')
n('C24','proved','entropy of natural and expectation parameters is minus the expected log_pdf and expected_carrier_measure is the expected carrier_measure, for every family that has an entropy; where the code uses to_nat by numerical search (carrier of Chi and ChiSquare, entropy of expectation parameters), under the hypothesis that the search recovers the parameters (C28)')
n('C25','partial','every entry of to_exp() is the expected value of that entry of the sufficient statistics the estimator computes, for every family outside the range where LogarithmicNP.to_exp clips; refuted there (+inf instead of the finite mean)')
n('C40', 'proved', '')
n('C42','partial','proved without batch dimensions for parameters that range over all reals, real vectors or symmetric matrices (and joint distributions of such); refuted for bounded parameters, where the diagonal was mapped into the support (C42_trace_refuted), and for complex parameters, whose real and imaginary directions are not added (C42_complex_refuted)')
n('C41','proved','for distributions and joint distributions of every family, at every batch element in the domain with equal fixed parameters (with different ones kl_divergence can be negative, C19_kl_divergence_refuted); LogarithmicNP outside the range where to_exp clips; the families whose carrier measure needs a numerical search under the hypothesis that it recovers the parameters (C28)')
n('C43','proved','Bernoulli and Multinomial, at every batch element')
n('C44','proved','kappa for every dimension; to_kappa_angle for two dimensions and its ValueError otherwise; arctan2 of 0, 0 is 0 as in numpy')
n('C45','proved','at every batch element in the domain')
n('C46','partial','proved for every tree without ComplexCircularlySymmetricNormal leaves; for that family the flattened parameters include the imaginary parts of the diagonal of the Hermitian matrix, the matrix is not positive semidefinite and jeffreys_prior is NaN or 0 (C46_circularly_symmetric_refuted, C46_circularly_symmetric_zero)')
n('C47','proved','all families and joint trees with parameters in the domain; C47_nearby shows that the shifted distribution exists for every small shift')
n('C48','proved','by differentiating the cumulant generating function (C47) under the integral sign; <u, J v> is derivative_along, the notion C20/C30 relate to the Hessian of log_normalizer')


n('C49','partial','proved for every samplable family but four (NegativeBinomial, drawn in two stages, in its own theorem); false of Multinomial (never its last category: samples follow the conditional law), Geometric (samples start at 1) and the two complex unit normals (one key for both parts): refuted for every parameter, with the law that the Multinomial and Geometric samples do follow')

n('C50','proved','one theorem per class; the density is that of the natural parameters to which the library converts the distribution (C49_density shows they exist)')
n('C51','partial','proved for every tree without ComplexCircularlySymmetricNormal leaves; for that family no two statistics have the variances and covariance in the matrix (C51_circularly_symmetric_refuted), because of the imaginary parts of the diagonal of its Hermitian matrix (C46)')
n('C52','partial','the set of attained expectation parameters is proved for every family but GeneralizedDirichlet (no closed form); existence, uniqueness and monotonicity of the root for every search; the declared supports contain values no distribution has (C52_support_refuted)')
n('C53','proved','every family that has an entropy; where to_nat searches, the hypothesis found_along says that the search succeeds at and near the point, and is satisfied by a concrete solver in the example')
n('C54','proved','the solver is arbitrary; with eps = 0 this is C28')
n('C55','proved','exact real arithmetic; the automatic derivative is specified, not modelled as a program')
n('C56','proved','exact real arithmetic; Gamma and Bessel functions by their defining limit and series (SpecFun.v)')
n('C57','proved','arrays of objects are functions of the index; generators are an arbitrary state type')
n('C58','proved','exact real arithmetic; scipy.stats.multivariate_normal is given by its documented density; positive definiteness by leading minors')
n('C59','partial','false for a single alpha and x with three or more axes (C59_dirichlet_axes_refuted); proved for a row of alpha for every row of x, and for one alpha and a matrix x')
n('C60','partial','false of the code: draws of distributions with real parameters lose the imaginary part, as_multivariate_normal().rvs() raises, the constructors accept parameters no distribution has (C60_*_refuted); the draws with complex dtype are characterized completely')
n('C61','proved','scipy.stats.multivariate_normal, vonmises, vonmises_fisher and geom are given by their documented densities and argument checks')
n('C62','proved','entropy formulas in the usual parameters for every family with an entropy method; for Chi and ChiSquare (and, for entropy of an EP, the other families that search) the numerical search is assumed to recover q')
n('C63','proved','divergence formulas in the usual parameters for all 27 families; for an EP whose family searches, the search is assumed to recover the natural parameters')
n('C64','proved','all 27 families; for to_nat by search, the search is assumed to find parameters whose expectation parameters are the given ones (C28, C52)')
n('C65', 'proved', 'all families, simple and joint: parameter_map(jnp.add, p, q) has the normalised product of the densities (carrier counted once) and parameter_map(c * x, p) the normalised power, whenever the result is in the domain; the families closed under these operations are named, and an example shows that ChiSquare is not')

n('C66', 'partial', 'proved for every family with a conjugate prior except Exponential, for which it is false: its prior divides the pseudo-observations by the mean instead of using their sum (C66_exponential_refuted, cf. C31)')
n('C67', 'proved', 'for every tree, path and observation; the densities for the two variance parametrizations that have them')
n('C68', 'proved', 'by induction on the history; order independence by the permutation of the sum of the evidence; Exponential is excluded from the first theorem because C66 is false of it')
n('C69', 'proved', 'the agreement of the parts, a hypothesis here, is C58, C59, C61 and C62')
n('C70', 'proved', '')
n('C71', 'proved', 'halfway between opposite von Mises-Fisher distributions log_normalizer is NaN (C71_von_mises_fisher_refuted, cf. C22); for that family the inequalities are proved whenever the mixture is in the domain')
n('C72', 'proved', '')
n('C73', 'proved', '')
n('C74', 'proved', 'optimistix.Bisection is not in the repository: the loop is modelled over the reals with any number of doublings and halvings (Bisect.v)')
n('C75', 'proved', 'the loop of optimistix.Bisection is modelled over the reals with any number of doublings and halvings (Bisect.v)')


def main():
    found = collections.defaultdict(list)
    for path in sorted(glob.glob('/verif/rocq/theories/Prop*.v')):
        for name in re.findall(r'^Theorem (C\d\d_\w+)', open(path).read(), re.M):
            found[name[:3]].append(name)
    claims = []
    for pid in sorted(found):
        status, note = NOTES.get(pid, ('partial', ''))
        claims.append({'property': pid, 'status': status, 'theorems': found[pid], 'note': note})
    with open('/verif/MANIFEST.json', 'w') as f:
        json.dump({'claims': claims}, f, indent=1)
        f.write('\n')
    print({c['property']: (c['status'], len(c['theorems'])) for c in claims})


main()
