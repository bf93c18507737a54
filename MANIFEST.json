{
 "claims": [
  {
   "property": "C01",
   "status": "proved",
   "theorems": [
    "C01_assemble_parameters",
    "C01_assemble_any",
    "C01_custom_minimizer_refuted",
    "C01_empty_joint_refuted"
   ],
   "note": "All trees without empty joints. Findings: a custom minimizer is reset (C01_custom_minimizer_refuted), a joint without sub-distributions cannot be reassembled (C01_empty_joint_refuted)."
  },
  {
   "property": "C02",
   "status": "proved",
   "theorems": [
    "C02_parameters",
    "C02_parameters_support",
    "C02_partition"
   ],
   "note": ""
  },
  {
   "property": "C03",
   "status": "proved",
   "theorems": [
    "C03_flatten_unflatten",
    "C03_custom_minimizer_refuted"
   ],
   "note": "Finding: a custom minimizer is reset."
  },
  {
   "property": "C04",
   "status": "proved",
   "theorems": [
    "C04_flatten_unflatten_mapped",
    "C04_near_bound_refuted",
    "C04_complex_zero_refuted"
   ],
   "note": "In-support means strictly inside the interval the code uses (bounds moved inward by the float epsilon, complex values not zero). Findings: outside of it the flat vector is NaN (two _refuted theorems)."
  },
  {
   "property": "C05",
   "status": "proved",
   "theorems": [
    "C05_flat_length",
    "C05_wrong_length"
   ],
   "note": ""
  },
  {
   "property": "C06",
   "status": "proved",
   "theorems": [
    "C06_unflatten_in_support",
    "C06_complex_origin_refuted",
    "C06_semidefinite_refuted"
   ],
   "note": "Real fields: every finite vector. Complex sections must not be zero; semidefiniteness is not ensured (two _refuted theorems)."
  },
  {
   "property": "C07",
   "status": "proved",
   "theorems": [
    "C07_unflatten_flatten",
    "C07_flatten_unflatten",
    "C07_flatten_get",
    "C07_empty_refuted",
    "C07_prefix_refuted"
   ],
   "note": "The two excluded cases are shown to fail."
  },
  {
   "property": "C08",
   "status": "proved",
   "theorems": [
    "C08_join_mappings",
    "C08_join_order"
   ],
   "note": ""
  },
  {
   "property": "C09",
   "status": "proved",
   "theorems": [
    "C09_parameter_map",
    "C09_identity",
    "C09_composition",
    "C09_count"
   ],
   "note": ""
  },
  {
   "property": "C10",
   "status": "proved",
   "theorems": [
    "C10_value",
    "C10_linear",
    "C10_symmetric",
    "C10_ignores_fixed"
   ],
   "note": "Additivity and homogeneity together: (u x + c x2).y = u x.y + c x2.y for finite parameters; with symmetry this is both arguments."
  },
  {
   "property": "C11",
   "status": "partial",
   "theorems": [
    "C11_dot_product_order_refuted",
    "C11_parameter_map_order_refuted"
   ],
   "note": "The property is false of the code: parameters are paired by position. Both refutations are proved; when names are in the same order pairing by name is part of C09 and C10."
  },
  {
   "property": "C12",
   "status": "proved",
   "theorems": [
    "C12_to_exp",
    "C12_to_nat",
    "C12_inverse"
   ],
   "note": ""
  },
  {
   "property": "C13",
   "status": "proved",
   "theorems": [
    "C13_reinterpret",
    "C13_reinterpret_self",
    "C13_reinterpret_count"
   ],
   "note": ""
  },
  {
   "property": "C14",
   "status": "proved",
   "theorems": [
    "C14_general_sample",
    "C14_distinct_keys",
    "C14_missing_leaf_refuted"
   ],
   "note": "Finding: a leaf that is not samplable is silently left out of the sample."
  },
  {
   "property": "C15",
   "status": "proved",
   "theorems": [
    "C15_flat_dict",
    "C15_flat_dict_of_observations"
   ],
   "note": ""
  },
  {
   "property": "C16",
   "status": "proved",
   "theorems": [
    "C16_log_pdf",
    "C16_key_order"
   ],
   "note": ""
  },
  {
   "property": "C17",
   "status": "proved",
   "theorems": [
    "C17_log_normalizer",
    "C17_kl_divergence",
    "C17_kl_divergence_exp",
    "C17_cross_entropy",
    "C17_entropy_nat",
    "C17_entropy_exp"
   ],
   "note": "All conversions of the 24+ families are modelled; the numerical solver of the ExpToNat classes is an arbitrary function."
  },
  {
   "property": "C18",
   "status": "proved",
   "theorems": [
    "C18_difference",
    "C18_diagonal"
   ],
   "note": "At every batch index where the parameters, log normalizers and the expected carrier measure are finite."
  },
  {
   "property": "C19",
   "status": "proved",
   "theorems": [
    "C19_kl_divergence",
    "C19_kl_divergence_refuted",
    "C19_kl_divergence_exp",
    "C19_kl_divergence_exp_closed"
   ],
   "note": "For every pair of distributions (trees of any shape) of every family with the same fixed parameters: finite, >= 0, and 0 exactly when all parameters agree; also for expectation parameters, where those without a closed-form to_nat need the search to have found a root (C28). Finding: kl_divergence accepts different fixed parameters and then returns a negative number (C19_kl_divergence_refuted)."
  },
  {
   "property": "C20",
   "status": "partial",
   "theorems": [
    "C20_log_normalizer_jvp",
    "C20_log_normalizer_jvp_refuted"
   ],
   "note": "Proved for every family (the matrix families with arbitrary, also non-symmetric, tangents), trees of any shape; the derivative is that of the function the code computes along the line. Not true, and refuted, for LogarithmicNP outside the range where to_exp uses its formula: there the tangent is infinite (C20_log_normalizer_jvp_refuted)."
  },
  {
   "property": "C21",
   "status": "proved",
   "theorems": [
    "C21_to_exp_to_nat",
    "C21_to_nat_to_exp",
    "C21_to_exp_injective"
   ],
   "note": "Every closed-form family, in trees of any shape; to_exp is injective for every family, so that the natural parameters found by search are unique (C28_to_exp_to_nat)."
  },
  {
   "property": "C22",
   "status": "partial",
   "theorems": [
    "C22_log_normalizer",
    "C22_to_exp",
    "C22_to_nat",
    "C22_log_normalizer_refuted",
    "C22_to_exp_refuted"
   ],
   "note": "Proved for every family (to_nat: the closed-form ones; the searched ones are C28). Not true, and refuted, in two corners: the log normalizer of the uniform von Mises-Fisher distribution is NaN, to_exp of a logarithmic distribution near probability one is infinite (two _refuted theorems)."
  },
  {
   "property": "C23",
   "status": "proved",
   "theorems": [
    "C23_normalised",
    "C23_positive",
    "C23_joint_normalised"
   ],
   "note": "pdf is positive on the sample space and sums or integrates to one (sums, improper and iterated improper integrals, the surface integral over the sphere), for every batch element of every family and of every joint distribution (iterated over its leaves)"
  },
  {
   "property": "C24",
   "status": "proved",
   "theorems": [
    "C24_entropy",
    "C24_entropy_exp",
    "C24_joint_entropy"
   ],
   "note": "entropy of natural and expectation parameters is minus the expected log_pdf and expected_carrier_measure is the expected carrier_measure, for every family that has an entropy; where the code uses to_nat by numerical search (carrier of Chi and ChiSquare, entropy of expectation parameters), under the hypothesis that the search recovers the parameters (C28)"
  },
  {
   "property": "C25",
   "status": "partial",
   "theorems": [
    "C25_expected_statistics",
    "C25_expected_statistics_refuted",
    "C25_joint_expected_statistics"
   ],
   "note": "every entry of to_exp() is the expected value of that entry of the sufficient statistics the estimator computes, for every family outside the range where LogarithmicNP.to_exp clips; refuted there (+inf instead of the finite mean)"
  },
  {
   "property": "C26",
   "status": "proved",
   "theorems": [
    "C26_maximum_likelihood",
    "C26_simple_estimator"
   ],
   "note": "the parameters whose expectation parameters are the mean of the sufficient statistics maximise the likelihood of any data set, uniquely, for every family and for joint distributions"
  },
  {
   "property": "C27",
   "status": "proved",
   "theorems": [
    "C27_log_normalizer",
    "C27_to_exp",
    "C27_to_nat",
    "C27_carrier_measure",
    "C27_log_pdf",
    "C27_entropy_nat",
    "C27_entropy_exp",
    "C27_cross_entropy",
    "C27_kl_divergence",
    "C27_kl_divergence_exp"
   ],
   "note": "For every tree of the modelled classes without a custom minimizer (indexing resets it, see C39) and every full batch index."
  },
  {
   "property": "C28",
   "status": "proved",
   "theorems": [
    "C28_root",
    "C28_to_nat",
    "C28_to_exp_to_nat"
   ],
   "note": "For Beta, Dirichlet, GeneralizedDirichlet, Logarithmic, ChiSquare, Gamma, VonMisesFisher (and Chi through ChiSquare): every finite root of search_gradient, for any batch shape, gives through search_to_natural natural parameters in their domain whose to_exp is the original; and to_nat of an unbatched distribution does so whenever the solver, an arbitrary function, returns a root for the distribution it is given. C27 extends the second to batches."
  },
  {
   "property": "C29",
   "status": "partial",
   "theorems": [
    "C29_diagonal_refuted",
    "C29_batch_refuted",
    "C29_diagonal_plane_partial",
    "C29_diagonal_unbounded_partial"
   ],
   "note": "false as stated: C29_diagonal_refuted (the diagonal is mapped from the plane into the support: a negative number is returned for a Fisher information of 1) and C29_batch_refuted (with a batch axis jnp.diagonal mixes the batch and the matrix axes and values are lost). Proved: without batch dimensions the image in the plane of the returned object is the diagonal, and the unmapped flattened object is the diagonal when all parameters range over unbounded reals, vectors or symmetric matrices"
  },
  {
   "property": "C30",
   "status": "proved",
   "theorems": [
    "C30_symmetric_positive",
    "C30_hessian",
    "C30_apply_fisher_information"
   ],
   "note": "for every family: the Jacobian of to_exp is the Hessian of log_normalizer, symmetric and positive semidefinite, and apply_fisher_information returns to_exp and the product with it; jax.vjp enters as the pullback it promises. Tangent vectors of matrix parameters are symmetric (Hermitian), so that the line stays in the domain"
  },
  {
   "property": "C31",
   "status": "partial",
   "theorems": [
    "C31_conjugate_prior",
    "C31_mode",
    "C31_exponential_refuted",
    "C31_exponential_reversed",
    "C31_generalized_conjugate_prior",
    "C31_generalized_mode",
    "C31_generalized_multinomial_refuted",
    "C31_generalized_multinomial_sticks",
    "C31_generalized_multinomial_support_refuted"
   ],
   "note": "for every family with a conjugate prior but the exponential one, the log density of the prior at the observation of p1 is, up to a constant, -n times the divergence from p to p1; for all of them it is maximal exactly at the observation of p. Findings: the prior of an exponential distribution uses the reversed divergence (C31_exponential_refuted, C31_exponential_reversed), and the generalized prior of a multinomial distribution rejects n of the documented shape (C31_generalized_multinomial_refuted); for the shape it accepts its sticks are given by C31_generalized_multinomial_sticks, and its gamma is outside the declared support (C31_generalized_multinomial_support_refuted)"
  },
  {
   "property": "C32",
   "status": "partial",
   "theorems": [
    "C32_shape",
    "C32_in_sample_space",
    "C32_reachable_partial",
    "C32_multinomial_samples",
    "C32_multinomial_reachable_refuted",
    "C32_geometric_samples",
    "C32_geometric_reachable_refuted",
    "C32_geometric_nan",
    "C32_in_sample_space_refuted",
    "C32_complex_unit_samples",
    "C32_complex_unit_reachable_refuted"
   ],
   "note": "the shape of a sample is proved for every class; samples are in the sample space and reach all of it for every class of every family but four, for which the exact set of samples is proved. Findings: Multinomial never samples its last category, Geometric never samples 0 and samples NaN when the mean is below 1, and the two complex unit normals draw the real and imaginary parts with the same key, so their difference is constant"
  },
  {
   "property": "C33",
   "status": "proved",
   "theorems": [
    "C33_support_round_trip",
    "C33_plane_round_trip",
    "C33_simplex_refuted"
   ],
   "note": "All support kinds but the simplex, for which the code fails for every value (C33_simplex_refuted)."
  },
  {
   "property": "C34",
   "status": "partial",
   "theorems": [
    "C34_clamp_real_partial",
    "C34_clamp_simplex_partial",
    "C34_clamp_simplex_refuted",
    "C34_clamp_complex_refuted",
    "C34_clamp_integer_refuted",
    "C34_clamp_disk_refuted",
    "C34_clamp_psd_refuted"
   ],
   "note": "Proved for real-valued supports (any bounds); for the simplex the entrywise bounds and the fixed interior points. Findings (_refuted): a clamped simplex point can sum to one; clamp ignores complex moduli, integer bounds, the disk and semidefiniteness."
  },
  {
   "property": "C35",
   "status": "partial",
   "theorems": [
    "C35_generate_partial",
    "C35_bounds_partial",
    "C35_generate_random_partial",
    "C35_generate_integer_refuted",
    "C35_generate_disk_refuted",
    "C35_generate_zero_refuted",
    "C35_generate_missing_refuted",
    "C35_generate_variance_refuted"
   ],
   "note": "The generator is an oracle: any sequence of draws. Proved for scalar, vector and symmetric/Hermitian (semidefinite) supports and for generate_random on trees of any shape without von Mises-Fisher expectation parameters. Findings (_refuted): bounded integers, the disk, zero normal draws, simplex and square supports, negative variances in the diagonal VP."
  },
  {
   "property": "C36",
   "status": "partial",
   "theorems": [
    "C36_to_exp_to_nat",
    "C36_to_exp_to_var",
    "C36_to_var_to_exp",
    "C36_gamma",
    "C36_gamma_to_exp_to_nat",
    "C36_to_var_to_nat",
    "C36_shape",
    "C36_shape_refuted"
   ],
   "note": "All conversions between NP, EP and VP classes, both ways, for every batch element in the domain. GammaVP.to_exp().to_nat() needs the search to find a root (C28); MultivariateNormalVP.to_exp().to_nat() is C21. Not true, and refuted: the claim about shape for GammaVP: GammaVP.shape drops the last batch axis (C36_shape_refuted)."
  },
  {
   "property": "C37",
   "status": "proved",
   "theorems": [
    "C37_change_of_variables"
   ],
   "note": "pdf of Rayleigh, Weibull, Chi and ChiSquare equals the pdf of the base distribution at g(x) times |g'(x)|, at every batch element, for every in-domain parameter and x > 0."
  },
  {
   "property": "C38",
   "status": "proved",
   "theorems": [
    "C38_special_cases"
   ],
   "note": "log_pdf agrees for UnitNormal/Normal, Geometric/NegativeBinomial(1), Bernoulli/one-dimensional Multinomial, Exponential/Gamma(1), Exponential/Weibull(1), Beta/two-category Dirichlet, Normal/one-dimensional diagonal, Isotropic, unit and fixed-variance/diagonal, ComplexUnitNormal/one-dimensional ComplexMultivariateUnitNormal."
  },
  {
   "property": "C39",
   "status": "proved",
   "theorems": [
    "C39_getitem",
    "C39_shape",
    "C39_getitem_getitem",
    "C39_gamma_vp_shape_refuted"
   ],
   "note": "Finding: GammaVP.shape drops the last batch axis (C39_gamma_vp_shape_refuted)."
  },
  {
   "property": "C40",
   "status": "proved",
   "theorems": [
    "C40_to_exp",
    "C40_to_nat",
    "C40_sufficient_statistics",
    "C40_unflatten",
    "C40_parameter_map"
   ],
   "note": ""
  },
  {
   "property": "C41",
   "status": "proved",
   "theorems": [
    "C41_kl_divergence",
    "C41_cross_entropy",
    "C41_densities"
   ],
   "note": "for distributions and joint distributions of every family, at every batch element in the domain with equal fixed parameters (with different ones kl_divergence can be negative, C19_kl_divergence_refuted); LogarithmicNP outside the range where to_exp clips; the families whose carrier measure needs a numerical search under the hypothesis that it recovers the parameters (C28)"
  },
  {
   "property": "C42",
   "status": "partial",
   "theorems": [
    "C42_trace_partial",
    "C42_trace_refuted",
    "C42_complex_refuted"
   ],
   "note": "proved without batch dimensions for parameters that range over all reals, real vectors or symmetric matrices (and joint distributions of such); refuted for bounded parameters, where the diagonal was mapped into the support (C42_trace_refuted), and for complex parameters, whose real and imaginary directions are not added (C42_complex_refuted)"
  },
  {
   "property": "C43",
   "status": "proved",
   "theorems": [
    "C43_probability",
    "C43_surprisal",
    "C43_to_exp"
   ],
   "note": "Bernoulli and Multinomial, at every batch element"
  },
  {
   "property": "C44",
   "status": "proved",
   "theorems": [
    "C44_kappa",
    "C44_kappa_angle",
    "C44_other_dimensions"
   ],
   "note": "kappa for every dimension; to_kappa_angle for two dimensions and its ValueError otherwise; arctan2 of 0, 0 is 0 as in numpy"
  },
  {
   "property": "C45",
   "status": "proved",
   "theorems": [
    "C45_normal",
    "C45_diagonal",
    "C45_multivariate",
    "C45_isotropic"
   ],
   "note": "at every batch element in the domain"
  },
  {
   "property": "C46",
   "status": "partial",
   "theorems": [
    "C46_exists_partial",
    "C46_positive_semidefinite_partial",
    "C46_jeffreys_prior_partial",
    "C46_circularly_symmetric_refuted",
    "C46_circularly_symmetric_zero"
   ],
   "note": "proved for every tree without ComplexCircularlySymmetricNormal leaves; for that family the flattened parameters include the imaginary parts of the diagonal of the Hermitian matrix, the matrix is not positive semidefinite and jeffreys_prior is NaN or 0 (C46_circularly_symmetric_refuted, C46_circularly_symmetric_zero)"
  },
  {
   "property": "C47",
   "status": "proved",
   "theorems": [
    "C47_cumulant_generating_function",
    "C47_nearby"
   ],
   "note": "all families and joint trees with parameters in the domain; C47_nearby shows that the shifted distribution exists for every small shift"
  },
  {
   "property": "C48",
   "status": "proved",
   "theorems": [
    "C48_covariance",
    "C48_cumulants"
   ],
   "note": "by differentiating the cumulant generating function (C47) under the integral sign; <u, J v> is derivative_along, the notion C20/C30 relate to the Hessian of log_normalizer"
  },
  {
   "property": "C49",
   "status": "partial",
   "theorems": [
    "C49_density",
    "C49_samples_follow_partial",
    "C49_negative_binomial",
    "C49_multinomial_conditional",
    "C49_multinomial_refuted",
    "C49_geometric_from_one",
    "C49_geometric_refuted",
    "C49_complex_unit_refuted"
   ],
   "note": "proved for every samplable family but four (NegativeBinomial, drawn in two stages, in its own theorem); false of Multinomial (never its last category: samples follow the conditional law), Geometric (samples start at 1) and the two complex unit normals (one key for both parts): refuted for every parameter, with the law that the Multinomial and Geometric samples do follow"
  },
  {
   "property": "C50",
   "status": "proved",
   "theorems": [
    "C50_normal",
    "C50_gamma",
    "C50_diagonal",
    "C50_multivariate"
   ],
   "note": "one theorem per class; the density is that of the natural parameters to which the library converts the distribution (C49_density shows they exist)"
  },
  {
   "property": "C51",
   "status": "partial",
   "theorems": [
    "C51_covariance_partial",
    "C51_circularly_symmetric_refuted"
   ],
   "note": "proved for every tree without ComplexCircularlySymmetricNormal leaves; for that family no two statistics have the variances and covariance in the matrix (C51_circularly_symmetric_refuted), because of the imaginary parts of the diagonal of its Hermitian matrix (C46)"
  },
  {
   "property": "C52",
   "status": "partial",
   "theorems": [
    "C52_mean_space_partial",
    "C52_support_refuted",
    "C52_search",
    "C52_search_always",
    "C52_root_unique",
    "C52_increasing"
   ],
   "note": "the set of attained expectation parameters is proved for every family but GeneralizedDirichlet (no closed form); existence, uniqueness and monotonicity of the root for every search; the declared supports contain values no distribution has (C52_support_refuted)"
  },
  {
   "property": "C53",
   "status": "proved",
   "theorems": [
    "C53_cross_entropy_gradient",
    "C53_minimum",
    "C53_entropy_gradient",
    "C53_entropy_gradient_closed"
   ],
   "note": "every family that has an entropy; where to_nat searches, the hypothesis found_along says that the search succeeds at and near the point, and is satisfied by a concrete solver in the example"
  },
  {
   "property": "C54",
   "status": "proved",
   "theorems": [
    "C54_residual",
    "C54_to_nat",
    "C54_bracket"
   ],
   "note": "the solver is arbitrary; with eps = 0 this is C28"
  },
  {
   "property": "C55",
   "status": "proved",
   "theorems": [
    "C55_body",
    "C55_descent",
    "C55_terminates",
    "C55_returns",
    "C55_result"
   ],
   "note": "exact real arithmetic; the automatic derivative is specified, not modelled as a program"
  },
  {
   "property": "C56",
   "status": "proved",
   "theorems": [
    "C56_textbook",
    "C56_total",
    "C56_geometric_docstring_refuted",
    "C56_complex_normal_docstring_refuted"
   ],
   "note": "exact real arithmetic; Gamma and Bessel functions by their defining limit and series (SpecFun.v)"
  },
  {
   "property": "C57",
   "status": "proved",
   "theorems": [
    "C57_pdf",
    "C57_entropy",
    "C57_rvs",
    "C57_joint_pdf",
    "C57_joint_pdf_keys",
    "C57_joint_entropy",
    "C57_joint_rvs"
   ],
   "note": "arrays of objects are functions of the index; generators are an arbitrary state type"
  },
  {
   "property": "C58",
   "status": "proved",
   "theorems": [
    "C58_complex_normal",
    "C58_complex_unit_normal",
    "C58_complex_multivariate_unit_normal",
    "C58_circularly_symmetric",
    "C58_covariance",
    "C58_covariance_psd",
    "C58_covariance_multivariate",
    "C58_accepted",
    "C58_rejected",
    "C58_angle"
   ],
   "note": "exact real arithmetic; scipy.stats.multivariate_normal is given by its documented density; positive definiteness by leading minors"
  },
  {
   "property": "C59",
   "status": "partial",
   "theorems": [
    "C59_dirichlet",
    "C59_dirichlet_matrix",
    "C59_dirichlet_rejected",
    "C59_dirichlet_agrees",
    "C59_dirichlet_axes_refuted",
    "C59_generalized",
    "C59_generalized_agrees",
    "C59_sticks"
   ],
   "note": "false for a single alpha and x with three or more axes (C59_dirichlet_axes_refuted); proved for a row of alpha for every row of x, and for one alpha and a matrix x"
  },
  {
   "property": "C60",
   "status": "partial",
   "theorems": [
    "C60_complex_normal_rvs",
    "C60_complex_multivariate_normal_rvs",
    "C60_real_parameters_refuted",
    "C60_as_multivariate_refuted",
    "C60_as_multivariate_vector_refuted",
    "C60_accepts_incompatible_refuted",
    "C60_degenerate_refuted"
   ],
   "note": "false of the code: draws of distributions with real parameters lose the imaginary part, as_multivariate_normal().rvs() raises, the constructors accept parameters no distribution has (C60_*_refuted); the draws with complex dtype are characterized completely"
  },
  {
   "property": "C61",
   "status": "proved",
   "theorems": [
    "C61_from_mc",
    "C61_default_mean",
    "C61_from_mc_rejected",
    "C61_normal",
    "C61_unit_normal",
    "C61_von_mises",
    "C61_von_mises_fisher",
    "C61_geometric"
   ],
   "note": "scipy.stats.multivariate_normal, vonmises, vonmises_fisher and geom are given by their documented densities and argument checks"
  },
  {
   "property": "C62",
   "status": "proved",
   "theorems": [
    "C62_entropy",
    "C62_entropy_exp",
    "C62_defined",
    "C62_complex_normal",
    "C62_complex_unit_normal",
    "C62_complex_multivariate_unit_normal",
    "C62_circularly_symmetric",
    "C62_normal"
   ],
   "note": "entropy formulas in the usual parameters for every family with an entropy method; for Chi and ChiSquare (and, for entropy of an EP, the other families that search) the numerical search is assumed to recover q"
  },
  {
   "property": "C63",
   "status": "proved",
   "theorems": [
    "C63_kl_divergence",
    "C63_defined",
    "C63_kl_divergence_exp"
   ],
   "note": "divergence formulas in the usual parameters for all 27 families; for an EP whose family searches, the search is assumed to recover the natural parameters"
  },
  {
   "property": "C64",
   "status": "proved",
   "theorems": [
    "C64_to_exp",
    "C64_to_nat",
    "C64_to_nat_search"
   ],
   "note": "all 27 families; for to_nat by search, the search is assumed to find parameters whose expectation parameters are the given ones (C28, C52)"
  },
  {
   "property": "C65",
   "status": "proved",
   "theorems": [
    "C65_combine",
    "C65_product",
    "C65_scale",
    "C65_combine_joint",
    "C65_scale_joint"
   ],
   "note": "all families, simple and joint: parameter_map(jnp.add, p, q) has the normalised product of the densities (carrier counted once) and parameter_map(c * x, p) the normalised power, whenever the result is in the domain; the families closed under these operations are named, and an example shows that ChiSquare is not"
  },
  {
   "property": "C66",
   "status": "partial",
   "theorems": [
    "C66_bayes",
    "C66_accumulate",
    "C66_exponential_refuted"
   ],
   "note": "proved for every family with a conjugate prior except Exponential, for which it is false: its prior divides the pseudo-observations by the mean instead of using their sum (C66_exponential_refuted, cf. C31)"
  },
  {
   "property": "C67",
   "status": "proved",
   "theorems": [
    "C67_from_natural",
    "C67_from_expectation",
    "C67_simple_estimator",
    "C67_domain_support",
    "C67_domain_support_dual",
    "C67_normal_vp",
    "C67_diagonal_vp"
   ],
   "note": "for every tree, path and observation; the densities for the two variance parametrizations that have them"
  },
  {
   "property": "C68",
   "status": "proved",
   "theorems": [
    "C68_history",
    "C68_order"
   ],
   "note": "by induction on the history; order independence by the permutation of the sum of the evidence; Exponential is excluded from the first theorem because C66 is false of it"
  },
  {
   "property": "C69",
   "status": "proved",
   "theorems": [
    "C69_joint_pdf",
    "C69_joint_entropy",
    "C69_parameters",
    "C69_none"
   ],
   "note": "the agreement of the parts, a hypothesis here, is C58, C59, C61 and C62"
  },
  {
   "property": "C70",
   "status": "proved",
   "theorems": [
    "C70_three_points",
    "C70_difference",
    "C70_symmetrised",
    "C70_pythagoras"
   ],
   "note": ""
  },
  {
   "property": "C71",
   "status": "proved",
   "theorems": [
    "C71_domain",
    "C71_log_normalizer",
    "C71_kl_divergence",
    "C71_gap",
    "C71_von_mises_fisher_refuted"
   ],
   "note": "halfway between opposite von Mises-Fisher distributions log_normalizer is NaN (C71_von_mises_fisher_refuted, cf. C22); for that family the inequalities are proved whenever the mixture is in the domain"
  },
  {
   "property": "C72",
   "status": "proved",
   "theorems": [
    "C72_average",
    "C72_compensation",
    "C72_centroid",
    "C72_convex"
   ],
   "note": ""
  },
  {
   "property": "C73",
   "status": "proved",
   "theorems": [
    "C73_projection",
    "C73_loss",
    "C73_entropy",
    "C73_maximum_entropy"
   ],
   "note": ""
  },
  {
   "property": "C74",
   "status": "proved",
   "theorems": [
    "C74_bisection",
    "C74_halving"
   ],
   "note": "optimistix.Bisection is not in the repository: the loop is modelled over the reals with any number of doublings and halvings (Bisect.v)"
  },
  {
   "property": "C75",
   "status": "proved",
   "theorems": [
    "C75_initial",
    "C75_gamma",
    "C75_von_mises_fisher",
    "C75_bisection",
    "C75_batch",
    "C75_logarithmic",
    "C75_choice",
    "C75_choice_family",
    "C75_logarithmic_batch",
    "C75_joint",
    "C75_natural",
    "C75_natural_batch",
    "C75_natural_joint"
   ],
   "note": "the loop of optimistix.Bisection is modelled over the reals with any number of doublings and halvings (Bisect.v)"
  }
 ]
}
