# Print Assumptions for every theorem in MANIFEST.json

Generated by tools/audit.py. All axioms are those of the Coq standard library.

## Closed under the global context (no axioms)

C07_unflatten_flatten, C07_flatten_get, C07_empty_refuted, C07_prefix_refuted, C08_join_mappings, C08_join_order, C12_inverse, C14_distinct_keys, C15_flat_dict_of_observations, C57_joint_rvs, C69_none

## `ClassicalDedekindReals.sig_forall_dec`

C57_pdf, C57_entropy, C57_rvs, C57_joint_pdf_keys, C57_joint_entropy

## `FunctionalExtensionality.functional_extensionality_dep`

C07_flatten_unflatten

## `ClassicalDedekindReals.sig_forall_dec`, `FunctionalExtensionality.functional_extensionality_dep`

C01_assemble_parameters, C01_assemble_any, C01_custom_minimizer_refuted, C01_empty_joint_refuted, C02_parameters, C02_parameters_support, C02_partition, C09_parameter_map, C09_identity, C09_composition, C09_count, C10_value, C10_linear, C10_symmetric, C10_ignores_fixed, C11_dot_product_order_refuted, C11_parameter_map_order_refuted, C13_reinterpret, C13_reinterpret_self, C13_reinterpret_count, C14_general_sample, C14_missing_leaf_refuted, C15_flat_dict, C31_generalized_multinomial_refuted, C34_clamp_simplex_partial, C34_clamp_simplex_refuted, C34_clamp_integer_refuted, C34_clamp_psd_refuted, C35_bounds_partial, C36_shape, C36_shape_refuted, C39_getitem, C39_shape, C39_getitem_getitem, C39_gamma_vp_shape_refuted, C40_parameter_map, C57_joint_pdf, C58_covariance, C58_covariance_multivariate, C59_dirichlet_rejected, C59_sticks, C65_combine_joint, C65_scale_joint, C67_domain_support

## `ClassicalDedekindReals.sig_forall_dec`, `ClassicalDedekindReals.sig_not_dec`, `FunctionalExtensionality.functional_extensionality_dep`

C34_clamp_real_partial, C34_clamp_complex_refuted, C34_clamp_disk_refuted, C35_generate_integer_refuted, C35_generate_disk_refuted, C35_generate_zero_refuted, C35_generate_missing_refuted, C35_generate_variance_refuted, C44_kappa, C58_covariance_psd, C58_accepted, C58_rejected, C58_angle, C69_parameters

## `ClassicalDedekindReals.sig_forall_dec`, `ClassicalDedekindReals.sig_not_dec`, `Classical_Prop.classic`, `FunctionalExtensionality.functional_extensionality_dep`

C03_flatten_unflatten, C03_custom_minimizer_refuted, C04_flatten_unflatten_mapped, C04_near_bound_refuted, C04_complex_zero_refuted, C05_flat_length, C05_wrong_length, C06_unflatten_in_support, C06_complex_origin_refuted, C06_semidefinite_refuted, C12_to_exp, C12_to_nat, C16_log_pdf, C16_key_order, C17_log_normalizer, C17_kl_divergence, C17_kl_divergence_exp, C17_cross_entropy, C17_entropy_nat, C17_entropy_exp, C18_difference, C18_diagonal, C19_kl_divergence, C19_kl_divergence_refuted, C19_kl_divergence_exp, C19_kl_divergence_exp_closed, C20_log_normalizer_jvp, C20_log_normalizer_jvp_refuted, C21_to_exp_to_nat, C21_to_nat_to_exp, C21_to_exp_injective, C22_log_normalizer, C22_to_exp, C22_to_nat, C22_log_normalizer_refuted, C22_to_exp_refuted, C23_normalised, C23_positive, C23_joint_normalised, C24_entropy, C24_entropy_exp, C24_joint_entropy, C25_expected_statistics, C25_expected_statistics_refuted, C25_joint_expected_statistics, C26_maximum_likelihood, C26_simple_estimator, C27_log_normalizer, C27_to_exp, C27_to_nat, C27_carrier_measure, C27_log_pdf, C27_entropy_nat, C27_entropy_exp, C27_cross_entropy, C27_kl_divergence, C27_kl_divergence_exp, C28_root, C28_to_nat, C28_to_exp_to_nat, C29_diagonal_refuted, C29_batch_refuted, C29_diagonal_plane_partial, C29_diagonal_unbounded_partial, C30_symmetric_positive, C30_hessian, C30_apply_fisher_information, C31_conjugate_prior, C31_mode, C31_exponential_refuted, C31_exponential_reversed, C31_generalized_conjugate_prior, C31_generalized_mode, C31_generalized_multinomial_sticks, C31_generalized_multinomial_support_refuted, C32_shape, C32_in_sample_space, C32_reachable_partial, C32_multinomial_samples, C32_multinomial_reachable_refuted, C32_geometric_samples, C32_geometric_reachable_refuted, C32_geometric_nan, C32_in_sample_space_refuted, C32_complex_unit_samples, C32_complex_unit_reachable_refuted, C33_support_round_trip, C33_plane_round_trip, C33_simplex_refuted, C35_generate_partial, C35_generate_random_partial, C36_to_exp_to_nat, C36_to_exp_to_var, C36_to_var_to_exp, C36_gamma, C36_gamma_to_exp_to_nat, C36_to_var_to_nat, C37_change_of_variables, C38_special_cases, C40_to_exp, C40_to_nat, C40_sufficient_statistics, C40_unflatten, C41_kl_divergence, C41_cross_entropy, C41_densities, C42_trace_partial, C42_trace_refuted, C42_complex_refuted, C43_probability, C43_surprisal, C43_to_exp, C44_kappa_angle, C44_other_dimensions, C45_normal, C45_diagonal, C45_multivariate, C45_isotropic, C46_exists_partial, C46_positive_semidefinite_partial, C46_jeffreys_prior_partial, C46_circularly_symmetric_refuted, C46_circularly_symmetric_zero, C47_cumulant_generating_function, C47_nearby, C48_covariance, C48_cumulants, C49_density, C49_samples_follow_partial, C49_negative_binomial, C49_multinomial_conditional, C49_multinomial_refuted, C49_geometric_from_one, C49_geometric_refuted, C49_complex_unit_refuted, C50_normal, C50_gamma, C50_diagonal, C50_multivariate, C51_covariance_partial, C51_circularly_symmetric_refuted, C52_mean_space_partial, C52_support_refuted, C52_search, C52_search_always, C52_root_unique, C52_increasing, C53_cross_entropy_gradient, C53_minimum, C53_entropy_gradient, C53_entropy_gradient_closed, C54_residual, C54_to_nat, C54_bracket, C55_body, C55_descent, C55_terminates, C55_returns, C55_result, C56_textbook, C56_total, C56_geometric_docstring_refuted, C56_complex_normal_docstring_refuted, C58_complex_normal, C58_complex_unit_normal, C58_complex_multivariate_unit_normal, C58_circularly_symmetric, C59_dirichlet, C59_dirichlet_matrix, C59_dirichlet_agrees, C59_dirichlet_axes_refuted, C59_generalized, C59_generalized_agrees, C60_complex_normal_rvs, C60_complex_multivariate_normal_rvs, C60_real_parameters_refuted, C60_as_multivariate_refuted, C60_as_multivariate_vector_refuted, C60_accepts_incompatible_refuted, C60_degenerate_refuted, C61_from_mc, C61_default_mean, C61_from_mc_rejected, C61_normal, C61_unit_normal, C61_von_mises, C61_von_mises_fisher, C61_geometric, C62_entropy, C62_entropy_exp, C62_defined, C62_complex_normal, C62_complex_unit_normal, C62_complex_multivariate_unit_normal, C62_circularly_symmetric, C62_normal, C63_kl_divergence, C63_defined, C63_kl_divergence_exp, C64_to_exp, C64_to_nat, C64_to_nat_search, C65_combine, C65_product, C65_scale, C66_bayes, C66_accumulate, C66_exponential_refuted, C67_from_natural, C67_from_expectation, C67_simple_estimator, C67_domain_support_dual, C67_normal_vp, C67_diagonal_vp, C68_history, C68_order, C69_joint_pdf, C69_joint_entropy, C70_three_points, C70_difference, C70_symmetrised, C70_pythagoras, C71_domain, C71_log_normalizer, C71_kl_divergence, C71_gap, C71_von_mises_fisher_refuted, C72_average, C72_compensation, C72_centroid, C72_convex, C73_projection, C73_loss, C73_entropy, C73_maximum_entropy, C74_bisection, C74_halving, C75_initial, C75_gamma, C75_von_mises_fisher, C75_bisection, C75_batch, C75_logarithmic, C75_choice, C75_choice_family, C75_logarithmic_batch, C75_joint, C75_natural, C75_natural_batch, C75_natural_joint
