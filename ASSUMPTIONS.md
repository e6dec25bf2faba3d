# Print Assumptions of every theorem

Written by tools/assumptions.py. All axioms listed are from Coq's standard library.

## no axioms (closed under the global context)

C19_out, C19_wrong_shape, C27_names, C28_no_sample, C31_dcov_test, C31_partial_test, C31_energy_test, C31_same_result, C31_progress, C31_bounded, C34_other, C35_naive_zip, C35_empty_refuted, C35_string_method, C38_mergesort_in_range, C38_inner_loops, C40_in_range, C42_dependence, C42_stats, C42_af_inv, C42_distances, C42_partial_functions, C42_energy, C42_tests, C42_energy_test, C43_mergesort_truncates, C43_dcov_test, C43_partial_covariance, C43_partial_correlation, C43_partial_test, C50_rejected, C51_method_names, C51_calls, C66_counts_the_library, C66_avl_steps, C66_auto_steps, C66_mergesort_steps, C66_naive_steps, C66_fast_beats_naive, C67_one_library, C67_two_libraries, C67_list_second, C67_list_first, C67_converting_two, C67_energy_test, C67_converting_each, C67_converting_arrays, C67_energy_test_arrays, C67_each_arrays, C67_af_inv_arrays, C67_t_test_arrays, C67_t_test_converted, C68_bundle, C68_bundle_variances, C69_covariances_identical

## `FunctionalExtensionality.functional_extensionality_dep`

C38_avl_in_range, C39_compiled_is_python, C39_auto_is_python, C39_mergesort_compiled_is_python, C43_rejected, C43_t_test

## `Classical_Prop.classic`

C67_list_second_auto, C67_t_test

## `ClassicalDedekindReals.sig_forall_dec`, `FunctionalExtensionality.functional_extensionality_dep`

C03_complete

## `ClassicalDedekindReals.sig_forall_dec`, `ClassicalDedekindReals.sig_not_dec`, `Classical_Prop.classic`, `FunctionalExtensionality.functional_extensionality_dep`

C01_dcov_sqr_value, C01_methods_agree, C02_u_dcov_sqr_value, C03_accepted, C03_raises, C03_cast_mismatch, C04_auto_total, C05_stats_sqr, C05_u_stats_sqr, C05_stats, C06_dcov_nonneg, C07_dcor_range, C08_u_dcor_range, C08_u_dvar_nonneg, C09_symmetric, C10_reordered, C11_isometric, C11_translated, C11_rotated, C12_scaled_dcov, C12_scaled_u_dcov, C12_scaled_dcor, C13_dcor_one_iff, C13_self_one, C14_dvar_zero_iff, C14_constant_zero, C15_dcov_zero_iff_independent, C16_exponent_2, C16_exponent_2_blind, C16_warning, C17_double_centered, C17_idempotent, C17_any_matrix, C17_asymmetric_refuted, C18_u_centered, C18_idempotent, C20_mean_product, C20_u_product, C20_products, C21_projection, C21_linear_idempotent, C21_orthogonal, C22_inner_product, C22_value, C22_symmetric, C22_zero, C22_constant, C22_isometric, C22_scaled_z, C23_value, C23_range, C23_symmetric, C23_cosine, C23_constant, C23_same_as_z, C24_value, C24_nonneg, C24_symmetric, C24_same, C24_warning, C25_zero_iff, C26_similar, C26_translated, C26_scaled, C26_rotated, C26_reordered, C27_u_statistic, C27_u_ordered, C27_u_below_v, C27_strings, C28_statistic, C28_two_sample, C28_one_sample, C29_count, C29_range, C29_bounds, C29_no_resamples, C29_negative, C29_negative_accepted, C30_dcov_test, C30_energy_test, C30_partial_test, C30_partial_statistic, C32_dcov_test, C32_energy_test, C32_dcov_test_ties, C32_constant_refuted, C33_statistic, C33_sign, C33_increasing, C33_p_value, C33_p_decreasing, C33_infinite, C34_rowwise_map, C34_optimised, C34_finite, C35_broadcast_refuted, C35_lengths_refuted, C35_integer_refuted, C35_shapes_refuted, C35_parallel_refuted, C35_not_optimised, C36_two_samples, C36_transposed_refuted, C37_one_sample, C37_paths_agree, C37_triangle, C37_triangle_needs_exponent, C39_doubles_refuted, C40_weight_sums, C41_ties_and_garbage, C43_mergesort_overrun, C43_mergesort_refuted, C43_single_ignored, C43_single_refuted, C44_affine_invariant, C44_value, C45_unbiased, C45_unbiased_null, C46_unbiased, C47_energy_label, C48_naive, C48_never_a_number, C48_mergesort_three, C49_avl, C49_avl_modular, C49_naive, C49_avl_refuted, C49_naive_refuted, C50_broadcast_refuted, C52_same_as_real, C52_finite, C52_never_nan, C52_energy, C52_partial_covariance, C52_partial_correlation, C53_methods_agree, C53_offset_refuted, C53_correlation_refuted, C54_accuracy, C55_naive_accuracy, C56_avl_accuracy, C56_constant_refuted, C57_extended, C57_extended_naive, C57_extended_partial_functions, C57_extended_energy, C57_extended_tests, C57_extended_energy_test, C57_extended_af_inv, C57_doubles, C57_doubles_naive, C57_doubles_partial_functions, C57_doubles_energy, C57_doubles_tests, C57_doubles_energy_test, C57_doubles_af_inv, C57_doubles_rowwise, C57_rowwise_refuted, C58_naive_correlation, C58_avl_correlation, C58_distance_correlation, C59_self_correlation, C59_self_correlation_data, C59_bounded_refuted, C60_pvalue, C60_decision, C61_dcov_test, C61_ties_refuted, C62_accuracy, C62_same, C62_integers, C62_distribution, C62_same_distribution, C62_symmetric_refuted, C62_nonneg_refuted, C63_energy_test, C63_ties_refuted, C64_exact, C64_same_fraction, C65_mergesort_accuracy, C65_methods_close, C65_mergesort_correlation, C65_identical_refuted, C67_list_value, C68_products_symmetric, C68_partial_symmetric, C68_reflection_dependence, C68_reflection, C68_distance_matrix, C68_constant, C68_swap_refuted, C69_correlations, C69_distance_correlations, C69_correlations_identical_refuted, C69_constant_refuted, C70_dependence, C70_biased, C70_dcov_test, C70_partial_covariance, C70_energy_test, C70_energy_distance, C71_dependence, C71_repeated, C71_test_statistic, C71_energy, C71_u_refuted, C72_covariance, C72_root, C72_test_statistic, C72_energy, C72_correlation_refuted, C73_never_nan, C73_finite, C73_sign, C73_increasing, C73_p_value, C73_p_decreasing, C73_accuracy, C73_beyond_one, C74_rate, C74_consistent, C74_population, C74_zero_limit, C74_energy_rate, C74_energy, C74_given_third, C75_dcov_rate, C75_dcov_power, C75_energy_rate, C75_energy_power, C75_t_statistic, C75_level_bound, C75_t_test, C76_dcov_level, C76_energy_level, C76_energy_two, C77_correlation_finite, C77_correlation_data, C77_correlation_accuracy, C77_covariance_accuracy, C77_given_itself, C77_given_nothing, C77_given_constant, C77_range_refuted, C78_energy_test, C78_energy_level, C78_dcov_level, C78_constant_refuted, C79_dcov_uniform, C79_energy_uniform, C79_dcov_draws, C79_energy_draws, C79_energy_doubles, C80_rate, C80_power, C81_triangle, C81_pooled, C81_diluted, C81_convex, C82_one_similar, C82_similar_one, C82_linear, C83_population, C83_sums, C83_noise, C84_energy, C84_distance_covariance, C84_energy_integral, C84_covariance_integral, C85_exponents, C85_energy, C85_covariance, C86_noise, C86_sums, C87_distances, C87_covariance, C87_correlation, C87_distance_correlation, C87_times, C87_avl, C87_avl_correlation, C87_t_test_avl, C87_avl_distance_correlation, C87_energy, C87_energy_test, C87_mergesort, C87_mergesort_correlation, C87_mergesort_distance_correlation, C87_distance_covariance, C87_avl_distance_covariance, C87_mergesort_distance_covariance, C87_default, C87_t_test, C87_test
