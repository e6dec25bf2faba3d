{
 "claims": [
  {
   "property": "C01",
   "status": "proved",
   "theorems": [
    "C01_dcov_sqr_value",
    "C01_methods_agree"
   ],
   "note": ""
  },
  {
   "property": "C02",
   "status": "proved",
   "theorems": [
    "C02_u_dcov_sqr_value"
   ],
   "note": ""
  },
  {
   "property": "C03",
   "status": "proved",
   "theorems": [
    "C03_accepted",
    "C03_raises",
    "C03_complete",
    "C03_cast_mismatch"
   ],
   "note": ""
  },
  {
   "property": "C04",
   "status": "proved",
   "theorems": [
    "C04_auto_total"
   ],
   "note": ""
  },
  {
   "property": "C05",
   "status": "proved",
   "theorems": [
    "C05_stats_sqr",
    "C05_u_stats_sqr",
    "C05_stats"
   ],
   "note": ""
  },
  {
   "property": "C06",
   "status": "proved",
   "theorems": [
    "C06_dcov_nonneg"
   ],
   "note": ""
  },
  {
   "property": "C07",
   "status": "proved",
   "theorems": [
    "C07_dcor_range"
   ],
   "note": ""
  },
  {
   "property": "C08",
   "status": "proved",
   "theorems": [
    "C08_u_dcor_range",
    "C08_u_dvar_nonneg"
   ],
   "note": ""
  },
  {
   "property": "C09",
   "status": "proved",
   "theorems": [
    "C09_symmetric"
   ],
   "note": ""
  },
  {
   "property": "C10",
   "status": "proved",
   "theorems": [
    "C10_reordered"
   ],
   "note": ""
  },
  {
   "property": "C11",
   "status": "proved",
   "theorems": [
    "C11_isometric",
    "C11_translated",
    "C11_rotated"
   ],
   "note": ""
  },
  {
   "property": "C12",
   "status": "proved",
   "theorems": [
    "C12_scaled_dcov",
    "C12_scaled_u_dcov",
    "C12_scaled_dcor"
   ],
   "note": ""
  },
  {
   "property": "C13",
   "status": "proved",
   "theorems": [
    "C13_dcor_one_iff",
    "C13_self_one"
   ],
   "note": ""
  },
  {
   "property": "C14",
   "status": "proved",
   "theorems": [
    "C14_dvar_zero_iff",
    "C14_constant_zero"
   ],
   "note": ""
  },
  {
   "property": "C15",
   "status": "proved",
   "theorems": [
    "C15_dcov_zero_iff_independent"
   ],
   "note": ""
  },
  {
   "property": "C16",
   "status": "proved",
   "theorems": [
    "C16_exponent_2",
    "C16_exponent_2_blind",
    "C16_warning"
   ],
   "note": ""
  },
  {
   "property": "C17",
   "status": "proved",
   "theorems": [
    "C17_double_centered",
    "C17_idempotent",
    "C17_any_matrix",
    "C17_asymmetric_refuted"
   ],
   "note": ""
  },
  {
   "property": "C18",
   "status": "proved",
   "theorems": [
    "C18_u_centered",
    "C18_idempotent"
   ],
   "note": ""
  },
  {
   "property": "C19",
   "status": "proved",
   "theorems": [
    "C19_out",
    "C19_wrong_shape"
   ],
   "note": ""
  },
  {
   "property": "C20",
   "status": "proved",
   "theorems": [
    "C20_mean_product",
    "C20_u_product",
    "C20_products"
   ],
   "note": ""
  },
  {
   "property": "C21",
   "status": "proved",
   "theorems": [
    "C21_projection",
    "C21_linear_idempotent",
    "C21_orthogonal"
   ],
   "note": ""
  },
  {
   "property": "C22",
   "status": "proved",
   "theorems": [
    "C22_inner_product",
    "C22_value",
    "C22_symmetric",
    "C22_zero",
    "C22_constant",
    "C22_isometric",
    "C22_scaled_z"
   ],
   "note": ""
  },
  {
   "property": "C23",
   "status": "proved",
   "theorems": [
    "C23_value",
    "C23_range",
    "C23_symmetric",
    "C23_cosine",
    "C23_constant",
    "C23_same_as_z"
   ],
   "note": ""
  },
  {
   "property": "C24",
   "status": "proved",
   "theorems": [
    "C24_value",
    "C24_nonneg",
    "C24_symmetric",
    "C24_same",
    "C24_warning"
   ],
   "note": ""
  },
  {
   "property": "C25",
   "status": "proved",
   "theorems": [
    "C25_zero_iff"
   ],
   "note": ""
  },
  {
   "property": "C26",
   "status": "proved",
   "theorems": [
    "C26_similar",
    "C26_translated",
    "C26_scaled",
    "C26_rotated",
    "C26_reordered"
   ],
   "note": ""
  },
  {
   "property": "C27",
   "status": "proved",
   "theorems": [
    "C27_u_statistic",
    "C27_u_ordered",
    "C27_u_below_v",
    "C27_names",
    "C27_strings"
   ],
   "note": ""
  },
  {
   "property": "C28",
   "status": "proved",
   "theorems": [
    "C28_statistic",
    "C28_two_sample",
    "C28_one_sample",
    "C28_no_sample"
   ],
   "note": ""
  },
  {
   "property": "C29",
   "status": "proved",
   "theorems": [
    "C29_count",
    "C29_range",
    "C29_bounds",
    "C29_no_resamples",
    "C29_negative",
    "C29_negative_accepted"
   ],
   "note": ""
  },
  {
   "property": "C30",
   "status": "proved",
   "theorems": [
    "C30_dcov_test",
    "C30_energy_test",
    "C30_partial_test",
    "C30_partial_statistic"
   ],
   "note": ""
  },
  {
   "property": "C31",
   "status": "proved",
   "theorems": [
    "C31_dcov_test",
    "C31_partial_test",
    "C31_energy_test",
    "C31_same_result",
    "C31_progress",
    "C31_bounded"
   ],
   "note": ""
  },
  {
   "property": "C32",
   "status": "proved",
   "theorems": [
    "C32_dcov_test",
    "C32_energy_test",
    "C32_dcov_test_ties",
    "C32_constant_refuted"
   ],
   "note": ""
  },
  {
   "property": "C33",
   "status": "proved",
   "theorems": [
    "C33_statistic",
    "C33_sign",
    "C33_increasing",
    "C33_p_value",
    "C33_p_decreasing",
    "C33_infinite"
   ],
   "note": ""
  },
  {
   "property": "C34",
   "status": "proved",
   "theorems": [
    "C34_rowwise_map",
    "C34_optimised",
    "C34_other",
    "C34_finite"
   ],
   "note": ""
  },
  {
   "property": "C35",
   "status": "proved",
   "theorems": [
    "C35_naive_zip",
    "C35_empty_refuted",
    "C35_broadcast_refuted",
    "C35_lengths_refuted",
    "C35_integer_refuted",
    "C35_shapes_refuted",
    "C35_parallel_refuted",
    "C35_not_optimised",
    "C35_string_method"
   ],
   "note": ""
  },
  {
   "property": "C36",
   "status": "proved",
   "theorems": [
    "C36_two_samples",
    "C36_transposed_refuted"
   ],
   "note": ""
  },
  {
   "property": "C37",
   "status": "proved",
   "theorems": [
    "C37_one_sample",
    "C37_paths_agree",
    "C37_triangle",
    "C37_triangle_needs_exponent"
   ],
   "note": ""
  },
  {
   "property": "C38",
   "status": "proved",
   "theorems": [
    "C38_avl_in_range",
    "C38_mergesort_in_range",
    "C38_inner_loops"
   ],
   "note": ""
  },
  {
   "property": "C39",
   "status": "proved",
   "theorems": [
    "C39_doubles_refuted",
    "C39_compiled_is_python",
    "C39_auto_is_python",
    "C39_mergesort_compiled_is_python"
   ],
   "note": ""
  },
  {
   "property": "C40",
   "status": "proved",
   "theorems": [
    "C40_weight_sums",
    "C40_in_range"
   ],
   "note": ""
  },
  {
   "property": "C41",
   "status": "proved",
   "theorems": [
    "C41_ties_and_garbage"
   ],
   "note": ""
  },
  {
   "property": "C42",
   "status": "proved",
   "theorems": [
    "C42_dependence",
    "C42_stats",
    "C42_af_inv",
    "C42_distances",
    "C42_partial_functions",
    "C42_energy",
    "C42_tests",
    "C42_energy_test"
   ],
   "note": ""
  },
  {
   "property": "C43",
   "status": "proved",
   "theorems": [
    "C43_rejected",
    "C43_mergesort_truncates",
    "C43_mergesort_overrun",
    "C43_mergesort_refuted",
    "C43_dcov_test",
    "C43_t_test",
    "C43_partial_covariance",
    "C43_partial_correlation",
    "C43_partial_test",
    "C43_single_ignored",
    "C43_single_refuted"
   ],
   "note": ""
  },
  {
   "property": "C44",
   "status": "proved",
   "theorems": [
    "C44_affine_invariant",
    "C44_value"
   ],
   "note": ""
  },
  {
   "property": "C45",
   "status": "proved",
   "theorems": [
    "C45_unbiased",
    "C45_unbiased_null"
   ],
   "note": ""
  },
  {
   "property": "C46",
   "status": "proved",
   "theorems": [
    "C46_unbiased"
   ],
   "note": ""
  },
  {
   "property": "C47",
   "status": "proved",
   "theorems": [
    "C47_energy_label"
   ],
   "note": ""
  },
  {
   "property": "C48",
   "status": "proved",
   "theorems": [
    "C48_naive",
    "C48_never_a_number",
    "C48_mergesort_three"
   ],
   "note": ""
  },
  {
   "property": "C49",
   "status": "proved",
   "theorems": [
    "C49_avl",
    "C49_avl_modular",
    "C49_naive",
    "C49_avl_refuted",
    "C49_naive_refuted"
   ],
   "note": ""
  },
  {
   "property": "C50",
   "status": "proved",
   "theorems": [
    "C50_rejected",
    "C50_broadcast_refuted"
   ],
   "note": ""
  },
  {
   "property": "C51",
   "status": "proved",
   "theorems": [
    "C51_method_names",
    "C51_calls"
   ],
   "note": ""
  },
  {
   "property": "C52",
   "status": "proved",
   "theorems": [
    "C52_same_as_real",
    "C52_finite",
    "C52_never_nan",
    "C52_energy",
    "C52_partial_covariance",
    "C52_partial_correlation"
   ],
   "note": ""
  },
  {
   "property": "C53",
   "status": "proved",
   "theorems": [
    "C53_methods_agree",
    "C53_offset_refuted",
    "C53_correlation_refuted"
   ],
   "note": ""
  },
  {
   "property": "C54",
   "status": "proved",
   "theorems": [
    "C54_accuracy"
   ],
   "note": ""
  },
  {
   "property": "C55",
   "status": "proved",
   "theorems": [
    "C55_naive_accuracy"
   ],
   "note": ""
  },
  {
   "property": "C56",
   "status": "proved",
   "theorems": [
    "C56_avl_accuracy",
    "C56_constant_refuted"
   ],
   "note": ""
  },
  {
   "property": "C57",
   "status": "proved",
   "theorems": [
    "C57_extended",
    "C57_extended_naive",
    "C57_extended_partial_functions",
    "C57_extended_energy",
    "C57_extended_tests",
    "C57_extended_energy_test",
    "C57_extended_af_inv",
    "C57_doubles",
    "C57_doubles_naive",
    "C57_doubles_partial_functions",
    "C57_doubles_energy",
    "C57_doubles_tests",
    "C57_doubles_energy_test",
    "C57_doubles_af_inv",
    "C57_doubles_rowwise",
    "C57_rowwise_refuted"
   ],
   "note": ""
  },
  {
   "property": "C58",
   "status": "proved",
   "theorems": [
    "C58_naive_correlation",
    "C58_avl_correlation",
    "C58_distance_correlation"
   ],
   "note": ""
  },
  {
   "property": "C59",
   "status": "proved",
   "theorems": [
    "C59_self_correlation",
    "C59_self_correlation_data",
    "C59_bounded_refuted"
   ],
   "note": ""
  },
  {
   "property": "C60",
   "status": "proved",
   "theorems": [
    "C60_pvalue",
    "C60_decision"
   ],
   "note": ""
  },
  {
   "property": "C61",
   "status": "proved",
   "theorems": [
    "C61_dcov_test",
    "C61_ties_refuted"
   ],
   "note": ""
  },
  {
   "property": "C62",
   "status": "proved",
   "theorems": [
    "C62_accuracy",
    "C62_same",
    "C62_integers",
    "C62_distribution",
    "C62_same_distribution",
    "C62_symmetric_refuted",
    "C62_nonneg_refuted"
   ],
   "note": ""
  },
  {
   "property": "C63",
   "status": "proved",
   "theorems": [
    "C63_energy_test",
    "C63_ties_refuted"
   ],
   "note": ""
  },
  {
   "property": "C64",
   "status": "proved",
   "theorems": [
    "C64_exact",
    "C64_same_fraction"
   ],
   "note": ""
  },
  {
   "property": "C65",
   "status": "proved",
   "theorems": [
    "C65_mergesort_accuracy",
    "C65_methods_close",
    "C65_mergesort_correlation",
    "C65_identical_refuted"
   ],
   "note": ""
  },
  {
   "property": "C66",
   "status": "proved",
   "theorems": [
    "C66_counts_the_library",
    "C66_avl_steps",
    "C66_auto_steps",
    "C66_mergesort_steps",
    "C66_naive_steps",
    "C66_fast_beats_naive"
   ],
   "note": ""
  },
  {
   "property": "C67",
   "status": "proved",
   "theorems": [
    "C67_one_library",
    "C67_two_libraries",
    "C67_list_second",
    "C67_list_second_auto",
    "C67_list_first",
    "C67_list_value",
    "C67_t_test",
    "C67_converting_two",
    "C67_energy_test",
    "C67_converting_each",
    "C67_converting_arrays",
    "C67_energy_test_arrays",
    "C67_each_arrays",
    "C67_af_inv_arrays",
    "C67_t_test_arrays",
    "C67_t_test_converted"
   ],
   "note": ""
  },
  {
   "property": "C68",
   "status": "proved",
   "theorems": [
    "C68_bundle",
    "C68_bundle_variances",
    "C68_products_symmetric",
    "C68_partial_symmetric",
    "C68_reflection_dependence",
    "C68_reflection",
    "C68_distance_matrix",
    "C68_constant",
    "C68_swap_refuted"
   ],
   "note": ""
  },
  {
   "property": "C69",
   "status": "proved",
   "theorems": [
    "C69_covariances_identical",
    "C69_correlations",
    "C69_distance_correlations",
    "C69_correlations_identical_refuted",
    "C69_constant_refuted"
   ],
   "note": ""
  },
  {
   "property": "C70",
   "status": "proved",
   "theorems": [
    "C70_dependence",
    "C70_biased",
    "C70_dcov_test",
    "C70_partial_covariance",
    "C70_energy_test",
    "C70_energy_distance"
   ],
   "note": ""
  },
  {
   "property": "C71",
   "status": "proved",
   "theorems": [
    "C71_dependence",
    "C71_repeated",
    "C71_test_statistic",
    "C71_energy",
    "C71_u_refuted"
   ],
   "note": ""
  },
  {
   "property": "C72",
   "status": "proved",
   "theorems": [
    "C72_covariance",
    "C72_root",
    "C72_test_statistic",
    "C72_energy",
    "C72_correlation_refuted"
   ],
   "note": ""
  },
  {
   "property": "C73",
   "status": "proved",
   "theorems": [
    "C73_never_nan",
    "C73_finite",
    "C73_sign",
    "C73_increasing",
    "C73_p_value",
    "C73_p_decreasing",
    "C73_accuracy",
    "C73_beyond_one"
   ],
   "note": ""
  },
  {
   "property": "C74",
   "status": "proved",
   "theorems": [
    "C74_rate",
    "C74_consistent",
    "C74_population",
    "C74_zero_limit",
    "C74_energy_rate",
    "C74_energy",
    "C74_given_third"
   ],
   "note": ""
  },
  {
   "property": "C75",
   "status": "proved",
   "theorems": [
    "C75_dcov_rate",
    "C75_dcov_power",
    "C75_energy_rate",
    "C75_energy_power",
    "C75_t_statistic",
    "C75_level_bound",
    "C75_t_test"
   ],
   "note": ""
  },
  {
   "property": "C76",
   "status": "proved",
   "theorems": [
    "C76_dcov_level",
    "C76_energy_level",
    "C76_energy_two"
   ],
   "note": ""
  },
  {
   "property": "C77",
   "status": "proved",
   "theorems": [
    "C77_correlation_finite",
    "C77_correlation_data",
    "C77_correlation_accuracy",
    "C77_covariance_accuracy",
    "C77_given_itself",
    "C77_given_nothing",
    "C77_given_constant",
    "C77_range_refuted"
   ],
   "note": ""
  },
  {
   "property": "C78",
   "status": "proved",
   "theorems": [
    "C78_energy_test",
    "C78_energy_level",
    "C78_dcov_level",
    "C78_constant_refuted"
   ],
   "note": ""
  },
  {
   "property": "C79",
   "status": "proved",
   "theorems": [
    "C79_dcov_uniform",
    "C79_energy_uniform",
    "C79_dcov_draws",
    "C79_energy_draws",
    "C79_energy_doubles"
   ],
   "note": ""
  },
  {
   "property": "C80",
   "status": "proved",
   "theorems": [
    "C80_rate",
    "C80_power"
   ],
   "note": ""
  },
  {
   "property": "C81",
   "status": "proved",
   "theorems": [
    "C81_triangle",
    "C81_pooled",
    "C81_diluted",
    "C81_convex"
   ],
   "note": ""
  },
  {
   "property": "C82",
   "status": "proved",
   "theorems": [
    "C82_one_similar",
    "C82_similar_one",
    "C82_linear"
   ],
   "note": ""
  },
  {
   "property": "C83",
   "status": "proved",
   "theorems": [
    "C83_population",
    "C83_sums",
    "C83_noise"
   ],
   "note": ""
  },
  {
   "property": "C84",
   "status": "proved",
   "theorems": [
    "C84_energy",
    "C84_distance_covariance",
    "C84_energy_integral",
    "C84_covariance_integral"
   ],
   "note": ""
  },
  {
   "property": "C85",
   "status": "proved",
   "theorems": [
    "C85_exponents",
    "C85_energy",
    "C85_covariance"
   ],
   "note": ""
  },
  {
   "property": "C86",
   "status": "proved",
   "theorems": [
    "C86_noise",
    "C86_sums"
   ],
   "note": ""
  },
  {
   "property": "C87",
   "status": "proved",
   "theorems": [
    "C87_distances",
    "C87_covariance",
    "C87_correlation",
    "C87_distance_correlation",
    "C87_times",
    "C87_avl",
    "C87_avl_correlation",
    "C87_t_test_avl",
    "C87_avl_distance_correlation",
    "C87_energy",
    "C87_energy_test",
    "C87_mergesort",
    "C87_mergesort_correlation",
    "C87_mergesort_distance_correlation",
    "C87_distance_covariance",
    "C87_avl_distance_covariance",
    "C87_mergesort_distance_covariance",
    "C87_default",
    "C87_t_test",
    "C87_test"
   ],
   "note": ""
  }
 ]
}