{
 "claims": [
  {
   "property": "C01",
   "status": "proved",
   "theorems": [
    "C01_make_float_value",
    "C01_make_rational_value",
    "C01_add",
    "C01_sub",
    "C01_neg",
    "C01_scale",
    "C01_add_constant",
    "C01_mul",
    "C01_mul_monomial",
    "C01_mul_coefficients",
    "C01_degrees",
    "C01_rational_closed",
    "C01_monomial"
   ],
   "note": ""
  },
  {
   "property": "C02",
   "status": "proved",
   "theorems": [
    "C02_differentiate",
    "C02_integrate",
    "C02_differentiate_integrate",
    "C02_lebesgue_integral",
    "C02_coefficients"
   ],
   "note": ""
  },
  {
   "property": "C03",
   "status": "proved",
   "theorems": [
    "C03_divmod",
    "C03_divmod_zero_division",
    "C03_remainder_degree_refuted"
   ],
   "note": "C03_remainder_degree_refuted shows the reported degree of the remainder is not reduced."
  },
  {
   "property": "C04",
   "status": "proved",
   "theorems": [
    "C04_floordiv_monomial",
    "C04_monomial_degree"
   ],
   "note": ""
  },
  {
   "property": "C05",
   "status": "proved",
   "theorems": [
    "C05_constructor",
    "C05_cells_partition",
    "C05_value_in_cell",
    "C05_value_outside",
    "C05_no_pieces",
    "C05_constant_value",
    "C05_constant_left",
    "C05_constant_left_refuted",
    "C05_scale",
    "C05_scale_constant",
    "C05_scale_constant_refuted",
    "C05_add_polynomial",
    "C05_add_constant",
    "C05_from_points_errors",
    "C05_from_points_knots",
    "C05_from_points_interpolates",
    "C05_from_points_continuous"
   ],
   "note": ""
  },
  {
   "property": "C06",
   "status": "proved",
   "theorems": [
    "C06_integral_upper_knot",
    "C06_lower_bound_checked",
    "C06_empty_domain",
    "C06_inside_one_cell_zero",
    "C06_interior_upper_refuted",
    "C06_upper_bound_unchecked_refuted"
   ],
   "note": ""
  },
  {
   "property": "C07",
   "status": "proved",
   "theorems": [
    "C07_expressions",
    "C07_add",
    "C07_sub",
    "C07_scale",
    "C07_neg",
    "C07_classes",
    "C07_shape_mismatch",
    "C07_constants_broadcast",
    "C07_polynomial_constant_shape_refuted",
    "C07_polynomial_constant",
    "C07_constants_reject"
   ],
   "note": ""
  },
  {
   "property": "C08",
   "status": "proved",
   "theorems": [
    "C08_construct",
    "C08_nonnegative",
    "C08_nodes",
    "C08_linear_between_nodes",
    "C08_zero_outside",
    "C08_support",
    "C08_eval_elem",
    "C08_bad_index",
    "C08_partition_of_unity"
   ],
   "note": ""
  },
  {
   "property": "C09",
   "status": "proved",
   "theorems": [
    "C09_mass_matrix",
    "C09_constant_unnormalised",
    "C09_function_unnormalised",
    "C09_normaliser_unique",
    "C09_projection_orthogonal",
    "C09_constant_projection",
    "C09_normaliser_exists"
   ],
   "note": ""
  },
  {
   "property": "C10",
   "status": "proved",
   "theorems": [
    "C10_stiffness_uniform",
    "C10_stiffness_iff_uniform",
    "C10_accepts",
    "C10_stiffness_refuted"
   ],
   "note": ""
  },
  {
   "property": "C11",
   "status": "proved",
   "theorems": [
    "C11_boundary_is_frontier",
    "C11_parts_are_domains",
    "C11_box_number_of_parts"
   ],
   "note": ""
  },
  {
   "property": "C12",
   "status": "proved",
   "theorems": [
    "C12_construct_interval",
    "C12_construct_point",
    "C12_construct_product",
    "C12_construct_box",
    "C12_asdomain",
    "C12_asdomain_integers_refuted",
    "C12_membership",
    "C12_product_membership_unavailable",
    "C12_box_is_product_of_factors",
    "C12_factor_access",
    "C12_select",
    "C12_interval_getitem",
    "C12_interval_getitem_range_refuted",
    "C12_shape_counts_coordinates",
    "C12_volume",
    "C12_volume_sign"
   ],
   "note": ""
  },
  {
   "property": "C13",
   "status": "proved",
   "theorems": [
    "C13_equality",
    "C13_reflexive",
    "C13_different_classes",
    "C13_product_prefix_refuted",
    "C13_box_broadcast_refuted",
    "C13_point_broadcast_refuted"
   ],
   "note": ""
  },
  {
   "property": "C14",
   "status": "proved",
   "theorems": [
    "C14_interval_grid",
    "C14_interval_grid_shape",
    "C14_box_grid",
    "C14_inset_broadcast",
    "C14_box_grid_shape_checked",
    "C14_box_grid_inside",
    "C14_product_grid",
    "C14_nested_product_unavailable",
    "C14_collapsed_box_factor_refuted"
   ],
   "note": ""
  },
  {
   "property": "C15",
   "status": "proved",
   "theorems": [
    "C15_block_accepts",
    "C15_block_todense",
    "C15_block_matmul",
    "C15_block_transpose",
    "C15_concat_accepts",
    "C15_concat_todense",
    "C15_concat_matmul",
    "C15_concatenate",
    "C15_sum",
    "C15_concat_transpose"
   ],
   "note": ""
  },
  {
   "property": "C16",
   "status": "proved",
   "theorems": [
    "C16_construct",
    "C16_flags",
    "C16_matmul",
    "C16_transpose",
    "C16_trace",
    "C16_schur",
    "C16_det",
    "C16_cholesky",
    "C16_cholesky_not_spd",
    "C16_block_flags",
    "C16_cholesky_contract_satisfiable"
   ],
   "note": ""
  },
  {
   "property": "C17",
   "status": "proved",
   "theorems": [
    "C17_solve",
    "C17_schur_update"
   ],
   "note": ""
  },
  {
   "property": "C18",
   "status": "proved",
   "theorems": [
    "C18_array",
    "C18_linop",
    "C18_from_scalar",
    "C18_roundtrip_array",
    "C18_roundtrip_matrix",
    "C18_add",
    "C18_add_mismatch",
    "C18_sub",
    "C18_neg",
    "C18_scale",
    "C18_scale_by_array",
    "C18_flatten"
   ],
   "note": ""
  },
  {
   "property": "C19",
   "status": "proved",
   "theorems": [
    "C19_is_conditional",
    "C19_formula",
    "C19_accepts",
    "C19_vector_transform_without_noise",
    "C19_gram_posdef",
    "C19_posterior_covariance",
    "C19_sequential"
   ],
   "note": ""
  },
  {
   "property": "C20",
   "status": "proved",
   "theorems": [
    "C20_posterior",
    "C20_at_points",
    "C20_is_conditional",
    "C20_covariance_operator",
    "C20_noise_free_data",
    "C20_noisy_data",
    "C20_gram_invertible",
    "C20_gram_noise_free",
    "C20_points_admissible"
   ],
   "note": ""
  },
  {
   "property": "C21",
   "status": "proved",
   "theorems": [
    "C21_incremental_is_batch",
    "C21_recomputed_weights"
   ],
   "note": ""
  },
  {
   "property": "C22",
   "status": "proved",
   "theorems": [
    "C22_order"
   ],
   "note": ""
  },
  {
   "property": "C23",
   "status": "proved",
   "theorems": [
    "C23_covariance",
    "C23_more_data"
   ],
   "note": ""
  },
  {
   "property": "C24",
   "status": "proved",
   "theorems": [
    "C24_history",
    "C24_functional",
    "C24_functional_formula",
    "C24_operator"
   ],
   "note": ""
  },
  {
   "property": "C25",
   "status": "proved",
   "theorems": [
    "C25_operator",
    "C25_mean",
    "C25_pointwise",
    "C25_pointwise_same_output",
    "C25_pointwise_refuted",
    "C25_batched_refuted",
    "C25_jax_traced_refuted",
    "C25_jax_refuted",
    "C25_jax_batched_refuted"
   ],
   "note": ""
  },
  {
   "property": "C26",
   "status": "proved",
   "theorems": [
    "C26_accepted",
    "C26_errors",
    "C26_noise_type",
    "C26_data_vector",
    "C26_data_at_points",
    "C26_noise_added",
    "C26_layout_depends_on_L_refuted",
    "C26_noise_layout_refuted"
   ],
   "note": ""
  },
  {
   "property": "C27",
   "status": "proved",
   "theorems": [
    "C27_constructor",
    "C27_constructor_domain",
    "C27_decomposition",
    "C27_symmetric",
    "C27_projection_first",
    "C27_projection_second",
    "C27_uncorrelated",
    "C27_other_projection",
    "C27_bad_argument",
    "C27_projection_twice",
    "C27_embedded_reversed",
    "C27_psd",
    "C27_interpolation_psd",
    "C27_l2_exists",
    "C27_l2_decomposition",
    "C27_l2_symmetric",
    "C27_l2_psd",
    "C27_l2_projection",
    "C27_l2_uncorrelated",
    "C27_unnormalised_refuted",
    "C27_l2_prior"
   ],
   "note": ""
  },
  {
   "property": "C28",
   "status": "proved",
   "theorems": [
    "C28_process_covariance",
    "C28_process_covariance_scalar",
    "C28_process_mean",
    "C28_process_mean_scalar",
    "C28_process_mismatch",
    "C28_process_weight_axes",
    "C28_process_symmetric",
    "C28_process_psd",
    "C28_covfunc",
    "C28_covfunc_symmetric",
    "C28_covfunc_psd",
    "C28_covfunc_constructor",
    "C28_covfunc_first_shape",
    "C28_covfunc_scalar_features_refuted",
    "C28_covfunc_matrix_features_refuted"
   ],
   "note": ""
  },
  {
   "property": "C29",
   "status": "proved",
   "theorems": [
    "C29_constructor",
    "C29_constructor_errors",
    "C29_value",
    "C29_value_errors",
    "C29_psd",
    "C29_grid",
    "C29_grid_xy",
    "C29_grid_errors",
    "C29_kronecker",
    "C29_kronecker_one",
    "C29_dense",
    "C29_kronecker_dense",
    "C29_kronecker_xy",
    "C29_xy_refuted",
    "C29_derived_grid_refuted",
    "C29_multi_output_refuted",
    "C29_fewer_coordinates_refuted",
    "C29_more_coordinates"
   ],
   "note": ""
  },
  {
   "property": "C30",
   "status": "proved",
   "theorems": [
    "C30_independent",
    "C30_independent_jax",
    "C30_independent_linop",
    "C30_stack",
    "C30_stack_linop",
    "C30_stack_jax_zero",
    "C30_leaf",
    "C30_zero",
    "C30_constructors",
    "C30_select_stack",
    "C30_select_independent",
    "C30_select_cross",
    "C30_stack_jax_refuted"
   ],
   "note": ""
  },
  {
   "property": "C31",
   "status": "proved",
   "theorems": [
    "C31_argument1",
    "C31_argument0",
    "C31_argument0_symmetric",
    "C31_both",
    "C31_function",
    "C31_constructor",
    "C31_argument0_refuted",
    "C31_dirac_layout_refuted"
   ],
   "note": ""
  },
  {
   "property": "C32",
   "status": "proved",
   "theorems": [
    "C32_views",
    "C32_bad_points",
    "C32_leaf",
    "C32_zero",
    "C32_scaled",
    "C32_neg",
    "C32_sum",
    "C32_add",
    "C32_sum_constructor",
    "C32_linear",
    "C32_linear_operator",
    "C32_linear_constructor",
    "C32_stack",
    "C32_stack_constructor",
    "C32_parametric",
    "C32_parametric_symmetric",
    "C32_linear_refuted",
    "C32_parametric_refuted"
   ],
   "note": ""
  },
  {
   "property": "C33",
   "status": "proved",
   "theorems": [
    "C33_sound",
    "C33_smooth",
    "C33_one_argument",
    "C33_one_operator",
    "C33_both_arguments",
    "C33_two_laplacians_refuted",
    "C33_rejects",
    "C33_partial_refuted",
    "C33_repeated_refuted",
    "C33_repeated_scalar_refuted"
   ],
   "note": ""
  },
  {
   "property": "C34",
   "status": "proved",
   "theorems": [
    "C34_profile",
    "C34_derivatives",
    "C34_odd",
    "C34_divisions",
    "C34_half_integer_only"
   ],
   "note": ""
  },
  {
   "property": "C35",
   "status": "proved",
   "theorems": [
    "C35_one_operator",
    "C35_both_arguments",
    "C35_rejects",
    "C35_nonsmooth_refuted",
    "C35_partial_derivative",
    "C35_partial_derivative_refuted",
    "C35_one_argument",
    "C35_repeated_refuted"
   ],
   "note": ""
  },
  {
   "property": "C36",
   "status": "proved",
   "theorems": [
    "C36_directional",
    "C36_mixed",
    "C36_rejects",
    "C36_laplacian_refuted",
    "C36_repeated_refuted"
   ],
   "note": ""
  },
  {
   "property": "C37",
   "status": "proved",
   "theorems": [
    "C37_scalar_lengthscales",
    "C37_before_directional",
    "C37_first_directional",
    "C37_refuted"
   ],
   "note": "Histories of evaluations of a Matern kernel and all covariance functions derived from it, with the shared scale factors and the cached properties as state. With scalar lengthscales every history returns the pure values. With array lengthscales this holds up to and including the first two-point evaluation of a directional derivative, which overwrites the kernel's scale factors; C37_refuted gives two histories with wrong later values."
  },
  {
   "property": "C38",
   "status": "proved",
   "theorems": [
    "C38_accepts",
    "C38_recursion",
    "C38_coefficients",
    "C38_boundary",
    "C38_positive",
    "C38_smoothness",
    "C38_kernel"
   ],
   "note": ""
  },
  {
   "property": "C39",
   "status": "proved",
   "theorems": [
    "C39_antiderivatives",
    "C39_matern_single",
    "C39_matern_double",
    "C39_matern_kernel",
    "C39_single",
    "C39_double",
    "C39_bad_argnum",
    "C39_bad_shape",
    "C39_first_argument_refuted"
   ],
   "note": ""
  },
  {
   "property": "C40",
   "status": "proved",
   "theorems": [
    "C40_matern32",
    "C40_matern32_value",
    "C40_single",
    "C40_double",
    "C40_matern32_double",
    "C40_bad_argnum",
    "C40_bad_shape",
    "C40_first_argument_refuted",
    "C40_psd"
   ],
   "note": ""
  },
  {
   "property": "C41",
   "status": "proved",
   "theorems": [
    "C41_validation",
    "C41_add",
    "C41_add_shapes",
    "C41_scale",
    "C41_neg",
    "C41_sub",
    "C41_lookup",
    "C41_num_entries",
    "C41_has_mixed",
    "C41_weighted_laplacian",
    "C41_laplacian",
    "C41_directional_derivative",
    "C41_spatial_laplacian",
    "C41_spatial_laplacian_error",
    "C41_partial_derivative",
    "C41_time_derivative",
    "C41_time_derivative_scalar",
    "C41_time_derivative_error",
    "C41_derivative",
    "C41_derivative_error",
    "C41_heat",
    "C41_heat_error",
    "C41_multi_index",
    "C41_from_index",
    "C41_is_mixed",
    "C41_order",
    "C41_equality",
    "C41_apply"
   ],
   "note": ""
  },
  {
   "property": "C42",
   "status": "proved",
   "theorems": [
    "C42_first_order",
    "C42_dimwise",
    "C42_order_zero",
    "C42_factor_at_dim",
    "C42_apply"
   ],
   "note": ""
  },
  {
   "property": "C43",
   "status": "proved",
   "theorems": [
    "C43_sound",
    "C43_total",
    "C43_expressions",
    "C43_shape_mismatch",
    "C43_add_mismatch",
    "C43_matmul_mismatch",
    "C43_distributes",
    "C43_argument_shapes",
    "C43_constant_shapes",
    "C43_identity",
    "C43_constants",
    "C43_order_zero",
    "C43_order_zero_constant_refuted",
    "C43_scaled_function_refuted",
    "C43_scaled_composition_refuted",
    "C43_zero_weights_refuted",
    "C43_zero_function"
   ],
   "note": ""
  },
  {
   "property": "C44",
   "status": "proved",
   "theorems": [
    "C44_expressions",
    "C44_total",
    "C44_direct_total",
    "C44_shape_mismatch",
    "C44_add_mismatch",
    "C44_operator_mismatch",
    "C44_matrix_mismatch",
    "C44_merged",
    "C44_integral_of_vector",
    "C44_integral_of_constant",
    "C44_integral_domain",
    "C44_weak_form",
    "C44_scaled_function_refuted",
    "C44_scaled_operator_refuted",
    "C44_zero_shape_refuted"
   ],
   "note": ""
  },
  {
   "property": "C45",
   "status": "proved",
   "theorems": [
    "C45_expquad",
    "C45_two_laplacians_refuted",
    "C45_values",
    "C45_matern",
    "C45_identity",
    "C45_sum"
   ],
   "note": ""
  },
  {
   "property": "C46",
   "status": "proved",
   "theorems": [
    "C46_solution",
    "C46_no_solution",
    "C46_given_solution",
    "C46_errors",
    "C46_interval_only",
    "C46_boundary_function",
    "C46_boundary_values_reject",
    "C46_constant_rejects"
   ],
   "note": ""
  },
  {
   "property": "C47",
   "status": "proved",
   "theorems": [
    "C47_polynomial",
    "C47_unique",
    "C47_piecewise",
    "C47_errors",
    "C47_interval_only"
   ],
   "note": ""
  },
  {
   "property": "C48",
   "status": "proved",
   "theorems": [
    "C48_series",
    "C48_series_ends",
    "C48_solution",
    "C48_zero",
    "C48_other",
    "C48_given_solution",
    "C48_time_order",
    "C48_source_ignored_refuted",
    "C48_vector_initial_values_refuted",
    "C48_initial_space",
    "C48_operator"
   ],
   "note": ""
  },
  {
   "property": "C49",
   "status": "proved",
   "theorems": [
    "C49_pde",
    "C49_pde_rejects",
    "C49_condition",
    "C49_condition_rejects",
    "C49_dirichlet",
    "C49_bvp",
    "C49_bvp_rejects",
    "C49_ibvp",
    "C49_observations",
    "C49_observations_points",
    "C49_poisson_drops_conditions_refuted",
    "C49_ibvp_rejects",
    "C49_point_number",
    "C49_observations_rejects"
   ],
   "note": ""
  },
  {
   "property": "C50",
   "status": "proved",
   "theorems": [
    "C50_in_place",
    "C50_polynomial_floats",
    "C50_polynomial_integers",
    "C50_polynomial_integers_fail_refuted",
    "C50_polynomial_truncated_refuted",
    "C50_constant_integers",
    "C50_jax_floats",
    "C50_jax_integers",
    "C50_jax_truncated_refuted",
    "C50_monomial",
    "C50_piecewise_floats",
    "C50_piecewise_integers",
    "C50_piecewise_truncated_refuted",
    "C50_piecewise_linear_fails_refuted"
   ],
   "note": ""
  },
  {
   "property": "C51",
   "status": "proved",
   "theorems": [
    "C51_evaluation",
    "C51_leaf",
    "C51_scaled",
    "C51_sum",
    "C51_linear",
    "C51_dirac",
    "C51_composite",
    "C51_composite_constructor",
    "C51_kernel_validation",
    "C51_kernel_leaf",
    "C51_kernel_zero",
    "C51_kernel_stack",
    "C51_kernel_composite",
    "C51_evaluation_layout_refuted",
    "C51_dirac_layout_refuted"
   ],
   "note": ""
  },
  {
   "property": "C52",
   "status": "proved",
   "theorems": [
    "C52_kernel_leaf",
    "C52_kernel_zero",
    "C52_kernel_stack",
    "C52_kernel_validation",
    "C52_unavailable",
    "C52_evaluation1",
    "C52_evaluation0_refuted",
    "C52_zero",
    "C52_scaled",
    "C52_sum",
    "C52_derivative_refuted",
    "C52_derivative_inside_refuted",
    "C52_derivative_reversed_refuted",
    "C52_order_zero",
    "C52_zero",
    "C52_identity_refuted",
    "C52_identity_argument",
    "C52_composed_refuted"
   ],
   "note": ""
  },
  {
   "property": "C53",
   "status": "proved",
   "theorems": [
    "C53_value",
    "C53_derivative",
    "C53_summands",
    "C53_kronecker",
    "C53_second_grid_refuted",
    "C53_dense",
    "C53_kronecker_dense",
    "C53_derived_grid_refuted",
    "C53_application",
    "C53_validation",
    "C53_order_zero",
    "C53_repeated_refuted",
    "C53_no_terms",
    "C53_vector_valued"
   ],
   "note": ""
  },
  {
   "property": "C54",
   "status": "proved",
   "theorems": [
    "C54_input_refused",
    "C54_output_shape",
    "C54_no_jax",
    "C54_jax_call",
    "C54_affine_matrix",
    "C54_affine_number",
    "C54_affine_vector",
    "C54_affine_vector_refuted",
    "C54_affine_refused",
    "C54_affine_jax_refuted",
    "C54_stack",
    "C54_stack_point",
    "C54_stack_front_refuted",
    "C54_stack_errors",
    "C54_stack_default",
    "C54_select",
    "C54_select_errors"
   ],
   "note": ""
  },
  {
   "property": "C55",
   "status": "proved",
   "theorems": [
    "C55_distribution",
    "C55_value",
    "C55_domain_pair",
    "C55_normalised",
    "C55_total_mass",
    "C55_outside_refuted",
    "C55_domain",
    "C55_no_jax"
   ],
   "note": ""
  },
  {
   "property": "C56",
   "status": "proved",
   "theorems": [
    "C56_expquad_gram",
    "C56_expquad",
    "C56_matern_gram",
    "C56_matern",
    "C56_add",
    "C56_scale",
    "C56_matern_three_halves_refuted",
    "C56_integrals"
   ],
   "note": ""
  },
  {
   "property": "C57",
   "status": "proved",
   "theorems": [
    "C57_two_arrays",
    "C57_one_array",
    "C57_one_integer_array",
    "C57_one_integer_refuted",
    "C57_matern_integers_refuted",
    "C57_shape_errors",
    "C57_unavailable",
    "C57_jax_one_integer_array",
    "C57_expquad_arrays",
    "C57_matern_objects",
    "C57_contract",
    "C57_keops"
   ],
   "note": ""
  },
  {
   "property": "C58",
   "status": "proved",
   "theorems": [
    "C58_admissible",
    "C58_noisy",
    "C58_independent",
    "C58_noise_free_iff",
    "C58_collocation",
    "C58_gram_entries"
   ],
   "note": ""
  },
  {
   "property": "C59",
   "status": "proved",
   "theorems": [
    "C59_functional",
    "C59_expression",
    "C59_total",
    "C59_accepted",
    "C59_smooth_sections",
    "C59_covariance_psd",
    "C59_covariance_symmetric",
    "C59_operator",
    "C59_operator_total",
    "C59_composition",
    "C59_operator_psd",
    "C59_deterministic",
    "C59_deterministic_sample",
    "C59_scaled_deterministic_refuted",
    "C59_construction",
    "C59_identity",
    "C59_float",
    "C59_identity_inside_refuted",
    "C59_float_refuted",
    "C59_integral_refuted",
    "C59_integral_of_operator_refuted",
    "C59_identity_before_refuted",
    "C59_matrix_of_values_refuted",
    "C59_integrals_psd"
   ],
   "note": ""
  },
  {
   "property": "C60",
   "status": "proved",
   "theorems": [
    "C60_admissible",
    "C60_noisy",
    "C60_independent",
    "C60_dependent",
    "C60_quadrature",
    "C60_gram_entries",
    "C60_points"
   ],
   "note": ""
  },
  {
   "property": "C61",
   "status": "proved",
   "theorems": [
    "C61_factor_values",
    "C61_factor_order_refuted",
    "C61_prior",
    "C61_gram_entry",
    "C61_gram_matrix",
    "C61_admissible",
    "C61_noisy",
    "C61_independent",
    "C61_dependent",
    "C61_variance",
    "C61_collocation",
    "C61_gram_entries",
    "C61_mixture_admissible",
    "C61_mixture_noisy",
    "C61_mixture_independent",
    "C61_mixture_dependent",
    "C61_mixture_variance",
    "C61_mixture_covariance",
    "C61_mixture_collocation"
   ],
   "note": ""
  },
  {
   "property": "C62",
   "status": "proved",
   "theorems": [
    "C62_concrete",
    "C62_traced",
    "C62_traced_error_refuted",
    "C62_not_implemented",
    "C62_stack_zero",
    "C62_stack_refuted",
    "C62_constructor",
    "C62_append",
    "C62_call",
    "C62_no_points_refuted",
    "C62_empty",
    "C62_linop",
    "C62_mean",
    "C62_posterior_jax_refuted"
   ],
   "note": ""
  },
  {
   "property": "C63",
   "status": "proved",
   "theorems": [
    "C63_constructor",
    "C63_select",
    "C63_select_error",
    "C63_select_int",
    "C63_negative_output_refuted",
    "C63_function",
    "C63_function_total",
    "C63_single_points",
    "C63_unflagged_points",
    "C63_batch_refuted",
    "C63_order_zero_refuted",
    "C63_constant",
    "C63_constant_order_zero_refuted",
    "C63_scaled_refuted",
    "C63_vector_zero",
    "C63_vector_function_refuted",
    "C63_argument_shapes",
    "C63_stacked_function_refuted",
    "C63_independent_refuted",
    "C63_independent_shapes",
    "C63_kernel",
    "C63_kernel_exists",
    "C63_kernel_order_refuted",
    "C63_kernel_multivariate_refuted",
    "C63_kernel_one_coordinate_refuted",
    "C63_kernel_jax_refuted",
    "C63_kernel_jax_order_zero_refuted",
    "C63_kernel_value",
    "C63_kernel_shapes",
    "C63_kernel_scaled",
    "C63_kernel_sum",
    "C63_stack",
    "C63_stack_exists",
    "C63_stack_other",
    "C63_stack_other_error",
    "C63_stack_shapes"
   ],
   "note": ""
  },
  {
   "property": "C64",
   "status": "proved",
   "theorems": [
    "C64_function",
    "C64_function_errors",
    "C64_function_integer_shape_refuted",
    "C64_function_whole",
    "C64_function_jax_small_refuted",
    "C64_function_few_axes",
    "C64_covfunc",
    "C64_covfunc_one",
    "C64_covfunc_refused",
    "C64_covfunc_errors",
    "C64_covfunc_matrix_inputs_refuted",
    "C64_covfunc_matrix_outputs_refuted",
    "C64_covfunc_whole",
    "C64_vectorize_errors",
    "C64_operator_shapes",
    "C64_operators_both",
    "C64_functional_shapes",
    "C64_functional_swap"
   ],
   "note": ""
  },
  {
   "property": "C65",
   "status": "proved",
   "theorems": [
    "C65_split",
    "C65_tensor",
    "C65_tensor_errors",
    "C65_tensor_matern",
    "C65_operators",
    "C65_derivative",
    "C65_wendland_lazy",
    "C65_wendland_arrays",
    "C65_wendland_one_array",
    "C65_conditional",
    "C65_wendland_shape_errors"
   ],
   "note": ""
  },
  {
   "property": "C66",
   "status": "proved",
   "theorems": [
    "C66_wendland",
    "C66_product",
    "C66_wendland_product",
    "C66_wendland_derivatives",
    "C66_interpolation",
    "C66_noisy"
   ],
   "note": ""
  },
  {
   "property": "C67",
   "status": "proved",
   "theorems": [
    "C67_values",
    "C67_arithmetic",
    "C67_nan",
    "C67_programs",
    "C67_expquad",
    "C67_functions",
    "C67_matern",
    "C67_wendland",
    "C67_operator",
    "C67_operator_defined",
    "C67_diagonal_refuted",
    "C67_diagonal_operator_refuted",
    "C67_covariances_defined",
    "C67_errors",
    "C67_covariances_values",
    "C67_covariances",
    "C67_nested",
    "C67_fallback",
    "C67_diagonal_covariances_refuted"
   ],
   "note": ""
  },
  {
   "property": "C68",
   "status": "proved",
   "theorems": [
    "C68_accepts",
    "C68_sum_of_operators",
    "C68_value",
    "C68_different_tests",
    "C68_weak_form",
    "C68_domain_refuted"
   ],
   "note": ""
  },
  {
   "property": "C69",
   "status": "proved",
   "theorems": [
    "C69_cell",
    "C69_interior",
    "C69_outside",
    "C69_operator",
    "C69_values",
    "C69_errors",
    "C69_kink_refuted",
    "C69_left_end_refuted"
   ],
   "note": ""
  },
  {
   "property": "C70",
   "status": "proved",
   "theorems": [
    "C70_antiderivatives",
    "C70_derivatives",
    "C70_values",
    "C70_first_derivative",
    "C70_ends_refuted",
    "C70_errors",
    "C70_quadrature"
   ],
   "note": ""
  },
  {
   "property": "C71",
   "status": "proved",
   "theorems": [
    "C71_operator",
    "C71_accepts",
    "C71_errors",
    "C71_numpy",
    "C71_poisson",
    "C71_heat",
    "C71_heat_refuted"
   ],
   "note": ""
  },
  {
   "property": "C72",
   "status": "proved",
   "theorems": [
    "C72_symmetric",
    "C72_wendland",
    "C72_even",
    "C72_odd",
    "C72_mirrored",
    "C72_direction",
    "C72_gram",
    "C72_diagonal_expquad",
    "C72_diagonal_matern",
    "C72_diagonal_infinite_refuted",
    "C72_other_smoothness"
   ],
   "note": ""
  },
  {
   "property": "C73",
   "status": "proved",
   "theorems": [
    "C73_nearest",
    "C73_unit_roundoff",
    "C73_primitives",
    "C73_horner",
    "C73_horner_relative",
    "C73_program",
    "C73_exact",
    "C73_covariance",
    "C73_functions",
    "C73_wendland",
    "C73_power",
    "C73_power_zero",
    "C73_reciprocal",
    "C73_monomial"
   ],
   "note": ""
  },
  {
   "property": "C74",
   "status": "proved",
   "theorems": [
    "C74_expquad",
    "C74_matern_half",
    "C74_matern",
    "C74_matern_far_refuted",
    "C74_wendland"
   ],
   "note": ""
  },
  {
   "property": "C75",
   "status": "proved",
   "theorems": [
    "C75_expquad",
    "C75_matern",
    "C75_compound",
    "C75_wendland"
   ],
   "note": ""
  },
  {
   "property": "C76",
   "status": "proved",
   "theorems": [
    "C76_domains",
    "C76_other_domains",
    "C76_constant",
    "C76_sound",
    "C76_quadrature_refuted",
    "C76_one_side",
    "C76_several_outputs",
    "C76_scaled_refuted",
    "C76_sum_fails",
    "C76_polynomial_refuted",
    "C76_polynomial_collapsed_refuted",
    "C76_polynomial_one_side",
    "C76_no_sides",
    "C76_covariance",
    "C76_covariance_refuted"
   ],
   "note": ""
  },
  {
   "property": "C77",
   "status": "proved",
   "theorems": [
    "C77_interval",
    "C77_nan_refuted",
    "C77_contains",
    "C77_volume",
    "C77_shape",
    "C77_grid",
    "C77_distinct",
    "C77_tiny_refuted",
    "C77_wide_refuted"
   ],
   "note": ""
  },
  {
   "property": "C78",
   "status": "proved",
   "theorems": [
    "C78_box",
    "C78_nan",
    "C78_factor",
    "C78_contains",
    "C78_volume",
    "C78_no_sides",
    "C78_volume_refuted",
    "C78_shape",
    "C78_grid",
    "C78_inside"
   ],
   "note": ""
  },
  {
   "property": "C79",
   "status": "proved",
   "theorems": [
    "C79_value",
    "C79_error",
    "C79_symmetric",
    "C79_diagonal",
    "C79_range",
    "C79_accuracy",
    "C79_bound"
   ],
   "note": ""
  },
  {
   "property": "C80",
   "status": "proved",
   "theorems": [
    "C80_init",
    "C80_sentinels",
    "C80_range",
    "C80_zero",
    "C80_node",
    "C80_accuracy",
    "C80_partition",
    "C80_elem",
    "C80_support",
    "C80_nan",
    "C80_node_refuted",
    "C80_sentinel_refuted"
   ],
   "note": ""
  },
  {
   "property": "C81",
   "status": "proved",
   "theorems": [
    "C81_eval",
    "C81_at_zero",
    "C81_add",
    "C81_sub",
    "C81_add_comm",
    "C81_sub_self",
    "C81_add_const",
    "C81_neg",
    "C81_neg_eval",
    "C81_scale",
    "C81_differentiate",
    "C81_integrate",
    "C81_roundtrip",
    "C81_floordiv",
    "C81_roundtrip_refuted",
    "C81_assoc_refuted"
   ],
   "note": ""
  },
  {
   "property": "C82",
   "status": "proved",
   "theorems": [
    "C82_construct",
    "C82_select",
    "C82_outside",
    "C82_infinite",
    "C82_nan",
    "C82_accuracy",
    "C82_constant",
    "C82_range_refuted"
   ],
   "note": ""
  }
 ]
}