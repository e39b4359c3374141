{
 "claims": [
  {
   "property": "C01",
   "status": "proved",
   "theorems": [
    "C01_memory_safe",
    "C01_no_leak",
    "C01_out_of_range"
   ],
   "note": ""
  },
  {
   "property": "C02",
   "status": "proved",
   "theorems": [
    "C02_value_semantics"
   ],
   "note": ""
  },
  {
   "property": "C03",
   "status": "proved",
   "theorems": [
    "C03_vector_resize"
   ],
   "note": ""
  },
  {
   "property": "C04",
   "status": "proved",
   "theorems": [
    "C04_shape_invariant"
   ],
   "note": ""
  },
  {
   "property": "C05",
   "status": "proved",
   "theorems": [
    "C05_access_agrees",
    "C05_write_one",
    "C05_injective",
    "C05_empty"
   ],
   "note": ""
  },
  {
   "property": "C06",
   "status": "proved",
   "theorems": [
    "C06_fill",
    "C06_from_list",
    "C06_from_list_short_undefined",
    "C06_nested",
    "C06_nested_throws",
    "C06_nested_ragged_undefined",
    "C06_from_view",
    "C06_move"
   ],
   "note": ""
  },
  {
   "property": "C07",
   "status": "proved",
   "theorems": [
    "C07_assign",
    "C07_assign_empty_noop",
    "C07_assign_from_matrix",
    "C07_move_assign",
    "C07_assign_nested",
    "C07_move_assign_empty",
    "C07_move_assign_full",
    "C07_assign_nested_empty"
   ],
   "note": ""
  },
  {
   "property": "C08",
   "status": "proved",
   "theorems": [
    "C08_self_view_zero",
    "C08_self_view_undefined",
    "C08_self_view_refuted"
   ],
   "note": ""
  },
  {
   "property": "C09",
   "status": "proved",
   "theorems": [
    "C09_utility",
    "C09_resize"
   ],
   "note": ""
  },
  {
   "property": "C10",
   "status": "proved",
   "theorems": [
    "C10_utility",
    "C10_reshape",
    "C10_reshape_throws"
   ],
   "note": ""
  },
  {
   "property": "C11",
   "status": "proved",
   "theorems": [
    "C11_overflow_construct",
    "C11_overflow_reshape",
    "C11_overflow_general",
    "C11_overflow_reshape_general"
   ],
   "note": ""
  },
  {
   "property": "C12",
   "status": "proved",
   "theorems": [
    "C12_view_reads",
    "C12_view_writes",
    "C12_range_all",
    "C12_bad_range_asserts",
    "C12_util_view",
    "C12_util_row",
    "C12_util_col"
   ],
   "note": ""
  },
  {
   "property": "C13",
   "status": "proved",
   "theorems": [
    "C13_nested_reads",
    "C13_nested_inside",
    "C13_nested_distinct",
    "C13_nested_writes"
   ],
   "note": ""
  },
  {
   "property": "C14",
   "status": "proved",
   "theorems": [
    "C14_row_start_wraps",
    "C14_col_start_wraps",
    "C14_extract_row_undefined",
    "C14_extract_undefined_1row",
    "C14_extract_undefined",
    "C14_extract_column_undefined",
    "C14_extract_undefined_1col"
   ],
   "note": ""
  },
  {
   "property": "C15",
   "status": "proved",
   "theorems": [
    "C15_assign_unrelated",
    "C15_assign_same_matrix",
    "C15_assign_forward_windows",
    "C15_shape_mismatch_asserts"
   ],
   "note": ""
  },
  {
   "property": "C16",
   "status": "proved",
   "theorems": [
    "C16_shift_right_spreads",
    "C16_overlap_refuted"
   ],
   "note": ""
  },
  {
   "property": "C17",
   "status": "proved",
   "theorems": [
    "C17_assign_nested",
    "C17_assign_nested_noop"
   ],
   "note": ""
  },
  {
   "property": "C18",
   "status": "proved",
   "theorems": [
    "C18_cofactor_reads",
    "C18_cofactor_writes",
    "C18_cofactor_linear_square",
    "C18_cofactor_linear_refuted"
   ],
   "note": ""
  },
  {
   "property": "C19",
   "status": "proved",
   "theorems": [
    "C19_self_add",
    "C19_self_sub",
    "C19_same_matrix",
    "C19_overlap_refuted"
   ],
   "note": ""
  },
  {
   "property": "C20",
   "status": "proved",
   "theorems": [
    "C20_transpose",
    "C20_involution",
    "C20_involution_view",
    "C20_product"
   ],
   "note": ""
  },
  {
   "property": "C21",
   "status": "proved",
   "theorems": [
    "C21_eye",
    "C21_identity",
    "C21_zeros_ones",
    "C21_vector_forms",
    "C21_zero_dimension_throws",
    "C21_diag_vector",
    "C21_diag_matrix",
    "C21_diag_diag"
   ],
   "note": ""
  },
  {
   "property": "C22",
   "status": "proved",
   "theorems": [
    "C22_to_matrix",
    "C22_to_vector",
    "C22_ravel",
    "C22_ravel_view",
    "C22_round_trip",
    "C22_ravel_cofactor_refuted"
   ],
   "note": ""
  },
  {
   "property": "C23",
   "status": "proved",
   "theorems": [
    "C23_vstack",
    "C23_vstack_throws",
    "C23_hstack",
    "C23_hstack_throws",
    "C23_vstack_vector",
    "C23_hstack_vector",
    "C23_stack_vector_throws",
    "C23_concatenate"
   ],
   "note": ""
  },
  {
   "property": "C24",
   "status": "proved",
   "theorems": [
    "C24_extract",
    "C24_extract_throws",
    "C24_extract_column",
    "C24_extract_row",
    "C24_extract_line_throws",
    "C24_split_rows",
    "C24_split_cols"
   ],
   "note": ""
  },
  {
   "property": "C25",
   "status": "proved",
   "theorems": [
    "C25_swap_rows",
    "C25_swap_cols",
    "C25_swap_rows_involutive",
    "C25_swap_cols_involutive"
   ],
   "note": ""
  },
  {
   "property": "C26",
   "status": "proved",
   "theorems": [
    "C26_cofactor",
    "C26_cofactor_is_removal",
    "C26_remove_row",
    "C26_remove_column",
    "C26_remove_throws",
    "C26_remove_is_minor"
   ],
   "note": ""
  },
  {
   "property": "C27",
   "status": "proved",
   "theorems": [
    "C27_shape_predicates",
    "C27_symmetric",
    "C27_skew_symmetric_offdiag",
    "C27_diagonal",
    "C27_lower_triangular",
    "C27_upper_triangular",
    "C27_skew_symmetric_refuted",
    "C27_integers"
   ],
   "note": ""
  },
  {
   "property": "C28",
   "status": "proved",
   "theorems": [
    "C28_linspace_exact",
    "C28_nearly_equal_refuted",
    "C28_linspace_elements",
    "C28_linspace_degenerate",
    "C28_linspace_integers",
    "C28_linspace_integer_last"
   ],
   "note": ""
  },
  {
   "property": "C29",
   "status": "proved",
   "theorems": [
    "C29_flatnonzero",
    "C29_find_all",
    "C29_find_n_defect",
    "C29_find_zero",
    "C29_find_first_n_refuted"
   ],
   "note": ""
  },
  {
   "property": "C30",
   "status": "proved",
   "theorems": [
    "C30_compare_spec",
    "C30_compare_throws",
    "C30_compare_zero",
    "C30_compare_antisymmetric",
    "C30_compare_vector",
    "C30_compare_vector_throws",
    "C30_compare_zero_refuted",
    "C30_compare_shape_refuted"
   ],
   "note": ""
  },
  {
   "property": "C31",
   "status": "proved",
   "theorems": [
    "C31_all_close",
    "C31_all_close_throws",
    "C31_all_close_vector",
    "C31_all_close_vector_throws",
    "C31_all_close_laws",
    "C31_all_close_integers"
   ],
   "note": ""
  },
  {
   "property": "C32",
   "status": "proved",
   "theorems": [
    "C32_add",
    "C32_sub",
    "C32_add_scalar",
    "C32_sub_scalar",
    "C32_mul_scalar",
    "C32_div_scalar",
    "C32_div_undefined",
    "C32_inplace_add",
    "C32_inplace_sub",
    "C32_inplace_mul_scalar",
    "C32_inplace_div_scalar",
    "C32_vec_add",
    "C32_vec_sub",
    "C32_vec_mul",
    "C32_vec_add_scalar",
    "C32_vec_sub_scalar",
    "C32_vec_mul_scalar",
    "C32_vec_div_scalar",
    "C32_vec_inplace_add",
    "C32_vec_inplace_sub",
    "C32_inplace_is_binary"
   ],
   "note": ""
  },
  {
   "property": "C33",
   "status": "proved",
   "theorems": [
    "C33_product",
    "C33_ring_product",
    "C33_associative",
    "C33_distributive_right",
    "C33_distributive_left",
    "C33_identity"
   ],
   "note": ""
  },
  {
   "property": "C34",
   "status": "proved",
   "theorems": [
    "C34_throws",
    "C34_square",
    "C34_self",
    "C34_same_as_product",
    "C34_fewer_columns",
    "C34_more_columns_undefined",
    "C34_wide_refuted"
   ],
   "note": ""
  },
  {
   "property": "C35",
   "status": "proved",
   "theorems": [
    "C35_dot",
    "C35_matvec",
    "C35_dot_matrix",
    "C35_matvec_undefined",
    "C35_matvec_is_product"
   ],
   "note": ""
  },
  {
   "property": "C36",
   "status": "proved",
   "theorems": [
    "C36_compare",
    "C36_compare_scalar",
    "C36_compare_vec",
    "C36_mirror"
   ],
   "note": ""
  },
  {
   "property": "C37",
   "status": "proved",
   "theorems": [
    "C37_all",
    "C37_all_vec",
    "C37_any",
    "C37_any_vec",
    "C37_empty",
    "C37_any_is_not_all_zero"
   ],
   "note": ""
  },
  {
   "property": "C38",
   "status": "proved",
   "theorems": [
    "C38_columns",
    "C38_min",
    "C38_max",
    "C38_empty",
    "C38_matrix_min",
    "C38_matrix_max",
    "C38_matrix_empty"
   ],
   "note": ""
  },
  {
   "property": "C39",
   "status": "proved",
   "theorems": [
    "C39_sum",
    "C39_trace",
    "C39_trace_undefined",
    "C39_ring_trace",
    "C39_trace_linear",
    "C39_trace_commutes"
   ],
   "note": ""
  },
  {
   "property": "C40",
   "status": "proved",
   "theorems": [
    "C40_square_norm_vector",
    "C40_square_norm_matrix",
    "C40_vector_length",
    "C40_infinity_norm_vector",
    "C40_infinity_norm_matrix",
    "C40_sub_norm",
    "C40_view_norms",
    "C40_view_norm_refuted",
    "C40_real_norms",
    "C40_real_norms_vector"
   ],
   "note": ""
  },
  {
   "property": "C41",
   "status": "proved",
   "theorems": [
    "C41_vector",
    "C41_matrix",
    "C41_abs",
    "C41_abs_refuted"
   ],
   "note": ""
  },
  {
   "property": "C42",
   "status": "proved",
   "theorems": [
    "C42_binary",
    "C42_hadamard",
    "C42_linear_combination"
   ],
   "note": ""
  },
  {
   "property": "C43",
   "status": "proved",
   "theorems": [
    "C43_log2_ceil",
    "C43_log2_ceil_view"
   ],
   "note": ""
  },
  {
   "property": "C44",
   "status": "proved",
   "theorems": [
    "C44_throws",
    "C44_projection"
   ],
   "note": ""
  },
  {
   "property": "C45",
   "status": "proved",
   "theorems": [
    "C45_factorial",
    "C45_negative",
    "C45_recurrence"
   ],
   "note": ""
  },
  {
   "property": "C46",
   "status": "proved",
   "theorems": [
    "C46_zero_dimension",
    "C46_not_square",
    "C46_zeroth_power",
    "C46_powm",
    "C46_powm_add"
   ],
   "note": ""
  },
  {
   "property": "C47",
   "status": "proved",
   "theorems": [
    "C47_conjugate_transpose",
    "C47_involution",
    "C47_product"
   ],
   "note": ""
  },
  {
   "property": "C48",
   "status": "proved",
   "theorems": [
    "C48_throws",
    "C48_determinant",
    "C48_multiplicative",
    "C48_transpose"
   ],
   "note": ""
  },
  {
   "property": "C49",
   "status": "proved",
   "theorems": [
    "C49_determinant",
    "C49_zero_by_zero",
    "C49_nonsingular"
   ],
   "note": ""
  },
  {
   "property": "C50",
   "status": "proved",
   "theorems": [
    "C50_never_zero",
    "C50_singular",
    "C50_zero_matrix",
    "C50_refuted"
   ],
   "note": ""
  },
  {
   "property": "C51",
   "status": "proved",
   "theorems": [
    "C51_adjoint_large",
    "C51_adjoint_no_zero",
    "C51_identity_refuted",
    "C51_throws",
    "C51_adjoint",
    "C51_product",
    "C51_product_computed"
   ],
   "note": ""
  },
  {
   "property": "C52",
   "status": "proved",
   "theorems": [
    "C52_inverse",
    "C52_inverse_product",
    "C52_singular",
    "C52_singular_5",
    "C52_singular_5_refuted",
    "C52_inverse_large",
    "C52_identity_refuted",
    "C52_throws"
   ],
   "note": ""
  },
  {
   "property": "C53",
   "status": "proved",
   "theorems": [
    "C53_div",
    "C53_div_product",
    "C53_singular"
   ],
   "note": ""
  },
  {
   "property": "C54",
   "status": "proved",
   "theorems": [
    "C54_lu",
    "C54_lu_exists",
    "C54_throws"
   ],
   "note": ""
  },
  {
   "property": "C55",
   "status": "proved",
   "theorems": [
    "C55_exp",
    "C55_exp_is_transposed"
   ],
   "note": ""
  },
  {
   "property": "C56",
   "status": "proved",
   "theorems": [
    "C56_expm",
    "C56_expm_view",
    "C56_accuracy",
    "C56_zero",
    "C56_nilpotent",
    "C56_semigroup"
   ],
   "note": ""
  },
  {
   "property": "C57",
   "status": "proved",
   "theorems": [
    "C57_ctrb_throws",
    "C57_obsv_throws",
    "C57_no_states",
    "C57_ctrb",
    "C57_obsv",
    "C57_duality"
   ],
   "note": ""
  },
  {
   "property": "C58",
   "status": "proved",
   "theorems": [
    "C58_poly_vector",
    "C58_poly_matrix"
   ],
   "note": ""
  },
  {
   "property": "C59",
   "status": "proved",
   "theorems": [
    "C59_throws",
    "C59_empty",
    "C59_char_poly"
   ],
   "note": ""
  },
  {
   "property": "C60",
   "status": "proved",
   "theorems": [
    "C60_polyreduce",
    "C60_idempotent",
    "C60_same_value"
   ],
   "note": ""
  },
  {
   "property": "C61",
   "status": "proved",
   "theorems": [
    "C61_simulate",
    "C61_closed_form"
   ],
   "note": ""
  },
  {
   "property": "C62",
   "status": "proved",
   "theorems": [
    "C62_generate_zero",
    "C62_superposition",
    "C62_zero",
    "C62_scaling"
   ],
   "note": ""
  },
  {
   "property": "C63",
   "status": "proved",
   "theorems": [
    "C63_c2d",
    "C63_singular",
    "C63_no_output"
   ],
   "note": ""
  },
  {
   "property": "C64",
   "status": "proved",
   "theorems": [
    "C64_acker",
    "C64_acker_large",
    "C64_uncontrollable",
    "C64_uncontrollable_5_refuted",
    "C64_bad_system",
    "C64_bad_poles",
    "C64_view_poles"
   ],
   "note": ""
  },
  {
   "property": "C65",
   "status": "proved",
   "theorems": [
    "C65_formula",
    "C65_reflexive",
    "C65_symmetric",
    "C65_scale_invariant",
    "C65_opposite_signs",
    "C65_zero",
    "C65_monotone",
    "C65_tolerance_2",
    "C65_transitive_refuted"
   ],
   "note": ""
  },
  {
   "property": "C66",
   "status": "proved",
   "theorems": [
    "C66_zero",
    "C66_tolerance_1",
    "C66_lesser",
    "C66_greater",
    "C66_total",
    "C66_weaker",
    "C66_both",
    "C66_symmetric"
   ],
   "note": ""
  },
  {
   "property": "C67",
   "status": "proved",
   "theorems": [
    "C67_padding",
    "C67_vector_round_trip"
   ],
   "note": ""
  },
  {
   "property": "C68",
   "status": "proved",
   "theorems": [
    "C68_matrix_round_trip",
    "C68_matrix_same",
    "C68_sequence"
   ],
   "note": ""
  },
  {
   "property": "C69",
   "status": "proved",
   "theorems": [
    "C69_wrong_tag_vector",
    "C69_wrong_tag_matrix",
    "C69_end_of_file",
    "C69_failed_stream",
    "C69_white_space",
    "C69_digits"
   ],
   "note": ""
  },
  {
   "property": "C70",
   "status": "proved",
   "theorems": [
    "C70_setw",
    "C70_matrix",
    "C70_vector",
    "C70_dump",
    "C70_showpos_refuted",
    "C70_cofactor_refuted",
    "C70_matrix_injective",
    "C70_empty_refuted",
    "C70_state_space",
    "C70_state_space_injective",
    "C70_range"
   ],
   "note": ""
  },
  {
   "property": "C71",
   "status": "proved",
   "theorems": [
    "C71_complex_text",
    "C71_vector",
    "C71_matrix",
    "C71_vector_injective",
    "C71_matrix_injective",
    "C71_integers",
    "C71_complex",
    "C71_matlab_recoverable",
    "C71_matlab_recoverable_complex",
    "C71_decimal",
    "C71_decimal_unique"
   ],
   "note": ""
  },
  {
   "property": "C72",
   "status": "proved",
   "theorems": [
    "C72_wilkinson_shift",
    "C72_single",
    "C72_empty"
   ],
   "note": ""
  },
  {
   "property": "C73",
   "status": "proved",
   "theorems": [
    "C73_add",
    "C73_sub",
    "C73_mul",
    "C73_div"
   ],
   "note": ""
  },
  {
   "property": "C74",
   "status": "proved",
   "theorems": [
    "C74_logspace_is_pow_of_linspace",
    "C74_logspace_one",
    "C74_logspace_never_ends"
   ],
   "note": ""
  },
  {
   "property": "C75",
   "status": "proved",
   "theorems": [
    "C75_dot",
    "C75_outside",
    "C75_accumulate_outside",
    "C75_accumulate",
    "C75_inner_product",
    "C75_past_the_end",
    "C75_inner_product_whole"
   ],
   "note": ""
  },
  {
   "property": "C76",
   "status": "proved",
   "theorems": [
    "C76_rand_matrix",
    "C76_rand_vector",
    "C76_rand_matrix_complex",
    "C76_rand_vector_complex",
    "C76_rand_in_bounds",
    "C76_rand_vector_in_bounds"
   ],
   "note": ""
  },
  {
   "property": "C77",
   "status": "proved",
   "theorems": [
    "C77_bad_element",
    "C77_truncated",
    "C77_out_of_range",
    "C77_bad_size",
    "C77_no_size",
    "C77_huge_size",
    "C77_matrix_bad_element",
    "C77_matrix_truncated",
    "C77_matrix_out_of_range",
    "C77_matrix_bad_rows",
    "C77_matrix_bad_cols",
    "C77_matrix_no_cols",
    "C77_matrix_huge",
    "C77_negative_size",
    "C77_negative_rows",
    "C77_negative_cols",
    "C77_negative_undefined"
   ],
   "note": ""
  },
  {
   "property": "C78",
   "status": "proved",
   "theorems": [
    "C78_chain",
    "C78_after_text_refuted",
    "C78_after_text",
    "C78_matrix_after_text_refuted"
   ],
   "note": ""
  },
  {
   "property": "C79",
   "status": "proved",
   "theorems": [
    "C79_sum",
    "C79_dot",
    "C79_matrix_vector",
    "C79_product",
    "C79_trace"
   ],
   "note": ""
  },
  {
   "property": "C80",
   "status": "proved",
   "theorems": [
    "C80_lu_defined",
    "C80_lu_backward"
   ],
   "note": ""
  },
  {
   "property": "C81",
   "status": "proved",
   "theorems": [
    "C81_convert_matrix",
    "C81_assign_matrix",
    "C81_convert_vector",
    "C81_assign_vector",
    "C81_add",
    "C81_sub",
    "C81_product",
    "C81_dot",
    "C81_matvec",
    "C81_vectors",
    "C81_compare",
    "C81_compare_scalar",
    "C81_compare_shapes",
    "C81_scalar",
    "C81_shapes",
    "C81_product_shapes",
    "C81_inplace_add",
    "C81_inplace_sub",
    "C81_inplace_scale",
    "C81_inplace_product",
    "C81_inplace_shapes",
    "C81_inplace_vectors",
    "C81_vector_sizes",
    "C81_element_wise_product",
    "C81_linear_combination",
    "C81_element_wise_product_refuted",
    "C81_signed_unsigned_refuted"
   ],
   "note": ""
  },
  {
   "property": "C82",
   "status": "proved",
   "theorems": [
    "C82_iterate_vector",
    "C82_iterate_matrix",
    "C82_assign_vector",
    "C82_assign_matrix",
    "C82_data",
    "C82_range_call",
    "C82_view_data_refuted"
   ],
   "note": ""
  },
  {
   "property": "C83",
   "status": "proved",
   "theorems": [
    "C83_programs"
   ],
   "note": ""
  },
  {
   "property": "C84",
   "status": "proved",
   "theorems": [
    "C84_tolerance",
    "C84_nan",
    "C84_reflexive",
    "C84_infinity",
    "C84_symmetric",
    "C84_mirror",
    "C84_zero",
    "C84_equal_zero",
    "C84_opposite_signs",
    "C84_matrix_reflexive"
   ],
   "note": ""
  },
  {
   "property": "C85",
   "status": "proved",
   "theorems": [
    "C85_matrix_min_max",
    "C85_all_close",
    "C85_all_close_nan",
    "C85_min",
    "C85_max",
    "C85_flatnonzero",
    "C85_total",
    "C85_closed",
    "C85_inverse",
    "C85_div",
    "C85_inverse_refuted"
   ],
   "note": ""
  },
  {
   "property": "C86",
   "status": "proved",
   "theorems": [
    "C86_elementwise",
    "C86_sum",
    "C86_dot",
    "C86_product",
    "C86_product_bound",
    "C86_determinant_bound",
    "C86_factorial",
    "C86_factorial_32_64",
    "C86_divide",
    "C86_matrix_vector",
    "C86_trace",
    "C86_all_close"
   ],
   "note": ""
  },
  {
   "property": "C87",
   "status": "proved",
   "theorems": [
    "C87_elementwise",
    "C87_sum",
    "C87_dot",
    "C87_product",
    "C87_powm",
    "C87_determinant",
    "C87_factorial",
    "C87_divide",
    "C87_matrix_vector",
    "C87_trace"
   ],
   "note": ""
  },
  {
   "property": "C88",
   "status": "proved",
   "theorems": [
    "C88_largest",
    "C88_17_digits",
    "C88_16_digits_refuted",
    "C88_accuracy",
    "C88_default_reads",
    "C88_default_exact_refuted",
    "C88_stable",
    "C88_integers",
    "C88_vector_17",
    "C88_matrix_17",
    "C88_vector_default",
    "C88_matrix_default",
    "C88_vector_stable",
    "C88_matrix_stable",
    "C88_vector_integers",
    "C88_matrix_integers",
    "C88_vector_special",
    "C88_matrix_special",
    "C88_text_injective",
    "C88_decimal",
    "C88_no_number"
   ],
   "note": ""
  },
  {
   "property": "C89",
   "status": "proved",
   "theorems": [
    "C89_sum",
    "C89_trace",
    "C89_dot",
    "C89_matrix_vector",
    "C89_product",
    "C89_sum_exact",
    "C89_dot_exact",
    "C89_product_exact",
    "C89_add",
    "C89_sub",
    "C89_scale",
    "C89_divide",
    "C89_no_underflow_refuted",
    "C89_order_refuted",
    "C89_associative_refuted"
   ],
   "note": ""
  },
  {
   "property": "C90",
   "status": "proved",
   "theorems": [
    "C90_backward",
    "C90_finite_refuted",
    "C90_residual_refuted"
   ],
   "note": ""
  },
  {
   "property": "C91",
   "status": "proved",
   "theorems": [
    "C91_float",
    "C91_double",
    "C91_single",
    "C91_signed",
    "C91_unsigned"
   ],
   "note": ""
  },
  {
   "property": "C92",
   "status": "proved",
   "theorems": [
    "C92_order",
    "C92_min",
    "C92_max",
    "C92_matrix_min_max",
    "C92_all_close",
    "C92_equal",
    "C92_less_equal",
    "C92_all_close_exact_refuted"
   ],
   "note": ""
  },
  {
   "property": "C93",
   "status": "proved",
   "theorems": [
    "C93_infinity_norm",
    "C93_log2_ceil",
    "C93_expm",
    "C93_expm_overflow_refuted"
   ],
   "note": ""
  },
  {
   "property": "C94",
   "status": "proved",
   "theorems": [
    "C94_linspace",
    "C94_exact",
    "C94_overflow",
    "C94_last_refuted"
   ],
   "note": ""
  },
  {
   "property": "C95",
   "status": "proved",
   "theorems": [
    "C95_step",
    "C95_simulate",
    "C95_first_step",
    "C95_swap_rows",
    "C95_swap_cols",
    "C95_acker_few",
    "C95_acker_many",
    "C95_expm_not_square",
    "C95_c2d_not_square",
    "C95_c2d_input",
    "C95_c2d_output"
   ],
   "note": ""
  },
  {
   "property": "C96",
   "status": "proved",
   "theorems": [
    "C96_qr",
    "C96_wide_undefined",
    "C96_empty_throws",
    "C96_solve_square",
    "C96_solve_singular",
    "C96_solve_tall",
    "C96_solve_wide",
    "C96_zero_column_refuted"
   ],
   "note": ""
  },
  {
   "property": "C97",
   "status": "proved",
   "theorems": [
    "C97_givens",
    "C97_givens_triangular",
    "C97_givens_skip",
    "C97_givens_empty",
    "C97_hessenberg_conjugate",
    "C97_hessenberg",
    "C97_hessenberg_empty",
    "C97_short_column_refuted"
   ],
   "note": ""
  },
  {
   "property": "C98",
   "status": "proved",
   "theorems": [
    "C98_schur_wilkinson",
    "C98_conjugate",
    "C98_schur",
    "C98_passes",
    "C98_order1",
    "C98_eigenvectors",
    "C98_deficient",
    "C98_eigenbasis"
   ],
   "note": ""
  },
  {
   "property": "C99",
   "status": "proved",
   "theorems": [
    "C99_to_size",
    "C99_steps",
    "C99_simulate",
    "C99_undefined",
    "C99_decimal_refuted"
   ],
   "note": ""
  },
  {
   "property": "C100",
   "status": "proved",
   "theorems": [
    "C100_is_zero",
    "C100_is_constant",
    "C100_is_identity",
    "C100_is_orthogonal",
    "C100_hermitian_transpose",
    "C100_matrix_scalar",
    "C100_vector_scalar",
    "C100_sign",
    "C100_to_cpp_vector",
    "C100_to_cpp_matrix",
    "C100_invertible",
    "C100_invertible_large",
    "C100_invertible_refuted",
    "C100_invertible_throws",
    "C100_orthogonal",
    "C100_orthogonal_passes",
    "C100_to_cpp_vector_injective",
    "C100_to_cpp_matrix_injective",
    "C100_to_cpp_recoverable",
    "C100_to_cpp_recoverable_complex"
   ],
   "note": ""
  },
  {
   "property": "C101",
   "status": "proved",
   "theorems": [
    "C101_determinant_exact",
    "C101_adjoint_exact",
    "C101_inverse_exact",
    "C101_determinant_error",
    "C101_determinant_sign",
    "C101_determinant_finite",
    "C101_inverse_refuted"
   ],
   "note": ""
  },
  {
   "property": "C102",
   "status": "proved",
   "theorems": [
    "C102_square_root",
    "C102_square_root_exact",
    "C102_vector_norm",
    "C102_matrix_norm",
    "C102_column_length",
    "C102_sub_norm",
    "C102_infinity_norm_vector",
    "C102_norm_refuted"
   ],
   "note": ""
  },
  {
   "property": "C103",
   "status": "proved",
   "theorems": [
    "C103_expm",
    "C103_exponential",
    "C103_view",
    "C103_square_zero",
    "C103_unique",
    "C103_nilpotent"
   ],
   "note": ""
  },
  {
   "property": "C104",
   "status": "proved",
   "theorems": [
    "C104_determinant",
    "C104_adjoint",
    "C104_inverse",
    "C104_not_square",
    "C104_div",
    "C104_order5_refuted",
    "C104_test_refuted"
   ],
   "note": ""
  },
  {
   "property": "C105",
   "status": "proved",
   "theorems": [
    "C105_vector",
    "C105_matrix",
    "C105_test",
    "C105_default_refuted",
    "C105_ex"
   ],
   "note": ""
  },
  {
   "property": "C106",
   "status": "proved",
   "theorems": [
    "C106_moves",
    "C106_ring",
    "C106_division",
    "C106_comparisons",
    "C106_all",
    "C106_doubles",
    "C106_unsigned",
    "C106_unsigned_results",
    "C106_signed",
    "C106_wider",
    "C106_same_bits",
    "C106_tolerance",
    "C106_homomorphism",
    "C106_conjugate",
    "C106_ordered",
    "C106_rational"
   ],
   "note": ""
  },
  {
   "property": "C107",
   "status": "proved",
   "theorems": [
    "C107_bounds",
    "C107_exact",
    "C107_matrices",
    "C107_division",
    "C107_vectors",
    "C107_simulate"
   ],
   "note": ""
  },
  {
   "property": "C108",
   "status": "proved",
   "theorems": [
    "C108_hessenberg_keeps",
    "C108_stalls",
    "C108_cyclic_refuted",
    "C108_doubles_refuted"
   ],
   "note": ""
  },
  {
   "property": "C109",
   "status": "proved",
   "theorems": [
    "C109_identity",
    "C109_powm_one",
    "C109_powm_one_refuted",
    "C109_powm",
    "C109_ctrb",
    "C109_obsv",
    "C109_poly_matrix",
    "C109_acker",
    "C109_expm",
    "C109_c2d"
   ],
   "note": ""
  },
  {
   "property": "C110",
   "status": "proved",
   "theorems": [
    "C110_pass_hessenberg",
    "C110_deflates",
    "C110_pass_idle",
    "C110_hessenberg_triangular",
    "C110_triangular",
    "C110_order2",
    "C110_order2_wilkinson",
    "C110_singular_refuted",
    "C110_ones_refuted",
    "C110_doubles_refuted"
   ],
   "note": ""
  },
  {
   "property": "C111",
   "status": "proved",
   "theorems": [
    "C111_step",
    "C111_equilibrium",
    "C111_equilibrium_only",
    "C111_modes",
    "C111_decay"
   ],
   "note": ""
  },
  {
   "property": "C112",
   "status": "proved",
   "theorems": [
    "C112_rlc_dt",
    "C112_rlc_ct",
    "C112_pendulum",
    "C112_stable",
    "C112_pendulum_stable",
    "C112_ct_unstable_refuted",
    "C112_energy",
    "C112_ct_energy_refuted",
    "C112_pendulum_energy",
    "C112_poly",
    "C112_controllable",
    "C112_loop",
    "C112_run",
    "C112_loop_forever",
    "C112_passes",
    "C112_never",
    "C112_announced",
    "C112_run",
    "C112_announced_refuted"
   ],
   "note": ""
  },
  {
   "property": "C113",
   "status": "proved",
   "theorems": [
    "C113_simulate",
    "C113_contraction",
    "C113_decay"
   ],
   "note": ""
  },
  {
   "property": "C114",
   "status": "proved",
   "theorems": [
    "C114_elimination",
    "C114_determinant",
    "C114_singular_refuted",
    "C114_sign_refuted"
   ],
   "note": ""
  },
  {
   "property": "C115",
   "status": "proved",
   "theorems": [
    "C115_ctrb",
    "C115_obsv",
    "C115_trace",
    "C115_simulate",
    "C115_determinant",
    "C115_poly",
    "C115_acker",
    "C115_expm",
    "C115_c2d"
   ],
   "note": ""
  },
  {
   "property": "C116",
   "status": "proved",
   "theorems": [
    "C116_construct",
    "C116_default",
    "C116_assign",
    "C116_history",
    "C116_move",
    "C116_move_discrete",
    "C116_move_source",
    "C116_sized_vector",
    "C116_assign_refuted"
   ],
   "note": ""
  },
  {
   "property": "C117",
   "status": "proved",
   "theorems": [
    "C117_deadbeat",
    "C117_stable",
    "C117_regulates"
   ],
   "note": ""
  },
  {
   "property": "C118",
   "status": "proved",
   "theorems": [
    "C118_run",
    "C118_exponential"
   ],
   "note": ""
  },
  {
   "property": "C119",
   "status": "proved",
   "theorems": [
    "C119_zero",
    "C119_sum",
    "C119_vector_sum",
    "C119_multiple",
    "C119_vector_multiple",
    "C119_product",
    "C119_apply",
    "C119_dot",
    "C119_compare",
    "C119_vector_compare",
    "C119_real",
    "C119_complex",
    "C119_projection",
    "C119_orthogonal",
    "C119_unitary"
   ],
   "note": ""
  },
  {
   "property": "C120",
   "status": "proved",
   "theorems": [
    "C120_values",
    "C120_no_refusal",
    "C120_refused_growth",
    "C120_refused_assign",
    "C120_refused_shrink",
    "C120_leak",
    "C120_wraps",
    "C120_not_asked"
   ],
   "note": ""
  },
  {
   "property": "C121",
   "status": "proved",
   "theorems": [
    "C121_continue",
    "C121_reachable",
    "C121_steer_by",
    "C121_steer",
    "C121_out_of_reach",
    "C121_outputs",
    "C121_observable",
    "C121_blind",
    "C121_impulse"
   ],
   "note": ""
  },
  {
   "property": "C122",
   "status": "proved",
   "theorems": [
    "C122_plain",
    "C122_construct",
    "C122_grow",
    "C122_history"
   ],
   "note": ""
  },
  {
   "property": "C123",
   "status": "proved",
   "theorems": [
    "C123_run",
    "C123_prefix",
    "C123_causal",
    "C123_failure",
    "C123_continue"
   ],
   "note": ""
  },
  {
   "property": "C124",
   "status": "proved",
   "theorems": [
    "C124_qr",
    "C124_solve",
    "C124_eigen",
    "C124_conjugate",
    "C124_real",
    "C124_real_schur",
    "C124_embedding"
   ],
   "note": ""
  },
  {
   "property": "C125",
   "status": "proved",
   "theorems": [
    "C125_qr",
    "C125_factors",
    "C125_all"
   ],
   "note": ""
  },
  {
   "property": "C126",
   "status": "proved",
   "theorems": [
    "C126_programs",
    "C126_homomorphism",
    "C126_unsigned",
    "C126_doubles",
    "C126_signed"
   ],
   "note": ""
  },
  {
   "property": "C127",
   "status": "proved",
   "theorems": [
    "C127_inverse",
    "C127_square",
    "C127_tall",
    "C127_wide"
   ],
   "note": ""
  },
  {
   "property": "C128",
   "status": "proved",
   "theorems": [
    "C128_memory_safe",
    "C128_no_leak",
    "C128_exception",
    "C128_same_outcome",
    "C128_moved_from"
   ],
   "note": ""
  },
  {
   "property": "C129",
   "status": "proved",
   "theorems": [
    "C129_threads",
    "C129_no_race",
    "C129_matrices",
    "C129_rule_needed"
   ],
   "note": ""
  },
  {
   "property": "C130",
   "status": "proved",
   "theorems": [
    "C130_values",
    "C130_no_refusal",
    "C130_refused",
    "C130_refused_shrink",
    "C130_remove_row",
    "C130_leak"
   ],
   "note": ""
  },
  {
   "property": "C131",
   "status": "proved",
   "theorems": [
    "C131_values",
    "C131_no_refusal",
    "C131_isolated"
   ],
   "note": ""
  }
 ]
}