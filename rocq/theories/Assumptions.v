(** Assumptions.v: the axioms the property theorems rest on (generated from MANIFEST.json).
    Each tuple holds every theorem of one property; the last one holds them all, so what is
    printed for it covers each theorem. *)
From Verif Require PropBasis PropCausal PropCircuit PropColumns PropConst PropControl PropControl2 PropConverge PropConvergeEx PropCoord PropCoord2 PropDims PropDims2 PropEigen PropEigenEx PropExact PropExamples PropExamplesFloat PropExpm PropExpm2 PropExpmBound PropFeq PropField PropFileCmp PropFloat PropFloat2 PropFloatBigDet PropFloatCmp PropFloatDet PropFloatExpm PropFloatIO PropFloatLU PropFloatLin PropFloatNorm PropFloatRead PropFloatRun PropFloatSim PropFloatSum PropGivens PropHeap PropHess PropHess2 PropHess3 PropHist PropIO PropIO2 PropIO3 PropIO4 PropIdent PropInt PropInt2 PropInt3 PropIntInv PropIntInvEx PropIter PropLinalg PropMatHeap PropMatOOM PropMath PropMatrix PropMatrix2 PropMatrix3 PropMisc PropMixed PropNorms PropNorms2 PropOOM PropOnesFloat PropPoles PropProg PropQR PropQR2 PropQRFloat PropReach PropReal PropRel PropRelFloat PropRelInt PropRelProg PropRelQR PropRelReal PropRepaired PropRepaired2 PropRing PropRound PropRunErr PropRunQR PropRunSolve PropSchur PropSchurRun PropStall PropStallFloat PropStateObj PropSteady PropText PropThreads PropThreadsOOM PropThreadsOOM2 PropToCpp PropTotal PropTotalFloat PropTriEig PropUtil PropUtil2 PropVecElem.
Definition C01 := (@PropHeap.C01_memory_safe, @PropHeap.C01_no_leak, @PropHeap.C01_out_of_range, tt).
Definition C02 := (@PropHeap.C02_value_semantics, tt).
Definition C03 := (@PropMatrix.C03_vector_resize, tt).
Definition C04 := (@PropHist.C04_shape_invariant, tt).
Definition C05 := (@PropMatrix.C05_access_agrees, @PropMatrix.C05_write_one, @PropMatrix.C05_injective, @PropMatrix2.C05_empty, tt).
Definition C06 := (@PropMatrix.C06_fill, @PropMatrix.C06_from_list, @PropMatrix.C06_from_list_short_undefined, @PropMatrix.C06_nested, @PropMatrix.C06_nested_throws, @PropMatrix.C06_nested_ragged_undefined, @PropMatrix.C06_from_view, @PropMatrix2.C06_move, tt).
Definition C07 := (@PropMatrix.C07_assign, @PropMatrix.C07_assign_empty_noop, @PropMatrix.C07_assign_from_matrix, @PropMatrix.C07_move_assign, @PropMatrix.C07_assign_nested, @PropMatrix2.C07_move_assign_empty, @PropMatrix2.C07_move_assign_full, @PropMatrix2.C07_assign_nested_empty, tt).
Definition C08 := (@PropMatrix.C08_self_view_zero, @PropMatrix.C08_self_view_undefined, @PropMatrix.C08_self_view_refuted, tt).
Definition C09 := (@PropIter.C09_utility, @PropMatrix.C09_resize, tt).
Definition C10 := (@PropIter.C10_utility, @PropMatrix.C10_reshape, @PropMatrix.C10_reshape_throws, tt).
Definition C11 := (@PropMatrix.C11_overflow_construct, @PropMatrix.C11_overflow_reshape, @PropMatrix3.C11_overflow_general, @PropMatrix3.C11_overflow_reshape_general, tt).
Definition C12 := (@PropMatrix.C12_view_reads, @PropMatrix.C12_view_writes, @PropMatrix.C12_range_all, @PropMatrix.C12_bad_range_asserts, @PropUtil.C12_util_view, @PropUtil.C12_util_row, @PropUtil.C12_util_col, tt).
Definition C13 := (@PropMatrix.C13_nested_reads, @PropMatrix.C13_nested_inside, @PropMatrix.C13_nested_distinct, @PropMatrix.C13_nested_writes, tt).
Definition C14 := (@PropMatrix.C14_row_start_wraps, @PropMatrix.C14_col_start_wraps, @PropMatrix3.C14_extract_row_undefined, @PropMatrix3.C14_extract_undefined_1row, @PropUtil.C14_extract_undefined, @PropUtil.C14_extract_column_undefined, @PropUtil.C14_extract_undefined_1col, tt).
Definition C15 := (@PropMatrix.C15_assign_unrelated, @PropMatrix.C15_assign_same_matrix, @PropMatrix.C15_assign_forward_windows, @PropMatrix.C15_shape_mismatch_asserts, tt).
Definition C16 := (@PropMatrix.C16_shift_right_spreads, @PropMatrix.C16_overlap_refuted, tt).
Definition C17 := (@PropMatrix.C17_assign_nested, @PropMatrix.C17_assign_nested_noop, tt).
Definition C18 := (@PropMatrix.C18_cofactor_reads, @PropMatrix.C18_cofactor_writes, @PropMatrix.C18_cofactor_linear_square, @PropMatrix.C18_cofactor_linear_refuted, tt).
Definition C19 := (@PropMath.C19_self_add, @PropMath.C19_self_sub, @PropMath.C19_same_matrix, @PropMath.C19_overlap_refuted, tt).
Definition C20 := (@PropLinalg.C20_transpose, @PropLinalg.C20_involution, @PropLinalg.C20_involution_view, @PropLinalg.C20_product, tt).
Definition C21 := (@PropUtil.C21_eye, @PropUtil.C21_identity, @PropUtil.C21_zeros_ones, @PropUtil.C21_vector_forms, @PropUtil.C21_zero_dimension_throws, @PropUtil.C21_diag_vector, @PropUtil.C21_diag_matrix, @PropUtil.C21_diag_diag, tt).
Definition C22 := (@PropUtil.C22_to_matrix, @PropUtil.C22_to_vector, @PropUtil.C22_ravel, @PropUtil.C22_ravel_view, @PropUtil.C22_round_trip, @PropUtil2.C22_ravel_cofactor_refuted, tt).
Definition C23 := (@PropUtil.C23_vstack, @PropUtil.C23_vstack_throws, @PropUtil.C23_hstack, @PropUtil.C23_hstack_throws, @PropUtil.C23_vstack_vector, @PropUtil.C23_hstack_vector, @PropUtil.C23_stack_vector_throws, @PropUtil.C23_concatenate, tt).
Definition C24 := (@PropUtil.C24_extract, @PropUtil.C24_extract_throws, @PropUtil.C24_extract_column, @PropUtil.C24_extract_row, @PropUtil.C24_extract_line_throws, @PropUtil.C24_split_rows, @PropUtil.C24_split_cols, tt).
Definition C25 := (@PropUtil.C25_swap_rows, @PropUtil.C25_swap_cols, @PropUtil.C25_swap_rows_involutive, @PropUtil.C25_swap_cols_involutive, tt).
Definition C26 := (@PropLinalg.C26_cofactor, @PropLinalg.C26_cofactor_is_removal, @PropUtil.C26_remove_row, @PropUtil.C26_remove_column, @PropUtil.C26_remove_throws, @PropUtil.C26_remove_is_minor, tt).
Definition C27 := (@PropUtil.C27_shape_predicates, @PropUtil.C27_symmetric, @PropUtil.C27_skew_symmetric_offdiag, @PropUtil.C27_diagonal, @PropUtil.C27_lower_triangular, @PropUtil.C27_upper_triangular, @PropUtil2.C27_skew_symmetric_refuted, @PropUtil2.C27_integers, tt).
Definition C28 := (@PropReal.C28_linspace_exact, @PropReal.C28_nearly_equal_refuted, @PropUtil.C28_linspace_elements, @PropUtil.C28_linspace_degenerate, @PropUtil2.C28_linspace_integers, @PropUtil2.C28_linspace_integer_last, tt).
Definition C29 := (@PropUtil.C29_flatnonzero, @PropUtil.C29_find_all, @PropUtil.C29_find_n_defect, @PropUtil.C29_find_zero, @PropUtil2.C29_find_first_n_refuted, tt).
Definition C30 := (@PropUtil.C30_compare_spec, @PropUtil.C30_compare_throws, @PropUtil.C30_compare_zero, @PropUtil.C30_compare_antisymmetric, @PropUtil.C30_compare_vector, @PropUtil.C30_compare_vector_throws, @PropUtil2.C30_compare_zero_refuted, @PropUtil2.C30_compare_shape_refuted, tt).
Definition C31 := (@PropUtil.C31_all_close, @PropUtil.C31_all_close_throws, @PropUtil.C31_all_close_vector, @PropUtil.C31_all_close_vector_throws, @PropUtil.C31_all_close_laws, @PropUtil2.C31_all_close_integers, tt).
Definition C32 := (@PropMath.C32_add, @PropMath.C32_sub, @PropMath.C32_add_scalar, @PropMath.C32_sub_scalar, @PropMath.C32_mul_scalar, @PropMath.C32_div_scalar, @PropMath.C32_div_undefined, @PropMath.C32_inplace_add, @PropMath.C32_inplace_sub, @PropMath.C32_inplace_mul_scalar, @PropMath.C32_inplace_div_scalar, @PropMath.C32_vec_add, @PropMath.C32_vec_sub, @PropMath.C32_vec_mul, @PropMath.C32_vec_add_scalar, @PropMath.C32_vec_sub_scalar, @PropMath.C32_vec_mul_scalar, @PropMath.C32_vec_div_scalar, @PropMath.C32_vec_inplace_add, @PropMath.C32_vec_inplace_sub, @PropMath.C32_inplace_is_binary, tt).
Definition C33 := (@PropMath.C33_product, @PropRing.C33_ring_product, @PropRing.C33_associative, @PropRing.C33_distributive_right, @PropRing.C33_distributive_left, @PropRing.C33_identity, tt).
Definition C34 := (@PropMath.C34_throws, @PropMath.C34_square, @PropMath.C34_self, @PropMath.C34_same_as_product, @PropMath.C34_fewer_columns, @PropMath.C34_more_columns_undefined, @PropMath.C34_wide_refuted, tt).
Definition C35 := (@PropMath.C35_dot, @PropMath.C35_matvec, @PropMath.C35_dot_matrix, @PropMath.C35_matvec_undefined, @PropMath.C35_matvec_is_product, tt).
Definition C36 := (@PropMath.C36_compare, @PropMath.C36_compare_scalar, @PropMath.C36_compare_vec, @PropMath.C36_mirror, tt).
Definition C37 := (@PropMath.C37_all, @PropMath.C37_all_vec, @PropMath.C37_any, @PropMath.C37_any_vec, @PropMath.C37_empty, @PropMath.C37_any_is_not_all_zero, tt).
Definition C38 := (@PropColumns.C38_columns, @PropMath.C38_min, @PropMath.C38_max, @PropMath.C38_empty, @PropMath.C38_matrix_min, @PropMath.C38_matrix_max, @PropMath.C38_matrix_empty, tt).
Definition C39 := (@PropMath.C39_sum, @PropMath.C39_trace, @PropMath.C39_trace_undefined, @PropRing.C39_ring_trace, @PropRing.C39_trace_linear, @PropRing.C39_trace_commutes, tt).
Definition C40 := (@PropReal.C40_square_norm_vector, @PropReal.C40_square_norm_matrix, @PropReal.C40_vector_length, @PropReal.C40_infinity_norm_vector, @PropReal.C40_infinity_norm_matrix, @PropReal.C40_sub_norm, @PropReal.C40_view_norms, @PropReal.C40_view_norm_refuted, @PropReal.C40_real_norms, @PropReal.C40_real_norms_vector, tt).
Definition C41 := (@PropMath.C41_vector, @PropMath.C41_matrix, @PropMath.C41_abs, @PropMath.C41_abs_refuted, tt).
Definition C42 := (@PropMath.C42_binary, @PropMath.C42_hadamard, @PropMath.C42_linear_combination, tt).
Definition C43 := (@PropReal.C43_log2_ceil, @PropReal.C43_log2_ceil_view, tt).
Definition C44 := (@PropField.C44_throws, @PropField.C44_projection, tt).
Definition C45 := (@PropLinalg.C45_factorial, @PropLinalg.C45_negative, @PropLinalg.C45_recurrence, tt).
Definition C46 := (@PropLinalg.C46_zero_dimension, @PropLinalg.C46_not_square, @PropLinalg.C46_zeroth_power, @PropRing.C46_powm, @PropRing.C46_powm_add, tt).
Definition C47 := (@PropLinalg.C47_conjugate_transpose, @PropLinalg.C47_involution, @PropLinalg.C47_product, tt).
Definition C48 := (@PropLinalg.C48_throws, @PropRing.C48_determinant, @PropRing.C48_multiplicative, @PropRing.C48_transpose, tt).
Definition C49 := (@PropField.C49_determinant, @PropField.C49_zero_by_zero, @PropField.C49_nonsingular, tt).
Definition C50 := (@PropField.C50_never_zero, @PropField.C50_singular, @PropField.C50_zero_matrix, @PropField.C50_refuted, tt).
Definition C51 := (@PropField.C51_adjoint_large, @PropField.C51_adjoint_no_zero, @PropField.C51_identity_refuted, @PropLinalg.C51_throws, @PropRing.C51_adjoint, @PropRing.C51_product, @PropRing.C51_product_computed, tt).
Definition C52 := (@PropField.C52_inverse, @PropField.C52_inverse_product, @PropField.C52_singular, @PropField.C52_singular_5, @PropField.C52_singular_5_refuted, @PropField.C52_inverse_large, @PropField.C52_identity_refuted, @PropLinalg.C52_throws, tt).
Definition C53 := (@PropField.C53_div, @PropField.C53_div_product, @PropField.C53_singular, tt).
Definition C54 := (@PropField.C54_lu, @PropField.C54_lu_exists, @PropLinalg.C54_throws, tt).
Definition C55 := (@PropLinalg.C55_exp, @PropLinalg.C55_exp_is_transposed, tt).
Definition C56 := (@PropExpm.C56_expm, @PropExpm.C56_expm_view, @PropExpm.C56_accuracy, @PropExpm.C56_zero, @PropExpm2.C56_nilpotent, @PropExpm2.C56_semigroup, tt).
Definition C57 := (@PropControl.C57_ctrb_throws, @PropControl.C57_obsv_throws, @PropControl.C57_no_states, @PropControl.C57_ctrb, @PropControl.C57_obsv, @PropControl.C57_duality, tt).
Definition C58 := (@PropControl.C58_poly_vector, @PropControl.C58_poly_matrix, tt).
Definition C59 := (@PropControl2.C59_throws, @PropControl2.C59_empty, @PropControl2.C59_char_poly, tt).
Definition C60 := (@PropControl.C60_polyreduce, @PropControl.C60_idempotent, @PropControl.C60_same_value, tt).
Definition C61 := (@PropControl.C61_simulate, @PropControl.C61_closed_form, tt).
Definition C62 := (@PropControl.C62_generate_zero, @PropControl.C62_superposition, @PropControl.C62_zero, @PropExpm2.C62_scaling, tt).
Definition C63 := (@PropExpm.C63_c2d, @PropExpm.C63_singular, @PropExpm.C63_no_output, tt).
Definition C64 := (@PropControl2.C64_acker, @PropControl2.C64_acker_large, @PropControl2.C64_uncontrollable, @PropControl2.C64_uncontrollable_5_refuted, @PropControl2.C64_bad_system, @PropControl2.C64_bad_poles, @PropControl2.C64_view_poles, tt).
Definition C65 := (@PropFeq.C65_formula, @PropFeq.C65_reflexive, @PropFeq.C65_symmetric, @PropFeq.C65_scale_invariant, @PropFeq.C65_opposite_signs, @PropFeq.C65_zero, @PropFeq.C65_monotone, @PropFeq.C65_tolerance_2, @PropFeq.C65_transitive_refuted, tt).
Definition C66 := (@PropFeq.C66_zero, @PropFeq.C66_tolerance_1, @PropFeq.C66_lesser, @PropFeq.C66_greater, @PropFeq.C66_total, @PropFeq.C66_weaker, @PropFeq.C66_both, @PropFeq.C66_symmetric, tt).
Definition C67 := (@PropConst.C67_padding, @PropIO.C67_vector_round_trip, tt).
Definition C68 := (@PropIO.C68_matrix_round_trip, @PropIO.C68_matrix_same, @PropIO.C68_sequence, tt).
Definition C69 := (@PropIO.C69_wrong_tag_vector, @PropIO.C69_wrong_tag_matrix, @PropIO.C69_end_of_file, @PropIO.C69_failed_stream, @PropText.C69_white_space, @PropText.C69_digits, tt).
Definition C70 := (@PropIO.C70_setw, @PropIO.C70_matrix, @PropIO.C70_vector, @PropIO.C70_dump, @PropIO.C70_showpos_refuted, @PropIO.C70_cofactor_refuted, @PropIO3.C70_matrix_injective, @PropIO3.C70_empty_refuted, @PropIO3.C70_state_space, @PropIO3.C70_state_space_injective, @PropIO4.C70_range, tt).
Definition C71 := (@PropConst.C71_complex_text, @PropIO.C71_vector, @PropIO.C71_matrix, @PropIO.C71_vector_injective, @PropIO.C71_matrix_injective, @PropIO2.C71_integers, @PropIO2.C71_complex, @PropIO2.C71_matlab_recoverable, @PropIO2.C71_matlab_recoverable_complex, @PropText.C71_decimal, @PropText.C71_decimal_unique, tt).
Definition C72 := (@PropEigen.C72_wilkinson_shift, @PropEigen.C72_single, @PropEigen.C72_empty, tt).
Definition C73 := (@PropEigen.C73_add, @PropEigen.C73_sub, @PropEigen.C73_mul, @PropEigen.C73_div, tt).
Definition C74 := (@PropUtil2.C74_logspace_is_pow_of_linspace, @PropUtil2.C74_logspace_one, @PropUtil2.C74_logspace_never_ends, tt).
Definition C75 := (@PropMisc.C75_dot, @PropMisc.C75_outside, @PropMisc.C75_accumulate_outside, @PropUtil.C75_accumulate, @PropUtil.C75_inner_product, @PropUtil.C75_past_the_end, @PropUtil2.C75_inner_product_whole, tt).
Definition C76 := (@PropUtil.C76_rand_matrix, @PropUtil.C76_rand_vector, @PropUtil.C76_rand_matrix_complex, @PropUtil.C76_rand_vector_complex, @PropUtil2.C76_rand_in_bounds, @PropUtil2.C76_rand_vector_in_bounds, tt).
Definition C77 := (@PropIO2.C77_bad_element, @PropIO2.C77_truncated, @PropIO2.C77_out_of_range, @PropIO2.C77_bad_size, @PropIO2.C77_no_size, @PropIO2.C77_huge_size, @PropIO3.C77_matrix_bad_element, @PropIO3.C77_matrix_truncated, @PropIO3.C77_matrix_out_of_range, @PropIO3.C77_matrix_bad_rows, @PropIO3.C77_matrix_bad_cols, @PropIO3.C77_matrix_no_cols, @PropIO3.C77_matrix_huge, @PropIO4.C77_negative_size, @PropIO4.C77_negative_rows, @PropIO4.C77_negative_cols, @PropIO4.C77_negative_undefined, tt).
Definition C78 := (@PropIO2.C78_chain, @PropIO2.C78_after_text_refuted, @PropIO3.C78_after_text, @PropIO3.C78_matrix_after_text_refuted, tt).
Definition C79 := (@PropRound.C79_sum, @PropRound.C79_dot, @PropRound.C79_matrix_vector, @PropRound.C79_product, @PropRound.C79_trace, tt).
Definition C80 := (@PropRound.C80_lu_defined, @PropRound.C80_lu_backward, tt).
Definition C81 := (@PropMixed.C81_convert_matrix, @PropMixed.C81_assign_matrix, @PropMixed.C81_convert_vector, @PropMixed.C81_assign_vector, @PropMixed.C81_add, @PropMixed.C81_sub, @PropMixed.C81_product, @PropMixed.C81_dot, @PropMixed.C81_matvec, @PropMixed.C81_vectors, @PropMixed.C81_compare, @PropMixed.C81_compare_scalar, @PropMixed.C81_compare_shapes, @PropMixed.C81_scalar, @PropMixed.C81_shapes, @PropMixed.C81_product_shapes, @PropMixed.C81_inplace_add, @PropMixed.C81_inplace_sub, @PropMixed.C81_inplace_scale, @PropMixed.C81_inplace_product, @PropMixed.C81_inplace_shapes, @PropMixed.C81_inplace_vectors, @PropMixed.C81_vector_sizes, @PropMixed.C81_element_wise_product, @PropMixed.C81_linear_combination, @PropMixed.C81_element_wise_product_refuted, @PropMixed.C81_signed_unsigned_refuted, tt).
Definition C82 := (@PropIter.C82_iterate_vector, @PropIter.C82_iterate_matrix, @PropIter.C82_assign_vector, @PropIter.C82_assign_matrix, @PropIter.C82_data, @PropIter.C82_range_call, @PropIter.C82_view_data_refuted, tt).
Definition C83 := (@PropProg.C83_programs, tt).
Definition C84 := (@PropConst.C84_tolerance, @PropFloat.C84_nan, @PropFloat.C84_reflexive, @PropFloat.C84_infinity, @PropFloat.C84_symmetric, @PropFloat.C84_mirror, @PropFloat.C84_zero, @PropFloat.C84_equal_zero, @PropFloat.C84_opposite_signs, @PropFloat.C84_matrix_reflexive, tt).
Definition C85 := (@PropColumns.C85_matrix_min_max, @PropFloat2.C85_all_close, @PropFloat2.C85_all_close_nan, @PropFloat2.C85_min, @PropFloat2.C85_max, @PropFloat2.C85_flatnonzero, @PropFloat2.C85_total, @PropFloat2.C85_closed, @PropFloat2.C85_inverse, @PropFloat2.C85_div, @PropFloat2.C85_inverse_refuted, tt).
Definition C86 := (@PropInt.C86_elementwise, @PropInt.C86_sum, @PropInt.C86_dot, @PropInt.C86_product, @PropInt.C86_product_bound, @PropInt.C86_determinant_bound, @PropInt.C86_factorial, @PropInt.C86_factorial_32_64, @PropInt3.C86_divide, @PropInt3.C86_matrix_vector, @PropInt3.C86_trace, @PropInt3.C86_all_close, tt).
Definition C87 := (@PropInt2.C87_elementwise, @PropInt2.C87_sum, @PropInt2.C87_dot, @PropInt2.C87_product, @PropInt2.C87_powm, @PropInt2.C87_determinant, @PropInt2.C87_factorial, @PropInt3.C87_divide, @PropInt3.C87_matrix_vector, @PropInt3.C87_trace, tt).
Definition C88 := (@PropConst.C88_largest, @PropFloatIO.C88_17_digits, @PropFloatIO.C88_16_digits_refuted, @PropFloatIO.C88_accuracy, @PropFloatIO.C88_default_reads, @PropFloatIO.C88_default_exact_refuted, @PropFloatIO.C88_stable, @PropFloatIO.C88_integers, @PropFloatIO.C88_vector_17, @PropFloatIO.C88_matrix_17, @PropFloatIO.C88_vector_default, @PropFloatIO.C88_matrix_default, @PropFloatIO.C88_vector_stable, @PropFloatIO.C88_matrix_stable, @PropFloatIO.C88_vector_integers, @PropFloatIO.C88_matrix_integers, @PropFloatIO.C88_vector_special, @PropFloatIO.C88_matrix_special, @PropFloatIO.C88_text_injective, @PropFloatRead.C88_decimal, @PropFloatRead.C88_no_number, tt).
Definition C89 := (@PropFloatSum.C89_sum, @PropFloatSum.C89_trace, @PropFloatSum.C89_dot, @PropFloatSum.C89_matrix_vector, @PropFloatSum.C89_product, @PropFloatSum.C89_sum_exact, @PropFloatSum.C89_dot_exact, @PropFloatSum.C89_product_exact, @PropFloatSum.C89_add, @PropFloatSum.C89_sub, @PropFloatSum.C89_scale, @PropFloatSum.C89_divide, @PropFloatSum.C89_no_underflow_refuted, @PropFloatSum.C89_order_refuted, @PropFloatSum.C89_associative_refuted, tt).
Definition C90 := (@PropFloatLU.C90_backward, @PropFloatLU.C90_finite_refuted, @PropFloatLU.C90_residual_refuted, tt).
Definition C91 := (@PropBasis.C91_float, @PropBasis.C91_double, @PropBasis.C91_single, @PropBasis.C91_signed, @PropBasis.C91_unsigned, tt).
Definition C92 := (@PropFloatCmp.C92_order, @PropFloatCmp.C92_min, @PropFloatCmp.C92_max, @PropFloatCmp.C92_matrix_min_max, @PropFloatCmp.C92_all_close, @PropFloatCmp.C92_equal, @PropFloatCmp.C92_less_equal, @PropFloatCmp.C92_all_close_exact_refuted, tt).
Definition C93 := (@PropFloatExpm.C93_infinity_norm, @PropFloatExpm.C93_log2_ceil, @PropFloatExpm.C93_expm, @PropFloatExpm.C93_expm_overflow_refuted, tt).
Definition C94 := (@PropFloatLin.C94_linspace, @PropFloatLin.C94_exact, @PropFloatLin.C94_overflow, @PropFloatLin.C94_last_refuted, tt).
Definition C95 := (@PropDims.C95_step, @PropDims.C95_simulate, @PropDims.C95_first_step, @PropDims.C95_swap_rows, @PropDims.C95_swap_cols, @PropDims2.C95_acker_few, @PropDims2.C95_acker_many, @PropDims2.C95_expm_not_square, @PropDims2.C95_c2d_not_square, @PropDims2.C95_c2d_input, @PropDims2.C95_c2d_output, tt).
Definition C96 := (@PropQR.C96_qr, @PropQR.C96_wide_undefined, @PropQR.C96_empty_throws, @PropQR2.C96_solve_square, @PropQR2.C96_solve_singular, @PropQR2.C96_solve_tall, @PropQR2.C96_solve_wide, @PropQRFloat.C96_zero_column_refuted, tt).
Definition C97 := (@PropGivens.C97_givens, @PropGivens.C97_givens_triangular, @PropGivens.C97_givens_skip, @PropGivens.C97_givens_empty, @PropHess.C97_hessenberg_conjugate, @PropHess2.C97_hessenberg, @PropHess3.C97_hessenberg_empty, @PropHess3.C97_short_column_refuted, tt).
Definition C98 := (@PropEigenEx.C98_schur_wilkinson, @PropSchur.C98_conjugate, @PropSchur.C98_schur, @PropSchurRun.C98_passes, @PropSchurRun.C98_order1, @PropTriEig.C98_eigenvectors, @PropTriEig.C98_deficient, @PropTriEig.C98_eigenbasis, tt).
Definition C99 := (@PropFloatSim.C99_to_size, @PropFloatSim.C99_steps, @PropFloatSim.C99_simulate, @PropFloatSim.C99_undefined, @PropFloatSim.C99_decimal_refuted, tt).
Definition C100 := (@PropRepaired.C100_is_zero, @PropRepaired.C100_is_constant, @PropRepaired.C100_is_identity, @PropRepaired.C100_is_orthogonal, @PropRepaired.C100_hermitian_transpose, @PropRepaired.C100_matrix_scalar, @PropRepaired.C100_vector_scalar, @PropRepaired.C100_sign, @PropRepaired.C100_to_cpp_vector, @PropRepaired.C100_to_cpp_matrix, @PropRepaired2.C100_invertible, @PropRepaired2.C100_invertible_large, @PropRepaired2.C100_invertible_refuted, @PropRepaired2.C100_invertible_throws, @PropRepaired2.C100_orthogonal, @PropRepaired2.C100_orthogonal_passes, @PropToCpp.C100_to_cpp_vector_injective, @PropToCpp.C100_to_cpp_matrix_injective, @PropToCpp.C100_to_cpp_recoverable, @PropToCpp.C100_to_cpp_recoverable_complex, tt).
Definition C101 := (@PropFloatDet.C101_determinant_exact, @PropFloatDet.C101_adjoint_exact, @PropFloatDet.C101_inverse_exact, @PropFloatDet.C101_determinant_error, @PropFloatDet.C101_determinant_sign, @PropFloatDet.C101_determinant_finite, @PropFloatDet.C101_inverse_refuted, tt).
Definition C102 := (@PropFloatNorm.C102_square_root, @PropFloatNorm.C102_square_root_exact, @PropFloatNorm.C102_vector_norm, @PropFloatNorm.C102_matrix_norm, @PropFloatNorm.C102_column_length, @PropFloatNorm.C102_sub_norm, @PropFloatNorm.C102_infinity_norm_vector, @PropFloatNorm.C102_norm_refuted, tt).
Definition C103 := (@PropExpmBound.C103_expm, @PropExpmBound.C103_exponential, @PropExpmBound.C103_view, @PropExpmBound.C103_square_zero, @PropExpmBound.C103_unique, @PropExpmBound.C103_nilpotent, tt).
Definition C104 := (@PropIntInv.C104_determinant, @PropIntInv.C104_adjoint, @PropIntInv.C104_inverse, @PropIntInv.C104_not_square, @PropIntInv.C104_div, @PropIntInvEx.C104_order5_refuted, @PropIntInvEx.C104_test_refuted, tt).
Definition C105 := (@PropFileCmp.C105_vector, @PropFileCmp.C105_matrix, @PropFileCmp.C105_test, @PropFileCmp.C105_default_refuted, @PropFileCmp.C105_ex, tt).
Definition C106 := (@PropRel.C106_moves, @PropRel.C106_ring, @PropRel.C106_division, @PropRel.C106_comparisons, @PropRel.C106_all, @PropRelFloat.C106_doubles, @PropRelInt.C106_unsigned, @PropRelInt.C106_unsigned_results, @PropRelInt.C106_signed, @PropRelInt.C106_wider, @PropRelInt.C106_same_bits, @PropRelInt.C106_tolerance, @PropRelReal.C106_homomorphism, @PropRelReal.C106_conjugate, @PropRelReal.C106_ordered, @PropRelReal.C106_rational, tt).
Definition C107 := (@PropRunErr.C107_bounds, @PropRunErr.C107_exact, @PropRunErr.C107_matrices, @PropRunErr.C107_division, @PropRunErr.C107_vectors, @PropRunErr.C107_simulate, tt).
Definition C108 := (@PropStall.C108_hessenberg_keeps, @PropStall.C108_stalls, @PropStall.C108_cyclic_refuted, @PropStallFloat.C108_doubles_refuted, tt).
Definition C109 := (@PropIdent.C109_identity, @PropIdent.C109_powm_one, @PropIdent.C109_powm_one_refuted, @PropTotal.C109_powm, @PropTotal.C109_ctrb, @PropTotal.C109_obsv, @PropTotal.C109_poly_matrix, @PropTotal.C109_acker, @PropTotalFloat.C109_expm, @PropTotalFloat.C109_c2d, tt).
Definition C110 := (@PropConverge.C110_pass_hessenberg, @PropConverge.C110_deflates, @PropConverge.C110_pass_idle, @PropConverge.C110_hessenberg_triangular, @PropConverge.C110_triangular, @PropConverge.C110_order2, @PropConvergeEx.C110_order2_wilkinson, @PropConvergeEx.C110_singular_refuted, @PropConvergeEx.C110_ones_refuted, @PropOnesFloat.C110_doubles_refuted, tt).
Definition C111 := (@PropSteady.C111_step, @PropSteady.C111_equilibrium, @PropSteady.C111_equilibrium_only, @PropSteady.C111_modes, @PropSteady.C111_decay, tt).
Definition C112 := (@PropCircuit.C112_rlc_dt, @PropCircuit.C112_rlc_ct, @PropCircuit.C112_pendulum, @PropCircuit.C112_stable, @PropCircuit.C112_pendulum_stable, @PropCircuit.C112_ct_unstable_refuted, @PropCircuit.C112_energy, @PropCircuit.C112_ct_energy_refuted, @PropCircuit.C112_pendulum_energy, @PropCircuit.C112_poly, @PropCircuit.C112_controllable, @PropExamples.C112_loop, @PropExamplesFloat.C112_run, @PropExamples.C112_loop_forever, @PropExamplesFloat.C112_passes, @PropExamplesFloat.C112_never, @PropExamplesFloat.C112_announced, @PropExamplesFloat.C112_run, @PropExamplesFloat.C112_announced_refuted, tt).
Definition C113 := (@PropFloatRun.C113_simulate, @PropFloatRun.C113_contraction, @PropFloatRun.C113_decay, tt).
Definition C114 := (@PropFloatBigDet.C114_elimination, @PropFloatBigDet.C114_determinant, @PropFloatBigDet.C114_singular_refuted, @PropFloatBigDet.C114_sign_refuted, tt).
Definition C115 := (@PropCoord.C115_ctrb, @PropCoord.C115_obsv, @PropCoord.C115_trace, @PropCoord.C115_simulate, @PropCoord.C115_determinant, @PropCoord.C115_poly, @PropCoord.C115_acker, @PropCoord2.C115_expm, @PropCoord2.C115_c2d, tt).
Definition C116 := (@PropStateObj.C116_construct, @PropStateObj.C116_default, @PropStateObj.C116_assign, @PropStateObj.C116_history, @PropStateObj.C116_move, @PropStateObj.C116_move_discrete, @PropStateObj.C116_move_source, @PropStateObj.C116_sized_vector, @PropStateObj.C116_assign_refuted, tt).
Definition C117 := (@PropPoles.C117_deadbeat, @PropPoles.C117_stable, @PropPoles.C117_regulates, tt).
Definition C118 := (@PropExact.C118_run, @PropExact.C118_exponential, tt).
Definition C119 := (@PropNorms.C119_zero, @PropNorms.C119_sum, @PropNorms.C119_vector_sum, @PropNorms.C119_multiple, @PropNorms.C119_vector_multiple, @PropNorms.C119_product, @PropNorms.C119_apply, @PropNorms.C119_dot, @PropNorms.C119_compare, @PropNorms.C119_vector_compare, @PropNorms2.C119_real, @PropNorms2.C119_complex, @PropNorms2.C119_projection, @PropNorms2.C119_orthogonal, @PropNorms2.C119_unitary, tt).
Definition C120 := (@PropOOM.C120_values, @PropOOM.C120_no_refusal, @PropOOM.C120_refused_growth, @PropOOM.C120_refused_assign, @PropOOM.C120_refused_shrink, @PropOOM.C120_leak, @PropOOM.C120_wraps, @PropOOM.C120_not_asked, tt).
Definition C121 := (@PropReach.C121_continue, @PropReach.C121_reachable, @PropReach.C121_steer_by, @PropReach.C121_steer, @PropReach.C121_out_of_reach, @PropReach.C121_outputs, @PropReach.C121_observable, @PropReach.C121_blind, @PropReach.C121_impulse, tt).
Definition C122 := (@PropVecElem.C122_plain, @PropVecElem.C122_construct, @PropVecElem.C122_grow, @PropVecElem.C122_history, tt).
Definition C123 := (@PropCausal.C123_run, @PropCausal.C123_prefix, @PropCausal.C123_causal, @PropCausal.C123_failure, @PropCausal.C123_continue, tt).
Definition C124 := (@PropRelQR.C124_qr, @PropRelQR.C124_solve, @PropRelQR.C124_eigen, @PropRelQR.C124_conjugate, @PropRelQR.C124_real, @PropRelQR.C124_real_schur, @PropRelQR.C124_embedding, tt).
Definition C125 := (@PropRunQR.C125_qr, @PropRunQR.C125_factors, @PropRunQR.C125_all, tt).
Definition C126 := (@PropRelProg.C126_programs, @PropRelProg.C126_homomorphism, @PropRelProg.C126_unsigned, @PropRelProg.C126_doubles, @PropRelProg.C126_signed, tt).
Definition C127 := (@PropRunSolve.C127_inverse, @PropRunSolve.C127_square, @PropRunSolve.C127_tall, @PropRunSolve.C127_wide, tt).
Definition C128 := (@PropMatHeap.C128_memory_safe, @PropMatHeap.C128_no_leak, @PropMatHeap.C128_exception, @PropMatHeap.C128_same_outcome, @PropMatHeap.C128_moved_from, tt).
Definition C129 := (@PropThreads.C129_threads, @PropThreads.C129_no_race, @PropThreads.C129_matrices, @PropThreads.C129_rule_needed, tt).
Definition C130 := (@PropMatOOM.C130_values, @PropMatOOM.C130_no_refusal, @PropMatOOM.C130_refused, @PropMatOOM.C130_refused_shrink, @PropMatOOM.C130_remove_row, @PropMatOOM.C130_leak, tt).
Definition C131 := (@PropThreadsOOM.C131_values, @PropThreadsOOM.C131_no_refusal, @PropThreadsOOM2.C131_isolated, tt).
Definition all_properties := (C01, C02, C03, C04, C05, C06, C07, C08, C09, C10, C11, C12, C13, C14, C15, C16, C17, C18, C19, C20, C21, C22, C23, C24, C25, C26, C27, C28, C29, C30, C31, C32, C33, C34, C35, C36, C37, C38, C39, C40, C41, C42, C43, C44, C45, C46, C47, C48, C49, C50, C51, C52, C53, C54, C55, C56, C57, C58, C59, C60, C61, C62, C63, C64, C65, C66, C67, C68, C69, C70, C71, C72, C73, C74, C75, C76, C77, C78, C79, C80, C81, C82, C83, C84, C85, C86, C87, C88, C89, C90, C91, C92, C93, C94, C95, C96, C97, C98, C99, C100, C101, C102, C103, C104, C105, C106, C107, C108, C109, C110, C111, C112, C113, C114, C115, C116, C117, C118, C119, C120, C121, C122, C123, C124, C125, C126, C127, C128, C129, C130, C131).
Print Assumptions all_properties.
