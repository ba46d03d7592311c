# Print Assumptions, per theorem

Generated by tools/assumptions.py from a build log. 2053 theorems.

## Closed under the global context (1403 theorems)

* C01: C01_array_round_trip, C01_init_calls, C01_fill_default, C01_index, C01_index_write, C01_get_unchecked_in_bounds, C01_try_from_slice
* C02: C02_try_from_iter, C02_next_call_count
* C03: C03_matrix_drops, C03_matrix_outcome, C03_transpose, C03_drops, C03_no_ub_try_from_iter, C03_no_ub_init, C03_unzip_initialised
* C04: C04_map, C04_map_components, C04_scan, C04_scan_values, C04_fold_for_each, C04_zip, C04_unzip_zip, C04_zip_unzip, C04_enumerate, C04_indices
* C05: C05_group_drops, C05_group, C05_group_elements, C05_group_count, C05_group_zero
* C06: C06_sum, C06_max, C06_min, C06_ties
* C07: C07_max, C07_min, C07_min_numbers, C07_nan_result, C07_order_insensitive, C07_norm_order_insensitive, C07_order_insensitive_refuted, C07_not_extremal_refuted
* C08: C08_binary, C08_unary_and_scalar, C08_determined
* C09: C09_complex, C09_quaternion, C09_complex_scalar, C09_quaternion_scalar_complex, C09_matrix, C09_matrix_scalar, C09_matrix_no_rows_refuted, C09_complex_quaternion_mul_div, C09_panic_contents, C09_vector, C09_vector_scalar
* C10: C10_matrix_zero, C10_matrix_sum_product, C10_zero, C10_is_zero, C10_sum_product, C10_sum_product_empty
* C101: C101_slice, C101_indices, C101_overflow_checked, C101_overflow_unchecked, C101_never_wrong
* C103: C103_zero_neutral, C103_one_neutral, C103_matrix_one_mul, C103_matrix_one_contract, C103_matrix_one_refuted, C103_generic_product, C103_matrix_one_dot, C103_is_one, C103_set, C103_set_test
* C104: C104_elementwise, C104_sum, C104_dot, C104_square_length, C104_cross2, C104_cross3, C104_product, C104_mat_vec, C104_vec_mat, C104_outer, C104_matrix_sum, C104_norm_l1, C104_affine, C104_det, C104_cofactor, C104_complex, C104_quaternion, C104_rotation, C104_inverse, C104_complex_div, C104_quaternion_div, C104_normalize, C104_scalars, C104_moebius, C104_ieee, C104_infinity_refuted, C104_finite, C104_sampler, C104_invertible_refuted, C104_norm_l_inf_refuted
* C105: C105_sum, C105_dot, C105_square_length, C105_normalize, C105_cross, C105_product, C105_matrix_vector, C105_vector_matrix, C105_matrix_sum, C105_affine, C105_det, C105_cofactor, C105_inverse, C105_complex, C105_quaternion, C105_rotations, C105_moebius, C105_det_cost, C105_order_matters
* C106: C106_components, C106_entries, C106_normal
* C107: C107_v_init, C107_v_fill, C107_v_default, C107_v_index, C107_v_index_set, C107_v_get_unchecked, C107_v_set_unchecked, C107_v_try_from_slice, C107_v_try_from_iter, C107_v_indices, C107_v_for_each, C107_v_map_st, C107_v_map, C107_v_zip, C107_v_enumerate, C107_v_unzip, C107_v_fold, C107_v_fold_first, C107_v_scan_st, C107_group_next, C107_v_assign, C107_v_assign_scalar, C107_v_not, C107_v_bitop, C107_v_div_mod_floor, C107_m_init, C107_m_fill, C107_m_index, C107_m_index_set, C107_m_row, C107_m_row_set, C107_m_col, C107_m_get_unchecked, C107_m_set_unchecked, C107_m_for_each, C107_m_map_st, C107_m_map, C107_m_zip, C107_m_unzip, C107_m_fold, C107_m_fold_first, C107_m_scan_st, C107_m_iter, C107_m_iter_next, C107_m_try_from_iter_of_vectors, C107_m_try_from_iter, C107_m_try_from_slice_of_vectors, C107_m_try_from_slice, C107_m_indices, C107_m_transpose, C107_m_assign, C107_m_assign_scalar, C107_m_not, C107_m_bitop, C107_m_div_mod_floor, C107_m_any, C107_array_of_arrays, C107_v_x, C107_v_x_set, C107_v_y, C107_v_y_set, C107_v_z, C107_v_z_set, C107_v_w, C107_v_w_set, C107_v_into_tuple2, C107_v_into_tuple3, C107_v_into_tuple4, C107_v_from_tuple, C107_c_from_vector, C107_q_from_vector, C107_c_from_array, C107_c_from_tuple, C107_c_into_tuple, C107_c_new, C107_c_re, C107_c_im, C107_c_re_set, C107_c_im_set, C107_q_from_array, C107_q_from_tuple, C107_q_into_tuple, C107_q_new, C107_q_from_scalar_and_vector3, C107_q_into_scalar_and_vector3, C107_q_w, C107_q_x, C107_q_y, C107_q_z, C107_q_w_set, C107_q_x_set, C107_q_y_set, C107_q_z_set, C107_q_xyz, C107_mo_new, C107_mo_from_tuple, C107_mo_into_tuple, C107_mo_a, C107_mo_b, C107_mo_c, C107_mo_d, C107_mo_a_ref, C107_mo_b_ref, C107_mo_c_ref, C107_mo_d_ref, C107_mo_a_set, C107_mo_b_set, C107_mo_c_set, C107_mo_d_set, C107_mo_from_array, C107_mo_into_array, C107_v_bc_self, C107_m_bc_self, C107_v_bc_scalar, C107_m_bc_vector, C107_m_bc_scalar, C107_c_from_num, C107_c_into_num, C107_v_neg, C107_v_add, C107_v_sub, C107_v_mul, C107_v_div, C107_v_rem, C107_v_smul, C107_v_sdiv, C107_v_srem, C107_v_rsmul, C107_v_zero, C107_v_sum, C107_v_max, C107_v_min, C107_v_iter_sum, C107_v_iter_product, C107_v_dot, C107_v_square_length, C107_v_norm_l2_sqr, C107_v_veq, C107_v_vne, C107_v_vlt, C107_v_vle, C107_v_vgt, C107_v_vge, C107_v_cross2, C107_v_cross3, C107_v_cross4, C107_m_neg, C107_m_add, C107_m_sub, C107_m_mul, C107_m_div, C107_m_rem, C107_m_smul, C107_m_sdiv, C107_m_srem, C107_m_zero, C107_m_is_zero, C107_m_sum, C107_m_max, C107_m_min, C107_m_iter_sum, C107_m_iter_product, C107_m_norm_l2_sqr, C107_m_veq, C107_m_vne, C107_m_vlt, C107_m_vle, C107_m_vgt, C107_m_vge, C107_m_outer, C107_m_dot_v, C107_v_dot_m, C107_m_dot, C107_m_det, C107_m_cofactor, C107_m_adj, C107_m_inv, C107_m_Inv_inv, C107_m_diagonal, C107_m_one, C107_v_set_zero, C107_m_set_zero, C107_m_set_one, C107_m_is_one, C107_c_into_matrix, C107_c_neg, C107_c_conj, C107_c_add, C107_c_sub, C107_c_add_s, C107_c_sub_s, C107_s_add_c, C107_s_sub_c, C107_c_zero, C107_c_mul, C107_c_mul_s, C107_s_mul_c, C107_c_one, C107_c_i, C107_c_norm_sqr, C107_c_div_s, C107_c_inv, C107_c_div, C107_s_div_c, C107_c_dot, C107_c_sum, C107_c_product, C107_c_mul_assign, C107_c_mul_assign_s, C107_c_div_assign, C107_c_div_assign_s, C107_c_set_zero, C107_c_set_one, C107_c_is_one, C107_q_into_matrix, C107_q_neg, C107_q_conj, C107_q_add, C107_q_sub, C107_q_add_c, C107_q_sub_c, C107_q_add_s, C107_q_sub_s, C107_s_add_q, C107_c_add_q, C107_s_sub_q, C107_c_sub_q, C107_q_zero, C107_q_mul, C107_q_mul_c, C107_c_mul_q, C107_q_mul_s, C107_s_mul_q, C107_q_one, C107_q_i, C107_q_j, C107_q_k, C107_q_norm_sqr, C107_q_div_s, C107_q_inv, C107_q_div, C107_q_div_c, C107_c_div_q, C107_s_div_q, C107_q_dot, C107_q_sum, C107_q_product, C107_q_mul_assign, C107_q_mul_assign_c, C107_q_mul_assign_s, C107_q_div_assign, C107_q_div_assign_c, C107_q_div_assign_s, C107_q_set_zero, C107_q_set_one, C107_q_is_one, C107_mo_identity, C107_mo_chain, C107_mo_apply_self, C107_mo_apply_q, C107_mo_det, C107_mo_normalize, C107_mo_inv, C107_mo_deriv, C107_mo_deriv_dir, C107_linear_normal_transform, C107_rot2_apply, C107_rot2_to_linear, C107_rot3_apply, C107_v_length, C107_v_normalize, C107_v_norm_l2, C107_m_norm_l2, C107_v_norm_l1, C107_v_norm_l_inf, C107_m_norm_l1, C107_m_norm_l_inf, C107_c_norm_l1, C107_q_norm_l1, C107_c_norm, C107_c_arg, C107_c_to_polar, C107_c_from_polar, C107_c_normalize, C107_q_norm, C107_q_normalize, C107_look_at, C107_look_at_any, C107_rot2_new, C107_rot2_angle, C107_rot3_to_linear, C107_rot3_new, C107_rot3_axis, C107_rot3_angle, C107_rot3_flip, C107_c_assign, C107_q_assign, C107_c_assign_s, C107_q_assign_s, C107_q_assign_c, C107_complex_scalars, C107_quaternion_scalars, C107_mo_apply, C107_shift, C107_shift_directional, C107_linear, C107_linear_reorder, C107_rotation2, C107_rotation2_reorder, C107_rotation3, C107_rotation3_reorder, C107_scale, C107_chain, C107_chain_directional, C107_affine, C107_linear_shift, C107_rigid2, C107_rigid3, C107_shift_scale, C107_linear_directional, C107_affine_directional, C107_moebius_c, C107_moebius_q, C107_rot3_look_at_any, C107_v_fun1, C107_m_fun1, C107_v_fun2, C107_m_fun2, C107_v_fun3, C107_m_fun3, C107_v_clamp, C107_m_clamp, C107_v_sin_cos, C107_m_sin_cos, C107_v_abs_diff_eq, C107_m_abs_diff_eq, C107_c_abs_diff_eq, C107_q_abs_diff_eq, C107_v_fmt, C107_m_fmt, C107_c_fmt, C107_q_fmt, C107_v_write, C107_m_write, C107_c_write, C107_q_write, C107_debug, C107_v_clone, C107_m_clone, C107_c_clone, C107_q_clone, C107_v_eq, C107_m_eq, C107_c_eq, C107_q_eq, C107_c_default, C107_v_distribution, C107_m_distribution, C107_reject_loop, C107_nonzero_v, C107_unit_v, C107_invertible_m, C107_invertible_cm, C107_c_distr, C107_q_distr, C107_uniform_rot2, C107_uniform_rot3, C107_affine_distr, C107_normal_float, C107_delegated1, C107_delegated2, C107_delegated3, C107_from_str_radix, C107_any_scalars, C107_machine_integers, C107_no_undefined_behaviour
* C108: C108_cramer, C108_solve, C108_cramer_field, C108_singular, C108_rows, C108_singular_system, C108_regular, C108_wide, C108_tall, C108_linear, C108_affine, C108_orthogonal, C108_isometry, C108_rational
* C109: C109_v_add, C109_v_sub, C109_v_mul, C109_v_neg, C109_v_smul, C109_v_sum, C109_v_dot, C109_v_square_length, C109_v_cross2, C109_v_cross3, C109_v_cross4, C109_v_div, C109_v_sdiv, C109_v_rem, C109_m_add, C109_m_sub, C109_m_mul, C109_m_neg, C109_m_smul, C109_m_sum, C109_m_div, C109_m_sdiv, C109_m_rem, C109_m_dot, C109_m_dot_v, C109_v_dot_m, C109_m_outer, C109_m_det, C109_m_cofactor, C109_m_adj, C109_m_inv, C109_c_add, C109_c_sub, C109_c_mul, C109_c_neg, C109_c_conj, C109_c_mul_s, C109_c_norm_sqr, C109_c_dot, C109_c_inv, C109_c_div, C109_q_add, C109_q_sub, C109_q_mul, C109_q_neg, C109_q_conj, C109_q_mul_s, C109_q_mul_c, C109_c_mul_q, C109_q_norm_sqr, C109_q_dot, C109_q_inv, C109_q_div, C109_rot2_apply, C109_rot3_apply, C109_mo_apply_self, C109_add_size, C109_mul_size, C109_sum_size, C109_dot_size, C109_square_length_size, C109_product_size, C109_matrix_vector_size, C109_dot_sharp, C109_complex_mul_size, C109_quaternion_mul_size, C109_cross3_size, C109_det_size, C109_adj_size, C109_inv_size, C109_chain_size
* C11: C11_bitwise, C11_any_all, C11_compare, C11_eq_veq_all, C11_de_morgan
* C111: C111_scalar, C111_decimal, C111_vector, C111_vector_element, C111_complex, C111_quaternion, C111_complex_element, C111_quaternion_element, C111_matrix, C111_matrix_element, C111_wrappers, C111_chain
* C113: C113_image, C113_on
* C114: C114_consistent_sum, C114_consistent_dot, C114_consistent_product, C114_consistent_det, C114_consistent_inv, C114_consistent_cross, C114_consistent_complex_product, C114_consistent_complex_norm, C114_consistent_complex_inverse, C114_consistent_complex_quotient, C114_consistent_quaternion_product, C114_consistent_quaternion_norm, C114_consistent_quaternion_inverse, C114_consistent_quaternion_quotient, C114_consistent_rotation2, C114_consistent_rotation3, C114_units_v_add, C114_units_v_sub, C114_units_v_mul, C114_units_v_neg, C114_units_v_smul, C114_units_v_sum, C114_units_v_dot, C114_units_v_square_length, C114_units_v_cross2, C114_units_v_cross3, C114_units_v_cross4, C114_units_v_div, C114_units_v_sdiv, C114_units_m_add, C114_units_m_sub, C114_units_m_mul, C114_units_m_neg, C114_units_m_smul, C114_units_m_sum, C114_units_m_div, C114_units_m_sdiv, C114_units_m_dot, C114_units_m_dot_v, C114_units_v_dot_m, C114_units_m_outer, C114_units_m_det, C114_units_m_cofactor, C114_units_m_adj, C114_units_m_inv, C114_units_c_add, C114_units_c_sub, C114_units_c_mul, C114_units_c_neg, C114_units_c_conj, C114_units_c_mul_s, C114_units_c_norm_sqr, C114_units_c_dot, C114_units_c_inv, C114_units_c_div, C114_units_q_add, C114_units_q_sub, C114_units_q_mul, C114_units_q_neg, C114_units_q_conj, C114_units_q_mul_s, C114_units_q_mul_c, C114_units_c_mul_q, C114_units_q_norm_sqr, C114_units_q_dot, C114_units_q_inv, C114_units_q_div, C114_units_rot2_apply, C114_units_rot3_apply, C114_units_mo_apply_self
* C115: C115_signs_v_add, C115_signs_v_sub, C115_signs_v_mul, C115_signs_v_neg, C115_signs_v_smul, C115_signs_v_sum, C115_signs_v_dot, C115_signs_v_square_length, C115_signs_v_cross2, C115_signs_v_cross3, C115_signs_v_cross4, C115_signs_v_div, C115_signs_v_sdiv, C115_signs_m_add, C115_signs_m_sub, C115_signs_m_mul, C115_signs_m_neg, C115_signs_m_smul, C115_signs_m_sum, C115_signs_m_div, C115_signs_m_sdiv, C115_signs_m_dot, C115_signs_m_dot_v, C115_signs_v_dot_m, C115_signs_m_outer, C115_signs_m_det, C115_signs_m_cofactor, C115_signs_m_adj, C115_signs_m_inv, C115_signs_c_add, C115_signs_c_sub, C115_signs_c_mul, C115_signs_c_neg, C115_signs_c_conj, C115_signs_c_mul_s, C115_signs_c_norm_sqr, C115_signs_c_dot, C115_signs_c_inv, C115_signs_c_div, C115_signs_q_add, C115_signs_q_sub, C115_signs_q_mul, C115_signs_q_neg, C115_signs_q_conj, C115_signs_q_mul_s, C115_signs_q_mul_c, C115_signs_c_mul_q, C115_signs_q_norm_sqr, C115_signs_q_dot, C115_signs_q_inv, C115_signs_q_div, C115_signs_rot2_apply, C115_signs_rot3_apply, C115_signs_mo_apply_self, C115_length, C115_dot, C115_product, C115_matrix_vector, C115_det, C115_inv, C115_complex_mul, C115_complex_div, C115_quaternion_mul, C115_quaternion_div, C115_rotation2, C115_rotation3, C115_zero_refuted
* C117: C117_underflow_refuted
* C119: C119_choices, C119_cauchy_binet, C119_low_rank, C119_outer, C119_block, C119_sylvester, C119_det_update, C119_inv_update
* C12: C12_matrix_floor, C12_floor, C12_floor_zero
* C120: C120_combinations, C120_unique, C120_combinations_conv, C120_lines, C120_homothety, C120_translation, C120_volume, C120_ratios, C120_ratios_affine, C120_simplex
* C13: C13_add_comm, C13_add_assoc, C13_add_zero, C13_add_neg, C13_sub, C13_scale_add, C13_add_scale, C13_scale_scale, C13_scale_one, C13_matrix_add_comm, C13_matrix_add_assoc, C13_matrix_add_zero, C13_matrix_sub_neg, C13_matrix_scale
* C14: C14_symmetric, C14_empty, C14_value, C14_square_length, C14_additive, C14_homogeneous
* C15: C15_normalize_zero_length, C15_normalize_zeros
* C16: C16_components, C16_anticommutative, C16_bilinear, C16_orthogonal, C16_lagrange, C16_jacobi, C16_4d, C16_2d
* C17: C17_accessors, C17_tuples, C17_tuple_round_trip
* C18: C18_format
* C19: C19_round_trip, C19_init, C19_row_major, C19_fill, C19_try_from_iter, C19_try_from_slice, C19_try_from_slice_of_vectors, C19_indices
* C20: C20_iter, C20_any_all, C20_is_zero
* C21: C21_flatten, C21_stops_at_empty, C21_concatenation_refuted
* C22: C22_map, C22_scan, C22_fold_for_each, C22_fold_first, C22_zip, C22_unzip_zip, C22_zip_unzip
* C23: C23_index, C23_index_write, C23_row, C23_col, C23_row_write, C23_unchecked_write
* C24: C24_transpose_product, C24_transpose, C24_involutive, C24_elementwise, C24_add
* C25: C25_binary, C25_unary_and_scalar, C25_bitwise, C25_determined, C25_compare, C25_eq, C25_sum_max_min, C25_max_min_bounds
* C26: C26_element, C26_assoc, C26_distr_left, C26_distr_right, C26_one_left, C26_one_right, C26_scale_right, C26_empty_inner, C26_scale_left
* C27: C27_value, C27_value_left, C27_compose, C27_linear, C27_linear_left, C27_row_vector, C27_adjoint, C27_empty_inner
* C28: C28_elements, C28_value, C28_apply, C28_transpose
* C29: C29_one, C29_diagonal, C29_diagonal_apply, C29_diagonal_ones
* C30: C30_permutations, C30_leibniz, C30_total, C30_only_scalar_panics, C30_empty
* C31: C31_shear, C31_triangular, C31_one, C31_product, C31_transpose, C31_scale, C31_equal_rows, C31_equal_columns, C31_swap_rows, C31_row_linear, C31_diagonal
* C32: C32_cofactor, C32_cofactor_submatrix, C32_cofactor_panics, C32_adj, C32_adj_identity
* C33: C33_inverse, C33_unique, C33_product, C33_involution, C33_det, C33_singular, C33_methods_agree
* C34: C34_value, C34_singular, C34_unimodular, C34_only_unimodular
* C35: C35_format
* C36: C36_broadcast, C36_vector_functions, C36_matrix_functions, C36_sin_cos, C36_clamp, C36_clamp_matrix, C36_clamp_floats, C36_clamp_floats_matrix
* C37: C37_values, C37_add, C37_mul, C37_i, C37_sum_product
* C38: C38_inverse, C38_division, C38_scalar_division, C38_nonzero
* C39: C39_conj_automorphism, C39_conj_norm, C39_norm_multiplicative
* C40: C40_value, C40_product, C40_sum, C40_one, C40_det, C40_action
* C41: C41_complex_scalar, C41_quaternion_scalar, C41_quaternion_complex, C41_embeddings, C41_complex_div_scalar, C41_quaternion_div_scalar, C41_scalar_div_quaternion, C41_complex_div_quaternion, C41_quaternion_div_complex
* C43: C43_add, C43_mul, C43_hamilton, C43_not_commutative, C43_real_central, C43_sum_product
* C44: C44_conj_antiautomorphism, C44_conj_norm, C44_norm_multiplicative
* C45: C45_inverse, C45_division, C45_inverse_product, C45_nonzero
* C46: C46_value, C46_action, C46_product, C46_sum, C46_one, C46_conj
* C47: C47_unimplemented
* C48: C48_value, C48_compose, C48_identity, C48_monoid, C48_complex, C48_quaternion
* C49: C49_value, C49_compose, C49_identity, C49_extends_complex
* C50: C50_inverse, C50_complex, C50_quaternion_points
* C51: C51_same_transformation, C51_det, C51_unit_det_refuted, C51_quaternion_points_refuted
* C52: C52_det_over_square
* C53: C53_closed_form
* C54: C54_inverse_refuted, C54_true_inverse
* C55: C55_formulas, C55_action, C55_group
* C56: C56_formulas, C56_action, C56_group
* C57: C57_formulas, C57_action_ring, C57_linear, C57_columns, C57_action, C57_group
* C58: C58_deriv, C58_value, C58_action, C58_group, C58_isometry, C58_to_linear, C58_to_linear_chain, C58_to_linear_matrix, C58_inv_refuted
* C59: C59_deriv, C59_action, C59_group, C59_isometry, C59_double_cover, C59_sandwich, C59_inv_refuted
* C60: C60_same_action, C60_chain, C60_rotation_matrix, C60_nonunit_refuted
* C64: C64_float_terminates
* C65: C65_linear_shift, C65_scale_shift, C65_rotation2_shift, C65_rotation3_shift, C65_shift_linear, C65_shift_scale, C65_shift_rotation2, C65_shift_rotation3
* C66: C66_chain, C66_affine, C66_rigid2, C66_rigid3, C66_similarity, C66_linear_shift, C66_scale_shift, C66_rotation2_shift, C66_rotation3_shift, C66_affine_group, C66_rigid2_group, C66_similarity_group, C66_rigid3_group, C66_affine_formulas
* C67: C67_shift, C67_scale, C67_linear, C67_rotation2, C67_rotation3, C67_chain, C67_chain_rule, C67_affine, C67_rigid, C67_moebius_q_chain_rule, C67_moebius_c_chain_rule
* C68: C68_normal_transform
* C70: C70_v_zero, C70_v_add, C70_v_sub, C70_v_mul, C70_v_neg, C70_v_smul, C70_v_sum, C70_v_dot, C70_v_square_length, C70_v_cross2, C70_v_cross3, C70_v_cross4, C70_v_div, C70_v_sdiv, C70_v_rem, C70_m_zero, C70_m_one, C70_m_add, C70_m_sub, C70_m_mul, C70_m_neg, C70_m_smul, C70_m_sum, C70_m_div, C70_m_sdiv, C70_m_rem, C70_m_dot, C70_m_dot_v, C70_v_dot_m, C70_m_outer, C70_m_det, C70_m_cofactor, C70_m_adj, C70_m_inv, C70_c_add, C70_c_sub, C70_c_mul, C70_c_neg, C70_c_conj, C70_c_mul_s, C70_c_norm_sqr, C70_c_dot, C70_c_inv, C70_c_div, C70_q_add, C70_q_sub, C70_q_mul, C70_q_neg, C70_q_conj, C70_q_mul_s, C70_q_mul_c, C70_c_mul_q, C70_q_norm_sqr, C70_q_dot, C70_q_inv, C70_q_div, C70_rot2_apply, C70_rot3_apply, C70_mo_apply_self, C70_dot_exact, C70_dot_no_overflow
* C71: C71_v_zero, C71_v_add, C71_v_sub, C71_v_mul, C71_v_neg, C71_v_smul, C71_v_sum, C71_v_dot, C71_v_square_length, C71_v_cross2, C71_v_cross3, C71_v_cross4, C71_m_zero, C71_m_one, C71_m_add, C71_m_sub, C71_m_mul, C71_m_neg, C71_m_smul, C71_m_sum, C71_m_dot, C71_m_dot_v, C71_v_dot_m, C71_m_outer, C71_m_det, C71_m_cofactor, C71_m_adj, C71_c_add, C71_c_sub, C71_c_mul, C71_c_neg, C71_c_conj, C71_c_mul_s, C71_c_norm_sqr, C71_c_dot, C71_q_add, C71_q_sub, C71_q_mul, C71_q_neg, C71_q_conj, C71_q_mul_s, C71_q_mul_c, C71_c_mul_q, C71_q_norm_sqr, C71_q_dot, C71_rot2_apply, C71_rot3_apply, C71_release_v_zero, C71_release_v_add, C71_release_v_sub, C71_release_v_mul, C71_release_v_neg, C71_release_v_smul, C71_release_v_sum, C71_release_v_dot, C71_release_v_square_length, C71_release_v_cross2, C71_release_v_cross3, C71_release_v_cross4, C71_release_v_div, C71_release_v_sdiv, C71_release_v_rem, C71_release_m_zero, C71_release_m_one, C71_release_m_add, C71_release_m_sub, C71_release_m_mul, C71_release_m_neg, C71_release_m_smul, C71_release_m_sum, C71_release_m_div, C71_release_m_sdiv, C71_release_m_rem, C71_release_m_dot, C71_release_m_dot_v, C71_release_v_dot_m, C71_release_m_outer, C71_release_m_det, C71_release_m_cofactor, C71_release_m_adj, C71_release_m_inv, C71_release_c_add, C71_release_c_sub, C71_release_c_mul, C71_release_c_neg, C71_release_c_conj, C71_release_c_mul_s, C71_release_c_norm_sqr, C71_release_c_dot, C71_release_c_inv, C71_release_c_div, C71_release_q_add, C71_release_q_sub, C71_release_q_mul, C71_release_q_neg, C71_release_q_conj, C71_release_q_mul_s, C71_release_q_mul_c, C71_release_c_mul_q, C71_release_q_norm_sqr, C71_release_q_dot, C71_release_q_inv, C71_release_q_div, C71_release_rot2_apply, C71_release_rot3_apply, C71_release_mo_apply_self, C71_wrap, C71_dot_value, C71_product_value, C71_det_value
* C72: C72_v_zero, C72_v_add, C72_v_sub, C72_v_mul, C72_v_neg, C72_v_smul, C72_v_sum, C72_v_dot, C72_v_square_length, C72_v_cross2, C72_v_cross3, C72_v_cross4, C72_m_zero, C72_m_one, C72_m_add, C72_m_sub, C72_m_mul, C72_m_neg, C72_m_smul, C72_m_sum, C72_m_dot, C72_m_dot_v, C72_v_dot_m, C72_m_outer, C72_m_det, C72_m_cofactor, C72_m_adj, C72_c_add, C72_c_sub, C72_c_mul, C72_c_neg, C72_c_conj, C72_c_mul_s, C72_c_norm_sqr, C72_c_dot, C72_q_add, C72_q_sub, C72_q_mul, C72_q_neg, C72_q_conj, C72_q_mul_s, C72_q_mul_c, C72_c_mul_q, C72_q_norm_sqr, C72_q_dot, C72_rot2_apply, C72_rot3_apply, C72_v_div, C72_v_sdiv, C72_m_div, C72_m_sdiv, C72_m_inv, C72_c_inv, C72_c_div, C72_q_inv, C72_q_div, C72_mo_apply_self, C72_v_rem, C72_m_rem, C72_integers_in_rationals, C72_rational_det, C72_scalars_in_complex, C72_complex_in_quaternions, C72_conjugation, C72_conj_det
* C73: C73_vector, C73_matrix, C73_dot, C73_transpose_product, C73_row_vector, C73_complex, C73_quaternion, C73_self_equal, C73_add_assoc_refuted, C73_distributivity_refuted, C73_zero_refuted, C73_identity_refuted, C73_sub_self_refuted, C73_product_assoc_refuted
* C75: C75_vector, C75_matrix, C75_complex, C75_quaternion, C75_affine, C75_deterministic
* C76: C76_rejection, C76_nonzero_any, C76_nonzero_empty
* C77: C77_vector, C77_matrix, C77_complex, C77_quaternion, C77_moebius, C77_linear, C77_shift, C77_scale, C77_rotation2, C77_rotation3, C77_chain
* C79: C79_scalar, C79_norm_l1, C79_square_length, C79_norm_l_inf, C79_max_of, C79_matrix, C79_release_norm_l1, C79_release_norm_l_inf, C79_release_norm_l_inf_wrong
* C81: C81_moebius, C81_moebius_of_matrix, C81_moebius_writes, C81_chain, C81_chain_eta, C81_chain_apply, C81_wrappers, C81_affine
* C82: C82_conversion, C82_unary, C82_from_str_radix
* C84: C84_complex_parts, C84_quaternion_parts, C84_eta, C84_equality, C84_equality_decides, C84_norm_l1, C84_text
* C85: C85_distance, C85_height, C85_no_pole
* C86: C86_difference, C86_cross_ratio, C86_injective, C86_three_points, C86_complex
* C87: C87_vector_writes, C87_vector_writes_empty, C87_matrix_writes, C87_complex_writes, C87_quaternion_writes, C87_text, C87_no_failure, C87_failure_is_last
* C88: C88_fold, C88_for_each, C88_fold_first, C88_matrix_fold, C88_matrix_for_each, C88_matrix_fold_first, C88_map, C88_matrix_map, C88_scan, C88_matrix_scan, C88_init, C88_matrix_init, C88_zip, C88_op, C88_matrix_op, C88_assign, C88_into_iter, C88_panicking_destructor
* C89: C89_vector_ptr, C89_matrix_ptr_read, C89_matrix_ptr_write, C89_matrix_ptr_bounds, C89_as_array_of_arrays, C89_vector_uninit_casts, C89_matrix_uninit_casts, C89_assume_init, C89_uninit, C89_matrix_assume_init, C89_matrix_uninit, C89_transpose_source
* C98: C98_clone_vector, C98_clone_matrix, C98_clone_complex, C98_clone_quaternion, C98_clone_chain, C98_clone_equal, C98_eq_vector, C98_eq_matrix, C98_eq_complex, C98_eq_quaternion, C98_eq_chain, C98_eq_pure, C98_default, C98_default_zero
* C99: C99_text, C99_no_failure

## `ClassicalDedekindReals.sig_forall_dec` (1 theorems)

* C77: C77_tolerance_chain

## `FunctionalExtensionality.functional_extensionality_dep` (8 theorems)

* C123: C123_monic, C123_coefficients, C123_cayley_hamilton, C123_transpose, C123_value, C123_commuted, C123_similar, C123_eigenvalues

## `ClassicalDedekindReals.sig_forall_dec`, `FunctionalExtensionality.functional_extensionality_dep` (134 theorems)

* C100: C100_permanent
* C102: C102_isometry, C102_isometry_unique, C102_isometry_conv, C102_rot3_unique, C102_motion3_conv, C102_motion3_unique, C102_rot2_matrix, C102_motion2, C102_motion2_conv, C102_motion2_unique, C102_mirror2
* C106: C106_rejection, C106_nonzero, C106_unit, C106_invertible, C106_uniform3, C106_rounds, C106_complex, C106_quaternion, C106_moebius, C106_total
* C108: C108_real
* C112: C112_gram, C112_dependent, C112_orthogonal, C112_gram_square, C112_rows_squared, C112_integer, C112_release, C112_release_entries, C112_debug
* C113: C113_plane
* C116: C116_v_add, C116_v_sub, C116_v_mul, C116_v_neg, C116_v_smul, C116_v_sum, C116_v_dot, C116_v_square_length, C116_v_cross2, C116_v_cross3, C116_v_cross4, C116_m_add, C116_m_sub, C116_m_mul, C116_m_neg, C116_m_smul, C116_m_sum, C116_m_dot, C116_m_dot_v, C116_v_dot_m, C116_m_outer, C116_m_det, C116_m_cofactor, C116_m_adj, C116_c_add, C116_c_sub, C116_c_mul, C116_c_neg, C116_c_conj, C116_c_mul_s, C116_c_norm_sqr, C116_c_dot, C116_q_add, C116_q_sub, C116_q_mul, C116_q_neg, C116_q_conj, C116_q_mul_s, C116_q_mul_c, C116_c_mul_q, C116_q_norm_sqr, C116_q_dot, C116_rot2_apply, C116_rot3_apply, C116_v_div, C116_v_sdiv, C116_m_div, C116_m_sdiv, C116_m_inv, C116_c_inv, C116_c_div, C116_q_inv, C116_q_div, C116_mo_apply_self, C116_rule_dot, C116_rule_matrix_product, C116_rule_cross, C116_rule_complex, C116_rule_quaternion, C116_rule_det, C116_rule_inv, C116_jacobi_formula, C116_derivative_of_inverse
* C126: C126_independent
* C128: C128_sylvester
* C129: C129_unique, C129_qr_unique
* C130: C130_lu, C130_pivots, C130_unique
* C131: C131_sum, C131_diagonal, C131_det_sum
* C15: C15_l1_norm, C15_l_inf_norm
* C68: C68_chain, C68_shift, C68_scale_positive, C68_scale_orthogonal, C68_scale_refuted, C68_rotations
* C69: C69_chain, C69_shift, C69_scale_positive, C69_scale_refuted, C69_rotation2, C69_rotation3, C69_rigid
* C74: C74_gamma
* C77: C77_tolerance_vector, C77_tolerance_matrix, C77_tolerance_complex, C77_tolerance_quaternion, C77_tolerance_moebius, C77_tolerance_linear, C77_tolerance_shift, C77_tolerance_scale, C77_tolerance_rotation2, C77_tolerance_rotation3
* C80: C80_scalar
* C90: C90_linear

## `ClassicalDedekindReals.sig_forall_dec`, `ClassicalDedekindReals.sig_not_dec`, `FunctionalExtensionality.functional_extensionality_dep` (56 theorems)

* C102: C102_motion3, C102_mirror3
* C112: C112_rows, C112_columns, C112_rectangular, C112_entries
* C113: C113_radius, C113_spheres, C113_circles
* C116: C116_length, C116_normalize
* C125: C125_product, C125_vector, C125_row_vector, C125_outer, C125_one, C125_condition_at_least, C125_neighbour, C125_distance_to_singular, C125_residual, C125_right_hand_side, C125_matrix, C125_parallelogram, C125_triangle_equality
* C126: C126_projection, C126_orthonormal, C126_exists, C126_normal_equations, C126_fit_unique, C126_least_squares, C126_mirror, C126_mirror_orthogonal, C126_mirror_between
* C127: C127_reflections, C127_products, C127_det, C127_isometry
* C128: C128_inverse, C128_gram
* C129: C129_cholesky, C129_qr
* C131: C131_schur
* C15: C15_l2_norm, C15_values, C15_cauchy_schwarz, C15_comparison, C15_normalize, C15_matrix_norms
* C61: C61_add2
* C68: C68_linear, C68_affine
* C69: C69_linear, C69_linear_unit, C69_affine
* C96: C96_unique
* C97: C97_density

## `ClassicalDedekindReals.sig_forall_dec`, `ClassicalDedekindReals.sig_not_dec`, `Classical_Prop.classic`, `FunctionalExtensionality.functional_extensionality_dep` (451 theorems)

* C100: C100_det, C100_nonsingular, C100_cofactor, C100_adjugate, C100_inverse
* C102: C102_rot3_matrix
* C106: C106_nonzero_real, C106_unit_real, C106_invertible_real
* C107: C107_floats
* C110: C110_v_add, C110_v_sub, C110_v_mul, C110_v_neg, C110_v_smul, C110_v_sum, C110_v_dot, C110_v_square_length, C110_v_cross2, C110_v_cross3, C110_v_cross4, C110_v_div, C110_v_sdiv, C110_m_add, C110_m_sub, C110_m_mul, C110_m_neg, C110_m_smul, C110_m_sum, C110_m_div, C110_m_sdiv, C110_m_dot, C110_m_dot_v, C110_v_dot_m, C110_m_outer, C110_m_det, C110_m_cofactor, C110_m_adj, C110_m_inv, C110_c_add, C110_c_sub, C110_c_mul, C110_c_neg, C110_c_conj, C110_c_mul_s, C110_c_norm_sqr, C110_c_dot, C110_c_inv, C110_c_div, C110_q_add, C110_q_sub, C110_q_mul, C110_q_neg, C110_q_conj, C110_q_mul_s, C110_q_mul_c, C110_c_mul_q, C110_q_norm_sqr, C110_q_dot, C110_q_inv, C110_q_div, C110_rot2_apply, C110_rot3_apply, C110_mo_apply_self, C110_sum_size, C110_dot_size, C110_square_length_size, C110_length_size, C110_product_size, C110_matrix_vector_size, C110_complex_mul_size, C110_quaternion_mul_size, C110_cross3_size, C110_det_size, C110_adj_size
* C114: C114_float_v_add, C114_float_v_sub, C114_float_v_mul, C114_float_v_neg, C114_float_v_smul, C114_float_v_sum, C114_float_v_dot, C114_float_v_square_length, C114_float_v_cross2, C114_float_v_cross3, C114_float_v_cross4, C114_float_v_div, C114_float_v_sdiv, C114_float_m_add, C114_float_m_sub, C114_float_m_mul, C114_float_m_neg, C114_float_m_smul, C114_float_m_sum, C114_float_m_div, C114_float_m_sdiv, C114_float_m_dot, C114_float_m_dot_v, C114_float_v_dot_m, C114_float_m_outer, C114_float_m_det, C114_float_m_cofactor, C114_float_m_adj, C114_float_m_inv, C114_float_c_add, C114_float_c_sub, C114_float_c_mul, C114_float_c_neg, C114_float_c_conj, C114_float_c_mul_s, C114_float_c_norm_sqr, C114_float_c_dot, C114_float_c_inv, C114_float_c_div, C114_float_q_add, C114_float_q_sub, C114_float_q_mul, C114_float_q_neg, C114_float_q_conj, C114_float_q_mul_s, C114_float_q_mul_c, C114_float_c_mul_q, C114_float_q_norm_sqr, C114_float_q_dot, C114_float_q_inv, C114_float_q_div, C114_float_rot2_apply, C114_float_rot3_apply, C114_float_mo_apply_self, C114_sum, C114_dot, C114_square_length, C114_length, C114_normalize, C114_det, C114_inv
* C117: C117_sum, C117_dot, C117_matrix_product, C117_matrix_vector, C117_square_length, C117_length, C117_norm_l1, C117_norm_l_inf, C117_inf_below_l1, C117_component_below_length, C117_inf_below_length, C117_normalize, C117_axis_length, C117_axis_normalize, C117_matrix_norms, C117_element_below_norms, C117_complex, C117_quaternion
* C118: C118_sum, C118_dot, C118_add, C118_sub, C118_mul, C118_scale, C118_square_length, C118_length, C118_matrix_vector, C118_vector_matrix, C118_matrix_product, C118_affine, C118_complex_mul
* C121: C121_unique, C121_every, C121_half_plane, C121_equivariant, C121_all_answers, C121_shortest, C121_jump, C121_matrix_jump
* C122: C122_add_sub, C122_sub_add, C122_mul_div, C122_div_mul, C122_smul_sdiv, C122_sdiv_smul, C122_matrix_add_sub, C122_matrix_sub_add, C122_matrix_smul_sdiv, C122_matrix_sdiv_smul, C122_complex, C122_quaternion, C122_shift, C122_scale_drifts
* C124: C124_conjugate, C124_fixed, C124_power, C124_root, C124_half_turns, C124_two_half_turns, C124_commute, C124_angle, C124_angle_inv, C124_angle_conjugate, C124_triangle, C124_displacement, C124_trace, C124_euler_zxz, C124_euler_zyx, C124_gimbal_lock
* C39: C39_norm_real, C39_normalize_real
* C42: C42_round_trip, C42_angle_recovered, C42_arg_range, C42_norm, C42_product
* C44: C44_norm_real, C44_normalize_real
* C52: C52_derivative
* C53: C53_directional_derivative
* C61: C61_new2, C61_angle2, C61_new3, C61_add3, C61_recover3, C61_surjective3
* C62: C62_look_at, C62_orthogonal_up, C62_parallel
* C63: C63_look_at_any, C63_doc_refuted
* C64: C64_look_at_any
* C68: C68_moebius
* C69: C69_moebius_complex, C69_moebius_quaternion
* C74: C74_quaternion_mul, C74_cross3, C74_sum, C74_dot, C74_dot_normal, C74_dot_gamma, C74_matrix_product, C74_matrix_vector, C74_vector_matrix, C74_square_length, C74_length, C74_normalize, C74_complex_mul
* C76: C76_nonzero, C76_nonzero_length, C76_unit, C76_invertible, C76_invertible_inverse, C76_invertible_complex, C76_unit_complex, C76_unit_quaternion, C76_nonzero_complex_quaternion, C76_uniform2, C76_uniform3, C76_normal
* C78: C78_sum, C78_dot, C78_matrix_product, C78_matrix_vector, C78_complex_mul, C78_quaternion_mul, C78_cross
* C80: C80_compare, C80_is_epsilon, C80_max, C80_min, C80_norm_l_inf, C80_norm_l1
* C83: C83_exp, C83_ln, C83_powu, C83_powu_product, C83_powi, C83_roots, C83_powers, C83_log, C83_trig, C83_hyperbolic, C83_tangents, C83_inverse_functions, C83_division, C83_rotation, C83_contract_met
* C85: C85_isometry, C85_hdist_zero
* C90: C90_chain3, C90_chain2, C90_apply2, C90_apply3
* C91: C91_v_add, C91_v_sub, C91_v_mul, C91_v_neg, C91_v_smul, C91_v_sum, C91_v_dot, C91_v_square_length, C91_v_cross2, C91_v_cross3, C91_v_cross4, C91_v_div, C91_v_sdiv, C91_m_add, C91_m_sub, C91_m_mul, C91_m_neg, C91_m_smul, C91_m_sum, C91_m_div, C91_m_sdiv, C91_m_dot, C91_m_dot_v, C91_v_dot_m, C91_m_outer, C91_m_det, C91_m_cofactor, C91_m_adj, C91_m_inv, C91_c_add, C91_c_sub, C91_c_mul, C91_c_neg, C91_c_conj, C91_c_mul_s, C91_c_norm_sqr, C91_c_dot, C91_c_inv, C91_c_div, C91_q_add, C91_q_sub, C91_q_mul, C91_q_neg, C91_q_conj, C91_q_mul_s, C91_q_mul_c, C91_c_mul_q, C91_q_norm_sqr, C91_q_dot, C91_q_inv, C91_q_div, C91_rot2_apply, C91_rot3_apply, C91_mo_apply_self
* C92: C92_v_add, C92_v_sub, C92_v_mul, C92_v_neg, C92_v_smul, C92_v_sum, C92_v_dot, C92_v_square_length, C92_v_cross2, C92_v_cross3, C92_v_cross4, C92_m_add, C92_m_sub, C92_m_mul, C92_m_neg, C92_m_smul, C92_m_sum, C92_m_dot, C92_m_dot_v, C92_v_dot_m, C92_m_outer, C92_m_det, C92_m_cofactor, C92_m_adj, C92_c_add, C92_c_sub, C92_c_mul, C92_c_neg, C92_c_conj, C92_c_mul_s, C92_c_norm_sqr, C92_c_dot, C92_q_add, C92_q_sub, C92_q_mul, C92_q_neg, C92_q_conj, C92_q_mul_s, C92_q_mul_c, C92_c_mul_q, C92_q_norm_sqr, C92_q_dot, C92_rot2_apply, C92_rot3_apply
* C93: C93_v_add, C93_v_sub, C93_v_mul, C93_v_neg, C93_v_smul, C93_v_sum, C93_v_dot, C93_v_square_length, C93_v_cross2, C93_v_cross3, C93_v_cross4, C93_v_div, C93_v_sdiv, C93_m_add, C93_m_sub, C93_m_mul, C93_m_neg, C93_m_smul, C93_m_sum, C93_m_div, C93_m_sdiv, C93_m_dot, C93_m_dot_v, C93_v_dot_m, C93_m_outer, C93_m_det, C93_m_cofactor, C93_m_adj, C93_m_inv, C93_c_add, C93_c_sub, C93_c_mul, C93_c_neg, C93_c_conj, C93_c_mul_s, C93_c_norm_sqr, C93_c_dot, C93_c_inv, C93_c_div, C93_q_add, C93_q_sub, C93_q_mul, C93_q_neg, C93_q_conj, C93_q_mul_s, C93_q_mul_c, C93_c_mul_q, C93_q_norm_sqr, C93_q_dot, C93_q_inv, C93_q_div, C93_rot2_apply, C93_rot3_apply, C93_mo_apply_self
* C94: C94_normal, C94_normal_every_draw, C94_unique
* C95: C95_invariant, C95_centre
* C96: C96_mean_image, C96_not_invariant
* C97: C97_nonzero, C97_unit
