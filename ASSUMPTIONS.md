# What `Print Assumptions` reports for each public theorem

Generated from the build output of `rocq/theories/Properties_*.v`.

## Closed under the global context

C24_concat, C24_concat_rejects, C24_tensortrain_element_refuted, C24_concat_single, C26_pairwise_flat_inner, C26_pairwise_values, C26_pairwise_matrix, C26_pairwise_matrix_rejects, C26_gram_matrix, C26_gram_matrix_with_matrix, C26_one_element_refuted, C26_one_element_gram_refuted, C26_core_count_unchecked_refuted, C21_TensorTrain, C21_TensorTrainBatch, C21_accepted_is_consistent, C21_wf_accepted, C21_matrix_shape_refuted, C21_extra_entries_refuted, C21_batch_sizes_refuted, C21_short_shape_refuted, C22_shape_arguments_partial, C22_kind, C22_one_core_refuted, C22_one_core_matrix_refuted, C23_expand, C23_squeeze, C51_cast, C51_cast_full, C61_einsum_order, C61_assumptions_met, C61_flat_inner, C61_flat_inner_cubic, C61_flat_inner_any_order, C61_greedy_order_refuted, C61_pairwise, C61_pairwise_matrix, C61_gram_matrix, C61_gram_matrix_matrix, C61_bilinear_form, C16_differentiable_exact, C01_full_is_tt_format, C02_full_batch, C03_add, C03_add_rejects_shapes, C03_add_rejects_batch_sizes, C03_add_one_core_raises, C03_add_one_core_refuted, C04_add_batches, C04_add_batch_tt, C04_add_tt_batch_raises, C04_add_batch1_tt_raises, C04_add_tt_batch_refuted, C41_unravel_index, C41_row_major, C18_gather_nd_partial, C18_gather_nd_rejects, C18_gather_nd_3d_refuted, C15_sparse_flat_inner, C15_sparse_rejects, C19_slicing_partial, C19_all_integers_raise, C19_all_integers_refuted, C19_slicing_rejects, C20_batch_index, C20_batch_full_index_partial, C20_all_integers_raise, C20_all_integers_refuted, C20_batch_rejects, C36_tensor_ones, C36_tensor_zeros, C36_eye, C36_matrix_ones, C36_matrix_zeros, C36_ones_like, C36_zeros_like, C36_one_axis_refuted, C36_one_core_matrix_refuted, C36_empty_shape_refuted, C13_flat_inner, C13_flat_inner_rejects, C14_flat_inner_batch, C14_flat_inner_rejects_batch_sizes, C14_flat_inner_batch1_refuted, C17_bilinear_form_partial, C17_bilinear_form_columns, C17_bilinear_rejects_tensors, C17_bilinear_mixed_raises, C17_bilinear_mixed_refuted, C17_two_mat_partial, C17_two_mat_rejects_tensors, C17_two_mat_batch_raises, C17_two_mat_batch_refuted, C17_two_mat_batch_value_refuted, C17_bilinear_inconsistent_refuted, C06_multiply, C06_multiply_rejects_shapes, C08_multiply_batch, C08_multiply_rejects_batch_sizes, C09_matmul, C09_matmul_rejects, C09_matmul_batch1_refuted, C10_tt_dense_matmul, C10_tt_dense_rejects, C11_dense_tt_matmul, C11_dense_tt_rejects, C12_transpose, C12_transpose_twice, C12_transpose_rejects_tensor, C25_multiply_along_batch_dim, C25_wrong_length_raises, C19_python_slices, C19_dense_indexing, C19_slicing_elements_partial, C19_out_of_range, C20_batch_elements, C20_full_elements_partial, C19_slicing_any_partial, C20_full_index_any_partial, C20_empty_batch_raises, C20_empty_batch_refuted, C52_TensorTrain, C52_TensorTrainBatch, C52_any_knowledge, C52_any_knowledge_batch, C52_matrix_unknown_mode_raises, C52_lazy_shape_matrix_refuted, C52_batch_size_refuted, C52_batch_mode_refuted, C52_unknown_rank_refuted, C52_known_shapes_constructors, C52_known_shapes_lazy, C52_mixed_dtypes_refused, C52_broadcasting, C52_expand_batch_dim, C52_squeeze_batch_dim, C52_squeeze_inferred, C52_squeeze_expand, C52_squeeze_refuted, C52_kronecker_checks, C52_kronecker_batch_refuted, C52_no_shapes_raises, C52_unranked_cores, C52_kronecker_errors, C63_tensor_text, C63_matrix_text, C63_same_text, C63_known, C63_unknown_mode_raises, C63_unknown_mode_refuted, C49_creates_one_variable_per_core, C49_second_creation_raises, C49_reuse_returns_the_same_object, C49_changes_no_other_variable, C49_variables_stay, C49_no_initializer_raises, C49_reuse_of_nothing_raises, C49_op_names, C49_refused, C49_reuse_of_another_name_raises, C49_partial_creation_blocks_the_name, C49_failing_regularizer_keeps_the_variable, C49_eager_always_creates, C49_eager_second_creation_refuted, C49_eager_reuse_refuted, C49_eager_regularizer_refuted, C49_reuse_default_dtype_refuted, C49_empty_name_refuted, C49_trailing_slash, C49_slash_scope_raises, C49_slash_scope_refuted, C50_assign, C50_changes_no_other_variable, C50_failure_overwrites_the_cores_before, C50_graph_mode, C50_graph_failure_changes_nothing, C50_failed_assign_refuted, C50_too_many_cores_refuted, C50_aliased_refuted, C50_kinds_refuted.

## `ClassicalDedekindReals.sig_forall_dec`, `FunctionalExtensionality.functional_extensionality_dep`

C34_one_object, C34_bound_ignored_refuted, C34_empty_list_raises, C34_one_core_refuted, C34_tensortrain_then_batch_raises, C35_one_element_ranks, C35_bound_ignored_refuted, C35_one_core_refuted, C35_wrong_matrix_raises, C35_wrong_vector_raises, C35_other_ranks_raise, C35_tensortrain_raises, C48_gradients_made, C48_equals_project, C48_documented_example, C48_hessian_vector_product_made, C48_missing_gradient_raises, C48_detects_dependence_on_cores, C48_zero_value_raises, C48_zero_value_refuted, C48_rank_too_large_refuted, C45_gauge_needed, C67_masked_loss, C67_test_loss, C67_sparse_loss, C67_losses_agree, C67_masked_gradient, C67_sparse_gradient, C67_tape_exists, C67_sgd_is_an_optimizer, C67_masked_train, C67_sparse_train, C67_masked_sgd, C67_sparse_sgd, C67_unobserved_slices_stay, C67_duplicates_refuted, C66_set_weights, C66_set_weights_raises, C66_parameters, C62_orthogonalize, C62_project, C62_project_sum, C62_project_sum_documented, C62_project_sum_columns_refuted, C62_project_matmul, C62_pairwise_projected, C27_orthogonalize_keeps_tensor, C27_batch_right_to_left_raises, C27_right_to_left_refuted, C28_left_orthogonal, C28_right_orthogonal, C57_full_rounding, C57_full_relative, C57_error_factor, C57_gather_nd_rounding, C57_exact, C57_contract_met, C57_bound_attained, C58_flat_inner_rounding, C58_flat_inner_number, C58_norm_squared_rounding, C59_expression_rounding, C59_full_rounding, C59_flat_inner_rounding, C59_tt_dense_rounding, C59_dense_tt_rounding, C68_bilinear_rounding, C68_bilinear_batch_rounding, C68_two_mat_rounding, C68_sparse_rounding, C37_tensor_with_random_cores, C37_tensor_batch_with_random_cores, C37_matrix_with_random_cores, C37_matrix_batch_with_random_cores, C37_malformed_shape_refuted, C37_one_axis_refuted, C38_contract_satisfiable, C40_cholesky, C54_call, C54_wrong_input_raises, C54_call_after_assign, C55_cores, C55_core_failure, C56_linear_gradient, C56_points_conservative, C71_first_order, C71_no_loss, C43_projects_x_to_x, C43_linear, C43_idempotent, C43_self_adjoint, C26_gram_semidefinite, C45_gram_semidefinite, C43_pythagoras, C43_ranks, C43_rejects, C43_rank_deficient_refuted, C43_one_core_refuted, C44_project_sum, C44_project_matmul, C44_weight_column_raises, C44_matmul_tensortrain_raises, C44_weight_column_refuted, C44_rejects, C45_pairwise_flat_inner_projected, C45_equals_pairwise_flat_inner, C45_rejects, C45_rank_too_large_refuted, C46_add_n_projected, C46_rejects, C46_empty_list_raises, C46_rank_too_large_refuted, C47_round_trip, C47_not_projected_raises, C47_rank_too_large_refuted, C52_kronecker_known, C64_decomposes, C64_meets_the_contract, C64_repeated_calls, C64_values_only_raises, C64_values_only_refuted, C64_graph_mode_raises, C29_one_axis_raises, C30_none_is_ones, C33_below_one, C33_wrong_length, C33_negative_epsilon, C33_default_refuted, C33_no_limit_refuted, C33_batch_list_refuted.

## `ClassicalDedekindReals.sig_forall_dec`, `ClassicalDedekindReals.sig_not_dec`, `FunctionalExtensionality.functional_extensionality_dep`

C34_add_n, C34_add_n_batches, C34_ranks, C34_mixed_shapes_raise, C35_reduce_sum, C35_weighted_sum, C35_matrix_of_weights, C35_ranks, C67_distinct_arrays, C67_comment_refuted, C66_compress, C66_low_rank_exact, C66_large_rank_raises, C27_qr_exists, C16_frobenius_norm_squared, C16_frobenius_norm, C55_l2, C55_rejects, C55_zero_disables, C55_wrong_type_raises, C55_collected, C55_tf2_refuted, C70_exact_svd_is_near, C70_loss_first_order, C70_loss_0, C70_ranks, C70_error_bound, C70_quasi_optimal, C70_exact_low_rank, C70_matrix_error_bound, C70_matrix_quasi_optimal, C71_exact_qr_is_near, C71_near_qr_exists, C71_cores_norm, C71_left_to_right, C71_right_to_left, C71_frobenius_norm_squared, C71_frobenius_norm, C71_relative_error_refuted, C69_round_best_refuted, C69_round_two_cores_best, C69_convert_matrix_best, C69_convert, C72_loss_first_order, C72_loss_0, C72_ranks, C72_error_bound, C72_quasi_optimal, C72_exact_low_rank, C72_exact, C73_round, C73_norm_not_larger, C73_inner_with_rounding, C73_norm_kept, C73_round_twice, C73_to_tt_tensor, C73_to_tt_matrix, C73_add_n, C73_add_n_batches, C73_reduce_sum, C16_triangle, C16_cauchy_schwarz, C64_to_tt_tensor, C29_ranks, C29_exact_ranks, C29_exact, C29_exact_low_rank, C29_error_bound, C29_quasi_optimal, C30_exact, C30_exact_low_rank, C30_error_bound, C30_quasi_optimal, C30_ranks, C30_exact_ranks, C31_round_exact, C31_round_ranks, C31_exact_ranks, C32_error_bound, C32_quasi_optimal, C31_round_exact_low_rank.

## `ClassicalDedekindReals.sig_forall_dec`, `Classical_Prop.classic`, `FunctionalExtensionality.functional_extensionality_dep`

C40_cholesky_indefinite_raises, C40_cholesky_dense, C40_definite_product_refuted.

## `ClassicalDedekindReals.sig_forall_dec`, `ClassicalEpsilon.constructive_indefinite_description`, `Classical_Prop.classic`, `FunctionalExtensionality.functional_extensionality_dep`

C48_gradients_exist, C48_constant_function_refuted, C39_det_is_mathcomp_det, C40_inv_exists, C40_inv, C40_invertible_factors, C40_inv_singular_raises, C56_tape_exists.

## `ClassicalDedekindReals.sig_forall_dec`, `ClassicalDedekindReals.sig_not_dec`, `Classical_Prop.classic`, `FunctionalExtensionality.functional_extensionality_dep`

C66_new_layer, C57_binary, C37_random_objects, C37_bad_shape_raises, C37_bad_rank_raises, C37_end_ranks_raise, C37_bad_batch_raises, C37_bad_matrix_shape_raises, C37_mean_raises, C38_random_tensor, C38_random_tensor_batch, C38_random_matrix, C38_random_matrix_batch, C38_weight_initializers, C38_mean_refuted, C38_mean_one_refuted, C38_independence_refuted, C39_rejects, C54_new_layer, C54_new_layer_call, C54_unknown_initializer_raises, C54_unknown_activation_refuted, C54_graph_mode_second_layer_raises, C56_concat_refuted, C56_random_has_value, C69_arithmetic, C69_printed, C69_matrices, C07_multiply_number, C05_neg, C05_sub, C05_sub_batches, C05_sub_batch_tt, C05_sub_raises, C05_sub_refuted, C42_renormalize, C42_renormalize_nonzero, C53_call, C53_programs, C53_accepted, C53_eye_refuted, C53_matrix_refuted, C53_ones_like_refuted, C53_constructor_refuted, C53_deltas_refuted, C42_extended_model_agrees, C42_every_epsilon, C42_zero_core_refuted.

## `ClassicalDedekindReals.sig_forall_dec`, `ClassicalDedekindReals.sig_not_dec`, `Classical_Prop.classic`, `FunctionalExtensionality.functional_extensionality_dep`, `IndefiniteDescription.constructive_indefinite_description`

C48_gradients, C48_is_the_derivative, C48_gradient_norm, C48_hessian_vector_product, C48_norm_hessian, C45_without_gauge_refuted, C60_least_ranks, C60_equal_ranks, C60_tangent_space, C60_project, C60_project_sum, C60_project_matmul, C60_gradients, C60_hessian_vector_product, C60_larger_ranks_refuted, C70_near_svd_exists, C70_exact, C70_matrix_exact, C56_project_has_value, C56_project_twice, C56_norm_hessian, C43_orthogonal_projection, C43_nearest, C43_fixes_tangent_tensors, C43_any_qr, C47_deltas_to_tangent_space, C72_relative_error_refuted, C64_contract_satisfiable, C29_svd_exists, C29_unfolding_svd_exists, C65_step, C65_any_number_of_steps, C65_gradient_step, C65_small_steps_descend, C65_stationary_points_stay, C65_other_ranks_raise, C65_large_ranks_refuted, C65_every_step_descends_refuted.

## `ClassicalDedekindReals.sig_forall_dec`, `ClassicalDedekindReals.sig_not_dec`, `ClassicalEpsilon.constructive_indefinite_description`, `Classical_Prop.classic`, `FunctionalExtensionality.functional_extensionality_dep`

C39_determinant, C39_slog_determinant, C39_sign_times_exp, C40_cholesky_exists, C56_cholesky_refuted, C53_linalg_exists.

## `ClassicalDedekindReals.sig_forall_dec`, `ClassicalDedekindReals.sig_not_dec`, `ClassicalEpsilon.constructive_indefinite_description`, `Classical_Prop.classic`, `FunctionalExtensionality.functional_extensionality_dep`, `IndefiniteDescription.constructive_indefinite_description`

C56_call, C56_call_succeeds, C56_programs, C56_call_returns, C56_programs_succeed, C56_representation_independent, C56_values_unique, C56_tangent_programs, C56_tangent_programs_succeed, C56_tangent_values_unique.
