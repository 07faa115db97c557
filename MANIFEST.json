{
 "claims": [
  {
   "property": "C01",
   "status": "proved",
   "theorems": [
    "C01_full_is_tt_format"
   ],
   "note": "For every well-formed TensorTrain (tensor or matrix) over any commutative ring."
  },
  {
   "property": "C02",
   "status": "proved",
   "theorems": [
    "C02_full_batch"
   ],
   "note": "full(b)[o] = full(b[o]) for every batch and position."
  },
  {
   "property": "C03",
   "status": "proved",
   "theorems": [
    "C03_add",
    "C03_add_rejects_shapes",
    "C03_add_rejects_batch_sizes",
    "C03_add_one_core_raises",
    "C03_add_one_core_refuted"
   ],
   "note": "At least two cores; with one core add always raises (proved, and refuted as a working case)."
  },
  {
   "property": "C04",
   "status": "partial",
   "theorems": [
    "C04_add_batches",
    "C04_add_batch_tt",
    "C04_add_tt_batch_raises",
    "C04_add_batch1_tt_raises",
    "C04_add_tt_batch_refuted"
   ],
   "note": "Proved for all combinations that work. The full claim is false: TensorTrain + batch and size-1 batch + TensorTrain raise ValueError (refuted with witness and proved in general)."
  },
  {
   "property": "C05",
   "status": "partial",
   "theorems": [
    "C05_neg",
    "C05_sub",
    "C05_sub_batches",
    "C05_sub_batch_tt",
    "C05_sub_raises",
    "C05_sub_refuted"
   ],
   "note": "Negation for all objects; subtraction wherever add works. With one core, TensorTrain - batch and one-element batch - TensorTrain raise ValueError (proved in general and refuted with a witness)."
  },
  {
   "property": "C06",
   "status": "proved",
   "theorems": [
    "C06_multiply",
    "C06_multiply_rejects_shapes"
   ],
   "note": ""
  },
  {
   "property": "C07",
   "status": "proved",
   "theorems": [
    "C07_multiply_number"
   ],
   "note": "Every real number, over the reals."
  },
  {
   "property": "C08",
   "status": "proved",
   "theorems": [
    "C08_multiply_batch",
    "C08_multiply_rejects_batch_sizes"
   ],
   "note": "All combinations of TensorTrain and batches."
  },
  {
   "property": "C09",
   "status": "proved",
   "theorems": [
    "C09_matmul",
    "C09_matmul_rejects",
    "C09_matmul_batch1_refuted"
   ],
   "note": "Values for every combination; the documented result type (batch) is wrong for one-element batches (refuted)."
  },
  {
   "property": "C10",
   "status": "proved",
   "theorems": [
    "C10_tt_dense_matmul",
    "C10_tt_dense_rejects"
   ],
   "note": "A misaligned dense matrix raises TypeError, not the intended ValueError."
  },
  {
   "property": "C11",
   "status": "proved",
   "theorems": [
    "C11_dense_tt_matmul",
    "C11_dense_tt_rejects"
   ],
   "note": ""
  },
  {
   "property": "C12",
   "status": "proved",
   "theorems": [
    "C12_transpose",
    "C12_transpose_twice",
    "C12_transpose_rejects_tensor"
   ],
   "note": "Tensor entries for TT-matrices and batches."
  },
  {
   "property": "C13",
   "status": "proved",
   "theorems": [
    "C13_flat_inner",
    "C13_flat_inner_rejects"
   ],
   "note": "Kinds and core counts raise ValueError; different modes raise from einsum."
  },
  {
   "property": "C14",
   "status": "proved",
   "theorems": [
    "C14_flat_inner_batch",
    "C14_flat_inner_rejects_batch_sizes",
    "C14_flat_inner_batch1_refuted"
   ],
   "note": "All batch combinations; for combined batch size 1 tf.squeeze turns the length-1 vector into a number (refuted as a vector)."
  },
  {
   "property": "C15",
   "status": "proved",
   "theorems": [
    "C15_sparse_flat_inner",
    "C15_sparse_rejects"
   ],
   "note": "All argument kinds outside TensorTrain x SparseTensor raise."
  },
  {
   "property": "C16",
   "status": "proved",
   "theorems": [
    "C16_frobenius_norm_squared",
    "C16_frobenius_norm",
    "C16_triangle",
    "C16_cauchy_schwarz",
    "C16_differentiable_exact"
   ],
   "note": "Both branches, tensors, matrices, batches; qr is any routine meeting qr_ok (such routines exist: C27_qr_exists). For a QR routine the contract x = q r with orthonormal columns of q is assumed."
  },
  {
   "property": "C17",
   "status": "partial",
   "theorems": [
    "C17_bilinear_form_partial",
    "C17_bilinear_form_columns",
    "C17_bilinear_rejects_tensors",
    "C17_bilinear_mixed_raises",
    "C17_bilinear_mixed_refuted",
    "C17_two_mat_partial",
    "C17_two_mat_rejects_tensors",
    "C17_two_mat_batch_raises",
    "C17_two_mat_batch_refuted",
    "C17_two_mat_batch_value_refuted",
    "C17_bilinear_inconsistent_refuted"
   ],
   "note": "Values proved where the code works. The batch part of the claim is false: bilinear_form with one batch vector raises, bilinear_form_two_mat with batches raises or returns wrong numbers (all refuted with witnesses; raising proved in general)."
  },
  {
   "property": "C18",
   "status": "partial",
   "theorems": [
    "C18_gather_nd_partial",
    "C18_gather_nd_rejects",
    "C18_gather_nd_3d_refuted"
   ],
   "note": "Proved for 1-d and 2-d index arrays. For 3-d index arrays the claim is false (refuted)."
  },
  {
   "property": "C19",
   "status": "partial",
   "theorems": [
    "C19_slicing_partial",
    "C19_all_integers_raise",
    "C19_all_integers_refuted",
    "C19_slicing_rejects",
    "C19_python_slices",
    "C19_dense_indexing",
    "C19_slicing_elements_partial",
    "C19_out_of_range",
    "C19_slicing_any_partial"
   ],
   "note": "Proved for every tuple of ints and slices that keeps at least one axis, empty selections included. All-integer indexing always raises IndexError (proved, refuted)."
  },
  {
   "property": "C20",
   "status": "partial",
   "theorems": [
    "C20_batch_index",
    "C20_batch_full_index_partial",
    "C20_all_integers_raise",
    "C20_all_integers_refuted",
    "C20_batch_rejects",
    "C20_batch_elements",
    "C20_full_elements_partial",
    "C20_full_index_any_partial",
    "C20_empty_batch_raises",
    "C20_empty_batch_refuted"
   ],
   "note": "As C19, with the batch index first. A batch sliced to no elements cannot be expanded by full (proved, refuted)."
  },
  {
   "property": "C21",
   "status": "partial",
   "theorems": [
    "C21_TensorTrain",
    "C21_TensorTrainBatch",
    "C21_accepted_is_consistent",
    "C21_wf_accepted",
    "C21_matrix_shape_refuted",
    "C21_extra_entries_refuted",
    "C21_batch_sizes_refuted",
    "C21_short_shape_refuted"
   ],
   "note": "Exactly the consistent cores are accepted when shape and ranks have the right lengths; wrong lengths, wrong number of axes and disagreeing batch sizes are accepted or raise IndexError (refuted)."
  },
  {
   "property": "C22",
   "status": "partial",
   "theorems": [
    "C22_shape_arguments_partial",
    "C22_kind",
    "C22_one_core_refuted",
    "C22_one_core_matrix_refuted"
   ],
   "note": "Proved for two or more cores; false for one core (refuted)."
  },
  {
   "property": "C23",
   "status": "proved",
   "theorems": [
    "C23_expand",
    "C23_squeeze"
   ],
   "note": ""
  },
  {
   "property": "C24",
   "status": "partial",
   "theorems": [
    "C24_concat",
    "C24_concat_rejects",
    "C24_concat_single",
    "C24_tensortrain_element_refuted"
   ],
   "note": "Concatenation of batches and all ValueErrors. The clause that a TensorTrain in the list counts as one element is false of the code (it raises ValueError): refuted with a witness."
  },
  {
   "property": "C25",
   "status": "proved",
   "theorems": [
    "C25_multiply_along_batch_dim",
    "C25_wrong_length_raises"
   ],
   "note": ""
  },
  {
   "property": "C26",
   "status": "partial",
   "theorems": [
    "C26_pairwise_flat_inner",
    "C26_pairwise_values",
    "C26_pairwise_matrix",
    "C26_pairwise_matrix_rejects",
    "C26_gram_matrix",
    "C26_gram_matrix_with_matrix",
    "C26_gram_semidefinite",
    "C26_one_element_refuted",
    "C26_one_element_gram_refuted",
    "C26_core_count_unchecked_refuted"
   ],
   "note": "All values for all batch sizes. The shape clause is false for batches of one element (tf.squeeze drops the batch axes): refuted with witnesses."
  },
  {
   "property": "C27",
   "status": "partial",
   "theorems": [
    "C27_qr_exists",
    "C27_orthogonalize_keeps_tensor",
    "C27_batch_right_to_left_raises",
    "C27_right_to_left_refuted"
   ],
   "note": "All cases the code supports. The clause for batches right to left is false of the code (NotImplementedError): refuted."
  },
  {
   "property": "C28",
   "status": "proved",
   "theorems": [
    "C28_left_orthogonal",
    "C28_right_orthogonal"
   ],
   "note": ""
  },
  {
   "property": "C29",
   "status": "proved",
   "theorems": [
    "C29_svd_exists",
    "C29_unfolding_svd_exists",
    "C29_ranks",
    "C29_exact_ranks",
    "C29_exact",
    "C29_exact_low_rank",
    "C29_error_bound",
    "C29_quasi_optimal",
    "C29_one_axis_raises"
   ],
   "note": "For every SVD routine meeting svd_ok (one is shown to exist) and real arithmetic. A one-axis tensor raises TypeError, so two axes are needed as the claim says."
  },
  {
   "property": "C30",
   "status": "proved",
   "theorems": [
    "C30_exact",
    "C30_ranks",
    "C30_exact_ranks",
    "C30_exact_low_rank",
    "C30_error_bound",
    "C30_quasi_optimal",
    "C30_none_is_ones"
   ],
   "note": "All factorings with at least two cores; also the error bounds under truncation."
  },
  {
   "property": "C31",
   "status": "proved",
   "theorems": [
    "C31_exact_ranks",
    "C31_round_exact",
    "C31_round_exact_low_rank",
    "C31_round_ranks"
   ],
   "note": "TensorTrain (tensors and matrices) and TensorTrainBatch; a list of bounds is refused for batches (C33_batch_list_refuted)."
  },
  {
   "property": "C32",
   "status": "proved",
   "theorems": [
    "C32_error_bound",
    "C32_quasi_optimal"
   ],
   "note": "For every element of a batch."
  },
  {
   "property": "C33",
   "status": "partial",
   "theorems": [
    "C29_ranks",
    "C31_round_ranks",
    "C33_below_one",
    "C33_wrong_length",
    "C33_negative_epsilon",
    "C33_default_refuted",
    "C33_no_limit_refuted",
    "C33_batch_list_refuted"
   ],
   "note": "Accepted forms and refusals proved; \"the default means no restriction\" is false (TypeError for None, ValueError for np.inf), and a list is refused for batches."
  },
  {
   "property": "C34",
   "status": "proved",
   "theorems": [
    "C34_add_n",
    "C34_add_n_batches",
    "C34_ranks",
    "C34_one_object",
    "C34_bound_ignored_refuted",
    "C34_empty_list_raises",
    "C34_mixed_shapes_raise",
    "C34_one_core_refuted",
    "C34_tensortrain_then_batch_raises"
   ],
   "note": "Lists of any length, at least two cores; \"never truncates\" is: at every cut the bound is at least the sum of the TT-ranks of the summands. With one core add raises (refuted). A list of one object is not rounded."
  },
  {
   "property": "C35",
   "status": "proved",
   "theorems": [
    "C35_reduce_sum",
    "C35_weighted_sum",
    "C35_matrix_of_weights",
    "C35_ranks",
    "C35_one_element_ranks",
    "C35_bound_ignored_refuted",
    "C35_one_core_refuted",
    "C35_wrong_matrix_raises",
    "C35_wrong_vector_raises",
    "C35_other_ranks_raise",
    "C35_tensortrain_raises"
   ],
   "note": "All batch sizes, at least two cores, coefficient vector or matrix with at least one column; \"never truncates\" is: the bound is at least batch size times TT-rank at every cut. One core and a batch of two or more raises ValueError (refuted)."
  },
  {
   "property": "C36",
   "status": "partial",
   "theorems": [
    "C36_tensor_ones",
    "C36_tensor_zeros",
    "C36_eye",
    "C36_matrix_ones",
    "C36_matrix_zeros",
    "C36_ones_like",
    "C36_zeros_like",
    "C36_one_axis_refuted",
    "C36_one_core_matrix_refuted",
    "C36_empty_shape_refuted"
   ],
   "note": "All shapes with at least two axes, over any ring. For one axis the claim is false (TypeError for tensors, a matrix becomes a tensor): refuted."
  },
  {
   "property": "C37",
   "status": "partial",
   "theorems": [
    "C37_tensor_with_random_cores",
    "C37_tensor_batch_with_random_cores",
    "C37_matrix_with_random_cores",
    "C37_matrix_batch_with_random_cores",
    "C37_random_objects",
    "C37_bad_shape_raises",
    "C37_bad_rank_raises",
    "C37_end_ranks_raise",
    "C37_bad_batch_raises",
    "C37_bad_matrix_shape_raises",
    "C37_mean_raises",
    "C37_malformed_shape_refuted",
    "C37_one_axis_refuted"
   ],
   "note": "Sizes, ranks and core contents for all valid arguments with two or more axes; ValueErrors in general. Matrix shapes with one row, two omitted rows or three rows do not raise ValueError, and one axis fails: refuted."
  },
  {
   "property": "C38",
   "status": "partial",
   "theorems": [
    "C38_random_tensor",
    "C38_random_tensor_batch",
    "C38_random_matrix",
    "C38_random_matrix_batch",
    "C38_weight_initializers",
    "C38_contract_satisfiable",
    "C38_mean_refuted",
    "C38_mean_one_refuted",
    "C38_independence_refuted"
   ],
   "note": "Mean 0, variance stddev^2 and zero correlation of different elements for all shapes, ranks and stddev >= 0, and the glorot/he/lecun variances. The clause on the mean is false for a mean other than 0 (NotImplementedError, or ignored when below 1e-8): refuted."
  },
  {
   "property": "C39",
   "status": "proved",
   "theorems": [
    "C39_determinant",
    "C39_slog_determinant",
    "C39_sign_times_exp",
    "C39_rejects",
    "C39_det_is_mathcomp_det"
   ],
   "note": "All Kronecker products, of any sizes, batch or not: value equals the determinant of the dense matrix; sign and log of the absolute value, 0 and minus infinity for a singular matrix. Statically known shapes."
  },
  {
   "property": "C40",
   "status": "proved",
   "theorems": [
    "C40_inv",
    "C40_invertible_factors",
    "C40_inv_singular_raises",
    "C40_cholesky",
    "C40_cholesky_dense",
    "C40_cholesky_indefinite_raises",
    "C39_rejects",
    "C40_definite_product_refuted",
    "C40_inv_exists",
    "C40_cholesky_exists"
   ],
   "note": "For any inversion / Cholesky routine meeting its contract: two-sided inverse of the dense matrix; lower triangular factor with positive diagonal and L L^T equal to the dense matrix when every factor is positive definite (positive definiteness of the product alone does not suffice: refuted)."
  },
  {
   "property": "C41",
   "status": "proved",
   "theorems": [
    "C41_unravel_index",
    "C41_row_major"
   ],
   "note": ""
  },
  {
   "property": "C42",
   "status": "partial",
   "theorems": [
    "C42_renormalize",
    "C42_renormalize_nonzero",
    "C42_every_epsilon",
    "C42_extended_model_agrees",
    "C42_zero_core_refuted"
   ],
   "note": "Every positive epsilon, and every epsilon when no core is zero. For a non-positive epsilon and a zero core the claim is false (log 0 = -inf, then 0/0): the tensor, which was 0, becomes nan, for every such tensor; modelled over the reals with inf and nan. Nothing is missing."
  },
  {
   "property": "C43",
   "status": "partial",
   "theorems": [
    "C43_orthogonal_projection",
    "C43_nearest",
    "C43_fixes_tangent_tensors",
    "C43_any_qr",
    "C43_projects_x_to_x",
    "C43_linear",
    "C43_idempotent",
    "C43_self_adjoint",
    "C43_pythagoras",
    "C43_ranks",
    "C43_rejects",
    "C43_rank_deficient_refuted",
    "C43_one_core_refuted"
   ],
   "note": "Tangency and orthogonality for every point with minimal TT-ranks, every QR routine, tensors, matrices and batches; idempotence, linearity, self-adjointness and project(x,x)=x for every point. At points with TT-ranks that are not minimal the result need not be tangent (refuted); one core is refused (refuted)."
  },
  {
   "property": "C44",
   "status": "partial",
   "theorems": [
    "C44_project_sum",
    "C44_project_matmul",
    "C44_weight_column_raises",
    "C44_matmul_tensortrain_raises",
    "C44_weight_column_refuted",
    "C44_rejects"
   ],
   "note": "All batches and weights of shapes (n) and (n,k), k>1. Weights of shape (n,1) and a TensorTrain as first argument of project_matmul raise."
  },
  {
   "property": "C45",
   "status": "partial",
   "theorems": [
    "C45_pairwise_flat_inner_projected",
    "C45_gram_semidefinite",
    "C45_equals_pairwise_flat_inner",
    "C45_rejects",
    "C45_rank_too_large_refuted",
    "C45_gauge_needed",
    "C45_without_gauge_refuted"
   ],
   "note": "Everything made by project, project_sum, project_matmul, add_n_projected, gradients, hessian_vector_product, or by deltas_to_tangent_space from delta cores satisfying the gauge condition, at a point whose TT-ranks do not exceed the sizes of the neighbouring cores (in particular minimal TT-ranks). False otherwise (refuted), and false for delta cores without the gauge condition, which nothing checks (refuted). For one-element batches pairwise_flat_inner drops axes (C26), values agree."
  },
  {
   "property": "C46",
   "status": "partial",
   "theorems": [
    "C46_add_n_projected",
    "C46_rejects",
    "C46_empty_list_raises",
    "C46_rank_too_large_refuted"
   ],
   "note": "As C45; weights of shape (n) or, for batches, (n,b)."
  },
  {
   "property": "C47",
   "status": "partial",
   "theorems": [
    "C47_round_trip",
    "C47_deltas_to_tangent_space",
    "C47_not_projected_raises",
    "C47_rank_too_large_refuted"
   ],
   "note": "The round trip gives back the same object and the same deltas, also at rank-deficient points, as long as no TT-rank exceeds the sizes of the neighbouring cores; false otherwise (refuted)."
  },
  {
   "property": "C48",
   "status": "partial",
   "theorems": [
    "C48_gradients_exist",
    "C48_gradients",
    "C48_is_the_derivative",
    "C48_equals_project",
    "C48_documented_example",
    "C48_gradients_made",
    "C48_gradient_norm",
    "C48_hessian_vector_product",
    "C48_hessian_vector_product_made",
    "C48_norm_hessian",
    "C48_missing_gradient_raises",
    "C48_detects_dependence_on_cores",
    "C48_zero_value_raises",
    "C48_zero_value_refuted",
    "C48_constant_function_refuted",
    "C48_rank_too_large_refuted"
   ],
   "note": "For any gradient tape meeting grad_ok. False where the function value is 0 (default runtime check), where the tape reports no connection, and at a point with too large TT-ranks (refuted)."
  },
  {
   "property": "C49",
   "status": "partial",
   "theorems": [
    "C49_creates_one_variable_per_core",
    "C49_second_creation_raises",
    "C49_reuse_returns_the_same_object",
    "C49_changes_no_other_variable",
    "C49_variables_stay",
    "C49_no_initializer_raises",
    "C49_reuse_of_nothing_raises",
    "C49_op_names",
    "C49_refused",
    "C49_reuse_of_another_name_raises",
    "C49_partial_creation_blocks_the_name",
    "C49_failing_regularizer_keeps_the_variable",
    "C49_eager_always_creates",
    "C49_eager_second_creation_refuted",
    "C49_eager_reuse_refuted",
    "C49_eager_regularizer_refuted",
    "C49_reuse_default_dtype_refuted",
    "C49_empty_name_refuted",
    "C49_trailing_slash",
    "C49_slash_scope_raises",
    "C49_slash_scope_refuted"
   ],
   "note": "Graph mode: after every history of calls. In eager mode names and reuse have no effect; in graph mode reuse needs a nonempty name, the right dtype and a scope that does not end in / (refuted otherwise)."
  },
  {
   "property": "C50",
   "status": "partial",
   "theorems": [
    "C50_assign",
    "C50_changes_no_other_variable",
    "C50_failure_overwrites_the_cores_before",
    "C50_graph_mode",
    "C50_graph_failure_changes_nothing",
    "C50_failed_assign_refuted",
    "C50_too_many_cores_refuted",
    "C50_aliased_refuted",
    "C50_kinds_refuted"
   ],
   "note": "Eager and graph mode, values of the same shape, TT-ranks and dtype. False in eager mode: a failing assign changes the variable (refuted); also for aliased values, values with more cores, and a batch of one assigned to a matrix."
  },
  {
   "property": "C51",
   "status": "proved",
   "theorems": [
    "C51_cast",
    "C51_cast_full"
   ],
   "note": "dtype conversion is any function on elements; commutes with full for ring homomorphisms."
  },
  {
   "property": "C52",
   "status": "partial",
   "theorems": [
    "C52_TensorTrain",
    "C52_TensorTrainBatch",
    "C52_any_knowledge",
    "C52_any_knowledge_batch",
    "C52_matrix_unknown_mode_raises",
    "C52_known_shapes_constructors",
    "C52_known_shapes_lazy",
    "C52_mixed_dtypes_refused",
    "C52_broadcasting",
    "C52_expand_batch_dim",
    "C52_lazy_shape_matrix_refuted",
    "C52_batch_size_refuted",
    "C52_batch_mode_refuted",
    "C52_unknown_rank_refuted",
    "C52_squeeze_batch_dim",
    "C52_squeeze_inferred",
    "C52_squeeze_expand",
    "C52_squeeze_refuted",
    "C52_kronecker_checks",
    "C52_kronecker_known",
    "C52_kronecker_errors",
    "C52_kronecker_batch_refuted",
    "C52_no_shapes_raises",
    "C52_unranked_cores"
   ],
   "note": "Every pattern of unknown dimensions, including cores of unknown rank. False: a TT-matrix of several cores with an unknown mode (lazy_shape raises TypeError); batches, and cores of unknown rank, believe wrong arguments; squeezing a one-element batch whose modes are known from the shape argument only raises ValueError; the Kronecker functions raise for an unknown batch size."
  },
  {
   "property": "C53",
   "status": "partial",
   "theorems": [
    "C53_call",
    "C53_programs",
    "C53_accepted",
    "C53_linalg_exists",
    "C53_eye_refuted",
    "C53_matrix_refuted",
    "C53_ones_like_refuted",
    "C53_constructor_refuted",
    "C53_deltas_refuted"
   ],
   "note": "All programs over all public functions that return TT objects (variables and layers: C49, C50, C54). False, and excluded: one-core TT-matrices and three-row shapes in the initializers, constructor arguments of the wrong length, a batch as left part of a tangent space."
  },
  {
   "property": "C54",
   "status": "proved",
   "theorems": [
    "C54_call",
    "C54_wrong_input_raises",
    "C54_new_layer",
    "C54_new_layer_call",
    "C54_call_after_assign",
    "C54_unknown_initializer_raises",
    "C54_unknown_activation_refuted",
    "C54_graph_mode_second_layer_raises"
   ],
   "note": "At any time, for any contents of the variables; new layers in eager and graph mode. Activations are an oracle."
  },
  {
   "property": "C55",
   "status": "partial",
   "theorems": [
    "C55_l2",
    "C55_cores",
    "C55_core_failure",
    "C55_rejects",
    "C55_zero_disables",
    "C55_wrong_type_raises",
    "C55_collected",
    "C55_tf2_refuted"
   ],
   "note": "Values under the TF1 API; under TF2 (tf.name_scope with two arguments, tf.logging) every use raises (refuted)."
  },
  {
   "property": "C56",
   "status": "partial",
   "theorems": [
    "C56_call",
    "C56_call_succeeds",
    "C56_programs",
    "C56_call_returns",
    "C56_programs_succeed",
    "C56_representation_independent",
    "C56_values_unique",
    "C56_project_has_value",
    "C56_project_twice",
    "C56_linear_gradient",
    "C56_norm_hessian",
    "C56_tape_exists",
    "C56_random_has_value",
    "C56_tangent_programs",
    "C56_tangent_programs_succeed",
    "C56_tangent_values_unique",
    "C56_points_conservative",
    "C56_concat_refuted",
    "C56_cholesky_refuted"
   ],
   "note": "All programs over 50 of the 51 calls (constructors with explicit arguments, random initializers for given drawn numbers, projections on tangent spaces, Riemannian gradients and Hessian-by-vector products included). Not in the dense language: deltas_to_tangent_space (its coordinates depend on the QR routine), casts that change values. Hessian-by-vector products: for tapes that return None at all points or at none. concat_along_batch_dim raises for batches with different TT-ranks and cholesky for products of negative definite matrices (both refuted), gradients and hessian_vector_product when the tape returns None; for these calls the theorem is about the runs that do not raise."
  },
  {
   "property": "C57",
   "status": "proved",
   "theorems": [
    "C57_full_rounding",
    "C57_full_relative",
    "C57_gather_nd_rounding",
    "C57_error_factor",
    "C57_exact",
    "C57_contract_met",
    "C57_binary",
    "C57_bound_attained"
   ],
   "note": "Standard model of floating point arithmetic (no overflow, underflow, NaN). Index arrays of gather_nd are matrices (C18)."
  },
  {
   "property": "C58",
   "status": "proved",
   "theorems": [
    "C58_flat_inner_rounding",
    "C58_flat_inner_number",
    "C58_norm_squared_rounding"
   ],
   "note": "As C57."
  },
  {
   "property": "C59",
   "status": "proved",
   "theorems": [
    "C59_expression_rounding",
    "C59_full_rounding",
    "C59_flat_inner_rounding",
    "C59_tt_dense_rounding",
    "C59_dense_tt_rounding"
   ],
   "note": "As C57.  Expressions whose exact run succeeds. Multiplication by numbers, QR and SVD are not in the expressions."
  },
  {
   "property": "C60",
   "status": "proved",
   "theorems": [
    "C60_least_ranks",
    "C60_equal_ranks",
    "C60_tangent_space",
    "C60_project",
    "C60_project_sum",
    "C60_project_matmul",
    "C60_gradients",
    "C60_hessian_vector_product",
    "C60_larger_ranks_refuted"
   ],
   "note": "The functions whose value at the point is 0 are excluded for gradients (runtime check divides by it); the failure for larger TT-ranks is C60_larger_ranks_refuted."
  },
  {
   "property": "C61",
   "status": "proved",
   "theorems": [
    "C61_einsum_order",
    "C61_assumptions_met",
    "C61_flat_inner",
    "C61_flat_inner_cubic",
    "C61_flat_inner_any_order",
    "C61_greedy_order_refuted",
    "C61_pairwise",
    "C61_pairwise_matrix",
    "C61_gram_matrix",
    "C61_gram_matrix_matrix",
    "C61_bilinear_form"
   ],
   "note": "Multiplications of tf.einsum, tf.matmul, tf.linalg.qr and elementwise arithmetic are counted; reshapes, transposes, slices are free. The choice of order by TensorFlow is a parameter, not part of /repo."
  },
  {
   "property": "C62",
   "status": "proved",
   "theorems": [
    "C62_orthogonalize",
    "C62_project",
    "C62_project_sum",
    "C62_project_sum_documented",
    "C62_project_sum_columns_refuted",
    "C62_project_matmul",
    "C62_pairwise_projected"
   ],
   "note": "Same counting as C61. The docstring of project_sum leaves out the work of a weight matrix (refuted for many columns); the one of project_matmul leaves out the columns of what."
  },
  {
   "property": "C63",
   "status": "partial",
   "theorems": [
    "C63_tensor_text",
    "C63_matrix_text",
    "C63_same_text",
    "C63_known",
    "C63_unknown_mode_raises",
    "C63_unknown_mode_refuted"
   ],
   "note": "All objects except TT-matrices with an unknown mode, whose text does not exist (TypeError in get_shape; refuted)."
  },
  {
   "property": "C64",
   "status": "partial",
   "theorems": [
    "C64_decomposes",
    "C64_meets_the_contract",
    "C64_to_tt_tensor",
    "C64_repeated_calls",
    "C64_values_only_raises",
    "C64_values_only_refuted",
    "C64_graph_mode_raises",
    "C64_contract_satisfiable"
   ],
   "note": "Eager mode with compute_uv=True. The replacement is not complete: compute_uv=False always raises (refuted) and so does graph mode."
  },
  {
   "property": "C65",
   "status": "partial",
   "theorems": [
    "C65_step",
    "C65_any_number_of_steps",
    "C65_gradient_step",
    "C65_small_steps_descend",
    "C65_stationary_points_stay",
    "C65_other_ranks_raise",
    "C65_large_ranks_refuted",
    "C65_every_step_descends_refuted"
   ],
   "note": "Proved when the TT-ranks of X are possible ones (admissible; for the descent: minimal) and max_tt_rank is the ranks of X. For larger ranks, which random_tensor accepts, the step raises ValueError in assign (refuted); that every step decreases the loss is false for large alpha (refuted)."
  },
  {
   "property": "C66",
   "status": "proved",
   "theorems": [
    "C66_new_layer",
    "C66_set_weights",
    "C66_set_weights_raises",
    "C66_parameters",
    "C66_compress",
    "C66_low_rank_exact",
    "C66_large_rank_raises"
   ],
   "note": "Layers with a bias (as in the notebook). Keras set_weights is modelled from its documentation: numbers and shapes are checked before anything is written."
  },
  {
   "property": "C67",
   "status": "proved",
   "theorems": [
    "C67_masked_loss",
    "C67_test_loss",
    "C67_sparse_loss",
    "C67_losses_agree",
    "C67_masked_gradient",
    "C67_sparse_gradient",
    "C67_tape_exists",
    "C67_sgd_is_an_optimizer",
    "C67_masked_train",
    "C67_sparse_train",
    "C67_masked_sgd",
    "C67_sparse_sgd",
    "C67_unobserved_slices_stay",
    "C67_duplicates_refuted",
    "C67_distinct_arrays",
    "C67_comment_refuted"
   ],
   "note": "Real arithmetic. The tape and the optimizer (Adam in the notebook) are oracles with the contracts tape_ok, opt_ok; descent and unchanged slices are for plain gradient descent."
  },
  {
   "property": "C68",
   "status": "proved",
   "theorems": [
    "C68_bilinear_rounding",
    "C68_bilinear_batch_rounding",
    "C68_two_mat_rounding",
    "C68_sparse_rounding"
   ],
   "note": "Standard model of rounding (contract arith_ok, as in C57-C59): no overflow, underflow or NaN. bilinear_form_two_mat without batches (with batches it raises or is wrong, C17)."
  },
  {
   "property": "C69",
   "status": "partial",
   "theorems": [
    "C69_convert",
    "C69_arithmetic",
    "C69_printed",
    "C69_matrices",
    "C69_round_two_cores_best",
    "C69_convert_matrix_best",
    "C69_round_best_refuted"
   ],
   "note": "Real arithmetic. Two statements of the notebook are false: rounding three or more cores need not give the closest tensor (C69_round_best_refuted; within sqrt(d-1) of it by C69_arithmetic, the closest with two cores), and the printed difference is sqrt(norm^2 + 1e-5), 0.003162 for two equal tensors (C69_printed)."
  },
  {
   "property": "C70",
   "status": "proved",
   "theorems": [
    "C70_ranks",
    "C70_error_bound",
    "C70_quasi_optimal",
    "C70_exact",
    "C70_exact_low_rank",
    "C70_matrix_error_bound",
    "C70_matrix_quasi_optimal",
    "C70_matrix_exact",
    "C70_loss_first_order",
    "C70_loss_0",
    "C70_exact_svd_is_near",
    "C70_near_svd_exists"
   ],
   "note": "Only the decompositions are inexact (contract svd_near, satisfied by exact routines and by others); the rest of the arithmetic is over the reals. round is C72."
  },
  {
   "property": "C71",
   "status": "proved",
   "theorems": [
    "C71_left_to_right",
    "C71_right_to_left",
    "C71_frobenius_norm_squared",
    "C71_frobenius_norm",
    "C71_cores_norm",
    "C71_first_order",
    "C71_no_loss",
    "C71_relative_error_refuted",
    "C71_exact_qr_is_near",
    "C71_near_qr_exists"
   ],
   "note": "Only the decompositions are inexact (contract qr_near). The last clause (no relative bound) is the refuted theorem."
  },
  {
   "property": "C72",
   "status": "proved",
   "theorems": [
    "C72_ranks",
    "C72_error_bound",
    "C72_quasi_optimal",
    "C72_exact_low_rank",
    "C72_exact",
    "C72_loss_first_order",
    "C72_loss_0",
    "C72_relative_error_refuted"
   ],
   "note": "Only the decompositions are inexact (contracts qr_near and svd_near); the rest of the arithmetic is over the reals. The last clause (no relative bound) is the refuted theorem."
  },
  {
   "property": "C73",
   "status": "proved",
   "theorems": [
    "C73_round",
    "C73_norm_not_larger",
    "C73_inner_with_rounding",
    "C73_norm_kept",
    "C73_round_twice",
    "C73_to_tt_tensor",
    "C73_to_tt_matrix",
    "C73_add_n",
    "C73_add_n_batches",
    "C73_reduce_sum"
   ],
   "note": "Exact arithmetic; every QR and SVD routine meeting the contracts qr_ok and svd_ok."
  }
 ]
}