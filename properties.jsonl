{"id": "C01", "title": "full() evaluates the TT format", "statement": "For every valid TT-tensor or TT-matrix, full(tt) succeeds, its shape is get_shape(), and every element equals the TT-format sum over all rank indices of the product of core entries (for a TT-matrix the row index is the row-major index of the row modes and the column index of the column modes).", "quantifier": "all TensorTrain objects (any number of cores, mode sizes, ranks, entries), all element positions", "why_tests_cant": "Tests sample a handful of small shapes and ranks; the claim is about every number of cores, every mode size, every TT-rank and every core entry.", "anchors": ["t3f/ops.py:full", "t3f/ops.py:_full_tt"]}
{"id": "C02", "title": "full() of a batch is full() of every element", "statement": "For every TensorTrainBatch b and every position o inside it, full(b)[o] equals full(b[o]); shape is (batch_size,) + shape of an element.", "quantifier": "all batches, all batch sizes, all batch positions", "why_tests_cant": "Tests sample a handful of small shapes and ranks; the claim is about every number of cores, every mode size, every TT-rank and every core entry.", "anchors": ["t3f/ops.py:_full_tt_batch", "t3f/tensor_train_batch.py:_batch_dim_getitem"]}
{"id": "C03", "title": "add() adds", "statement": "For TT objects of equal kind and shape with at least two cores, add(a,b) succeeds and full(add(a,b)) = full(a)+full(b) elementwise; ranks of the result are the sums of the ranks with 1 at both ends. Unequal shapes, tensor-plus-matrix, or non-broadcastable batch sizes raise ValueError.", "quantifier": "all pairs of TT-tensors / TT-matrices with any ranks", "why_tests_cant": "Tests sample a handful of small shapes and ranks; the claim is about every number of cores, every mode size, every TT-rank and every core entry.", "anchors": ["t3f/ops.py:add", "t3f/ops.py:_add_tensor_cores", "t3f/ops.py:_add_matrix_cores"]}
{"id": "C04", "title": "add() with batches and broadcasting", "statement": "add on batches adds element by element; a batch of size 1 is broadcast to the other batch, a TensorTrain is broadcast to every element of the batch; documented argument orders all work.", "quantifier": "all pairs (batch,batch), (batch,TT), (TT,batch), all batch sizes", "why_tests_cant": "Broadcasting table x ranks x sizes cannot be enumerated; one untested argument order fails.", "anchors": ["t3f/ops.py:_add_batch_tensor_cores", "t3f/ops.py:_add_batch_matrix_cores", "t3f/shapes.py:is_batch_broadcasting_possible"]}
{"id": "C05", "title": "Subtraction and negation", "statement": "full(a-b) = full(a)-full(b) and full(-a) = -full(a), where the operators are implemented with multiply by -1 and add.", "quantifier": "all pairs of TT objects over the reals", "why_tests_cant": "Tests sample a handful of small shapes and ranks; the claim is about every number of cores, every mode size, every TT-rank and every core entry.", "anchors": ["t3f/tensor_train_base.py:__sub__", "t3f/tensor_train_base.py:__neg__"]}
{"id": "C06", "title": "multiply() of two TT objects is the elementwise product", "statement": "full(multiply(a,b))[i] = full(a)[i]*full(b)[i] for same-shaped TT-tensors or TT-matrices; ranks multiply; shape mismatch raises ValueError.", "quantifier": "all pairs, any ranks and sizes", "why_tests_cant": "Tests sample a handful of small shapes and ranks; the claim is about every number of cores, every mode size, every TT-rank and every core entry.", "anchors": ["t3f/ops.py:multiply"]}
{"id": "C07", "title": "multiply() by a number scales the tensor", "statement": "full(multiply(tt,c)) = c*full(tt) for every real c, positive, negative or zero, although the scale |c|^(1/ndims) is spread over all cores and the sign put on the first one.", "quantifier": "all TT objects, all real c", "why_tests_cant": "The factor is a d-th root raised to d over d cores: correct for all real c and all d is an algebraic fact, not a sample.", "anchors": ["t3f/ops.py:multiply"]}
{"id": "C08", "title": "multiply() on batches and broadcasting", "statement": "multiply on batches multiplies element by element when sizes agree, and broadcasts size-1 batches and TensorTrains; incompatible static sizes raise ValueError.", "quantifier": "all batch-size combinations", "why_tests_cant": "Combinatorial in batch sizes, kinds and ranks.", "anchors": ["t3f/ops.py:multiply", "t3f/shapes.py:is_batch_broadcasting_possible"]}
{"id": "C09", "title": "TT-matrix by TT-matrix product", "statement": "full(matmul(A,B)) = full(A) @ full(B) for TT-matrices with matching inner modes; the result ranks are products of ranks; batches broadcast.", "quantifier": "all TT-matrix pairs, any number of cores, modes, ranks", "why_tests_cant": "Tests sample a handful of small shapes and ranks; the claim is about every number of cores, every mode size, every TT-rank and every core entry.", "anchors": ["t3f/ops.py:tt_tt_matmul", "t3f/ops.py:matmul"]}
{"id": "C10", "title": "TT-matrix by dense matrix product", "statement": "matmul(A,B) with dense B returns exactly full(A) @ B of shape (M,P); a misaligned dense matrix is rejected.", "quantifier": "all TT-matrices, all dense matrices of any width", "why_tests_cant": "The implementation is a right-to-left sequence of reshape/einsum steps whose index bookkeeping must be right for every mode tuple.", "anchors": ["t3f/ops.py:tt_dense_matmul"]}
{"id": "C11", "title": "Dense matrix by TT-matrix product", "statement": "matmul(A,B) with dense A returns full product A @ full(B).", "quantifier": "all dense matrices and TT-matrices", "why_tests_cant": "Tests sample a handful of small shapes and ranks; the claim is about every number of cores, every mode size, every TT-rank and every core entry.", "anchors": ["t3f/ops.py:dense_tt_matmul"]}
{"id": "C12", "title": "transpose() transposes", "statement": "full(transpose(A))[i,j] = full(A)[j,i] for a TT-matrix, element by element for batches; transposing twice returns the same object; a TT-tensor raises ValueError.", "quantifier": "all TT-matrices and batches", "why_tests_cant": "Tests sample a handful of small shapes and ranks; the claim is about every number of cores, every mode size, every TT-rank and every core entry.", "anchors": ["t3f/ops.py:transpose"]}
{"id": "C13", "title": "flat_inner() is the inner product", "statement": "flat_inner(a,b) equals the sum over all elements of full(a)*full(b), for TT-tensors and TT-matrices; objects of different kind, with different numbers of cores or different modes raise.", "quantifier": "all pairs of TT objects", "why_tests_cant": "Tests sample a handful of small shapes and ranks; the claim is about every number of cores, every mode size, every TT-rank and every core entry.", "anchors": ["t3f/ops.py:tt_tt_flat_inner", "t3f/ops.py:flat_inner"]}
{"id": "C14", "title": "flat_inner() with batches", "statement": "flat_inner on batches returns the vector of inner products of the corresponding elements, with broadcasting of size-1 batches and TensorTrains.", "quantifier": "all batch combinations", "why_tests_cant": "Combinatorial in kinds and sizes.", "anchors": ["t3f/ops.py:tt_tt_flat_inner"]}
{"id": "C15", "title": "flat_inner() with a sparse tensor", "statement": "flat_inner(tt, sparse) = sum over stored entries of value times the TT element at that position, for tensors (multi-index) and matrices (row, column split by unravel_index).", "quantifier": "all TT objects, all sparse tensors with in-range indices, duplicates allowed", "why_tests_cant": "Tests sample a handful of small shapes and ranks; the claim is about every number of cores, every mode size, every TT-rank and every core entry.", "anchors": ["t3f/ops.py:tt_sparse_flat_inner", "t3f/utils.py:unravel_index"]}
{"id": "C16", "title": "frobenius_norm_squared agrees with the dense norm", "statement": "frobenius_norm_squared(tt) = sum of squares of full(tt), with differentiable=True and with the QR-based default, and per element for batches; frobenius_norm is the square root of that sum plus epsilon. For epsilon >= 0 frobenius_norm(a + b) <= frobenius_norm(a) + frobenius_norm(b) and |flat_inner(a, b)| <= frobenius_norm(a) frobenius_norm(b).", "quantifier": "all TT objects, every correct QR routine", "why_tests_cant": "QR is not unique; must hold for every QR result allowed by its contract.", "anchors": ["t3f/ops.py:frobenius_norm_squared", "t3f/ops.py:frobenius_norm"]}
{"id": "C17", "title": "bilinear_form and quadratic_form", "statement": "bilinear_form(A,b,c) = b^T A c for TT-vectors stored as N x 1 TT-matrices; bilinear_form_two_mat(x,A,B,y) = x^T A B y; batch arguments are broadcast as documented.", "quantifier": "all TT-matrices/vectors, all batch combinations", "why_tests_cant": "Which of the arguments is a batch changes the einsum string; mixed combinations are untested.", "anchors": ["t3f/ops.py:bilinear_form", "t3f/ops.py:bilinear_form_two_mat", "t3f/ops.py:quadratic_form"]}
{"id": "C18", "title": "gather_nd reads the right elements", "statement": "gather_nd(tt, indices)[n] is the element of full(tt) at indices[n], for tensors and batches (first coordinate is the batch index); a wrong last dimension raises ValueError.", "quantifier": "all TT-tensors and in-range index lists, index arrays of 2 or more dimensions as documented", "why_tests_cant": "Tests sample a handful of small shapes and ranks; the claim is about every number of cores, every mode size, every TT-rank and every core entry.", "anchors": ["t3f/ops.py:gather_nd"]}
{"id": "C19", "title": "Slicing a TensorTrain", "statement": "full(tt[i1,...,id]) equals full(tt)[i1,...,id] for every combination of integers and slices, including leading, trailing and interleaved collapsed dimensions.", "quantifier": "all TT-tensors, all index tuples of ints (negative allowed) and slices", "why_tests_cant": "2^d patterns of collapsed dimensions times slice bounds; one pattern (all ints) crashes.", "anchors": ["t3f/tensor_train.py:__getitem__"]}
{"id": "C20", "title": "Indexing a TensorTrainBatch", "statement": "b[o] is the TensorTrain whose full is full(b)[o]; b[s] for a slice is the batch of the selected elements; b[o,i1..id] and b[s,i1..id] agree with dense indexing.", "quantifier": "all batches, all index specs", "why_tests_cant": "Tests sample a handful of small shapes and ranks; the claim is about every number of cores, every mode size, every TT-rank and every core entry.", "anchors": ["t3f/tensor_train_batch.py:__getitem__", "t3f/tensor_train_batch.py:_full_getitem"]}
{"id": "C21", "title": "Constructor accepts exactly consistent cores", "statement": "TensorTrain/TensorTrainBatch construction succeeds only if the cores chain (right rank of each equals left rank of the next, boundary ranks 1, mode sizes and batch sizes agree with what is given), and then get_raw_shape/get_tt_ranks/batch_size/ndims describe the cores; otherwise ValueError.", "quantifier": "all lists of core tensors, all given shapes, ranks, batch sizes", "why_tests_cant": "Negative space: all malformed inputs.", "anchors": ["t3f/tensor_train.py:__init__", "t3f/tensor_train.py:_are_tt_cores_valid", "t3f/tensor_train_batch.py:__init__", "t3f/tensor_train_batch.py:_are_batch_tt_cores_valid"]}
{"id": "C22", "title": "Shape arguments are interpreted as documented", "statement": "A shape given as a list, array or TensorShape(s) describes the same object: a list of mode sizes is a TT-tensor of that many cores, a pair of lists is a TT-matrix.", "quantifier": "all shapes, including one core", "why_tests_cant": "Depends on np.squeeze corner cases at one core, which no test uses.", "anchors": ["t3f/shapes.py:clean_raw_shape", "t3f/initializers.py:_validate_input_parameters"]}
{"id": "C23", "title": "Batch squeeze/expand", "statement": "expand_batch_dim(tt) is a batch of size 1 whose only element is tt; squeeze_batch_dim undoes it and leaves batches of other sizes alone.", "quantifier": "all TT objects", "why_tests_cant": "Tests sample a handful of small shapes and ranks; the claim is about every number of cores, every mode size, every TT-rank and every core entry.", "anchors": ["t3f/shapes.py:squeeze_batch_dim", "t3f/shapes.py:expand_batch_dim"]}
{"id": "C24", "title": "concat_along_batch_dim", "statement": "The result's element o is the o-th element of the sequence of all elements of the arguments in order (TensorTrains count as one element); ValueError on different shapes, kinds or ranks.", "quantifier": "all nonempty lists of TT objects", "why_tests_cant": "Tests sample a handful of small shapes and ranks; the claim is about every number of cores, every mode size, every TT-rank and every core entry.", "anchors": ["t3f/batch_ops.py:concat_along_batch_dim"]}
{"id": "C25", "title": "multiply_along_batch_dim", "statement": "full(multiply_along_batch_dim(b,w))[o] = w[o]*full(b)[o].", "quantifier": "all batches and weight vectors", "why_tests_cant": "Tests sample a handful of small shapes and ranks; the claim is about every number of cores, every mode size, every TT-rank and every core entry.", "anchors": ["t3f/batch_ops.py:multiply_along_batch_dim"]}
{"id": "C26", "title": "pairwise_flat_inner and gram_matrix", "statement": "pairwise_flat_inner(a,b)[i,j] = <a[i], b[j]>, with a matrix in between: <a[i], M b[j]>; gram_matrix(a)[i,j] = <a[i], a[j]>; the result is a matrix with batch-size sides. Over the reals gram_matrix(a) is symmetric and positive semidefinite, and definite exactly when the elements of a are linearly independent.", "quantifier": "all pairs of batches incl. size 1", "why_tests_cant": "Size-1 batches hit an unconditional squeeze.", "anchors": ["t3f/batch_ops.py:pairwise_flat_inner", "t3f/batch_ops.py:gram_matrix"]}
{"id": "C27", "title": "orthogonalize_tt_cores keeps the tensor", "statement": "full(orthogonalize_tt_cores(tt)) = full(tt) in either direction, for tensors, matrices, batches.", "quantifier": "all TT objects, every correct QR routine (any sign/permutation freedom)", "why_tests_cant": "Must hold for every QR satisfying its contract.", "anchors": ["t3f/decompositions.py:orthogonalize_tt_cores", "t3f/decompositions.py:_orthogonalize_tt_cores_left_to_right", "t3f/decompositions.py:_orthogonalize_tt_cores_right_to_left", "t3f/decompositions.py:_orthogonalize_batch_tt_cores_left_to_right"]}
{"id": "C28", "title": "orthogonalize_tt_cores orthogonalizes", "statement": "After left-to-right orthogonalization every core but the last has an unfolding with orthonormal columns; after right-to-left every core but the first has orthonormal rows; ranks never grow and equal the min of the old rank and the unfolding side.", "quantifier": "all TT objects, every correct QR routine", "why_tests_cant": "Same.", "anchors": ["t3f/decompositions.py:orthogonalize_tt_cores"]}
{"id": "C29", "title": "to_tt_tensor represents the dense tensor", "statement": "With no rank truncation (max_tt_rank large enough) full(to_tt_tensor(x)) = x exactly; in general the squared Frobenius error is at most the sum over the unfoldings of the squared discarded singular values; resulting ranks are at most max_tt_rank and at most the two unfolding sides.", "quantifier": "all dense tensors with at least two axes, all max_tt_rank, every correct SVD routine", "why_tests_cant": "An error bound over all tensors and all SVDs.", "anchors": ["t3f/decompositions.py:to_tt_tensor"]}
{"id": "C30", "title": "to_tt_matrix represents the dense matrix", "statement": "With no rank truncation full(to_tt_matrix(M, shape)) = M for every way of factoring the two sides; shape=None parts default to ones.", "quantifier": "all matrices, all factorizations with at least two cores", "why_tests_cant": "Tests sample a handful of small shapes and ranks; the claim is about every number of cores, every mode size, every TT-rank and every core entry.", "anchors": ["t3f/decompositions.py:to_tt_matrix"]}
{"id": "C31", "title": "round() keeps the tensor when ranks suffice", "statement": "If max_tt_rank is at least every TT-rank then full(round(tt, max_tt_rank)) = full(tt); the result has ranks at most max_tt_rank and its shape is unchanged.", "quantifier": "all TT objects, all rank bounds (int or list), every correct QR and SVD", "why_tests_cant": "Universally quantified over oracles.", "anchors": ["t3f/decompositions.py:round", "t3f/decompositions.py:_round_tt", "t3f/decompositions.py:_round_batch_tt"]}
{"id": "C32", "title": "round() error bound", "statement": "In general ||full(round(tt))-full(tt)||^2 is at most the sum over cuts of squared discarded singular values, and at most (d-1) times the best possible squared error at those ranks.", "quantifier": "all TT objects, all rank bounds, every correct QR and SVD", "why_tests_cant": "Bound over all inputs.", "anchors": ["t3f/decompositions.py:_round_tt"]}
{"id": "C33", "title": "round()/to_tt argument handling", "statement": "max_tt_rank may be an int or a list of ndims+1 ints; values below 1, wrong lengths and negative epsilon raise ValueError; leaving max_tt_rank at its default means no rank restriction.", "quantifier": "all argument values", "why_tests_cant": "The documented default and np.inf are not exercised.", "anchors": ["t3f/decompositions.py:round", "t3f/decompositions.py:_round_tt", "t3f/decompositions.py:_round_batch_tt", "t3f/decompositions.py:to_tt_tensor"]}
{"id": "C34", "title": "approximate.add_n", "statement": "add_n sums a list of TT objects with rounding after every addition; when the rank bound never truncates, full(add_n(l)) is the sum of all full(l[i]); ValueError/NotImplemented on mixed kinds as documented.", "quantifier": "all nonempty lists of TT objects of equal shape, any length (binary tree with odd levels)", "why_tests_cant": "Any list length; tree shape depends on it.", "anchors": ["t3f/approximate.py:add_n", "t3f/approximate.py:reduce_sum_batch"]}
{"id": "C35", "title": "approximate.reduce_sum_batch", "statement": "reduce_sum_batch(b, coef) is sum_o coef[o]*b[o] (or one such sum per column of coef) when the rank bound never truncates.", "quantifier": "all batches and coefficient vectors/matrices, any batch size", "why_tests_cant": "Any batch size; odd levels pad with zeros.", "anchors": ["t3f/approximate.py:reduce_sum_batch"]}
{"id": "C36", "title": "Constant initializers", "statement": "tensor_ones, tensor_zeros, matrix_ones, matrix_zeros, eye, ones_like, zeros_like represent exactly the all-ones, all-zeros and identity objects of the requested shape with all ranks 1.", "quantifier": "all shapes", "why_tests_cant": "Tests sample a handful of small shapes and ranks; the claim is about every number of cores, every mode size, every TT-rank and every core entry.", "anchors": ["t3f/initializers.py:tensor_ones", "t3f/initializers.py:tensor_zeros", "t3f/initializers.py:eye", "t3f/initializers.py:matrix_ones", "t3f/initializers.py:matrix_zeros", "t3f/initializers.py:ones_like", "t3f/initializers.py:zeros_like"]}
{"id": "C37", "title": "Initializer argument validation and result shape", "statement": "Random initializers return an object with exactly the requested shape, batch size and ranks (an int rank r gives ranks (1,r,...,r,1)); malformed shapes, ranks below 1 or of wrong length raise ValueError.", "quantifier": "all argument values", "why_tests_cant": "Negative space.", "anchors": ["t3f/initializers.py:_validate_input_parameters", "t3f/initializers.py:tensor_with_random_cores", "t3f/initializers.py:matrix_with_random_cores", "t3f/initializers.py:tensor_batch_with_random_cores", "t3f/initializers.py:matrix_batch_with_random_cores"]}
{"id": "C38", "title": "random_tensor / random_matrix second moments", "statement": "With independent core entries of the chosen core standard deviation every element of full(random_tensor(shape, rank, mean, stddev)) has mean `mean` and variance stddev^2; glorot/he/lecun give the advertised variances.", "quantifier": "all shapes, ranks, stddev > 0", "why_tests_cant": "A statistical test only samples; the formula must hold for all shapes and ranks.", "anchors": ["t3f/initializers.py:random_tensor", "t3f/initializers.py:random_matrix", "t3f/initializers.py:glorot_initializer", "t3f/initializers.py:he_initializer", "t3f/initializers.py:lecun_initializer"]}
{"id": "C39", "title": "Kronecker determinant", "statement": "determinant(K) is the determinant of full(K) for a Kronecker-product TT-matrix with square cores; slog_determinant gives sign and log|det| of the same; non-Kronecker or non-square arguments raise ValueError.", "quantifier": "all rank-1 TT-matrices with square cores", "why_tests_cant": "Tests sample a handful of small shapes and ranks; the claim is about every number of cores, every mode size, every TT-rank and every core entry.", "anchors": ["t3f/kronecker.py:determinant", "t3f/kronecker.py:slog_determinant"]}
{"id": "C40", "title": "Kronecker inverse and Cholesky", "statement": "full(inv(K)) is the two-sided inverse of full(K) when all cores are invertible; L=full(cholesky(K)) is lower triangular with positive diagonal and L L^T = full(K).", "quantifier": "all rank-1 TT-matrices with invertible / SPD cores", "why_tests_cant": "Tests sample a handful of small shapes and ranks; the claim is about every number of cores, every mode size, every TT-rank and every core entry.", "anchors": ["t3f/kronecker.py:inv", "t3f/kronecker.py:cholesky"]}
{"id": "C41", "title": "unravel_index", "statement": "unravel_index inverts row-major flattening for every shape and in-range index.", "quantifier": "all shapes, all in-range indices", "why_tests_cant": "Tests sample a handful of small shapes and ranks; the claim is about every number of cores, every mode size, every TT-rank and every core entry.", "anchors": ["t3f/utils.py:unravel_index"]}
{"id": "C42", "title": "renormalize_tt_cores keeps the tensor", "statement": "full(renormalize_tt_cores(tt)) = full(tt), for every epsilon; when no core norm is below epsilon all cores of the result have the same Frobenius norm.", "quantifier": "all TT objects and batches over the reals", "why_tests_cant": "d-th roots and logs of products over any number of cores.", "anchors": ["t3f/ops.py:renormalize_tt_cores"]}
{"id": "C43", "title": "project() is the orthogonal projection on the tangent space", "statement": "project(z,x) lies in the tangent space of x, project(x,x)=x, project is linear in z, idempotent, and <project(z,x), t> = <z,t> for every tangent t; ||z||^2 = ||project(z,x)||^2 + ||z - project(z,x)||^2.", "quantifier": "all z, x of equal shape with at least two cores, every correct QR", "why_tests_cant": "Projector laws are universally quantified over z, x and the QR routine.", "anchors": ["t3f/riemannian.py:project"]}
{"id": "C44", "title": "project_sum, project_matmul", "statement": "project_sum(what, where, w) = sum_o w[o]*project(what[o], where); project_matmul(what, where, M)[o] = project(M what[o], where).", "quantifier": "all batches, weights, matrices", "why_tests_cant": "Tests sample a handful of small shapes and ranks; the claim is about every number of cores, every mode size, every TT-rank and every core entry.", "anchors": ["t3f/riemannian.py:project_sum", "t3f/riemannian.py:project_matmul"]}
{"id": "C45", "title": "pairwise_flat_inner_projected", "statement": "For batches of projections on one tangent space pairwise_flat_inner_projected equals pairwise_flat_inner of the same arguments; of a batch with itself it is a symmetric positive semidefinite matrix, definite exactly when the elements are linearly independent.", "quantifier": "all pairs of projected batches", "why_tests_cant": "Depends on block structure of ranks, wrong for rank-deficient tangent points.", "anchors": ["t3f/riemannian.py:pairwise_flat_inner_projected"]}
{"id": "C46", "title": "add_n_projected", "statement": "add_n_projected(list, coef) represents sum_i coef[i]*list[i] for objects projected on one tangent space, without rank growth.", "quantifier": "all lists of projections", "why_tests_cant": "Tests sample a handful of small shapes and ranks; the claim is about every number of cores, every mode size, every TT-rank and every core entry.", "anchors": ["t3f/riemannian.py:add_n_projected"]}
{"id": "C47", "title": "deltas round trip", "statement": "tangent_space_to_deltas(project(z,x)) returns the delta cores, and deltas_to_tangent_space(deltas, x) rebuilds the same tangent tensor.", "quantifier": "all tangent tensors, all tangent points incl. rank-deficient ones", "why_tests_cant": "Tests sample a handful of small shapes and ranks; the claim is about every number of cores, every mode size, every TT-rank and every core entry.", "anchors": ["t3f/riemannian.py:tangent_space_to_deltas", "t3f/riemannian.py:deltas_to_tangent_space"]}
{"id": "C48", "title": "Riemannian gradient", "statement": "gradients(f,x) is the projection of the Euclidean gradient of f onto the tangent space at x, for every differentiable f of the represented tensor.", "quantifier": "all differentiable functions and points", "why_tests_cant": "Quantifies over functions.", "anchors": ["t3f/autodiff.py:gradients", "t3f/autodiff.py:_enforce_gauge_conditions"]}
{"id": "C49", "title": "get_variable / reuse", "statement": "get_variable creates one variable per core under the given name; a second creation with the same name without reuse raises ValueError; with reuse it returns the same object; a failed call changes no other variable.", "quantifier": "all call histories of the variable store", "why_tests_cant": "Histories of calls are unbounded.", "anchors": ["t3f/variables.py:get_variable"]}
{"id": "C50", "title": "assign", "statement": "assign(var, value) makes full(var) equal to full(value) and leaves every other variable unchanged; a failing assign leaves var unchanged.", "quantifier": "all stores, all values, failure at any core", "why_tests_cant": "Crash point inside the loop over cores.", "anchors": ["t3f/variables.py:assign"]}
{"id": "C51", "title": "cast keeps structure", "statement": "cast(tt,dtype) applies the dtype conversion to every core entry and keeps shape, ranks, batch size and kind.", "quantifier": "all TT objects", "why_tests_cant": "Tests sample a handful of small shapes and ranks; the claim is about every number of cores, every mode size, every TT-rank and every core entry.", "anchors": ["t3f/ops.py:cast"]}
{"id": "C52", "title": "Static and dynamic shape functions agree", "statement": "lazy_tt_ranks/lazy_shape/lazy_raw_shape/lazy_batch_size agree with tt_ranks/shape/raw_shape/batch_size for every constructed object, whatever part of the static shape is known.", "quantifier": "all objects, every pattern of statically unknown dimensions", "why_tests_cant": "Patterns of unknown dimensions are not enumerable.", "anchors": ["t3f/shapes.py:lazy_tt_ranks", "t3f/shapes.py:lazy_shape", "t3f/shapes.py:lazy_raw_shape", "t3f/shapes.py:lazy_batch_size", "t3f/shapes.py:tt_ranks", "t3f/shapes.py:shape", "t3f/shapes.py:raw_shape"]}
{"id": "C53", "title": "Operations keep objects valid", "statement": "Every successful operation returns an object that the constructor accepts: chained ranks, boundary ranks 1, stored shape and ranks equal to those of the cores.", "quantifier": "all sequences of operations", "why_tests_cant": "Histories of operations.", "anchors": ["t3f/ops.py", "t3f/decompositions.py", "t3f/riemannian.py"]}
{"id": "C54", "title": "Dense layer", "statement": "nn.KerasDense computes x @ full(W) + b followed by the activation.", "quantifier": "all inputs and weights", "why_tests_cant": "Tests sample a handful of small shapes and ranks; the claim is about every number of cores, every mode size, every TT-rank and every core entry.", "anchors": ["t3f/nn.py:KerasDense"]}
{"id": "C55", "title": "Regularizers", "statement": "cores_regularizer(f, s)(tt) is s times the sum of f over the cores; l2_regularizer(s)(tt) is s times the squared Frobenius norm; integer and negative scales are rejected with ValueError, scale 0.0 disables the regularizer.", "quantifier": "all TT objects, all scales", "why_tests_cant": "Tests sample a handful of small shapes and ranks; the claim is about every number of cores, every mode size, every TT-rank and every core entry.", "anchors": ["t3f/regularizers.py:cores_regularizer", "t3f/regularizers.py:l2_regularizer"]}
{"id": "C56", "title": "Programs refine dense programs", "statement": "A program made of library calls (constructors, indexing, arithmetic, transpose, matmul, inv, cholesky, orthogonalization, rounding and conversions whose rank limits suffice, batch functions, approximate sums, constants, random arrays with given drawn numbers, projections on tangent spaces and their sums, Riemannian gradients and Hessian-by-vector products) computes the same arrays as the same program over dense arrays: if the dense program is defined, no call raises and full() of every result is the dense value. So the dense results depend neither on the TT representation of the inputs nor on the QR, SVD, inversion, Cholesky and differentiation routines.", "quantifier": "all finite programs, all inputs, all TT representations of the inputs, all QR/SVD/inverse/Cholesky routines meeting their contract", "why_tests_cant": "Unbounded compositions of operations, and all representations of the same tensor.", "anchors": ["t3f/ops.py", "t3f/batch_ops.py", "t3f/decompositions.py", "t3f/approximate.py", "t3f/kronecker.py", "t3f/initializers.py", "t3f/riemannian.py", "t3f/autodiff.py", "t3f/tensor_train.py", "t3f/tensor_train_batch.py"]}
{"id": "C57", "title": "Rounding error of full and gather_nd", "statement": "Computed in floating point arithmetic with unit roundoff u, every element of full(tt) differs from the exact element by at most ((1+u)^n - 1) times the same element of the TT with the absolute values of the cores, where n is the sum of the interior TT-ranks; for gather_nd n is the sum of the ranks to the left of the cores. If no core element is negative this is a relative error bound; the bound is attained; (1+u)^n - 1 <= nu/(1-nu).", "quantifier": "all TT objects, all unit roundoffs, all floating point matmul and einsum routines (any order of summation, fused or not) without overflow and underflow", "why_tests_cant": "Tests sample a few inputs and compare with a tolerance; the claim bounds the rounding error for every input, every shape and rank, every order of summation and every unit roundoff.", "anchors": ["t3f/ops.py:full", "t3f/ops.py:_full_tt", "t3f/ops.py:_full_tt_batch", "t3f/ops.py:gather_nd"]}
{"id": "C58", "title": "Rounding error of inner products and norms", "statement": "Computed in floating point arithmetic with unit roundoff u, flat_inner(a, b) differs from the exact inner product by at most ((1+u)^n - 1) times the inner product of the tensors given by the absolute values of the cores, n being the sum over the axes of rank(a) * rank(b) * (positions of the axis) plus ndims - 1; the same holds for the differentiable frobenius_norm_squared.", "quantifier": "all TT objects and batches, all unit roundoffs, all floating point einsum routines without overflow and underflow", "why_tests_cant": "Tests sample a few inputs and compare with a tolerance; the claim bounds the rounding error for every input, every shape and rank, every order of summation and every unit roundoff.", "anchors": ["t3f/ops.py:tt_tt_flat_inner", "t3f/ops.py:frobenius_norm_squared"]}
{"id": "C59", "title": "Rounding error of expressions", "statement": "For every expression made of +, elementwise *, matrix products and transposes of TT objects, computed in floating point, each element of the result differs from the exact one by at most ((1+u)^n - 1) times the element of the expression with absolute values, n being the sum over the cores of the nested roundings (+ : maximum, * : sum plus 1, matmul: sum plus the number of columns, transpose: none). Converting the result by full or taking inner products adds the roundings of C57 and C58. Products of a TT-matrix with a dense matrix have a bound of this kind too.", "quantifier": "all expressions of any depth, all operands, all unit roundoffs, all floating point matmul and einsum routines without overflow and underflow", "why_tests_cant": "Tests sample a few inputs and compare with a tolerance; the claim bounds the rounding error for every input, every shape and rank, every order of summation and every unit roundoff.", "anchors": ["t3f/ops.py:add", "t3f/ops.py:multiply", "t3f/ops.py:tt_tt_matmul", "t3f/ops.py:transpose", "t3f/ops.py:tt_dense_matmul", "t3f/ops.py:dense_tt_matmul"]}
{"id": "C60", "title": "Riemannian functions depend on the tensors only", "statement": "If x and y represent the same tensor and their TT-ranks are those of the tensor (no factor of an unfolding has dependent columns), then x and y have equal TT-ranks, no representation has smaller ones, the tangent spaces are the same set, and project, project_sum, project_matmul, gradients and hessian_vector_product give the same tensors for x and y, whatever representations the other arguments have and whatever QR and gradient routines are used. With larger TT-ranks this fails: the same tensor stored with TT-rank 2 instead of 1 gives another projection.", "quantifier": "all pairs of representations of all shapes and ranks, all projected tensors and batches, all weights, all matrices, all differentiable functions, all QR and gradient routines meeting their contracts", "why_tests_cant": "A test compares a few representations of a few tensors with one QR routine; the claim is about all of them, and about equality of the tangent spaces as sets.", "anchors": ["t3f/riemannian.py:project", "t3f/riemannian.py:project_sum", "t3f/riemannian.py:project_matmul", "t3f/autodiff.py:gradients", "t3f/autodiff.py:hessian_vector_product"]}
{"id": "C61", "title": "Arithmetic work of inner products", "statement": "The numbers of operations stated in the docstrings hold: flat_inner takes at most 2 B d r1 r2 n max(r1, r2) multiplications (hence O(B d r^3 n)), pairwise_flat_inner the same with B the product of the batch sizes, with a matrix B^2 d R r1 r2 (n r1 + n m R + m r2), gram_matrix accordingly, and bilinear_form B d rA rb rc (n rb + n m rA + m rc), if every tf.einsum contracts two tensors at a time in an order with the fewest multiplications. The order never changes the result. In an arbitrary order flat_inner takes at most 2 B d r1^2 r2^2 n. If tf.einsum picks its order greedily by the memory a contraction frees, no constant C makes C d r^3 n suffice: for n > (r^2+1)/2 the two cores are contracted first, which takes n r^4 multiplications.", "quantifier": "all TT objects and batches of all shapes, ranks and batch sizes; all einsum equations and all orders of contraction", "why_tests_cant": "Tests measure no operation counts; the bounds are for all sizes at once and the failure of the greedy order shows only for large axes.", "anchors": ["t3f/ops.py:tt_tt_flat_inner", "t3f/ops.py:bilinear_form", "t3f/batch_ops.py:gram_matrix", "t3f/batch_ops.py:pairwise_flat_inner"]}
{"id": "C62", "title": "Arithmetic work of orthogonalization and Riemannian operations", "statement": "With c m n min(m, n) operations for the QR decomposition of an m x n matrix and every tf.einsum done in an order with the fewest multiplications, the numbers of operations in the docstrings hold: orthogonalize_tt_cores takes at most (c+1) B d r^3 n operations in either direction; project at most 2(c+1) d w^3 n + 4 B d z w n (z+w) for TT-ranks w of where and z of what; project_sum the same with 5 in place of 4 when the weights are absent or a vector; project_matmul at most 2(c+1) d w^3 n + 5 B d R z w k (n z + n m R + m w), k the number of columns of a core of what; pairwise_flat_inner_projected at most 3 B1 B2 d r^2 n. For project_sum with a matrix of weights of O columns there is a further term O B d w^2 n, and no multiple of the documented bound suffices.", "quantifier": "all TT objects and batches of all shapes, ranks and batch sizes; all QR routines meeting the contract; all weights", "why_tests_cant": "Tests measure no operation counts; the bounds are for all sizes at once and the missing term shows only for many columns of weights.", "anchors": ["t3f/decompositions.py:orthogonalize_tt_cores", "t3f/riemannian.py:project", "t3f/riemannian.py:project_sum", "t3f/riemannian.py:project_matmul", "t3f/riemannian.py:pairwise_flat_inner_projected"]}
{"id": "C63", "title": "Text of an object", "statement": "str(tt) names the class (tensor or matrix, single or batch), whether the object is a variable, the batch size ('(?)' if unknown), the shape (for matrices also the numbers of rows and columns, in decimal) and the TT-ranks, unknown dimensions as None; two objects have the same text exactly when these agree; the text exists for every object.", "quantifier": "all TT objects with statically known or partly unknown shapes", "why_tests_cant": "Tests compare no texts; that different objects have different texts is a statement about all pairs of shapes and ranks.", "anchors": ["t3f/tensor_train.py:TensorTrain.__str__", "t3f/tensor_train_batch.py:TensorTrainBatch.__str__"]}
{"id": "C64", "title": "Replacing tf.linalg.svd by NumPy's", "statement": "After utils.replace_tf_svd_with_np_svd(), tf.linalg.svd is a singular value decomposition in TensorFlow's conventions (s, u, v with x = u diag(s) v^T) for matrices and batches of matrices with any number of batch axes and both values of full_matrices, so that everything proved about TT-SVD and rounding still holds; calling it again changes nothing and the original routine stays available.", "quantifier": "all tensors with two or more axes, all np.linalg.svd meeting its contract, any number of calls", "why_tests_cant": "No test calls the function; the claim is about all shapes and numbers of batch axes.", "anchors": ["t3f/utils.py:replace_tf_svd_with_np_svd"]}
{"id": "C65", "title": "The Riemannian gradient descent program of the tutorial", "statement": "The program of docs/tutorials/riemannian.ipynb (gradient = project(X - A, X); X.assign(round(X - alpha * gradient, max_tt_rank)); returns 0.5 * frobenius_norm_squared(X - A)) can be run any number of times: no step raises, each returns the loss at the new X, X stays a variable of the same shape and TT-ranks, A and the other variables keep their values. Each step moves along the Riemannian gradient (the loss before rounding is exactly the one of the projected gradient step) and rounds quasi-optimally; at every non-stationary point all small enough steps decrease the loss; stationary points stay.", "quantifier": "all TT-tensors and TT-matrices X, A of one shape with two or more cores, all steps alpha, all numbers of iterations, all QR and SVD routines meeting their contracts", "why_tests_cant": "The notebook runs one random example; descent and the invariants of the loop are statements about all points, step sizes and decompositions.", "anchors": ["docs/tutorials/riemannian.ipynb", "t3f/riemannian.py:project", "t3f/variables.py:assign", "t3f/decompositions.py:round", "t3f/ops.py:frobenius_norm_squared"]}
{"id": "C66", "title": "Compressing a dense layer", "statement": "Decomposing the matrix of a trained dense layer with to_tt_matrix and setting the cores and the bias as weights of a KerasDense layer (docs/tutorials/tensor_nets.ipynb) works whenever the TT-rank is at most the product of the mode sizes of the first and of the last core, otherwise set_weights raises ValueError and writes nothing. Afterwards the layer computes activation(x Wtt + b), where Wtt is within the TT-SVD error bound of W; the outputs before the activation differ from those of the dense layer by at most the norm of x times that of W - Wtt, and not at all if W has TT-ranks at most tt_rank. The layer has the sum of r_k m_k n_k r_{k+1} plus prod(n) parameters (1725 for the layer of the notebook).", "quantifier": "all factorings with two or more cores, all TT-ranks, weights, biases, inputs, activations, and all SVD routines meeting their contract", "why_tests_cant": "The notebook runs one network once; no test sets the weights of a layer from a decomposition.", "anchors": ["docs/tutorials/tensor_nets.ipynb", "t3f/nn.py:KerasDense", "t3f/decompositions.py:to_tt_matrix"]}
{"id": "C67", "title": "Tensor completion", "statement": "The programs of docs/tutorials/tensor_completion.ipynb: the loss under the mask and the loss from gather_nd are the mean squared error over the observed cells, and are equal if the listed cells are distinct and are the observed ones (a cell listed twice counts twice, and contrary to the comment in the notebook at least 99 of 100 arrays drawn there have a repetition). Both losses are differentiable in the cores; the gradient in a core entry is the mean of 2 (estimate - value) times the derivative of the entry. Any number of steps with any optimizer never raises, keeps shape and ranks of the variable and all other variables, and records the loss before and the test loss after each update. With plain gradient descent, unless the gradients vanish, a step decreases the loss for all small learning rates. Core entries of a slice in which nothing was observed never change under gradient descent.", "quantifier": "all shapes, ranks, observed sets, values, numbers of steps, optimizers and gradient tapes meeting their contracts", "why_tests_cant": "The notebook is one run on random data; the losses are compared with nothing.", "anchors": ["docs/tutorials/tensor_completion.ipynb", "t3f/ops.py:gather_nd", "t3f/ops.py:full", "t3f/variables.py:get_variable"]}
{"id": "C68", "title": "Rounding errors of bilinear forms and sparse inner products", "statement": "In floating point, bilinear_form(A, b, c) (one pair of vectors or a batch), bilinear_form_two_mat(x, A, B, y) (no batches) and flat_inner of a TT-tensor or TT-matrix with a SparseTensor never raise where the exact functions do not, and differ from the exact value by at most ((1+u)^n - 1) times the same computation on absolute values, where n depends on ranks, shapes and the number of nonzeros only.", "quantifier": "all TT objects of any number of cores, shapes and ranks, all sparse tensors, all orders of summation and all roundings of relative error at most u", "why_tests_cant": "Tests compare with a tolerance on a few random inputs; the bound holds for all inputs and all summation orders a backend may choose.", "anchors": ["t3f/ops.py:bilinear_form", "t3f/ops.py:bilinear_form_two_mat", "t3f/ops.py:tt_sparse_flat_inner"]}
{"id": "C69", "title": "The quick start program", "statement": "The program of docs/quick_start.ipynb: a 3 x 4 matrix and a 3 x 2 x 2 tensor are converted to TT-rank 3 and back unchanged; sum, elementwise product, double and matrix-vector product in the TT-format agree with the dense ones for all inputs; the printed ranks are 3, 2, 6 and 3 for every data; rounding finds the closest tensor of the smaller rank, and the printed difference is that between the exact and the rounded product.", "quantifier": "all data, random samples, shapes, ranks (the printed numbers: for the sizes of the notebook and all data), all QR and SVD routines meeting their contracts", "why_tests_cant": "The notebook is one run on random data; that rounding is the best approximation cannot be seen from the printed norm.", "anchors": ["docs/quick_start.ipynb", "t3f/decompositions.py:round", "t3f/decompositions.py:to_tt_tensor", "t3f/ops.py:frobenius_norm"]}
{"id": "C70", "title": "TT-SVD with an inexact SVD", "statement": "If every singular value decomposition that to_tt_tensor or to_tt_matrix computes is backward stable with relative error delta (it is within delta of the exact decomposition of a matrix within delta of the given one), the result has the same shape and TT-ranks as with an exact one, and its distance from the input is at most the square root of the sum of the squared discarded singular values (hence at most sqrt(d-1) times the best possible distance at these ranks) plus a loss of at most 14 d^(3/2) delta times the norm of the input; without truncation only the loss remains.", "quantifier": "all tensors and matrices of any number (>= 2) of axes and positive sizes, all rank arguments, all delta >= 0 (the bound by 14 d^(3/2) delta: 3 d delta <= 1), all SVD routines meeting the contract", "why_tests_cant": "Tests use one SVD routine on a few small tensors with a fixed tolerance; the growth of the error with the number of axes, for every backward stable routine, is a statement about all of them.", "anchors": ["t3f/decompositions.py:to_tt_tensor", "t3f/decompositions.py:_to_tt_tensor", "t3f/decompositions.py:to_tt_matrix"]}
{"id": "C71", "title": "Orthogonalization and Frobenius norm with an inexact QR decomposition", "statement": "If every QR decomposition that orthogonalize_tt_cores computes is backward stable with relative error delta (q is within delta of a matrix with orthonormal columns, whose product with r is within delta of the given matrix), then: shapes and TT-ranks are those of the exact routine; the represented tensor moves by at most ((1+delta)^(2(d-1)) - 1) P, where P is the product of the norms of the cores; every core but the last (first, from right to left) is within delta of an orthonormal one; and frobenius_norm (default branch) is within ((1+delta)^(d-1) - 1) P of the true norm. There is no bound relative to the norm of the tensor itself.", "quantifier": "all TT-tensors and TT-matrices of any ndims, shapes and ranks, batches (left to right), all delta >= 0, all QR routines meeting the contract", "why_tests_cant": "Tests use one QR routine on a few well-scaled random tensors with a fixed tolerance; cancellation between the cores, where the relative error of the norm is unbounded, does not occur in them.", "anchors": ["t3f/decompositions.py:orthogonalize_tt_cores", "t3f/decompositions.py:_orthogonalize_tt_cores_left_to_right", "t3f/decompositions.py:_orthogonalize_batch_tt_cores_left_to_right", "t3f/decompositions.py:_orthogonalize_tt_cores_right_to_left", "t3f/ops.py:frobenius_norm_squared", "t3f/ops.py:frobenius_norm"]}
{"id": "C72", "title": "Rounding with inexact QR and singular value decompositions", "statement": "If every QR decomposition and every singular value decomposition that round computes is backward stable with relative error delta, then round succeeds with the same shapes and TT-ranks as with exact routines, and its result is within sqrt(sum of the discarded squared singular values of the unfoldings) + L P of the argument, hence within sqrt(d-1) times the distance to any TT object of the allowed ranks + L P, and within L P if the argument has a representation with the allowed ranks. P is the product of the norms of the cores; L depends on delta and the number d of cores only, is 0 for delta = 0 and at most 56 d sqrt(d) delta when 9 d delta <= 1. There is no bound relative to the norm of the tensor itself.", "quantifier": "all TT-tensors, TT-matrices and batches of any ndims, shapes and ranks, all rank arguments that are accepted, all delta >= 0, all QR and SVD routines meeting the contracts", "why_tests_cant": "Tests use one QR and one SVD routine on a few well-scaled random tensors with a fixed tolerance; they cannot bound how the errors of the decompositions accumulate over any number of cores, and cancellation between the cores does not occur in them.", "anchors": ["t3f/decompositions.py:round", "t3f/decompositions.py:_round_tt", "t3f/decompositions.py:_round_batch_tt", "t3f/decompositions.py:orthogonalize_tt_cores"]}
{"id": "C73", "title": "The error of rounding and TT-SVD is orthogonal to the result", "statement": "For round, to_tt_tensor and to_tt_matrix with any accepted rank bound, the difference between the argument and the result is orthogonal to the result as dense arrays (for every element of a batch). Hence ||argument||^2 = ||result||^2 + ||argument - result||^2, frobenius_norm_squared of the rounded object is never larger than that of the argument, flat_inner(t, round(t)) = flat_inner(round(t), round(t)), and rounding that keeps the norm changes no entry. Rounding the result again with the same arguments, even with other QR and SVD routines, gives the same array. The norm of a sum computed by approximate.add_n is at most the sum of the norms of the summands (elementwise for batches), whatever its roundings cut off; likewise reduce_sum_batch, each norm weighted by the absolute value of the coefficient.", "quantifier": "all TT-tensors, TT-matrices and batches of any ndims, shapes and ranks, all dense tensors and matrices with at least two axes, all accepted rank arguments, every correct QR and SVD, all nonempty lists of TensorTrains or of batches of one shape", "why_tests_cant": "Tests compare the result with the argument only where the ranks suffice for an exact result; the identities concern truncating roundings of arbitrary tensors.", "anchors": ["t3f/decompositions.py:round", "t3f/decompositions.py:_round_tt", "t3f/decompositions.py:_round_batch_tt", "t3f/decompositions.py:to_tt_tensor", "t3f/decompositions.py:to_tt_matrix", "t3f/approximate.py:add_n", "t3f/approximate.py:reduce_sum_batch"]}
