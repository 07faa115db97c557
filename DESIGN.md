# Formal model of t3f (Bihaqo/t3f) in Rocq

Source: `/repo` (python), read as text.  Nothing in `/repo` was run or changed.
Build: `cd rocq && coq_makefile -f _CoqProject -o Makefile && make -j4`.

## 1. Approach

t3f is a library over TensorFlow.  The model is layered the same way.

* **Scalars** (`Scalar.v`).  An arbitrary commutative ring `K : cring` (carrier,
  operations, proof of `ring_theory`).  Instances: `Zring` (to execute the model with
  `vm_compute`) and `Rring` (stdlib reals, for roots, norms, QR, SVD).
* **TensorFlow/numpy layer** (`Tensor.v`).  A tensor is a shape (`list nat`) and its
  elements in row-major order (`list K`), as in TF.  `reshape` keeps the data and changes
  the shape (with `-1`), `transpose`, `concat`, `tile`, `matmul`, `slice`, `gather`,
  `squeeze` ... and a literal interpreter of `einsum` strings.  A shape violation is an
  exception value.
* **t3f layer** (`Base.v`, `Ops.v`, `OpsR.v`, `BatchOps.v`, `Decomp.v`, `Approx.v`, `Init.v`, ...), function by function, in the
  error monad `res A = Ok a | Err e`.  Each definition cites file and lines.
* **Specifications** (`Spec.v`).  The TT format itself (`tt_entry`: sum over all rank
  indices of products of core entries) and dense operations, written independently of
  the model's functions.
* **Proofs** in `*Proofs.v`/`*Lemmas.v`/`*Thms.v`; **claims** in `Properties_*.v`, which contain
  only statements, `exact`s, concrete instances of hypotheses, and `Print Assumptions`.

QR, SVD, the random generator, `tf.linalg.det/inv/cholesky`, gradients are *oracles*: section
variables with a recorded contract (never axioms).  For each contract a theorem shows that
it is satisfiable.

## 2. Trusted base

* Coq's kernel (8.16.1), and the axioms reported by `Print Assumptions` for each theorem, listed
  theorem by theorem in `ASSUMPTIONS.md`.  Algebraic theorems (any commutative ring) are closed
  under the global context.  Theorems over the reals use the axioms of the stdlib `Reals`
  (`ClassicalDedekindReals.sig_forall_dec`, `sig_not_dec`, `functional_extensionality_dep`), some
  `Classical_Prop.classic`; `constructive_indefinite_description` is used to show that an
  SVD routine exists (C29_svd_exists, C29_unfolding_svd_exists), to make R a mathcomp ring, hence
  in the theorems on determinants (C39, C40), and where the existence of a decomposition is used in a
  proof (C43-C48, C60; see `ASSUMPTIONS.md`).
* The model's reading of TensorFlow 2 and numpy (layer 2), and the contracts of the oracles.
* Exact arithmetic, except for C57-C59 (rounding errors, section 13); overflow, underflow and NaN are not modelled,
  except the infinities and NaN of `renormalize_tt_cores` (C42, section 24).
* Not modelled: dtypes other than as tags in the constructor check, devices, graph
  construction/sessions, name scopes (other than in `variables.py`), `eval`.

## 3. Plan, property by property

| id | what is modelled, how it is proved |
|----|------------------------------------|
| C01 | `full`/`_full_tt` verbatim (reshape, matmul, transpose); induction over cores with the invariant "res is the left product" |
| C02 | `_full_tt_batch`, `_batch_dim_getitem`; same invariant with a batch index |
| C03 | `add`, `_add_tensor_cores`, `_add_matrix_cores`; induction from the last core (block structure of the tail vectors) |
| C04 | `_add_batch_*_cores`, broadcasting table; refutation for `TT + batch` |
| C05 | `__sub__`, `__neg__` on top of C03 and C07 (reals) |
| C06 | `multiply`, TT branch; tail vectors multiply under `a*rb+c` |
| C07 | `multiply`, number branch, over the reals (`Rpower`) |
| C08 | `multiply`, all batch branches |
| C09 | `tt_tt_matmul`, all batch branches |
| C10 | `tt_dense_matmul`; induction from the right over the reshape/einsum loop |
| C11 | `dense_tt_matmul` from C10 and C12 |
| C12 | `transpose` |
| C13, C14 | `tt_tt_flat_inner`; left-to-right running product |
| C15 | `tt_sparse_flat_inner`, `gather_nd`, `unravel_index` |
| C16 | `frobenius_norm_squared` both branches; the QR branch from C27/C28 |
| C17 | `bilinear_form(_two_mat)`; refutation for mixed batch arguments |
| C18 | `gather_nd`; refutation for index arrays with more than two axes |
| C19, C20 | `__getitem__` of both classes with python index semantics (`IndexSpec.v`: the selected positions, independent of the model) |
| C21 | both constructors with all validity checks, dtype tags |
| C22 | `clean_raw_shape` with `np.squeeze`; refutations for one core |
| C23-C26 | batch functions; refutation for size-1 results |
| C27, C28 | `orthogonalize_tt_cores` for any QR oracle |
| C29-C33 | `to_tt_tensor`, `to_tt_matrix`, `round` for any QR and SVD oracle |
| C34, C35 | `add_n`, `reduce_sum_batch` binary trees |
| C36, C37 | initializers |
| C38 | finite probability spaces, independent core entries; second moments |
| C39, C40 | `kronecker.py`; determinants from mathcomp's `\det` |
| C41 | `unravel_index` |
| C42 | `renormalize_tt_cores` over the reals; over the reals with inf and nan for a zero core (`XReal.v`, section 24) |
| C43-C47 | `riemannian.py` for any QR oracle |
| C48 | `gradients`: derivative with respect to deltas characterised by the chain rule |
| C49, C50 | variable store as a state machine; histories |
| C51 | `cast` |
| C52 | static shapes as `option nat` consistent with the dynamic ones |
| C53 | programs as lists of calls (`History.v`); validity is an invariant of every call |
| C54, C55 | thin layers over C10/C16 |
| C56 | dense programs (`ProgSpec.v`), simulation by `denotes` |
| C65 | the notebook's loop as a program on the variable store (`Tutorial.v`) |
| C66 | exact ranks of TT-SVD (`C30_exact_ranks`), layers in the store, Cauchy-Schwarz for the outputs |
| C67 | losses as sums over cells, each a polynomial in the cores; loop invariant on the store; counting of words for the duplicates (`Birthday.v`) |
| C69 | the notebook's cells over the library calls (`Quickstart.v`); the two steps of round on a 2 x 2 x 2 tensor (`RoundBest.v`) |
| C70 | perturbation of Frobenius norms and of orthonormal columns (`FMat.v`), one step (`NearStep.v`, `NearChain.v`), the sweep (`TTSvdNear.v`, `TTMatNear.v`) |
| C71 | norms of trains and one step of the sweep (`NearTrain.v`), the two sweeps (`QRNear.v`, `QRNearRL.v`: the reversed train), last core |
| C72 | the truncation sweep on a train near an orthonormal one (`RoundTrain.v`), the steps of the code (`RoundNear.v`) |
| C73 | the invariant of the sweeps of `round` and `to_tt_tensor` also says that the error is orthogonal to the frame built so far (`RoundPyth.v`, `TTSvdProofs.v`, `TTMatProofs.v`); induction over the levels of add_n (`AddNNorm.v`) and of reduce_sum_batch (`SumNorm.v`) |
| C57-C59 | rounding: three runs (floating, exact, absolute values) related step by step (`FloatProofs.v`, `FloatThms*.v`) |

Statements found to be false of the faithful model are proved as `..._refuted` with a witness.

## 4. Which code is modelled where

| /repo/t3f | model | not modelled |
|-----------|-------|--------------|
| tensor_train_base.py, tensor_train.py, tensor_train_batch.py | `Base.v`, `Ops.v`; unknown static shapes and dtypes of the constructors in `Static.v`; `__str__` in `Str.v`; `name` in `Vars.v` | `eval`, `op`, graph collections |
| shapes.py | `Base.v` (static shapes are known, so lazy_* return the stored values); `Static.v` (any part unknown: static and dynamic functions) | |
| ops.py | `Ops.v`, `OpsR.v`; renormalize_tt_cores with inf and nan `XReal.v`; with floating point arithmetic `Float.v` (contract `arith_ok` in `FloatSpec.v`) | name scopes |
| batch_ops.py | `BatchOps.v` | |
| decompositions.py | `Decomp.v`, contracts of QR and SVD in `DecompSpec.v` | sign and order conventions of tf.linalg beyond the contract |
| approximate.py | `Approx.v` | |
| initializers.py | `Init.v`, contract of the random numbers in `RandomSpec.v` | dtype argument; `np.int` is taken to be `int` |
| kronecker.py | `Kron.v` (determinant: `Det.v`; contracts of inverse and Cholesky routines in `KronSpec.v`) | values with shapes not known statically (the checks are in `Static.v`: that branch calls `ops.raw_shape`, which does not exist) |
| riemannian.py | `Riem.v`; tangent spaces specified in `RiemSpec.v` | `projection_on` is modelled by the identity (a number) of the object projected on; the asserts of project_matmul on kinds of arguments |
| autodiff.py | `Autodiff.v`; gradients and Hessians specified in `AutoSpec.v`, contract of the gradient tape `grad_ok` | tf.GradientTape itself (oracle); the tf.function wrapping |
| variables.py | `Vars.v`: TF 2.4's variable store (eager and graph mode), names and scopes; specification in `VarSpec.v` | trainable, collections, validate_shape arguments; partitioners, caching devices; use_locking |
| nn.py, regularizers.py | `Layers.v` | layer names and counter, Keras' attribute tracking; activations are an oracle; core_regularizer returns a scalar; inf and nan scales |
| utils.py | `Ops.v` (unravel_index), `Utils.v` (replace_tf_svd_with_np_svd; contract of np.linalg.svd in `UtilsSpec.v`) | in_eager_mode |
| ../docs/tutorials/riemannian.ipynb | `Tutorial.v`; specification in `TutorialSpec.v` | plotting; the tf.function wrapping |
| ../docs/tutorials/tensor_nets.ipynb | `Compress.v` (cells 22-28); specification in `CompressSpec.v` | training, the other layers of the network |
| ../docs/tutorials/tensor_completion.ipynb | `Completion.v`; specification in `CompletionSpec.v` | generation of the data, plotting, the tf.function wrapping |
| ../docs/quick_start.ipynb | `Quickstart.v` | the random dense arrays are arguments; np.linalg.norm of the differences |

Where a definition simplifies the code, its comment says so.

## 5. Contracts of oracles

* `qr_ok` (`DecompSpec.v`): `x = q r`, `q` has orthonormal columns, reduced shapes.  Satisfied by
  `gram_schmidt` (C27_qr_exists).
* `svd_ok`: `x = u diag(s) v^T`, orthonormal `u`, `v`, `s` nonnegative and nonincreasing.
  Satisfied by `some_svd` (C29_svd_exists).  `svd_near delta` (`NearSpec.v`): backward stability, see section 21.
* `white` (`RandomSpec.v`): independent numbers with mean 0 and variance 1, as far as products
  with exponents 1 and 2 are concerned, for any linear expectation.  Satisfied by independent signs
  (C38_contract_satisfiable).
* `inv_ok`, `cho_ok` (`KronSpec.v`): inverse of a nonsingular matrix, TFError for a singular one;
  Cholesky factor of a symmetric positive definite matrix, TFError for a symmetric matrix that is
  not positive definite.  Satisfied by `some_inv`, `some_cho` (C40_inv_exists, C40_cholesky_exists).
* `det` (`Det.v`, Laplace expansion) is both the model of `tf.linalg.det` and the specification; it is
  mathcomp's determinant (C39_det_is_mathcomp_det).
* `grad_ok` (`AutoSpec.v`): where the derivative of the scalar function with respect to the list of
  tensors exists, each entry of the answer is that derivative or None (not connected).  Satisfied by
  `the_grad`, which never says None (C48_gradients_exist), and by `tape_grad`, which says None for
  constant functions.  This is an idealisation of automatic differentiation: rounding and points where
  the program differentiates a non-differentiable subexpression are not covered.
* `tape_ok` (`CompletionSpec.v`): as `grad_ok`, for functions of all the cores (no None).  Satisfied (C67_tape_exists).
* `opt_ok` (`CompletionSpec.v`): an optimizer gives each variable a new value of the same shape.  Satisfied by gradient
  descent (C67_sgd_is_an_optimizer).
* `arith_ok` (`FloatSpec.v`): floating point matmul and einsum, see section 13.  Satisfied by `seq_arith`
  (C57_contract_met, C57_binary).

## 6. Statements that are false of the code

Each is proved as `..._refuted` with a witness; see `MANIFEST.json` for which claim it limits.
The main ones: add with one core raises (C03), TensorTrain + batch raises (C04, C05), all-integer
indexing raises IndexError (C19, C20), a batch sliced to no elements cannot be expanded (C20), gather_nd with 3-d indices (C18), bilinear forms with mixed
batches (C17), one-element batches lose their batch axis (C14, C26), a TensorTrain in
concat_along_batch_dim raises (C24), right-to-left orthogonalization of batches is not implemented
(C27), the default max_tt_rank does not work for None / np.inf (C33), the rank bound is ignored for
one object (C34, C35), one-axis shapes (C22, C36, C37), three-row matrix shapes are accepted (C37),
a nonzero mean is refused or ignored and elements are uncorrelated but not independent (C38), the Cholesky factor of a positive definite product of
negative definite factors (C40), the tangent space at a point with TT-ranks
that are not minimal (C43), one core (C43), a column of weights and a TensorTrain in project_matmul (C44),
inner products, sums and delta cores at a point with a TT-rank larger than the core sizes allow (C45-C47),
the name rules of get_variable in eager mode and for float64, '' and scopes ending in '/' (C49), a failing, aliased or mis-shaped assign (C50),
lazy_shape of a TT-matrix with an unknown mode, hints of batches that are not checked (C52), TT-matrices of one
core made by the initializers, constructor arguments of the wrong length (C53),
an unknown activation is refused only when the layer is called (C54), the regularizers under TF2 (C55),
concat_along_batch_dim of batches with different TT-ranks raises (C56), the descent step with TT-ranks larger than the
sizes allow, a large step that increases the loss (C65), cells listed twice and how rare they are (C67),
rounding as the best approximation and the printed difference of the quick start (C69).

## 7. Tangent spaces (C43-C47)

`RiemSpec.tangent x T` is the textbook tangent space: derivatives of (cores -> tensor).  With
`full_tt_ranks x` (TT-ranks = ranks of unfoldings) project is proved to be the orthogonal projector on
it, for any QR routine; idempotence, linearity, self-adjointness and project(x,x) = x need no rank hypothesis.
The functions working on two halves of the TT-ranks (pairwise_flat_inner_projected, add_n_projected,
tangent_space_to_deltas) are right for every object made by the library on a tangent space (`made`, an
inductive definition: the results of the four functions on tangent spaces, and of deltas_to_tangent_space for delta cores satisfying
the gauge condition, which includes the results of gradients and hessian_vector_product) if `admissible x`: no TT-rank is larger than the
neighbouring cores allow.  Without it they are wrong (C45-C47 `_rank_too_large_refuted`).
The gauge condition is needed for scalar products (`C45_without_gauge_refuted`), not for the value of the object (`C47_deltas_to_tangent_space`).

## 8. Riemannian gradients (C48)

`gradients` gets a program on TT objects that computes a function of the represented tensor
(`function_of_tensor`), and a function with a gradient in every direction (`gradient_at`).  The theorem says the
result is tangent and has the scalar products of the gradient with all tangent tensors.  Whether the
tape finds a connection is a hypothesis; None raises (C48_missing_gradient_raises), so the
statement is false for constant functions; it is also false where the function is 0 with the default runtime
check (relative difference 0/0), and for TT-ranks larger than the cores allow.

## 9. Variables (C49, C50)

A store has the variables (name, dtype, value), the name table of tf.get_variable (graph mode), t3f's collection
and the collected losses.  Facts about TF 2.4 that the model takes from its documentation and source
(TF is not part of /repo): in graph mode tf.get_variable raises ValueError for a registered name unless reuse is on, for an unregistered
one if reuse is True, and for an invalid op name; in eager mode it always makes a new, unregistered variable and every scope behaves as AUTO_REUSE;
ref.assign raises ValueError if dtype or shape differ; nested scope names are joined by '/', also when the outer one
ends in '/' (C49_slash_scope_refuted rests on this).  The graph-mode theorems quantify over all
histories `run false calls empty_store`, including failing calls.  A creation that fails at core k > 0 (some other
variable has the name of that core) leaves the variables of the cores before it behind, and the name is lost for good
(C49_partial_creation_blocks_the_name).  In eager mode an assign that fails at core k has overwritten the
cores before it (C50_failure_overwrites_the_cores_before); in graph mode it changes nothing.

## 10. Static shapes (C52)

`Static.v` models graph mode.  A core is its dtype and its TensorShape: a list of `option nat`, or
`None` when the number of axes is unknown.  TF2 behaviour is assumed: indexing a TensorShape gives an
int or None, `None != 3` is true, `len` and `as_list` of an unknown shape raise ValueError (which the
constructors catch: the check is then skipped).  Run time shapes are a separate argument `rt`; they are
related to the static ones only by `allows` (`StaticSpec.v`): a known dimension equals the run time one.

- `C52_TensorTrain`: TensorTrain compares with plain `!=`, so its arguments need not be trusted.
- `C52_TensorTrainBatch`: modes and batch size are compared only where both sides are known.
- `C52_known_shapes_*`: with all shapes known this model is that of `Base.v`.
- `C52_broadcasting`: is_batch_broadcasting_possible is exact for unknown batch sizes.

False: a TT-matrix of several cores with an unknown mode (get_shape multiplies None: TypeError);
wrong batch sizes and modes of batches; wrong ranks when some core has an unknown number of axes;
squeeze_batch_dim of a batch with a mode known from the argument only (TensorTrain compares it with the unknown dimension of the core);
the Kronecker functions of a batch of unknown size (they look up `ops.raw_shape`, which does not exist).

## 11. Programs (C53)

`History.v` has one constructor for every public function that returns a TT object (51 of them; those of
variables.py and of the layers have their own models).  A program is a list of calls on the results of
earlier calls; a call that raises changes nothing.  QR, SVD and the gradient tape are arbitrary functions
here, without any contract; inv and cholesky must keep shapes (`keeps_shapes`).
`valid` (`ValidSpec.v`) says that shape, ranks and batch size that are stored are those of the cores.
`C53_programs`: every object of every program is valid, if the calls are `proper` (`HistorySpec.v`).  Most calls are
always proper; the exceptions are constructor arguments of wrong lengths, TT-matrices with one core or a
shape of three rows from the initializers, and a batch as the left part of a tangent space.  For each exception a
`_refuted` theorem gives a call that succeeds with an object that is not valid.

## 12. Programs compute dense programs (C56)

`ProgSpec.means` gives for each call the dense array it is for: indexing by python indexing of the dense array,
sums, products, inverses and Cholesky factors of dense arrays, and so on; it never mentions cores (except for objects given by their cores).  A dense value carries bounds of
TT-ranks, because round, to_tt_tensor, to_tt_matrix and the approximate sums only keep the array when
the ranks they are given suffice.  `denotes t v`: the object is well-formed, has the modes and batch size of v, its TT-ranks are
within the bounds and full(t) is the array.  `C56_programs`/`C56_programs_succeed` are the simulation by induction over
programs.  Two calls can raise although the dense call has a value (`may_raise`): concat_along_batch_dim (different
TT-ranks, `C56_concat_refuted`) and cholesky (a product of negative definite matrices, `C56_cholesky_refuted`; when it
returns, the result is the dense Cholesky factor, which is unique, `CholProofs.v`).
project, project_sum and project_matmul are in the dense language (`ProgRiem.v`): at a point whose rank bounds are
its TT-ranks, the value is the orthogonal projection of the dense array on the tangent space, which does not depend
on the cores of the point (C60); it exists (`C56_project_has_value`) and projecting again does not change it
(`C56_project_twice`).
t3f.gradients and t3f.hessian_vector_product are in it too (`ProgAuto.v`): if func computes a function of the dense array with
gradient E and Hessian H, the values are the projection of E and the projection of H applied to the projection of the vector.  The calls
return them unless the tape returns None (`C56_call_returns`); they are the other two members of `may_raise`.  For Hessians the tape
has to be `steady`: whether it returns None does not depend on the point.  Random initializers: the value is the TT format with the cores mean + sd xi, for any drawn numbers xi; for random_tensor,
random_matrix, glorot, he and lecun sd is the number that gives the elements the requested variance (C38).
add_n_projected wants projections at one and the same object.  `means_on` tags the values with the number of the point at whose
tangent space they were made; `C56_tangent_programs`, `C56_tangent_programs_succeed` and `C56_tangent_values_unique` (`ProgTangent.v`) are the theorems for programs
with this call, and `C56_points_conservative` says that the tags change nothing for the other programs.  Results of project, project_sum,
project_matmul, add_n_projected, gradients and hessian_vector_product carry a tag.  Not in the language: deltas_to_tangent_space and casts that change values.

## 13. Rounding errors (C57-C59, C68)

`Float.v` repeats the functions of `Ops.v` that compute with numbers, with `tf.matmul` and `tf.einsum` as parameters
(`arith`); with the exact ones they are the functions of `Ops.v` (`C57_exact`).  The contract `arith_ok u`
(`FloatSpec.v`): each element of a result is some expression tree of rounded additions, multiplications and fused multiply-adds
(`fl_eval`) with a bounded number of nested roundings; the order of summation is free.  This is the standard model
of rounding: overflow, underflow and NaN are excluded, and so are algorithms like Strassen's.
The contract is met by sequential summation with any rounding (`C57_contract_met`), in particular with binary
numbers of p bits rounded to nearest even (`C57_binary`, the rounding is Flocq's `FLX` format, `FloatBin.v`; Flocq is
used for nothing else).  `C57_bound_attained` shows that the exponent cannot be lowered in general.

Covered: full, gather_nd, flat_inner of TT objects, the differentiable squared norm, +, elementwise product, matrix product, transpose,
nested in any way, products with dense matrices, and (C68) bilinear_form, bilinear_form_two_mat and tt_sparse_flat_inner.
Not covered: multiplication by a number (`Rpower`) and all functions that use QR, SVD, inverses or Cholesky factors.

## 14. Independence of the representation (C60)

C43-C48 describe the Riemannian functions at a point given by its cores: `tangent x` is a set of derivatives at the
cores of `x`.  C60 says that cores do not matter.  TangentIntrinsic.v: if the factors of the unfoldings of `x` are
independent, the left factor of `x` at a cut is the left factor of any other representation times a matrix (multiply
the unfolding by a right inverse of the right factor), and likewise on the right; so every tangent tensor of `x` is
one of `y`, and the TT-ranks of `x` are the least.  IntrinsicThms.v: the orthogonal projection on a set is unique.
For TT-ranks that are larger than those of the tensor (but admissible) the result does depend on the cores:
`C60_larger_ranks_refuted` (e1 (x) e1 with TT-rank 1 and 2; e2 (x) e2 is projected to 0 and to itself).

## 15. Operation counts (C61, C62)

The docstrings state complexities.  `Cost.v` counts the multiplications of kernel calls; `CostOps.v` has the functions once more with
a record of the calls they make (`C61_*` say that the value is that of the unrecorded function).  Counted: tf.einsum, tf.matmul,
tf.linalg.qr (c m n min(m, n)), elementwise arithmetic.  Not counted: reshape, transpose, concat, slices.
How tf.einsum orders its contractions is not in /repo, so it is a parameter: `best_order` (fewest multiplications, the reading under
which the docstrings are right), `some_order` (anything), `greedy_order` (at each step the contraction that frees most memory, among pairs
with a common summed axis; this is TensorFlow's default as we understand it).  Under the last one the documented bound of flat_inner
fails (`C61_greedy_order_refuted`).  All three can be met (`C61_assumptions_met`) and all orders have the same value (`C61_einsum_order`).

C62 does the same for `orthogonalize_tt_cores`, `project`, `project_sum`, `project_matmul` and `pairwise_flat_inner_projected`
(`CostOrth.v`, `CostRiem.v`, `CostRiem2.v`).  Two docstrings leave something out.  `project_sum` with a matrix of weights of O columns
does O B d r_where^2 n multiplications more (riemannian.py:133-134, :143-144); `C62_project_sum_columns_refuted`.  `project_matmul` on matrices multiplies
the second term by the number of columns k of `what`; for vectors k = 1 and the docstring holds.

## 16. Texts and the SVD replacement (C63, C64)

`Str.v` prints objects as the graph knows them (`sobj` of `Static.v`, so dimensions may be unknown), with Coq's
decimal printer; the specification (`StrSpec.v`) reads numerals by Horner's rule and does not use the printer.
`C63_same_text` is proved by reading the text from the left: every part ends at a character that it cannot
contain.  A TT-matrix with an unknown mode has no text (`C63_unknown_mode_refuted`).

`Utils.v` models the two attributes of the module `tf` that `replace_tf_svd_with_np_svd` touches.  NumPy's routine is
an oracle with the contract `np_svd_ok` (satisfiable, `C64_contract_satisfiable`).  The replacement does not cover
`compute_uv=False` (`C64_values_only_refuted`) and raises in graph mode.

## 17. The tutorial program (C65)

`Tutorial.v` is the function `step` of docs/tutorials/riemannian.ipynb and the loop calling it, written with the modelled
functions: `project`, `sub`, `mul_scalar`, `round`, `assign` on the store of `Vars.v`, `frobenius_norm_squared`.  The
step keeps the ranks of X because `round_ok_ranks` gives the ranks of the result exactly (`C31_exact_ranks`): they reach the limits
when these are admissible.  Descent (`C65_small_steps_descend`): moving every core along the delta cores of the gradient
gives a tensor of the ranks of X at distance O(alpha^2) of X - alpha G (`moved_close`), rounding is
quasi-optimal (C32), and the loss before rounding has decreased by alpha (2 - alpha) |G|^2 / 2; the bound a0 does not
depend on the QR and SVD routines.

## 18. Compressing a dense layer (C66)

`Compress.v` is the program of docs/tutorials/tensor_nets.ipynb (cells 22-28): `to_tt_matrix`, then Keras' `set_weights` of the
new layer, which compares numbers and shapes of all arrays before writing any.  Whether the shapes agree depends on the exact
TT-ranks of the decomposition (`C29_exact_ranks`, `C30_exact_ranks`): each is the minimum of the limit, of the rows and
of the columns at that cut, so all are r exactly when the first and the last core allow it.

## 19. Tensor completion (C67)

`Completion.v` has the two programs of docs/tutorials/tensor_completion.ipynb.  `tape.gradient` and the optimizer's update rule are
parameters (`tape_ok`, `opt_ok`); `apply_gradients` writes the new values to the store.  Both losses are weighted sums of squares over cells
(`cell_loss` in `CompletionProofs.v`); an entry of a tensor train is affine in each core, so the gradients are explicit (`partial_entry`: the train
with one core replaced by a unit).  Comment of cell 11: "probability of [duplicates] is 10^(-14)"; `C67_comment_refuted` counts the
arrays without duplicates: at most 1 in 100.

## 20. The quick start program (C69)

`Quickstart.v` has the cells of docs/quick_start.ipynb with their sizes and ranks as arguments.  Two of its statements are false.
"[Rounding] finds the tensor that is of a smaller rank but is as close to the original one as possible": `C69_round_best_refuted`
gives a 2 x 2 x 2 tensor (5 I in one slice of the last axis, 6 in one place of the other) and a tensor of rank 1 at squared distance 50; `round` takes
the leading singular vector of the last unfolding first and ends at squared distance at least 61, for all QR and SVD routines (`RoundBest.v` follows the two
steps of the loop).  "The difference between the exact and the rounded elementwise product is 0.003162": the two are equal, the number is
sqrt(1e-5), the epsilon in `frobenius_norm` (`C69_printed`).

## 21. TT-SVD with an inexact SVD (C70)

C29 and C30 take the singular value decompositions to be exact.  C70 replaces `svd_ok` by `svd_near delta` (`NearSpec.v`), the usual
statement of backward stability: for the given matrix x there are a matrix x' and an exact decomposition u' diag(s) v'^T = x' with
|x' - x| <= delta |x|, |u - u'| <= delta and |v - v'| <= delta (Frobenius norms; s is what the routine returns, nonnegative and
decreasing).  Nothing else is required of u, s, v.  Every routine meeting `svd_ok` meets it (`C70_exact_svd_is_near`), and for
delta > 0 others do (`C70_near_svd_exists`).  Only the decompositions are inexact: reshapes, slices and the product diag(s) v^T are
computed exactly, so the theorems separate the error of the decomposition from that of the arithmetic (C57-C59 treat the latter for
other functions).  `round`, whose QR decompositions are inexact as well, is C72.

## 22. Orthogonalization with an inexact QR decomposition (C71)

C16, C27 and C28 take the QR decompositions to be exact.  C71 replaces `qr_ok` by `qr_near delta` (`QRNearSpec.v`): for every matrix x
of the batch, q is within delta of a q' with orthonormal columns, and q' r is within delta |x| of x.  Exact routines meet it
(`C71_exact_qr_is_near`), for delta > 0 others do (`C71_near_qr_exists`).  The other arithmetic is exact.

The error is measured against P = `cores_norm`, the product of the norms of the cores (at least the norm of the tensor,
`C71_cores_norm`): the norm of the i-th working core grows by at most 1 + delta per step, and replacing it by q' r moves the tensor by at
most delta times that norm times the norms of the remaining cores, because the finished q' are isometries.  A bound relative to the norm
of the tensor is false: `C71_relative_error_refuted` (a TT-tensor that is 0 by cancellation, computed norm delta).
Right to left is the same sweep on the train with the cores in reverse order (`QRNearRL.v`).

## 23. Rounding with inexact QR and singular value decompositions (C72)

`round` = orthogonalization (C71) + truncation sweep.  Both routines are only backward stable (`qr_near delta`, `svd_near delta`), the
other arithmetic is exact.  The sweep runs from right to left over a train whose cores on the left are within delta of orthonormal ones
and whose finished cores on the right are within delta of orthonormal ones, so one step is the step of C70 on the reversed train with
relative error (1 + delta)^2 - 1 (`rtn_step`).  `round_loss` (`RoundNearSpec.v`) collects the two losses: first order in delta
(`C72_loss_first_order`), 0 for delta = 0 (`C72_loss_0`, so C31 and C32 are the case delta = 0).  As in C71, the scale is the product of
the norms of the cores, and no bound relative to the norm of the tensor holds (`C72_relative_error_refuted`).

## 24. Zero cores and a non-positive epsilon (C42)

The real-number model of `renormalize_tt_cores` says nothing where the code takes log 0 or divides by 0.  `XReal.v` has the
function over the real numbers with +inf, -inf and nan, with the operations of IEEE 754 on them but without rounding, overflow
and signed zeros: log 0 = -inf, exp(-inf) = 0, 0 / 0 = nan, and nan from any operation on nan.  The sign of a zero is not
needed: the only zero divisor is sqrt(max(sum, eps)), and its dividend is a product with exp(-inf) = 0.
`C42_extended_model_agrees`: without zero norms the two models have the same cores.
`C42_every_epsilon`: for every epsilon and each batch element by itself, the tensor is kept, or it was 0 and every element
becomes nan.  So the claim "for every epsilon" is false (`C42_zero_core_refuted`); the default epsilon 1e-8 is not affected.
