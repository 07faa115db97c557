(** User programs: sequences of calls of the library, each on objects made by earlier calls.
    Model only, no proofs.

    Every public function that returns a TT object is here, except those of variables.py (Vars.v) and
    of the layers (Layers.v).  An object is known by its address; a function that returns its
    argument returns the same object.  The functions passed to [gradients] and
    [hessian_vector_product] are arbitrary, and so are the numbers that the random initializers draw. *)
From Coq Require Import List Arith ZArith Bool Reals.
From Verif Require Import Scalar Tensor Base Ops OpsR BatchOps Decomp Approx Kron Riem Autodiff Init.
Import ListNotations.
Local Open Scope nat_scope.

(** An object with its address and its attribute projection_on, [riemannian.py:195], [:367], [:528]. *)
Record obj := Obj { o_addr : nat; o_tt : rtt; o_on : option nat }.
(** The objects made so far, the n-th at address n. *)
Definition env := list obj.

(** One call.  Objects are named by their position in the list of the results so far. *)
Inductive op :=
(* tensor_train.py:13, tensor_train_batch.py:15 *)
| CallTensorTrain (cs : list rtensor) (sh : shape_arg) (ranks : option (list nat))
| CallTensorTrainBatch (cs : list rtensor) (sh : shape_arg) (ranks : option (list nat)) (bs : option nat)
(* tensor_train.py:102, tensor_train_batch.py:149, 237 *)
| CallGetitem (a : nat) (spec : list pyindex)
| CallBatchItem (a : nat) (ix : pyindex)
(* shapes.py:265, 289 *)
| CallSqueezeBatchDim (a : nat)
| CallExpandBatchDim (a : nat)
(* ops.py *)
| CallTranspose (a : nat)
| CallMatmul (a b : nat)
| CallAdd (a b : nat)
| CallSub (a b : nat)
| CallNeg (a : nat)
| CallMultiply (a b : nat)
| CallMultiplyNum (a : nat) (c : R)
| CallCast (a : nat) (f : R -> R)
| CallRenormalize (a : nat) (eps : R)
(* batch_ops.py *)
| CallConcat (l : list nat)
| CallConcatSingle (a : nat)
| CallMultiplyBatch (a : nat) (w : rtensor)
(* decompositions.py, approximate.py *)
| CallOrthogonalize (a : nat) (left_to_right : bool)
| CallToTTTensor (x : rtensor) (max_rank : rank_arg) (eps : option R)
| CallToTTMatrix (x : rtensor) (s0 s1 : option (list nat)) (max_rank : rank_arg) (eps : option R)
| CallRound (a : nat) (max_rank : rank_arg) (eps : option R)
| CallAddN (l : list nat) (max_rank : rank_arg)
| CallReduceSumBatch (a : nat) (max_rank : rank_arg) (coef : option rtensor)
(* kronecker.py *)
| CallInv (a : nat)
| CallCholesky (a : nat)
(* initializers.py *)
| CallTensorOnes (s : shape1)
| CallTensorZeros (s : shape1)
| CallEye (s : shape1)
| CallMatrixOnes (s : shape2)
| CallMatrixZeros (s : shape2)
| CallOnesLike (a : nat)
| CallZerosLike (a : nat)
| CallTensorWithRandomCores (xi : nat -> list nat -> R) (s : shape1) (r : rarg) (mean sd : R)
| CallTensorBatchWithRandomCores (xi : nat -> list nat -> R) (s : shape1) (r : rarg) (b : num) (mean sd : R)
| CallMatrixWithRandomCores (xi : nat -> list nat -> R) (s : shape2) (r : rarg) (mean sd : R)
| CallMatrixBatchWithRandomCores (xi : nat -> list nat -> R) (s : shape2) (r : rarg) (b : num) (mean sd : R)
| CallRandomTensor (xi : nat -> list nat -> R) (s : shape1) (r : rarg) (mean sd : R)
| CallRandomTensorBatch (xi : nat -> list nat -> R) (s : shape1) (r : rarg) (b : num) (mean sd : R)
| CallRandomMatrix (xi : nat -> list nat -> R) (s : shape2) (r : rarg) (mean sd : R)
| CallRandomMatrixBatch (xi : nat -> list nat -> R) (s : shape2) (r : rarg) (b : num) (mean sd : R)
| CallGlorot (xi : nat -> list nat -> R) (s : shape2) (r : rarg)
| CallHe (xi : nat -> list nat -> R) (s : shape2) (r : rarg)
| CallLecun (xi : nat -> list nat -> R) (s : shape2) (r : rarg)
(* riemannian.py *)
| CallProject (what wher : nat)
| CallProjectSum (what wher : nat) (weights : option rtensor)
| CallProjectMatmul (what wher matrix : nat)
| CallAddNProjected (l : list nat) (coef : option rtensor)
| CallDeltasToTangentSpace (deltas : list rtensor) (a : nat) (left right : option nat)
(* autodiff.py *)
| CallGradients (func : rtt -> res R) (a : nat) (runtime_check : bool)
| CallHessianVectorProduct (func : rtt -> res R) (a vector : nat) (runtime_check : bool).

Section Run.
Variable qr : rtensor -> rtensor * rtensor.
Variable svd : rtensor -> rtensor * rtensor * rtensor.
Variable la : linalg.
Variable grad : (list rtensor -> res R) -> list rtensor -> list (option rtensor).

(** The result of a call is a new object, at address [n], or an object with projection_on set. *)
Definition fresh (n : nat) (r : res rtt) : res obj := do t <- r; Ok (Obj n t None).
(** The result of a Riemannian function, [riemannian.py:189-196], [:361-368], [:522-529]. *)
Definition on (n : nat) (r : res projected) : res obj := do p <- r; Ok (Obj n (p_tt p) (p_on p)).
(** The object as argument of a Riemannian function, [riemannian.py:561-568], [:649-655]. *)
Definition proj_of (o : obj) : projected := Proj (o_tt o) (o_on o).
(** An optional argument. *)
Definition ref (e : env) (o : option nat) : res (option rtt) :=
  match o with None => Ok None | Some a => do x <- nthr e a; Ok (Some (o_tt x)) end.

(** Functions of one and of two objects. *)
Definition unary (e : env) (a : nat) (f : rtt -> res rtt) : res obj :=
  do x <- nthr e a; fresh (length e) (f (o_tt x)).
Definition binary (e : env) (a b : nat) (f : rtt -> rtt -> res rtt) : res obj :=
  do x <- nthr e a; do y <- nthr e b; fresh (length e) (f (o_tt x) (o_tt y)).

(** One call: the result is a new object. *)
Definition call (e : env) (c : op) : res obj :=
  let n := length e in
  match c with
  | CallTensorTrain cs sh ranks => fresh n (TensorTrain (K := Rring) cs sh ranks)
  | CallTensorTrainBatch cs sh ranks bs => fresh n (TensorTrainBatch (K := Rring) cs sh ranks bs)
  | CallGetitem a spec => unary e a (fun t => if is_batch t then ttb_getitem t spec else tt_getitem t spec)
  | CallBatchItem a ix => unary e a (fun t => if is_batch t then batch_dim_getitem t ix else Err TypeError)
  | CallSqueezeBatchDim a =>
      do x <- nthr e a;
      match bsz (o_tt x) with Some 1 => fresh n (squeeze_batch_dim (o_tt x)) | _ => Ok x end
  | CallExpandBatchDim a =>
      do x <- nthr e a;
      if is_batch (o_tt x) then Ok x else fresh n (expand_batch_dim (o_tt x))
  | CallTranspose a => unary e a (fun t => tt_transpose t)
  | CallMatmul a b => binary e a b (fun x y => tt_tt_matmul x y)
  | CallAdd a b => binary e a b (fun x y => add x y)
  | CallSub a b => binary e a b tt_sub
  | CallNeg a => unary e a tt_neg
  | CallMultiply a b => binary e a b (fun x y => multiply x (FTT y))
  | CallMultiplyNum a k => unary e a (fun t => multiply t (FNum k))
  | CallCast a f => unary e a (fun t => cast (K := Rring) (L := Rring) f t)
  | CallRenormalize a eps => unary e a (fun t => renormalize_tt_cores t eps)
  | CallConcat l => do xs <- mapM (nthr e) l; fresh n (concat_along_batch_dim (map o_tt xs))
  | CallConcatSingle a => do x <- nthr e a; do _ <- concat_single (o_tt x); Ok x
  | CallMultiplyBatch a w => unary e a (fun t => multiply_along_batch_dim t w)
  | CallOrthogonalize a l2r => unary e a (fun t => orthogonalize_tt_cores qr t l2r)
  | CallToTTTensor x m eps => fresh n (to_tt_tensor svd x m eps)
  | CallToTTMatrix x s0 s1 m eps => fresh n (to_tt_matrix svd x s0 s1 m eps)
  | CallRound a m eps => unary e a (fun t => round qr svd t m eps)
  | CallAddN l m =>
      do xs <- mapM (nthr e) l;
      match xs with [x] => Ok x | _ => fresh n (add_n qr svd (map o_tt xs) m) end
  | CallReduceSumBatch a m coef => unary e a (fun t => reduce_sum_batch qr svd t m coef)
  | CallInv a => unary e a (inv la)
  | CallCholesky a => unary e a (cholesky la)
  | CallTensorOnes s => fresh n (tensor_ones s)
  | CallTensorZeros s => fresh n (tensor_zeros s)
  | CallEye s => fresh n (eye s)
  | CallMatrixOnes s => fresh n (matrix_ones s)
  | CallMatrixZeros s => fresh n (matrix_zeros s)
  | CallOnesLike a => unary e a (fun t => ones_like t)
  | CallZerosLike a => unary e a (fun t => zeros_like t)
  | CallTensorWithRandomCores xi s r mean sd => fresh n (tensor_with_random_cores xi s r mean sd)
  | CallTensorBatchWithRandomCores xi s r b mean sd => fresh n (tensor_batch_with_random_cores xi s r b mean sd)
  | CallMatrixWithRandomCores xi s r mean sd => fresh n (matrix_with_random_cores xi s r mean sd)
  | CallMatrixBatchWithRandomCores xi s r b mean sd => fresh n (matrix_batch_with_random_cores xi s r b mean sd)
  | CallRandomTensor xi s r mean sd => fresh n (random_tensor xi s r mean sd)
  | CallRandomTensorBatch xi s r b mean sd => fresh n (random_tensor_batch xi s r b mean sd)
  | CallRandomMatrix xi s r mean sd => fresh n (random_matrix xi s r mean sd)
  | CallRandomMatrixBatch xi s r b mean sd => fresh n (random_matrix_batch xi s r b mean sd)
  | CallGlorot xi s r => fresh n (glorot_initializer xi s r)
  | CallHe xi s r => fresh n (he_initializer xi s r)
  | CallLecun xi s r => fresh n (lecun_initializer xi s r)
  | CallProject what w => do x <- nthr e what; do y <- nthr e w; on n (project qr (o_tt x) (o_addr y) (o_tt y))
  | CallProjectSum what w ws => do x <- nthr e what; do y <- nthr e w; on n (project_sum qr (o_tt x) (o_addr y) (o_tt y) ws)
  | CallProjectMatmul what w m =>
      do x <- nthr e what; do y <- nthr e w; do z <- nthr e m; on n (project_matmul qr (o_tt x) (o_addr y) (o_tt y) (o_tt z))
  | CallAddNProjected l coef => do xs <- mapM (nthr e) l; on n (add_n_projected (map proj_of xs) coef)
  | CallDeltasToTangentSpace ds a lo ro =>
      do x <- nthr e a; do l <- ref e lo; do r <- ref e ro; on n (deltas_to_tangent_space qr ds (o_addr x) (o_tt x) l r)
  | CallGradients f a chk => do x <- nthr e a; on n (gradients qr grad f (o_addr x) (o_tt x) chk)
  | CallHessianVectorProduct f a v chk =>
      do x <- nthr e a; do y <- nthr e v; on n (hessian_vector_product qr grad f (o_addr x) (o_tt x) (o_tt y) chk)
  end.

(** A program: a call that raises leaves everything as it is. *)
Fixpoint run (e : env) (p : list op) : env :=
  match p with
  | [] => e
  | c :: p' => match call e c with Ok o => run (e ++ [o]) p' | Err _ => run e p' end
  end.
End Run.
