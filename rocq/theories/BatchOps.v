(** [t3f/batch_ops.py].  Model only, no proofs. *)
From Coq Require Import String Ascii List Arith ZArith Bool.
From Verif Require Import Scalar Tensor Base Ops.
Import ListNotations.

Section BatchOps.
Variable K : cring.

(** [batch_ops.py:9-54] concat_along_batch_dim on a list.  (For a single TT object instead of a
    list line 19 evaluates [tt[0].ndims()]: see [concat_single].)  Shapes and batch sizes are known, so the TypeError branch
    [:49-51] is not taken. *)
Definition concat_along_batch_dim (l : list (tt K)) : res (tt K) :=
  do t0 <- nthr l 0;
  if negb (forallb is_batch l) then Err ValueError else
  do _ <- foldM (fun (t : tt K) (_ : bool) =>
      if negb (llist_eqb (rshape t) (rshape t0)) then Err ValueError else
      if negb (list_eqb (rks t) (rks t0)) then Err ValueError else Ok true) (tl l) true;
  do cs <- mapM (fun i => concat (map (fun t => core t i) l) 0) (seq 0 (ndims t0));
  let bs := fold_right Nat.add 0 (map (fun t => match bsz t with Some b => b | None => 0 end) l) in
  TensorTrainBatch cs (STuple (rshape t0)) (Some (rks t0)) (Some bs).

(** [batch_ops.py:19-23] on one TT object: line 19 indexes it with [0] before the isinstance
    test.  A TensorTrain's __getitem__ calls len(0), a TypeError. *)
Definition concat_single (t : tt K) : res (tt K) :=
  match bsz t with
  | None => Err TypeError
  | Some _ => do _ <- batch_dim_getitem t (IInt 0); Ok t
  end.

(** [batch_ops.py:57-81] multiply_along_batch_dim; [w[:, newaxis, ...]] on a vector. *)
Definition add_axes (w : tensor K) (n : nat) : res (tensor K) :=
  match shape w with
  | [b] => Ok (Tensor (b :: repeat 1 n) (data w))
  | _ => Err TFError
  end.
(** [batch_ops.py:57-81] multiply_along_batch_dim. *)
Definition multiply_along_batch_dim (t : tt K) (w : tensor K) : res (tt K) :=
  do w' <- add_axes w (if is_tt_matrix t then 4 else 3);
  do c0 <- nthr (cores t) 0;
  do c0' <- ewise cmul w' c0;
  TensorTrainBatch (c0' :: tl (cores t)) (STuple (rshape t)) (Some (rks t)) (bsz t).

(** [batch_ops.py:120-235] pairwise_flat_inner.  [is_compatible_with] on known shapes is
    equality; [get_shape()[2]] of batches of TT-matrices exists. *)
Definition pairwise_flat_inner (t1 t2 : tt K) : res (tensor K) :=
  let ms := if is_tt_matrix t1 then "ij"%string else "i"%string in
  do r0 <- einsum ("pa" ++ ms ++ "b,qc" ++ ms ++ "d->pqbd")%string [core t1 0; core t2 0];
  do r <- foldM (fun i r =>
      do c2 <- nthr (cores t2) i;
      einsum ("pqac,pa" ++ ms ++ "b,qc" ++ ms ++ "d->pqbd")%string [r; core t1 i; c2])
    (seq 1 (ndims t1 - 1)) r0;
  Ok (squeeze r).

(** [batch_ops.py:120-235]: vectors given as columns are transposed. *)
Definition to_row (t : tt K) : res (tt K) :=
  do n2 <- nthr (get_shape t) 2; do n1 <- nthr (get_shape t) 1;
  if Nat.eqb n2 1 && negb (Nat.eqb n1 1) then tt_transpose t else Ok t.

(** [batch_ops.py:120-235] pairwise_flat_inner, the branches with a matrix. *)
Definition pairwise_flat_inner_mat (t1 t2 m : tt K) : res (tensor K) :=
  if negb (is_tt_matrix t1 && is_tt_matrix t2 && is_tt_matrix m) then Err ValueError else
  if negb (list_eqb (nth 0 (rshape t1) []) (nth 0 (rshape m) [])) then Err ValueError else
  if negb (list_eqb (nth 0 (rshape t2) []) (nth 1 (rshape m) [])) then Err ValueError else
  do t1 <- to_row t1;
  do t2 <- to_row t2;
  do n1 <- nthr (get_shape t1) 1;
  do n2 <- nthr (get_shape t2) 1;
  if negb (Nat.eqb n1 1) then Err ValueError else
  if negb (Nat.eqb n2 1) then Err ValueError else
  do r0 <- einsum "pakib,cijd,qekjf->pqbdf" [core t1 0; core m 0; core t2 0];
  do r <- foldM (fun i r =>
      do c2 <- nthr (cores t2) i; do cm <- nthr (cores m) i;
      einsum "pqace,pakib,cijd,qekjf->pqbdf" [r; core t1 i; cm; c2])
    (seq 1 (ndims t1 - 1)) r0;
  Ok (squeeze r).

(** [batch_ops.py:84-117] gram_matrix. *)
Definition gram_matrix (t : tt K) (m : option (tt K)) : res (tensor K) :=
  match m with None => pairwise_flat_inner t t | Some m => pairwise_flat_inner_mat t t m end.

End BatchOps.
Arguments concat_along_batch_dim {K} _. Arguments concat_single {K} _. Arguments add_axes {K} _ _.
Arguments multiply_along_batch_dim {K} _ _. Arguments pairwise_flat_inner {K} _ _. Arguments to_row {K} _.
Arguments pairwise_flat_inner_mat {K} _ _ _. Arguments gram_matrix {K} _ _.
