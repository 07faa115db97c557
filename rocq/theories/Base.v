(** TT objects: [t3f/tensor_train_base.py], [t3f/tensor_train.py],
    [t3f/tensor_train_batch.py], [t3f/shapes.py], with fully defined static shapes
    (TF2 eager mode).  Statically unknown dimensions are the subject of Static.v.
    Model only, no proofs. *)
From Coq Require Import String Ascii List Arith ZArith Bool.
From Verif Require Import Scalar Tensor.
Import ListNotations.

(** Python [l[i]] for a non-negative index (used throughout). *)
Definition nthr {A} (l : list A) (i : nat) : res A :=
  match nth_error l i with Some x => Ok x | None => Err IndexError end.
(** Python [l[-1]]. *)
Definition lastr {A} (l : list A) : res A :=
  match rev l with x :: _ => Ok x | [] => Err IndexError end.

(** The ways a shape is given ([shapes.py:202-231]): None, a tf.TensorShape, a tuple of tf.TensorShapes, a
    python list of ints, a python list of lists of ints (or a 2-d array). *)
Inductive shape_arg :=
| SNone
| STensorShape (s : list nat)
| STuple (ss : list (list nat))
| SList (l : list nat)
| SList2 (ll : list (list nat)).

(** [np.squeeze(np.array(shape))] on a rectangular 2-d array, [shapes.py:221-223]. *)
Inductive nparr := Arr0 | Arr1 (l : list nat) | Arr2 (ll : list (list nat)) | ArrObj.
(** [np.squeeze(np.array(shape))], [shapes.py:221-223]. *)
Definition np_squeeze (s : shape_arg) : nparr :=
  match s with
  | SList [_] => Arr0
  | SList l => Arr1 l
  | SList2 ll =>
      match ll with
      | [] => Arr1 []
      | row :: _ =>
          if forallb (fun r => Nat.eqb (length r) (length row)) ll then
            match ll, length row with
            | [_], 1%nat => Arr0
            | [r], _ => Arr1 r
            | _, 1%nat => Arr1 (List.concat ll)
            | _, _ => Arr2 ll
            end
          else ArrObj
      end
  | _ => ArrObj
  end.

(** [shapes.py:202-231] clean_raw_shape.  A 0-d array has no len(): TypeError.
    A ragged list gives an object array, which TensorShape rejects (TypeError). *)
Definition clean_raw_shape (s : shape_arg) : res (option (list (list nat))) :=
  match s with
  | SNone => Ok None
  | STensorShape l => Ok (Some [l])
  | STuple [] => Err IndexError
  | STuple ss => Ok (Some ss)
  | SList [] | SList2 [] => Err IndexError
  | _ =>
      match np_squeeze s with
      | Arr0 => Err TypeError
      | Arr1 l => Ok (Some [l])
      | Arr2 ll => Ok (Some ll)
      | ArrObj => Err TypeError
      end
  end.

Section Base.
Variable K : cring.

(** A TensorTrain ([bsz = None]) or a TensorTrainBatch ([bsz = Some batch_size]):
    the stored fields _tt_cores, _raw_shape, _tt_ranks, _batch_size
    ([tensor_train.py:13-56], [tensor_train_batch.py:15-66]). *)
Record tt := TT {
  cores : list (tensor K);
  rshape : list (list nat);
  rks : list nat;
  bsz : option nat }.

(** [isinstance(tt, TensorTrainBatch)], or [hasattr(tt, 'batch_size')], e.g. [ops.py:25], [shapes.py:300]. *)
Definition is_batch (t : tt) : bool := match bsz t with Some _ => true | None => false end.

(** [tensor_train_base.py:75-81] ndims. *)
Definition ndims (t : tt) : nat := length (cores t).
(** [tensor_train_base.py:93-95] is_tt_matrix. *)
Definition is_tt_matrix (t : tt) : bool := Nat.eqb (length (rshape t)) 2.

(** [t.tt_cores[i]], [tensor_train_base.py:44-46]; used for i < ndims only, where python does not raise. *)
Definition core (t : tt) (i : nat) : tensor K := nth i (cores t) (Tensor [] []).
(** [ranks[i]] of a constructed object (in range), [tensor_train_base.py:83-91]. *)
Definition rk (t : tt) (i : nat) : nat := nth i (rks t) 0.
(** [raw_shape[ax][i]] of a constructed object (in range), [tensor_train_base.py:15-24]. *)
Definition mode (t : tt) (ax i : nat) : nat := nth i (nth ax (rshape t) []) 0.

(** [tensor_train_base.py:26-43] get_shape; [tensor_train_batch.py:68-77]. *)
Definition get_shape (t : tt) : list nat :=
  let s := if is_tt_matrix t then [prodn (nth 0 (rshape t) []); prodn (nth 1 (rshape t) [])]
           else nth 0 (rshape t) [] in
  match bsz t with None => s | Some b => b :: s end.

(** [tensor_train.py:145-192] _are_tt_cores_valid with static shapes; dtypes are in Static.v.
    [sh]: the cleaned shape. Early [return False] is [Ok false]. *)
Fixpoint all_axes (f : nat -> nat -> res bool) (i : nat) (n : nat) : res bool :=
  match n with
  | O => Ok true
  | S n' => do b <- f i n'; if b then all_axes f (S i) n' else Ok false
  end.

(** Check of one core, [tensor_train.py:165-185], [tensor_train_batch.py:298-323]; [off] is the position of the left rank (0, or 1 for batches). *)
Definition check_core (off : nat) (cs : list (tensor K)) (sh : option (list (list nat)))
    (ranks : option (list nat)) (bs : option nat) (i : nat) : res bool :=
  let cshape := shape (nth i cs (Tensor [] [])) in
  if negb (Nat.eqb (length cshape) (length (shape (nth 0 cs (Tensor [] []))))) then Ok false
  else
    (* batch size, [tensor_train_batch.py:302-305] *)
    do b0 <- (match bs with
              | Some b => do d <- nthr cshape 0; Ok (Nat.eqb d b)
              | None => Ok true end);
    if negb b0 then Ok false else
    (* modes against the given shape *)
    do b1 <- (match sh with
              | None => Ok true
              | Some ss => all_axes (fun ax _ => do d <- nthr cshape (ax + off + 1);
                                       do s <- nthr ss ax; do m <- nthr s i; Ok (Nat.eqb d m))
                                    0 (length ss)
              end);
    if negb b1 then Ok false else
    (* left rank against the previous core *)
    do b2 <- (match i with
              | O => Ok true
              | S i' => do l <- nthr cshape off;
                        do p <- lastr (shape (nth i' cs (Tensor [] []))); Ok (Nat.eqb l p)
              end);
    if negb b2 then Ok false else
    (* ranks against the given ranks *)
    match ranks with
    | None => Ok true
    | Some rs =>
        do l <- nthr cshape off; do r <- nthr rs i;
        if negb (Nat.eqb l r) then Ok false else
        do l' <- lastr cshape; do r' <- nthr rs (S i); Ok (Nat.eqb l' r')
    end.

(** The loop over the cores, [tensor_train.py:164-185], [tensor_train_batch.py:297-323]. *)
Fixpoint check_cores (off : nat) (cs : list (tensor K)) sh ranks bs (is : list nat) : res bool :=
  match is with
  | [] => Ok true
  | i :: is' => do b <- check_core off cs sh ranks bs i;
                if b then check_cores off cs sh ranks bs is' else Ok false
  end.

(** [tensor_train.py:145-192] _are_tt_cores_valid (off = 0), [tensor_train_batch.py:277-330] _are_batch_tt_cores_valid (off = 1); [sh] is cleaned. *)
Definition cores_valid (off : nat) (cs : list (tensor K)) sh ranks bs : res bool :=
  do b <- check_cores off cs sh ranks bs (seq 0 (length cs));
  if negb b then Ok false else
  do c0 <- nthr cs 0; do cl <- lastr cs;
  do f <- nthr (shape c0) off;
  if negb (Nat.eqb f 1) then Ok false else
  do l <- lastr (shape cl); Ok (Nat.eqb l 1).

(** [tensor_train.py:195-206] / [tensor_train_batch.py:333-344] raw shape inference;
    [axis] entries of a core of smaller rank cannot occur after validation. *)
Definition infer_raw_shape (off : nat) (cs : list (tensor K)) : list (list nat) :=
  let n := length (shape (nth 0 cs (Tensor [] []))) - 2 - off in
  map (fun ax => map (fun c => nth (ax + 1 + off) (shape c) 0) cs) (seq 0 n).
(** [tensor_train.py:209-215] / [tensor_train_batch.py:347-353]. *)
Definition infer_tt_ranks (off : nat) (cs : list (tensor K)) : list nat :=
  map (fun c => nth off (shape c) 0) cs ++ [last (shape (nth (length cs - 1) cs (Tensor [] []))) 0].

(** [tensor_train.py:13-56] TensorTrain.__init__. *)
Definition TensorTrain (cs : list (tensor K)) (sh : shape_arg) (ranks : option (list nat)) : res tt :=
  do clean <- clean_raw_shape sh;
  do ok <- cores_valid 0 cs clean ranks None;
  if negb ok then Err ValueError else
  Ok (TT cs (match clean with Some s => s | None => infer_raw_shape 0 cs end)
            (match ranks with Some r => r | None => infer_tt_ranks 0 cs end) None).

(** [tensor_train_batch.py:15-66] TensorTrainBatch.__init__. *)
Definition TensorTrainBatch (cs : list (tensor K)) (sh : shape_arg) (ranks : option (list nat))
    (bs : option nat) : res tt :=
  do clean <- clean_raw_shape sh;
  do ok <- cores_valid 1 cs clean ranks bs;
  if negb ok then Err ValueError else
  do b <- (match bs with
           | Some b => Ok b
           | None => do c <- nthr cs 0; nthr (shape c) 0
           end);
  Ok (TT cs (match clean with Some s => s | None => infer_raw_shape 1 cs end)
            (match ranks with Some r => r | None => infer_tt_ranks 1 cs end) (Some b)).

(** Static shapes are defined, so the lazy_* functions of [shapes.py:111-199] return the
    stored values.  [shapes.py:111-130] lazy_tt_ranks. *)
Definition lazy_tt_ranks (t : tt) : list nat := rks t.
(** [shapes.py:133-152] lazy_shape. *)
Definition lazy_shape (t : tt) : list nat := get_shape t.
(** [shapes.py:155-178] lazy_raw_shape. *)
Definition lazy_raw_shape (t : tt) : list (list nat) := rshape t.
(** [shapes.py:181-199] lazy_batch_size; ValueError for a TensorTrain ([:103-104]). *)
Definition lazy_batch_size (t : tt) : res nat :=
  match bsz t with Some b => Ok b | None => Err ValueError end.

(** [shapes.py:234-262] is_batch_broadcasting_possible. *)
Definition is_batch_broadcasting_possible (a b : tt) : bool :=
  match bsz a, bsz b with
  | Some x, Some y => Nat.eqb x y || Nat.eqb x 1 || Nat.eqb y 1
  | _, _ => true
  end.

(** ** Indexing *)

(** One pass of the loops of TensorTrain.__getitem__ ([tensor_train.py:102-142], [off = false]) and of _full_getitem
    ([tensor_train_batch.py:178-235], [off = true]), for ints and slices. *)
Definition getitem_step (off : bool) (st : list (tensor K) * option (tensor K)) (c : tensor K)
    (collapse batchcol : bool) (sliced : tensor K) : res (list (tensor K) * option (tensor K)) :=
  let '(news, rem) := st in
  if collapse then
    match rem with
    | None => Ok (news, Some sliced)
    | Some r =>
        do r' <- (if off then (if batchcol then einsum "ab,bd->ad" [r; sliced]
                               else einsum "oab,obd->oad" [r; sliced])
                  else matmul r sliced);
        Ok (news, Some r')
    end
  else
    match rem with
    | None => Ok (news ++ [sliced], None)
    | Some r =>
        do s' <- (if off && negb batchcol then einsum "oab,obid->oaid" [r; sliced]
                  else einsum "ab,bid->aid" [r; sliced]);
        Ok (news ++ [s'], None)
    end.

(** [not _do_collapse_dim(spec)], [tensor_train_batch.py:141-147]; [tensor_train.py:102-142]. *)
Definition is_slice (i : pyindex) : bool := match i with ISlice _ _ _ => true | _ => false end.

(** [tensor_train.py:102-142], [tensor_train_batch.py:178-235]: absorb what is left of the trailing collapsed cores into the last kept core;
    [new_tt_cores[-1]] of an empty list is an IndexError. *)
Definition absorb_last (eq : string) (news : list (tensor K)) (rem : option (tensor K))
  : res (list (tensor K)) :=
  match rem with
  | None => Ok news
  | Some r => do l <- lastr news; do l' <- einsum eq [l; r]; Ok (removelast news ++ [l'])
  end.

(** [tensor_train.py:102-142] TensorTrain.__getitem__ for a tuple of ints and slices. *)
Definition tt_getitem (t : tt) (spec : list pyindex) : res tt :=
  if negb (Nat.eqb (length spec) (ndims t)) then Err ValueError else
  do st <- foldM (fun i st =>
      if is_tt_matrix t then Err NotImplementedError else
      do ix <- nthr spec i;
      do sliced <- getitem (core t i) [full_slice; ix; full_slice];
      getitem_step false st (core t i) (negb (is_slice ix)) false sliced)
    (seq 0 (ndims t)) ([], None);
  do news <- absorb_last "aib,bd->aid" (fst st) (snd st);
  TensorTrain news SNone None.

(** [tensor_train_batch.py:149-176] _batch_dim_getitem. *)
Definition batch_dim_getitem (t : tt) (ix : pyindex) : res tt :=
  do news <- mapM (fun i =>
      if is_tt_matrix t
      then getitem (core t i) [ix; full_slice; full_slice; full_slice; full_slice]
      else getitem (core t i) [ix; full_slice; full_slice; full_slice])
    (seq 0 (ndims t));
  if is_slice ix then
    do c <- nthr news 0; do b <- nthr (shape c) 0;
    TensorTrainBatch news (STuple (rshape t)) (Some (rks t)) (Some b)
  else TensorTrain news (STuple (rshape t)) (Some (rks t)).

(** [tensor_train_batch.py:178-235] _full_getitem. *)
Definition full_getitem (t : tt) (spec : list pyindex) : res tt :=
  if negb (Nat.eqb (length spec) (S (ndims t))) then Err ValueError else
  do b <- nthr spec 0;
  let bcol := negb (is_slice b) in
  do st <- foldM (fun i st =>
      if is_tt_matrix t then Err NotImplementedError else
      do ix <- nthr spec (S i);
      do sliced <- getitem (core t i) [b; full_slice; ix; full_slice];
      getitem_step true st (core t i) (negb (is_slice ix)) bcol sliced)
    (seq 0 (ndims t)) ([], None);
  do news <- absorb_last (if bcol then "aib,bd->aid" else "oaib,obd->oaid") (fst st) (snd st);
  if bcol then TensorTrain news SNone None else TensorTrainBatch news SNone None None.

(** [tensor_train_batch.py:237-274] TensorTrainBatch.__getitem__ for a tuple.  A one-element
    tuple is passed on as a tuple, and TF's strided slice rejects it (TypeError). *)
Definition ttb_getitem (t : tt) (spec : list pyindex) : res tt :=
  if Nat.eqb (length spec) 1 then Err TypeError else
  if Nat.eqb (length spec) (S (ndims t)) then full_getitem t spec else Err ValueError.

(** [shapes.py:265-286] squeeze_batch_dim. *)
Definition squeeze_batch_dim (t : tt) : res tt :=
  match bsz t with
  | Some 1%nat => batch_dim_getitem t (IInt 0)
  | _ => Ok t
  end.

(** [shapes.py:289-308] expand_batch_dim. *)
Definition expand_batch_dim (t : tt) : res tt :=
  match bsz t with
  | Some _ => Ok t
  | None => TensorTrainBatch (map (fun i => expand_dims (core t i) 0) (seq 0 (ndims t)))
              (STuple (rshape t)) (Some (rks t)) (Some 1%nat)
  end.

End Base.

Arguments TT {K} _ _ _ _. Arguments cores {K} _. Arguments rshape {K} _. Arguments rks {K} _.
Arguments bsz {K} _. Arguments is_batch {K} _. Arguments ndims {K} _. Arguments is_tt_matrix {K} _.
Arguments core {K} _ _. Arguments rk {K} _ _. Arguments mode {K} _ _ _. Arguments get_shape {K} _.
Arguments TensorTrain {K} _ _ _. Arguments TensorTrainBatch {K} _ _ _ _.
Arguments lazy_tt_ranks {K} _. Arguments lazy_shape {K} _. Arguments lazy_raw_shape {K} _.
Arguments lazy_batch_size {K} _. Arguments is_batch_broadcasting_possible {K} _ _.
Arguments tt_getitem {K} _ _. Arguments batch_dim_getitem {K} _ _. Arguments full_getitem {K} _ _.
Arguments ttb_getitem {K} _ _. Arguments squeeze_batch_dim {K} _. Arguments expand_batch_dim {K} _.
Arguments cores_valid {K} _ _ _ _ _. Arguments check_cores {K} _ _ _ _ _ _.
Arguments check_core {K} _ _ _ _ _ _. Arguments infer_raw_shape {K} _ _.
Arguments infer_tt_ranks {K} _ _. Arguments getitem_step {K} _ _ _ _ _ _.
Arguments absorb_last {K} _ _ _.
