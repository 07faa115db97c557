(** Statically unknown dimensions: graph mode, where the static shape of a TT-core may be
    known only in part or not at all, while the run time shape is always there.
    [t3f/tensor_train_base.py], [t3f/tensor_train.py], [t3f/tensor_train_batch.py],
    [t3f/shapes.py], with the TF2 behaviour of tf.TensorShape (an index gives an int or None).
    Model only, no proofs.  The values of the cores play no role here. *)
From Coq Require Import List Arith Bool.
From Verif Require Import Scalar Tensor Base.
Import ListNotations.

(** A dimension: an int or None. *)
Notation dim := (option nat).

(** Python [a == b] on dimensions: [None == None], and None differs from every int.  Used in [tensor_train.py:164-188], [tensor_train_batch.py:297-326]. *)
Definition deqb (a b : dim) : bool :=
  match a, b with
  | Some x, Some y => Nat.eqb x y
  | None, None => true
  | _, _ => false
  end.

(** What is known of a core before it runs: its dtype (a number stands for it) and its
    TensorShape, [None] when even the number of axes is unknown
    ([tensor_train.py:160-167], [tensor_train_batch.py:293-299]). *)
Record score := SCore { sdt : nat; sshape : option (list dim) }.

(** TensorShape.as_list() and len(): ValueError when the number of axes is unknown, [tensor_train.py:165-166], [tensor_train_batch.py:298-299]. *)
Definition as_list (s : option (list dim)) : res (list dim) :=
  match s with Some l => Ok l | None => Err ValueError end.
(** [TensorShape[i]] and [TensorShape[-1]]: None when the number of axes is unknown, [tensor_train.py:174-186], [tensor_train_batch.py:313-324]. *)
Definition ts_index (s : option (list dim)) (i : nat) : res dim :=
  match s with Some l => nthr l i | None => Ok None end.
(** [TensorShape[-1]], as above. *)
Definition ts_last (s : option (list dim)) : res dim :=
  match s with Some l => lastr l | None => Ok None end.

(** A TensorTrain ([sbsz = None]) or TensorTrainBatch ([sbsz = Some batch_size]) as the graph
    knows it: _tt_cores, _raw_shape, _tt_ranks, _batch_size ([tensor_train.py:13-56], [tensor_train_batch.py:15-66]). *)
Record sobj := SObj {
  scores : list score;
  srshape : list (list dim);
  srks : list dim;
  sbsz : option dim }.

(** Default of [nth], never reached. *)
Definition snocore : score := SCore 0 None.

(** The ways a shape is given ([shapes.py:202-231]): as in [Base.shape_arg] (numbers only), or TensorShapes with
    unknown dimensions. *)
Inductive sarg :=
| AKnown (s : shape_arg)
| ATensorShape (l : list dim)
| ATuple (ss : list (list dim)).

(** [shapes.py:202-231] clean_raw_shape.  TensorShapes of unknown length as a shape argument
    are not modelled. *)
Definition s_clean_raw_shape (a : sarg) : res (option (list (list dim))) :=
  match a with
  | AKnown s => do o <- clean_raw_shape s; Ok (option_map (map (map Some)) o)
  | ATensorShape l => Ok (Some [l])
  | ATuple [] => Err IndexError
  | ATuple ss => Ok (Some ss)
  end.

(** [tensor_train.py:171] ([strict]): plain [!=].  [tensor_train_batch.py:308-309]: two
    dimensions differ only when both are known. *)
Definition dim_ok (strict : bool) (a b : dim) : bool :=
  if strict then deqb a b
  else match a, b with Some x, Some y => Nat.eqb x y | _, _ => true end.

(** One pass of the loop of [tensor_train.py:164-185] (off = 0) and
    [tensor_train_batch.py:298-323] (off = 1).  [Ok false] is [return False]. *)
Definition s_check_core (off : nat) (cs : list score) (sh : option (list (list dim)))
    (ranks : option (list dim)) (bs : option nat) (i : nat) : res bool :=
  do cur <- as_list (sshape (nth i cs snocore));
  do first <- as_list (sshape (nth 0 cs snocore));
  if negb (Nat.eqb (length cur) (length first)) then Ok false
  else
    do b0 <- (match bs with
              | Some b => do d <- nthr cur 0; Ok (dim_ok false d (Some b))
              | None => Ok true end);
    if negb b0 then Ok false else
    do b1 <- (match sh with
              | None => Ok true
              | Some ss => all_axes (fun ax _ => do d <- nthr cur (ax + off + 1);
                               do s <- nthr ss ax; do m <- nthr s i;
                               Ok (dim_ok (Nat.eqb off 0) d m)) 0 (length ss)
              end);
    if negb b1 then Ok false else
    do b2 <- (match i with
              | O => Ok true
              | S i' => do l <- nthr cur off;
                        do p <- ts_last (sshape (nth i' cs snocore)); Ok (deqb l p)
              end);
    if negb b2 then Ok false else
    match ranks with
    | None => Ok true
    | Some rs =>
        do l <- nthr cur off; do r <- nthr rs i;
        if negb (deqb l r) then Ok false else
        do l' <- lastr cur; do r' <- nthr rs (S i); Ok (deqb l' r')
    end.

(** The loop of [tensor_train.py:164-185], [tensor_train_batch.py:297-323]. *)
Fixpoint s_check_cores (off : nat) (cs : list score) sh ranks bs (is : list nat) : res bool :=
  match is with
  | [] => Ok true
  | i :: is' => do b <- s_check_core off cs sh ranks bs i;
                if b then s_check_cores off cs sh ranks bs is' else Ok false
  end.

(** The body of the try block, [tensor_train.py:164-188], [tensor_train_batch.py:297-326]. *)
Definition s_check_all (off : nat) (cs : list score) sh ranks bs : res bool :=
  do b <- s_check_cores off cs sh ranks bs (seq 0 (length cs));
  if negb b then Ok false else
  do c0 <- nthr cs 0; do cl <- lastr cs;
  do f <- ts_index (sshape c0) off;
  if negb (deqb f (Some 1)) then Ok false else
  do l <- ts_last (sshape cl); Ok (deqb l (Some 1)).

(** [tensor_train.py:160-162], [tensor_train_batch.py:293-295]. *)
Definition same_dtypes (cs : list score) : bool :=
  forallb (fun i => Nat.eqb (sdt (nth i cs snocore)) (sdt (nth 0 cs snocore))) (seq 1 (length cs - 1)).

(** [tensor_train.py:145-192], [tensor_train_batch.py:277-330]; [sh] is cleaned.
    [except ValueError: pass], then [return True]. *)
Definition s_cores_valid (off : nat) (cs : list score) sh ranks bs : res bool :=
  if negb (same_dtypes cs) then Ok false
  else match s_check_all off cs sh ranks bs with
       | Err ValueError => Ok true
       | r => r
       end.

(** [tensor_train.py:195-206] _infer_raw_shape, [tensor_train_batch.py:333-344]. *)
Definition s_infer_raw_shape (off : nat) (cs : list score) : res (list (list dim)) :=
  do c0 <- nthr cs 0; do l <- as_list (sshape c0);
  mapM (fun ax => mapM (fun c => ts_index (sshape c) (ax + 1 + off)) cs) (seq 0 (length l - 2 - off)).

(** [tensor_train.py:209-215] _infer_tt_ranks, [tensor_train_batch.py:347-353]. *)
Definition s_infer_tt_ranks (off : nat) (cs : list score) : res (list dim) :=
  do rs <- mapM (fun c => ts_index (sshape c) off) cs;
  do cl <- lastr cs; do r <- ts_last (sshape cl); Ok (rs ++ [r]).

(** [tensor_train.py:13-56] TensorTrain.__init__ *)
Definition sTensorTrain (cs : list score) (sh : sarg) (ranks : option (list dim)) : res sobj :=
  do clean <- s_clean_raw_shape sh;
  do ok <- s_cores_valid 0 cs clean ranks None;
  if negb ok then Err ValueError else
  do raw <- (match clean with Some s => Ok s | None => s_infer_raw_shape 0 cs end);
  do rs <- (match ranks with Some r => Ok r | None => s_infer_tt_ranks 0 cs end);
  Ok (SObj cs raw rs None).

(** [tensor_train_batch.py:15-66] TensorTrainBatch.__init__ *)
Definition sTensorTrainBatch (cs : list score) (sh : sarg) (ranks : option (list dim))
    (bs : option nat) : res sobj :=
  do clean <- s_clean_raw_shape sh;
  do ok <- s_cores_valid 1 cs clean ranks bs;
  if negb ok then Err ValueError else
  do b <- (match bs with
           | Some b => Ok (Some b)
           | None => do c <- nthr cs 0; do l <- as_list (sshape c); nthr l 0
           end);
  do raw <- (match clean with Some s => Ok s | None => s_infer_raw_shape 1 cs end);
  do rs <- (match ranks with Some r => Ok r | None => s_infer_tt_ranks 1 cs end);
  Ok (SObj cs raw rs (Some b)).

(** ** Static shapes of an object *)

(** [tensor_train_base.py:93-95] is_tt_matrix *)
Definition s_is_tt_matrix (o : sobj) : bool := Nat.eqb (length (srshape o)) 2.

(** [x * y] of python: None in a product is a TypeError.  [tensor_train_base.py:35]. *)
Definition dim_mul (a b : dim) : res dim :=
  match a, b with Some x, Some y => Ok (Some (x * y)) | _, _ => Err TypeError end.
(** [reduce(lambda x, y: x*y, arr)], [tensor_train_base.py:35]: TypeError on an empty list. *)
Definition dim_prod (l : list dim) : res dim :=
  match l with [] => Err TypeError | x :: l' => foldM (fun d acc => dim_mul acc d) l' x end.

(** [tensor_train_base.py:26-41] get_shape and, for batches, [tensor_train_batch.py:68-77]. *)
Definition s_get_shape (o : sobj) : res (list dim) :=
  do s <- (if s_is_tt_matrix o then
             do a <- nthr (srshape o) 0; do m <- dim_prod a;
             do b <- nthr (srshape o) 1; do n <- dim_prod b; Ok [m; n]
           else nthr (srshape o) 0);
  Ok (match sbsz o with None => s | Some b => b :: s end).

(** [TensorShape.is_fully_defined()], with the list of ints when it is ([shapes.py:111-199]). *)
Fixpoint fully_defined (l : list dim) : option (list nat) :=
  match l with
  | [] => Some []
  | Some x :: l' => option_map (cons x) (fully_defined l')
  | None :: _ => None
  end.

(** ** Dynamic shapes.  [rt]: the run time shapes of the cores. *)

(** [tf.shape(core)[k]], [shapes.py:23], [:85], [:108]. *)
Definition tf_dim (s : list nat) (k : nat) : res nat :=
  match nth_error s k with Some x => Ok x | None => Err TFError end.
(** [tf.shape(core)[-1]], [shapes.py:24]. *)
Definition tf_dim_last (s : list nat) : res nat :=
  match rev s with x :: _ => Ok x | [] => Err TFError end.

(** [tensor_train.py:71-73] / [tensor_train_batch.py:97-99] left_tt_rank_dim *)
Definition left_tt_rank_dim (o : sobj) : nat := match sbsz o with None => 0 | Some _ => 1 end.

(** [shapes.py:6-25] tt_ranks *)
Definition tt_ranks (o : sobj) (rt : list (list nat)) : res (list nat) :=
  do rs <- mapM (fun s => tf_dim s (left_tt_rank_dim o)) rt;
  do sl <- lastr rt; do r <- tf_dim_last sl; Ok (rs ++ [r]).

(** [shapes.py:59-87] raw_shape; tf.stack of no tensors is a ValueError. *)
Definition raw_shape (o : sobj) (rt : list (list nat)) : res (list (list nat)) :=
  let axes_shift := match sbsz o with None => 1 | Some _ => 2 end in
  match srshape o with
  | [] => Err ValueError
  | _ => mapM (fun ax => mapM (fun s => tf_dim s (ax + axes_shift)) rt) (seq 0 (length (srshape o)))
  end.

(** [shapes.py:90-108] batch_size; a TensorTrain has no attribute batch_size. *)
Definition batch_size (o : sobj) (rt : list (list nat)) : res nat :=
  match sbsz o with
  | None => Err ValueError
  | Some _ => do s <- nthr rt 0; tf_dim s 0
  end.

(** [shapes.py:28-56] shape *)
Definition shape_dyn (o : sobj) (rt : list (list nat)) : res (list nat) :=
  do raw <- raw_shape o rt;
  do r <- (if s_is_tt_matrix o then Ok (map prodn raw) else nthr raw 0);
  match sbsz o with
  | None => Ok r
  | Some _ => do b <- batch_size o rt; Ok (b :: r)
  end.

(** ** Static if defined, dynamic otherwise *)

(** [shapes.py:111-130] lazy_tt_ranks *)
Definition s_lazy_tt_ranks (o : sobj) (rt : list (list nat)) : res (list nat) :=
  match fully_defined (srks o) with Some l => Ok l | None => tt_ranks o rt end.

(** [shapes.py:133-152] lazy_shape *)
Definition s_lazy_shape (o : sobj) (rt : list (list nat)) : res (list nat) :=
  do s <- s_get_shape o;
  match fully_defined s with Some l => Ok l | None => shape_dyn o rt end.

(** as_list of every raw shape into one array: np.array of rows with a None would be an object
    array, which cannot be used as a shape ([TypeError]).  [shapes.py:155-178]. *)
Definition all_defined (ss : list (list dim)) : res (list (list nat)) :=
  mapM (fun s => match fully_defined s with Some l => Ok l | None => Err TypeError end) ss.

(** [shapes.py:155-178] lazy_raw_shape *)
Definition s_lazy_raw_shape (o : sobj) (rt : list (list nat)) : res (list (list nat)) :=
  do s <- s_get_shape o;
  match fully_defined s with Some _ => all_defined (srshape o) | None => raw_shape o rt end.

(** [shapes.py:181-199] lazy_batch_size *)
Definition s_lazy_batch_size (o : sobj) (rt : list (list nat)) : res nat :=
  match sbsz o with
  | None => Err ValueError
  | Some (Some b) => Ok b
  | Some None => batch_size o rt
  end.

(** [shapes.py:234-262] is_batch_broadcasting_possible; an AttributeError (no batch_size) is
    True.  [None == 1] is False. *)
Definition s_is_batch_broadcasting_possible (a b : sobj) : bool :=
  match sbsz a, sbsz b with
  | Some x, Some y =>
      match x, y with
      | None, None => false
      | _, _ => deqb x y || (deqb x (Some 1) || deqb y (Some 1))
      end
  | _, _ => true
  end.

(** [shapes.py:289-308] expand_batch_dim; tf.expand_dims of a tensor of unknown rank has
    unknown rank. *)
Definition s_expand_batch_dim (o : sobj) : res sobj :=
  match sbsz o with
  | Some _ => Ok o
  | None =>
      sTensorTrainBatch (map (fun c => SCore (sdt c) (option_map (cons (Some 1)) (sshape c))) (scores o))
        (ATuple (srshape o)) (Some (srks o)) (Some 1)
  end.

(** [tensor_train_batch.py:163-167] [curr_core[0, :, :, :]] ([0, :, :, :, :] for matrices): of a tensor of unknown
    rank the rank stays unknown; too few axes or a first axis of size 0 are a ValueError of the graph. *)
Definition s_first (nax : nat) (c : score) : res score :=
  match sshape c with
  | None => Ok (SCore (sdt c) None)
  | Some l => if Nat.ltb (length l) nax then Err ValueError
              else match l with Some 0 :: _ => Err ValueError | _ => Ok (SCore (sdt c) (Some (tl l))) end
  end.
(** [tensor_train_batch.py:149-172] [tt[0]] *)
Definition s_element0 (o : sobj) : res sobj :=
  do cs <- mapM (s_first (if s_is_tt_matrix o then 5 else 4)) (scores o);
  sTensorTrain cs (ATuple (srshape o)) (Some (srks o)).
(** [shapes.py:265-286] squeeze_batch_dim: [None == 1] is False. *)
Definition s_squeeze_batch_dim (o : sobj) : res sobj :=
  match sbsz o with Some (Some 1) => s_element0 o | _ => Ok o end.

(** [kronecker.py:27-42] (and [:80-95], [:136-151], [:194-209]): the checks of the Kronecker functions, for objects with unknown parts.
    [max] of ranks with an unknown one is a TypeError; when [get_shape()] (with the batch size) is not fully
    defined, [ops.raw_shape] is looked up, which does not exist. *)
Definition s_check_kron (o : sobj) : res unit :=
  if negb (s_is_tt_matrix o) then Err ValueError else
  match fully_defined (srks o) with
  | None => Err TypeError
  | Some rs =>
      if negb (Nat.eqb (fold_right Nat.max 0 rs) 1) then Err ValueError else
      do sh <- s_get_shape o;
      match fully_defined sh with
      | None => Err AttributeError
      | Some _ =>
          do a <- nthr (srshape o) 0; do b <- nthr (srshape o) 1;
          match fully_defined a, fully_defined b with
          | Some a', Some b' => if list_eqb a' b' then Ok Datatypes.tt else Err ValueError
          | _, _ => Err ValueError
          end
      end
  end.
