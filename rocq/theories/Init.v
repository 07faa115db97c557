(** [t3f/initializers.py].  Model only, no proofs.

    Arguments are values as they are after [np.array(...)]: arrays of integers or of other numbers.
    A list with a non-integer number becomes a float array, all elements of which are then refused,
    so the values of such numbers do not matter.  [np.int] (an alias of [int] that numpy >= 1.24 has
    dropped) is taken to be [int].  dtype and name arguments are ignored. *)
From Coq Require Import String List Arith ZArith Bool Reals.
From Verif Require Import Scalar Tensor Base Ops OpsR.
Import ListNotations.
Local Open Scope nat_scope.

(** An element of an array: an integer or something else (a float); [isinstance(sh, np.integer)], [initializers.py:28], [:40], [:46], [:53], [:56]. *)
Inductive num := NI (z : Z) | NF.
(** [1 <= x] and an integer: both [np.any(shape < 1)] and [isinstance(sh, np.integer)] of
    [initializers.py:25-30], [:37-42] raise ValueError. *)
Definition pos_int (x : num) : bool := match x with NI z => (1 <=? z)%Z | NF => false end.
(** The value of an integer found positive. *)
Definition to_nat (x : num) : nat := match x with NI z => Z.to_nat z | NF => 0 end.

(** The argument [shape] of the functions for tensors: a one-dimensional array, or not ([initializers.py:23]). *)
Inductive shape1 := S1Vec (l : list num) | S1Other.
(** The argument [shape] of the functions for matrices: a list of rows, None for an omitted one, or
    a list of numbers ([initializers.py:173-180]). *)
Inductive shape2 := S2Rows (l : list (option (list num))) | S2Vec (l : list num).
(** The argument tt_rank: a number or a one-dimensional array ([initializers.py:50-58]). *)
Inductive rarg := RAnum (x : num) | RAvec (l : list num).

(** [initializers.py:22-30] _validate_input_parameters, is_tensor. *)
Definition validate_tensor (s : shape1) : res (list nat) :=
  match s with
  | S1Vec l => if forallb pos_int l then Ok (map to_nat l) else Err ValueError
  | S1Other => Err ValueError
  end.

(** [initializers.py:31-42] on an array of at least two rows ([rectangular]: all rows of the same length; otherwise
    [np.array] gives a one-dimensional array of lists, or raises ValueError itself). *)
Definition rectangular {A} (rows : list (list A)) : bool :=
  forallb (fun r => Nat.eqb (length r) (length (nth 0 rows []))) rows.
(** [initializers.py:31-42] _validate_input_parameters, not is_tensor. *)
Definition validate_matrix (rows : list (list num)) : res (list (list nat)) :=
  if negb (rectangular rows) then Err ValueError else
  if forallb (forallb pos_int) rows then Ok (map (map to_nat) rows) else Err ValueError.

(** [initializers.py:173-182] and the same lines of the other functions: omitted rows.  [shape[0]], [shape[1]] of a
    shorter list are IndexErrors, [len(None)] is a TypeError; further rows that are None make an
    array of objects (ValueError in the validation). *)
Definition ones_row (r : list num) : list num := repeat (NI 1) (length r).
(** No further row is None. *)
Fixpoint all_some {A} (l : list (option A)) : option (list A) :=
  match l with
  | [] => Some []
  | Some x :: l' => match all_some l' with Some r => Some (x :: r) | None => None end
  | None :: _ => None
  end.
(** [initializers.py:173-182] with the validation, and the same lines of the other functions. *)
Definition matrix_rows (s : shape2) : res (list (list nat)) :=
  match s with
  | S2Vec l => if Nat.ltb (length l) 2 then Err IndexError else Err ValueError
  | S2Rows (None :: None :: _) => Err TypeError
  | S2Rows (None :: Some r :: rest) =>
      match all_some rest with Some rs => validate_matrix (ones_row r :: r :: rs) | None => Err ValueError end
  | S2Rows (Some r :: None :: rest) =>
      match all_some rest with Some rs => validate_matrix (r :: ones_row r :: rs) | None => Err ValueError end
  | S2Rows (Some r :: Some r' :: rest) =>
      match all_some rest with Some rs => validate_matrix (r :: r' :: rs) | None => Err ValueError end
  | S2Rows _ => Err IndexError
  end.

(** [initializers.py:44-49]: the argument batch_size. *)
Definition validate_batch (b : num) : res nat := if pos_int b then Ok (to_nat b) else Err ValueError.

(** [initializers.py:50-69] tt_rank for [d] dimensions.  For a one-element array [tt_rank[()]] is the array, not an
    integer. *)
Definition validate_rank (d : nat) (r : rarg) : res unit :=
  match r with
  | RAnum x => if pos_int x then Ok Datatypes.tt else Err ValueError
  | RAvec [_] => Err ValueError
  | RAvec l => if negb (forallb pos_int l) then Err ValueError else
               if Nat.eqb (length l) (S d) then Ok Datatypes.tt else Err ValueError
  end.
(** [initializers.py:263-268]: [tt_rank * np.ones(num_dims - 1)] with 1 at both ends; [np.ones(-1)] raises. *)
Definition expand_rank (d : nat) (r : rarg) : res (list nat) :=
  match r with
  | RAnum x => if Nat.eqb d 0 then Err ValueError else Ok (1 :: repeat (to_nat x) (d - 1) ++ [1])
  | RAvec l => Ok (map to_nat l)
  end.

(** ** Constant objects *)
Section Const.
Variable K : cring.

(** [initializers.py:72-95] tensor_ones, [:98-120] tensor_zeros. *)
Definition tensor_const (v : K) (s : shape1) : res (tt K) :=
  do sh <- validate_tensor s;
  TensorTrain (map (fun i => mk [1; nth i sh 0; 1] (fun _ => v)) (seq 0 (length sh))) (SList sh) (Some (repeat 1 (S (length sh)))).
(** [initializers.py:72-95] tensor_ones. *)
Definition tensor_ones : shape1 -> res (tt K) := tensor_const c1.
(** [initializers.py:98-120] tensor_zeros. *)
Definition tensor_zeros : shape1 -> res (tt K) := tensor_const c0.

(** [initializers.py:123-150] eye. *)
Definition eye (s : shape1) : res (tt K) :=
  do sh <- validate_tensor s;
  do cs <- mapM (fun i =>
      let n := nth i sh 0 in
      reshape (mk [n; n] (fun ix => if Nat.eqb (nth 0 ix 0) (nth 1 ix 0) then c1 else c0)) (map Some [1; n; n; 1]))
    (seq 0 (length sh));
  TensorTrain cs (SList2 [sh; sh]) (Some (repeat 1 (S (length sh)))).

(** [initializers.py:153-193] matrix_ones, [:196-235] matrix_zeros. *)
Definition matrix_const (v : K) (s : shape2) : res (tt K) :=
  do rows <- matrix_rows s;
  let d := length (nth 0 rows []) in
  TensorTrain (map (fun i => mk [1; nth i (nth 0 rows []) 0; nth i (nth 1 rows []) 0; 1] (fun _ => v)) (seq 0 d))
    (SList2 rows) (Some (repeat 1 (S d))).
(** [initializers.py:153-193] matrix_ones. *)
Definition matrix_ones : shape2 -> res (tt K) := matrix_const c1.
(** [initializers.py:196-235] matrix_zeros. *)
Definition matrix_zeros : shape2 -> res (tt K) := matrix_const c0.

(** [initializers.py:435-461] ones_like, [:464-490] zeros_like ([lazy_raw_shape] is a numpy array). *)
Definition const_like (v : K) (t : tt K) : res (tt K) :=
  if is_tt_matrix t then matrix_const v (S2Rows (map (fun r => Some (map (fun n => NI (Z.of_nat n)) r)) (lazy_raw_shape t)))
  else tensor_const v (S1Vec (map (fun n => NI (Z.of_nat n)) (nth 0 (lazy_raw_shape t) []))).
(** [initializers.py:435-461] ones_like. *)
Definition ones_like : tt K -> res (tt K) := const_like c1.
(** [initializers.py:464-490] zeros_like. *)
Definition zeros_like : tt K -> res (tt K) := const_like c0.
End Const.
Arguments tensor_const {K} _ _. Arguments tensor_ones {K} _. Arguments tensor_zeros {K} _.
Arguments eye {K} _. Arguments matrix_const {K} _ _. Arguments matrix_ones {K} _. Arguments matrix_zeros {K} _.
Arguments const_like {K} _ _. Arguments ones_like {K} _. Arguments zeros_like {K} _.

(** ** Random objects.  [xi k] are the values that call number [k] of tf.random.normal draws from the
    standard normal distribution; [tf.random.normal(shape, mean, stddev)] is [mean + stddev * xi]. *)
Section Random.
Variable xi : nat -> list nat -> R.
(** [tf.random.normal], [initializers.py:273], [:315], [:371], [:429]. *)
Definition normal (k : nat) (sh : list nat) (mean stddev : R) : rtensor :=
  mk (K := Rring) sh (fun i => (mean + stddev * xi k i)%R).

(** The cores of [initializers.py:271-274], [:313-316], [:368-372], [:426-430]; [bs = Some b] for batches. *)
Definition random_cores (bs : option nat) (rows : list (list nat)) (rk : list nat) (mean stddev : R) : list rtensor :=
  map (fun i => normal i ((match bs with Some b => [b] | None => [] end) ++
                          nth i rk 0 :: map (fun r => nth i r 0) rows ++ [nth (S i) rk 0]) mean stddev)
    (seq 0 (length (nth 0 rows []))).

(** [initializers.py:238-276] tensor_with_random_cores, [:279-318] tensor_batch_with_random_cores. *)
Definition tensor_with_random_cores (s : shape1) (r : rarg) (mean stddev : R) : res rtt :=
  do sh <- validate_tensor s;
  do _ <- validate_rank (length sh) r;
  do rk <- expand_rank (length sh) r;
  TensorTrain (random_cores None [sh] rk mean stddev) (SList sh) (Some rk).
(** [initializers.py:279-318] tensor_batch_with_random_cores. *)
Definition tensor_batch_with_random_cores (s : shape1) (r : rarg) (b : num) (mean stddev : R) : res rtt :=
  do sh <- validate_tensor s;
  do b <- validate_batch b;
  do _ <- validate_rank (length sh) r;
  do rk <- expand_rank (length sh) r;
  TensorTrainBatch (random_cores (Some b) [sh] rk mean stddev) (SList sh) (Some rk) (Some b).

(** [initializers.py:321-374] matrix_with_random_cores, [:377-432] matrix_batch_with_random_cores.  Only the first
    two rows are used for the cores. *)
Definition matrix_with_random_cores (s : shape2) (r : rarg) (mean stddev : R) : res rtt :=
  do rows <- matrix_rows s;
  let d := length (nth 0 rows []) in
  do _ <- validate_rank d r;
  do rk <- expand_rank d r;
  TensorTrain (random_cores None (firstn 2 rows) rk mean stddev) (SList2 rows) (Some rk).
(** [initializers.py:377-432] matrix_batch_with_random_cores. *)
Definition matrix_batch_with_random_cores (s : shape2) (r : rarg) (b : num) (mean stddev : R) : res rtt :=
  do rows <- matrix_rows s;
  do b <- validate_batch b;
  let d := length (nth 0 rows []) in
  do _ <- validate_rank d r;
  do rk <- expand_rank d r;
  TensorTrainBatch (random_cores (Some b) (firstn 2 rows) rk mean stddev) (SList2 rows) (Some rk) (Some b).

(** [initializers.py:535-537] and the same lines below: the standard deviation of the cores.  [num_dims] is not 0
    here (expand_rank has raised). *)
Definition core_stddev (d : nat) (rk : list nat) (stddev : R) : R :=
  let var := fold_right Rmult 1%R (map (fun r => Rpower (INR r) (- 1 / (2 * INR d))) rk) in
  (tf_pow stddev (1 / INR d) * var)%R.
(** [initializers.py:542-545]. *)
Definition check_mean (mean : R) (t : rtt) : res rtt :=
  if Rlt_dec (Rabs mean) (/ 10 ^ 8) then Ok t else Err NotImplementedError.
(** The arguments shape and tt_rank of the inner calls, [initializers.py:539], [:592], [:664]. *)
Definition nints (l : list nat) : list num := map (fun n => NI (Z.of_nat n)) l.

(** [initializers.py:493-545] random_tensor, [:548-598] random_tensor_batch. *)
Definition random_tensor (s : shape1) (r : rarg) (mean stddev : R) : res rtt :=
  do sh <- validate_tensor s;
  do _ <- validate_rank (length sh) r;
  do rk <- expand_rank (length sh) r;
  do t <- tensor_with_random_cores (S1Vec (nints sh)) (RAvec (nints rk)) 0%R (core_stddev (length sh) rk stddev);
  check_mean mean t.
(** [initializers.py:548-598] random_tensor_batch. *)
Definition random_tensor_batch (s : shape1) (r : rarg) (b : num) (mean stddev : R) : res rtt :=
  do sh <- validate_tensor s;
  do b' <- validate_batch b;
  do _ <- validate_rank (length sh) r;
  do rk <- expand_rank (length sh) r;
  do t <- tensor_batch_with_random_cores (S1Vec (nints sh)) (RAvec (nints rk)) b 0%R (core_stddev (length sh) rk stddev);
  check_mean mean t.

(** [initializers.py:601-670] random_matrix, [:673-739] random_matrix_batch. *)
Definition random_matrix (s : shape2) (r : rarg) (mean stddev : R) : res rtt :=
  do rows <- matrix_rows s;
  let d := length (nth 0 rows []) in
  do _ <- validate_rank d r;
  do rk <- expand_rank d r;
  do t <- matrix_with_random_cores (S2Rows (map (fun r => Some (nints r)) rows)) (RAvec (nints rk)) 0%R (core_stddev d rk stddev);
  check_mean mean t.
(** [initializers.py:673-739] random_matrix_batch. *)
Definition random_matrix_batch (s : shape2) (r : rarg) (b : num) (mean stddev : R) : res rtt :=
  do rows <- matrix_rows s;
  do b' <- validate_batch b;
  let d := length (nth 0 rows []) in
  do _ <- validate_rank d r;
  do rk <- expand_rank d r;
  do t <- matrix_batch_with_random_cores (S2Rows (map (fun r => Some (nints r)) rows)) (RAvec (nints rk)) b 0%R (core_stddev d rk stddev);
  check_mean mean t.

(** [initializers.py:742-781] glorot_initializer, [:784-822] he_initializer, [:825-863] lecun_initializer. *)
Definition variance_initializer (lamb : list (list nat) -> R) (s : shape2) (r : rarg) : res rtt :=
  do rows <- matrix_rows s;
  do _ <- validate_rank (length (nth 0 rows [])) r;
  random_matrix (S2Rows (map (fun r => Some (nints r)) rows)) r 0%R (sqrt (lamb rows)).
(** [np.prod(shape[0])], in [initializers.py:742-863]. *)
Definition n_in (rows : list (list nat)) : R := INR (prodn (nth 0 rows [])).
(** [np.prod(shape[1])], in [initializers.py:742-863]. *)
Definition n_out (rows : list (list nat)) : R := INR (prodn (nth 1 rows [])).
(** [initializers.py:742-781] glorot_initializer. *)
Definition glorot_initializer := variance_initializer (fun rows => 2 / (n_in rows + n_out rows))%R.
(** [initializers.py:784-822] he_initializer. *)
Definition he_initializer := variance_initializer (fun rows => 2 / n_in rows)%R.
(** [initializers.py:825-863] lecun_initializer. *)
Definition lecun_initializer := variance_initializer (fun rows => 1 / n_in rows)%R.
End Random.
