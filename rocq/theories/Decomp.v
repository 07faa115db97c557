(** [t3f/decompositions.py], and the QR-based branch of the norms in [t3f/ops.py].

    [tf.linalg.qr] and [tf.linalg.svd] are not modelled: they are the parameters [qr] and [svd]
    of this file, functions on tensors.  What is assumed about them is stated in
    DecompSpec.v ([qr_ok], [svd_ok]).

    The python functions for a TensorTrain and for a TensorTrainBatch are the same up to a
    leading axis of size batch_size in every shape; [pre] is [] or [[batch_size]].  All shapes
    are defined statically, so the [tf.shape] branches and the TypeError handlers around [min]
    are not taken.
    Model only, no proofs. *)
From Coq Require Import String Ascii List Arith ZArith Bool Reals.
From Verif Require Import Scalar Tensor Base Ops OpsR.
Import ListNotations.

(** A rank bound as passed by the caller: None, [np.inf], an int, a list of ints. Arguments of [decompositions.py:9], [:100], [:198]. *)
Inductive rank_arg := RkNone | RkInf | RkNum (z : Z) | RkList (l : list Z).

(** [np.array(max_tt_rank).astype(np.int32)]: None cannot be converted (TypeError), infinity
    becomes the smallest int32 (numpy on x86-64).  Ints are assumed to fit in 32 bits.
    [decompositions.py:146], [:250], [:325]. *)
Definition to_int32 (a : rank_arg) : res (list Z) :=
  match a with
  | RkNone => Err TypeError
  | RkInf => Ok [(-2147483648)%Z]
  | RkNum z => Ok [z]
  | RkList l => Ok l
  end.

(** [decompositions.py:146-156] (to_tt_tensor), [:250-259] (_round_tt), [:325-334]
    (_round_batch_tt).  The last one tests [if max_tt_rank < 1], which is a ValueError (ambiguous
    truth value) for an array with two or more elements. *)
Definition parse_ranks (batch : bool) (a : rank_arg) (eps : option R) (d : nat) : res (list nat) :=
  do l <- to_int32 a;
  if batch && Nat.ltb 1 (length l) then Err ValueError else
  if existsb (fun z => Z.ltb z 1) l then Err ValueError else
  if (match eps with Some e => if Rlt_dec e 0 then true else false | None => false end) then Err ValueError else
  match l with
  | [z] => Ok (repeat (Z.to_nat z) (S d))
  | _ => if negb (Nat.eqb (length l) (S d)) then Err ValueError else Ok (map Z.to_nat l)
  end.

(** [decompositions.py:170-174], [:283-287], [:359-363]: [min(max_tt_rank[i], rows, columns)], and 1 when the bound is 1. *)
Definition new_rank (m rows columns : nat) : nat :=
  if Nat.eqb m 1 then 1 else Nat.min m (Nat.min rows columns).

(** [tf.transpose] of the last two axes, [decompositions.py:186], [:303], [:379]. *)
Definition swap_last (pre : list nat) (x : rtensor) : res rtensor :=
  transpose x (seq 0 (length pre) ++ [S (length pre); length pre]).
(** [tf.linalg.diag], [decompositions.py:186], [:307], [:383]. *)
Definition tdiag (x : rtensor) : rtensor :=
  mk (shape x ++ [last (shape x) 0])
     (fun idx => let i := removelast idx in if Nat.eqb (last i 0) (last idx 0) then get x i else 0%R).
(** Slices [x[..., 0:r]], [decompositions.py:181-183], [:295-297], [:371-373]. *)
Definition first_cols (x : rtensor) (r : nat) : res rtensor :=
  getitem x (repeat full_slice (rank x - 1) ++ [ISlice (Some 0%Z) (Some (Z.of_nat r)) None]).

(** The modes of core [i]: [curr_mode], or [curr_mode_left; curr_mode_right]. [decompositions.py:271-276], [:347-352], [:454-459], [:515-520]. *)
Definition core_modes (t : rtt) (i : nat) : list nat :=
  if is_tt_matrix t then [mode t 0 i; mode t 1 i] else [mode t 0 i].

Section Decomp.
Variable qr : rtensor -> rtensor * rtensor.
Variable svd : rtensor -> rtensor * rtensor * rtensor.

(** [decompositions.py:447-479] loop of _orthogonalize_tt_cores_left_to_right, [:508-542] of
    _orthogonalize_batch_tt_cores_left_to_right.  State: the list tt_cores and next_rank. *)
Definition orth_lr_step (pre : list nat) (t : rtt) (i : nat) (st : list rtensor * nat)
  : res (list rtensor * nat) :=
  let '(cs, curr_rank) := st in
  do c <- nthr cs i;
  do next_rank <- nthr (lazy_tt_ranks t) (S i);
  let ms := core_modes t i in
  do m <- reshape c (map Some (pre ++ [curr_rank * prodn ms; next_rank]));
  let '(q, r) := qr m in
  do next_rank <- nthr (shape r) (length pre);
  do cols <- nthr (shape r) (S (length pre));
  do q <- reshape q (map Some (pre ++ curr_rank :: ms ++ [next_rank]));
  let cs := upd i q cs in
  do nc <- nthr cs (S i);
  do nc <- reshape nc (map Some (pre ++ [cols]) ++ [None]);
  do nc <- matmul r nc;
  Ok (upd (S i) nc cs, next_rank).

(** [decompositions.py:421-487] and [:490-551]. *)
Definition orth_lr (pre : list nat) (t : rtt) : res rtt :=
  do r0 <- nthr (lazy_tt_ranks t) 0;
  do st <- foldM (orth_lr_step pre t) (seq 0 (ndims t - 1)) (cores t, r0);
  let '(cs, next_rank) := st in
  do lc <- lastr cs;
  do lc <- reshape lc (map Some (pre ++ next_rank :: core_modes t (ndims t - 1) ++ [1]));
  let cs := upd (ndims t - 1) lc cs in
  match pre with
  | [] => TensorTrain cs (STuple (rshape t)) None
  | b :: _ => TensorTrainBatch cs (STuple (rshape t)) None (Some b)
  end.

(** [decompositions.py:554-612] _orthogonalize_tt_cores_right_to_left (TensorTrain only). *)
Definition orth_rl_step (t : rtt) (i : nat) (st : list rtensor * nat) : res (list rtensor * nat) :=
  let '(cs, curr_rank) := st in
  do c <- nthr cs i;
  do prev_rank <- nthr (lazy_tt_ranks t) i;
  let ms := core_modes t i in
  do m <- reshape c (map Some [prev_rank; prodn ms * curr_rank]);
  do m <- swap_last [] m;
  let '(q, r) := qr m in
  do q <- swap_last [] q;
  do r <- swap_last [] r;
  do prev_rank <- nthr (shape r) 1;
  do rows <- nthr (shape r) 0;
  do q <- reshape q (map Some (prev_rank :: ms ++ [curr_rank]));
  let cs := upd i q cs in
  do pc <- nthr cs (i - 1);
  do pc <- reshape pc [None; Some rows];
  do pc <- matmul pc r;
  Ok (upd (i - 1) pc cs, prev_rank).

(** [decompositions.py:554-612] _orthogonalize_tt_cores_right_to_left. *)
Definition orth_rl (t : rtt) : res rtt :=
  do rd <- nthr (lazy_tt_ranks t) (ndims t);
  do st <- foldM (orth_rl_step t) (rev (seq 1 (ndims t - 1))) (cores t, rd);
  let '(cs, prev_rank) := st in
  do c <- nthr cs 0;
  do c <- reshape c (map Some (1 :: core_modes t 0 ++ [prev_rank]));
  TensorTrain (upd 0 c cs) (STuple (rshape t)) None.

(** [decompositions.py:395-418] orthogonalize_tt_cores. *)
Definition orthogonalize_tt_cores (t : rtt) (left_to_right : bool) : res rtt :=
  match bsz t with
  | Some b => if left_to_right then orth_lr [b] t else Err NotImplementedError
  | None => if left_to_right then orth_lr [] t else orth_rl t
  end.

(** [tf.norm(x)], [ops.py:973]. *)
Definition tf_norm (x : rtensor) : R := sqrt (reduce_sum_all (tmap (K := Rring) (fun e => e * e)%R x)).
(** [tf.norm(x, axis=1)], [ops.py:971]. *)
Definition tf_norm_rows (x : rtensor) : rtensor :=
  mk (K := Rring) (firstn 1 (shape x)) (fun idx =>
    sqrt (sumn (K := Rring) (nth 1 (shape x) 0) (fun j => (get x (idx ++ [j]) * get x (idx ++ [j]))%R))).
(** [ops.py:964-973]: the default branch of frobenius_norm_squared. *)
Definition frobenius_norm_squared_qr (t : rtt) : res rtensor :=
  do o <- orthogonalize_tt_cores t true;
  do lc <- lastr (cores o);
  match bsz t with
  | Some b => do lc <- reshape lc [Some b; None];
              Ok (tmap (K := Rring) (fun x => x * x)%R (tf_norm_rows lc))
  | None => Ok (Tensor (K := Rring) [] [(tf_norm lc * tf_norm lc)%R])
  end.

(** [ops.py:922-973] frobenius_norm_squared, both branches. *)
Definition frobenius_norm_squared (t : rtt) (differentiable : bool) : res rtensor :=
  if differentiable then frobenius_norm_squared_diff t else frobenius_norm_squared_qr t.
(** [ops.py:976-997] frobenius_norm. *)
Definition frobenius_norm (t : rtt) (eps : R) (differentiable : bool) : res rtensor :=
  do n <- frobenius_norm_squared t differentiable;
  Ok (tmap (K := Rring) (fun x => sqrt (x + eps))%R n).

(** [decompositions.py:160-186] loop of to_tt_tensor.  State: tens, tt_cores, the current rank;
    the list [ranks] is collected along. *)
Definition tt_svd_step (sh : list nat) (mr : list nat) (i : nat)
    (st : rtensor * list rtensor * list nat) : res (rtensor * list rtensor * list nat) :=
  let '(tens, cs, ranks) := st in
  do n <- nthr sh i;
  do rank_i <- nthr ranks i;
  let rows := rank_i * n in
  do m <- reshape tens [Some rows; None];
  do columns <- nthr (shape m) 1;
  let '(s, u, v) := svd m in
  do mi <- nthr mr (S i);
  let r := new_rank mi rows columns in
  let ranks := upd (S i) r ranks in
  do u <- first_cols u r;
  do s <- first_cols s r;
  do v <- first_cols v r;
  do c <- reshape u (map Some [rank_i; n; r]);
  do vt <- transpose_rev v;
  do tens <- matmul (tdiag s) vt;
  Ok (tens, cs ++ [c], ranks).

(** [decompositions.py:100-194] to_tt_tensor. *)
Definition to_tt_tensor (tens : rtensor) (a : rank_arg) (eps : option R) : res rtt :=
  let sh := shape tens in
  let d := length sh in
  do mr <- parse_ranks false a eps d;
  do st <- foldM (tt_svd_step sh mr) (seq 0 (d - 1)) (tens, [], repeat 1 (S d));
  let '(tens, cs, ranks) := st in
  do last_mode <- lastr sh;
  do rl <- nthr ranks (d - 1);
  do rd <- nthr ranks d;
  do c <- reshape tens (map Some [rl; last_mode; rd]);
  TensorTrain (cs ++ [c]) (SList sh) (Some ranks).

(** [decompositions.py:9-96] to_tt_matrix.  [shape] is a list of two lists, or one list and None; ragged lists do
    not form a numeric array (ValueError in [np.array] or later). *)
Definition interleave (d : nat) : list nat := List.concat (map (fun i => [i; d + i]) (seq 0 d)).
(** [decompositions.py:9-96] to_tt_matrix. *)
Definition to_tt_matrix (mat : rtensor) (s0 s1 : option (list nat)) (a : rank_arg) (eps : option R) : res rtt :=
  do (s0, s1) <- (match s0, s1 with
                   | None, None => Err TypeError
                   | None, Some y => Ok (repeat 1 (length y), y)
                   | Some x, None => Ok (x, repeat 1 (length x))
                   | Some x, Some y => Ok (x, y)
                   end);
  if negb (Nat.eqb (length s0) (length s1)) then Err ValueError else
  do tens <- reshape mat (map Some (s0 ++ s1));
  let d := length s0 in
  do tens <- transpose tens (interleave d);
  do tens <- reshape tens (map Some (map2 Nat.mul s0 s1));
  do t <- to_tt_tensor tens a eps;
  do cs <- mapM (fun i => reshape (core t i) (map Some [rk t i; nth i s0 0; nth i s1 0; rk t (S i)]))
             (seq 0 d);
  TensorTrain cs (SList2 [s0; s1]) (Some (rks t)).

(** [decompositions.py:269-307] loop of _round_tt, [:345-383] of _round_batch_tt.  State: tt_cores and ranks. *)
Definition round_step (pre : list nat) (t : rtt) (mr : list nat) (i : nat)
    (st : list rtensor * list nat) : res (list rtensor * list nat) :=
  let '(cs, ranks) := st in
  do c <- nthr cs i;
  do rnext <- nthr ranks (S i);
  let ms := core_modes t i in
  let columns := prodn ms * rnext in
  do m <- reshape c (map Some pre ++ [None; Some columns]);
  do rows <- nthr (shape m) (length pre);
  do mi <- nthr mr i;
  let r := new_rank mi rows columns in
  let ranks := upd i r ranks in
  let '(s, u, v) := svd m in
  do u <- first_cols u r;
  do s <- first_cols s r;
  do v <- first_cols v r;
  do vt <- swap_last pre v;
  do c <- reshape vt (map Some (pre ++ r :: ms ++ [rnext]));
  let cs := upd i c cs in
  do pc <- nthr cs (i - 1);
  do pc <- reshape pc (map Some pre ++ [None; Some rows]);
  do pc <- matmul pc u;
  do pc <- matmul pc (tdiag s);
  Ok (upd (i - 1) pc cs, ranks).

(** [decompositions.py:198-241] round, [:244-316] _round_tt, [:319-392] _round_batch_tt. *)
Definition round (t : rtt) (a : rank_arg) (eps : option R) : res rtt :=
  let d := ndims t in
  let pre := match bsz t with Some b => [b] | None => [] end in
  do mr <- parse_ranks (is_batch t) a eps d;
  do o <- orthogonalize_tt_cores t true;
  do st <- foldM (round_step pre t mr) (rev (seq 1 (d - 1))) (cores o, repeat 1 (S d));
  let '(cs, ranks) := st in
  do c <- nthr cs 0;
  do r0 <- nthr ranks 0;
  do r1 <- nthr ranks 1;
  do c <- reshape c (map Some (pre ++ r0 :: core_modes t 0 ++ [r1]));
  let cs := upd 0 c cs in
  match bsz t with
  | None => TensorTrain cs (STuple (rshape t)) (Some ranks)
  | Some b => TensorTrainBatch cs (STuple (rshape t)) (Some ranks) (Some b)
  end.

End Decomp.
