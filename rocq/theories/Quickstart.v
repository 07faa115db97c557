(** The program of docs/quick_start.ipynb, over the library calls.  Model only, no proofs.

    [qr], [svd]: tf.linalg.qr and tf.linalg.svd (contracts: [qr_ok], [svd_ok]); [xi]: the normal samples drawn
    by t3f.random_tensor and t3f.random_matrix; the dense arrays drawn by numpy are arguments.  The sizes and
    the ranks of the notebook are arguments too.  What is printed is returned. *)
From Coq Require Import String List Arith ZArith Bool Reals.
From Verif Require Import Scalar Tensor Base Ops OpsR Decomp Init.
Import ListNotations.
Local Open Scope nat_scope.

Section Quickstart.
Variable qr : rtensor -> rtensor * rtensor.
Variable svd : rtensor -> rtensor * rtensor * rtensor.
Variable xi : nat -> list nat -> R.

(** The default epsilon=1e-5 of t3f.frobenius_norm, [ops.py:976]. *)
Definition eps5 : R := (1 / 100000)%R.
(** [np.max(t.get_tt_ranks())]; get_tt_ranks is [tensor_train_base.py:83-91]. *)
Definition max_rank (t : rtt) : nat := list_max (rks t).

(** [docs/quick_start.ipynb:111-127] and [:188-196]: a_tt = t3f.to_tt_tensor(a_dense, max_tt_rank), reconstructed =
    t3f.full(a_tt). *)
Definition convert (a_dense : rtensor) (r : rank_arg) : res (rtt * rtensor) :=
  do a <- to_tt_tensor svd a_dense r None;
  do d <- full a;
  Ok (a, d).

(** What [docs/quick_start.ipynb:236-265] computes and prints. *)
Record arithmetic := Arithmetic {
  ar_b : rtt; ar_norm : R; ar_sum : rtt; ar_prod : rtt; ar_twice : rtt; ar_rounded : rtt;
  ar_ranks : nat * nat * nat * nat; ar_difference : R }.

(** [docs/quick_start.ipynb:236-265].  [s], [rb]: the shape and the rank of b_tt; [rr]: the rank of the rounding. *)
Definition arithmetic_cell (a : rtt) (s : shape1) (rb : rarg) (rr : rank_arg) : res arithmetic :=
  do b <- random_tensor xi s rb 0 1;
  do norm <- frobenius_norm qr b eps5 false;
  do sum <- add a b;
  do prod <- multiply a (FTT b);
  do twice <- multiply a (FNum 2);
  do rounded <- round qr svd prod rr None;
  do diff <- tt_sub prod rounded;
  do difference <- frobenius_norm qr diff eps5 false;
  Ok (Arithmetic b (get norm []) sum prod twice rounded (max_rank a, max_rank b, max_rank prod, max_rank rounded) (get difference [])).

(** [docs/quick_start.ipynb:304-309] and [:344-353]: the TT-matrix, its norm, its double, its elementwise square, the product with a random
    vector of shape (cols, (1, ..., 1)) and the two dense arrays that are compared. *)
Record matrices := Matrices {
  mx_a : rtt; mx_norm : R; mx_twice : rtt; mx_square : rtt; mx_vector : rtt; mx_matvec : rtt; mx_expected : rtensor; mx_dense : rtensor }.
Definition matrix_cells (a_dense : rtensor) (rows cols : list nat) (ra : rank_arg) (rv : rarg) : res matrices :=
  do a <- to_tt_matrix svd a_dense (Some rows) (Some cols) ra None;
  do norm <- frobenius_norm qr a eps5 false;
  do twice <- multiply a (FNum 2);
  do square <- multiply a (FTT a);
  do v <- random_matrix xi (S2Rows [Some (nints cols); Some (nints (repeat 1 (length cols)))]) rv 0 1;
  do p <- matmul_any (ATT a) (ATT v);
  match p with
  | MDense _ => Err TypeError
  | MTT av =>
    do da <- full a;
    do dv <- full v;
    do expected <- matmul da dv;
    do dense <- full av;
    Ok (Matrices a (get norm []) twice square v av expected dense)
  end.
End Quickstart.
