(** The functions of [t3f/ops.py] and [t3f/tensor_train_base.py] that need real numbers:
    roots, logarithms, absolute values.  Floating point numbers are modelled as reals.
    Model only, no proofs. *)
From Coq Require Import String Ascii List Arith ZArith Bool Reals.
From Verif Require Import Scalar Tensor Base Ops.
Import ListNotations.

Notation rtensor := (tensor Rring).
Notation rtt := (tt Rring).

(** [tf.pow] on non-negative numbers ([Rpower 0 _] is 1 in Coq), [ops.py:786]. *)
Definition tf_pow (x y : R) : R :=
  if Req_EM_T x 0 then (if Req_EM_T y 0 then 1 else 0)%R else Rpower x y.
(** [tf.sign], [ops.py:787]. *)
Definition tf_sign (x : R) : R :=
  (if Rlt_dec 0 x then 1 else if Rlt_dec x 0 then -1 else 0)%R.

(** [ops.py:777-794], [:916-920] multiply, the case of a number.  An object has at least one
    core; [tt_cores[0]] of no cores would be an IndexError (and 1.0/ndims would raise before). *)
Definition multiply_num (t : rtt) (c : R) : res rtt :=
  let fact := tf_pow (Rabs c) (1 / INR (ndims t))%R in
  let sign := tf_sign c in
  let cs := map (fun x : rtensor => tmap (K := Rring) (fun e => fact * e)%R x) (cores t) in
  do c0 <- nthr cs 0;
  let cs := (tmap (K := Rring) (fun e => e * sign)%R c0 :: tl cs)%list in
  match bsz t with
  | None => TensorTrain cs (STuple (rshape t)) (Some (rks t))
  | Some b => TensorTrainBatch cs (STuple (rshape t)) (Some (rks t)) (Some b)
  end.

(** [ops.py:749-920] multiply, both cases; [tensor_train_base.py:166-179] __mul__ and __rmul__. *)
Inductive factor := FNum (c : R) | FTT (t : rtt).
(** [ops.py:749-920] multiply: a number or a TT object, [ops.py:779]. *)
Definition multiply (t : rtt) (f : factor) : res rtt :=
  match f with FNum c => multiply_num t c | FTT b => tt_multiply t b end.

(** [tensor_train_base.py:156-164] __neg__. *)
Definition tt_neg (t : rtt) : res rtt := multiply t (FNum (-1)).
(** [tensor_train_base.py:144-154] __sub__. *)
Definition tt_sub (a b : rtt) : res rtt :=
  do nb <- multiply b (FNum (-1)); add a nb.

(** [tf.reduce_sum(x)], the sum of all elements (renormalize_tt_cores, [ops.py:1276-1326]). *)
Definition reduce_sum_all (x : rtensor) : R := fold_right Rplus 0%R (data x).
(** [tf.reduce_sum(x, axis=[1, ...], keepdims=True)]: the sum over every axis but the first, keeping the axes ([ops.py:1276-1326]). *)
Definition reduce_sum_tail (x : rtensor) : rtensor :=
  match shape x with
  | [] => x
  | b :: s => mk (K := Rring) (b :: repeat 1 (length s)) (fun idx => isum s (fun I => get x (nth 0 idx 0 :: I)))
  end.

(** [ops.py:1276-1326] renormalize_tt_cores.  [x ** 2] is [x * x]. *)
Definition core_norm (eps : R) (x : rtensor) : R :=
  sqrt (Rmax (reduce_sum_all (tmap (K := Rring) (fun e => e * e)%R x)) eps).
(** The norms of the cores of a batch, in renormalize_tt_cores [ops.py:1276-1326]. *)
Definition batch_core_norm (eps : R) (x : rtensor) : rtensor :=
  tmap (K := Rring) sqrt (tmap (K := Rring) (Rmax eps)
    (reduce_sum_tail (tmap (K := Rring) (fun e => e * e)%R x))).

(** [ops.py:1276-1326] renormalize_tt_cores. *)
Definition renormalize_tt_cores (t : rtt) (eps : R) : res rtt :=
  match bsz t with
  | None =>
      let norms := map (core_norm eps) (cores t) in
      let log_norm := fold_left (fun acc n => acc + ln n)%R norms 0%R in
      let fact := exp (log_norm / INR (ndims t)) in
      TensorTrain (map2 (fun x n => tmap (K := Rring) (fun e => e * fact / n)%R x) (cores t) norms)
                  SNone None
  | Some b =>
      do r0 <- nthr (cores t) 0;
      let norms := map (batch_core_norm eps) (cores t) in
      do logs <- foldM (fun n acc => ewise (K := Rring) Rplus acc (tmap (K := Rring) ln n)) norms
                   (zeros (b :: repeat 1 (rank r0 - 1)));
      let efact := tmap (K := Rring) (fun x => exp (x / INR (ndims t))) logs in
      do cs <- mapM (fun i =>
          do q <- ewise (K := Rring) Rdiv efact (nth i norms (Tensor [] []));
          ewise (K := Rring) Rmult (core t i) q)
        (seq 0 (ndims t));
      TensorTrainBatch cs SNone None None
  end.
