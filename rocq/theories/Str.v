(** [__str__] of both classes ([t3f/tensor_train.py:87-100], [t3f/tensor_train_batch.py:113-138]), on what the
    graph knows of an object (Static.v).  Python's ['%d'] and [str] of a number are the decimal digits.
    Model only, no proofs. *)
From Coq Require Import String Ascii List Arith Bool DecimalString.
From Verif Require Import Scalar Tensor Base Static.
Import ListNotations.
Local Open Scope string_scope.
Local Open Scope list_scope.

(** Python [str(n)]. *)
Definition str_nat (n : nat) : string := NilEmpty.string_of_uint (Nat.to_uint n).
(** [str(d)] of a dimension, an int or None; part of [tensor_train.py:87-100], [tensor_train_batch.py:113-138]. *)
Definition str_dim (d : dim) : string := match d with Some n => str_nat n | None => "None" end.

(** Joined by commas, as python prints a list or a tuple. *)
Fixpoint commas (l : list string) : string :=
  match l with
  | [] => ""
  | [x] => x
  | x :: l' => (x ++ ", " ++ commas l')%string
  end.
(** [TensorShape.__str__] of TensorFlow 2 (known number of axes): one axis is printed as a tuple with a comma.
    [tensor_train.py:87-100], [tensor_train_batch.py:113-138]. *)
Definition str_shape (l : list dim) : string :=
  match l with
  | [d] => ("(" ++ str_dim d ++ ",)")%string
  | _ => ("(" ++ commas (map str_dim l) ++ ")")%string
  end.
(** ['%d' % d]: TypeError for None.  [tensor_train_batch.py:113-138]. *)
Definition format_d (d : dim) : res string := match d with Some n => Ok (str_nat n) | None => Err TypeError end.

(** [variable]: whether the first core is a tf.Variable ([tensor_train_base.py:97-99] is_variable).
    The shape is asked for first, so an error of get_shape comes before anything else. *)
Definition str_tt (variable : bool) (o : sobj) : res string :=
  do sh <- s_get_shape o;
  let variable_str := if variable then " variable" else "" in
  if s_is_tt_matrix o then
    do m <- nthr sh 0; do m <- format_d m;
    do n <- nthr sh 1; do n <- format_d n;
    do a <- nthr (srshape o) 0; do b <- nthr (srshape o) 1;
    Ok ("A TT-Matrix" ++ variable_str ++ " of size " ++ m ++ " x " ++ n ++ ", underlying tensor shape: "
        ++ str_shape a ++ " x " ++ str_shape b ++ ", TT-ranks: " ++ str_shape (srks o))%string
  else
    Ok ("A Tensor Train" ++ variable_str ++ " of shape " ++ str_shape sh ++ ", TT-ranks: " ++ str_shape (srks o))%string.

(** [tensor_train_batch.py:113-138] TensorTrainBatch.__str__. *)
Definition str_ttb (variable : bool) (batch_size : dim) (o : sobj) : res string :=
  do sh <- s_get_shape o;
  let batch_size_str := match batch_size with None => "(?)" | Some b => str_nat b end in
  if s_is_tt_matrix o then
    do m <- nthr sh 1; do m <- format_d m;
    do n <- nthr sh 2; do n <- format_d n;
    do a <- nthr (srshape o) 0; do b <- nthr (srshape o) 1;
    let type_str := if variable then "TT-matrix variables" else "TT-matrices" in
    Ok ("A " ++ batch_size_str ++ " element batch of " ++ type_str ++ " of size " ++ m ++ " x " ++ n
        ++ ", underlying tensor shape: " ++ str_shape a ++ " x " ++ str_shape b ++ ", TT-ranks: " ++ str_shape (srks o))%string
  else
    let type_str := if variable then "Tensor Train variables" else "Tensor Trains" in
    Ok ("A " ++ batch_size_str ++ " element batch of " ++ type_str ++ " of shape " ++ str_shape (tl sh)
        ++ ", TT-ranks: " ++ str_shape (srks o))%string.

(** [str(o)]: [tensor_train.py:87-100] or [tensor_train_batch.py:113-138]. *)
Definition to_str (variable : bool) (o : sobj) : res string :=
  match sbsz o with None => str_tt variable o | Some b => str_ttb variable b o end.
