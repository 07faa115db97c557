(** Model of regularizers.py and nn.py.  Model only. *)
From Coq Require Import String List Arith ZArith Bool Reals.
From Verif Require Import Scalar Tensor Base Ops OpsR Decomp Init Vars.
Import ListNotations.
Local Open Scope nat_scope.
Local Open Scope string_scope.
Local Open Scope list_scope.

(** The tensorflow API that [import tensorflow as tf] gives: of version 1 or 2
    ([regularizers.py:3-5] imports tensorflow itself, not compat.v1). *)
Inductive api := TF1 | TF2.

(** ** [t3f/regularizers.py] *)
(** A scale: an integer (also a bool), a float, or something that is not a number for Python: a scalar
    tensor with its dtype.  Simplification: floats are finite.  [regularizers.py:21-23], [:56-58]. *)
Inductive scale := SInt (z : Z) | SFloat (x : R) | STensor (d : dtype) (x : R).

(** [regularizers.py:21-29] and [:56-64]: [Ok true] if the regularizer is disabled.  tf.logging does not exist in TF2. *)
Definition check_scale (a : api) (s : scale) : res bool :=
  match s with
  | SInt _ => Err ValueError
  | SFloat x => if Rlt_dec x 0 then Err ValueError else
                if Req_EM_T x 0 then match a with TF1 => Ok true | TF2 => Err AttributeError end else Ok false
  | STensor _ _ => Ok false
  end.

(** [tf.name_scope(scope, 'l2_regularizer')]: TF2's takes one positional argument.  [regularizers.py:33], [:68]. *)
Definition name_scope2 (a : api) : res unit := match a with TF1 => Ok Datatypes.tt | TF2 => Err TypeError end.

(** [tf.convert_to_tensor(scale, dtype=dtype)]; [OtherType] are taken to be integer types.  [regularizers.py:34], [:69]. *)
Definition convert_scale (s : scale) (d : dtype) : res R :=
  match s with
  | SInt z => Ok (IZR z)
  | SFloat x => match d with OtherType _ => Err TypeError | _ => Ok x end
  | STensor d' x => if dtype_eqb d' d then Ok x else Err ValueError
  end.

Section Regularizers.
(** tf.linalg.qr, used by frobenius_norm_squared (contract [qr_ok], DecompSpec.v). *)
Variable qr : rtensor -> rtensor * rtensor.

(** A regularizer: gets dtype and value of a TT object, returns None or a tensor.  [regularizers.py:29-37], [:64-75]. *)
Definition regularizer := dtype -> rtt -> res (option rtensor).

(** [regularizers.py:8-37] l2_regularizer. *)
Definition l2_regularizer (a : api) (s : scale) : res regularizer :=
  do disabled <- check_scale a s;
  if disabled then Ok (fun _ _ => Ok None) else
  Ok (fun d t =>
    do _ <- name_scope2 a;
    do my_scale <- convert_scale s d;
    do n <- frobenius_norm_squared qr t false;
    Ok (Some (tmap (K := Rring) (fun x => my_scale * x)%R n))).

(** [regularizers.py:40-75] cores_regularizer.  Simplification: [core_regularizer] returns a scalar. *)
Definition cores_regularizer (a : api) (core_regularizer : rtensor -> res R) (s : scale) : res regularizer :=
  do disabled <- check_scale a s;
  if disabled then Ok (fun _ _ => Ok None) else
  Ok (fun d t =>
    do _ <- name_scope2 a;
    do my_scale <- convert_scale s d;
    do penalty <- foldM (fun i p => do x <- core_regularizer (core t i); Ok (p + x)%R) (seq 0 (ndims t)) 0%R;
    Ok (Some (Tensor (K := Rring) [] [(my_scale * penalty)%R]))).
End Regularizers.

(** ** [t3f/nn.py] *)
(** A KerasDense layer: the TT-matrix variable, the bias variable, the name of the activation, output_dim.
    Not modelled: the counter and the name of the layer, Keras' tracking of attributes, [**kwargs].  [nn.py:38-66]. *)
Record layer := Layer { lmatrix : vobj Rring; lbias : option nat; lactivation : option string; lout : nat }.

Section Layer.
Context {loss : Type}.
(** Random numbers drawn by the initializer (initializers.py). *)
Variable xi : nat -> list nat -> R.
(** keras.layers.Activation by name. *)
Variable activations : string -> option (rtensor -> res rtensor).

(** [nn.py:48-60]: the initializer. *)
Definition kernel (kernel_initializer : string) (sh : shape2) (tt_rank : rarg) : res rtt :=
  if String.eqb kernel_initializer "glorot" then glorot_initializer xi sh tt_rank
  else if String.eqb kernel_initializer "he" then he_initializer xi sh tt_rank
  else if String.eqb kernel_initializer "lecun" then lecun_initializer xi sh tt_rank
  else Err ValueError.

(** [nn.py:14-66] KerasDense.__init__; the variables are float32.  [sc] is the current variable scope.  The bias is a plain
    tf.Variable, not known to tf.get_variable. *)
Definition keras_dense (eager : bool) (sc : scope) (input_dims output_dims : list num) (tt_rank : rarg) (activation : option string)
    (use_bias : bool) (kernel_initializer : string) (bias_initializer : R) : M Rring loss layer :=
  let output_dim := prodn (map to_nat output_dims) in
  bindM (liftR (kernel kernel_initializer (S2Rows [Some input_dims; Some output_dims]) tt_rank)) (fun w =>
  bindM (get_variable eager sc "matrix" None (Some (VObj (map CTensor (cores w)) (rshape w) (rks w) (bsz w) Float32)) None) (fun v =>
  if use_bias then
    bindM (new_variable true "Variable" Float32 (mk (K := Rring) [output_dim] (fun _ => bias_initializer))) (fun b =>
    ret (Layer v (Some b) activation output_dim))
  else ret (Layer v None activation output_dim))).

(** [nn.py:68-74] call, on a tensor. *)
Definition call_layer (l : layer) (x : rtensor) (h : list (var Rring)) : res rtensor :=
  do m <- matmul_any (ADense x) (ATT (deref h (lmatrix l)));
  match m with
  | MTT _ => Err TypeError
  | MDense r =>
      do r <- match lbias l with Some b => ewise (K := Rring) Rplus r (value_of h b) | None => Ok r end;
      match lactivation l with
      | None => Ok r
      | Some n => match activations n with Some f => f r | None => Err ValueError end
      end
  end.

(** [nn.py:76-77] compute_output_shape. *)
Definition compute_output_shape (l : layer) (input_shape : list nat) : res (list nat) :=
  do n <- nthr input_shape 0; Ok [n; lout l].
End Layer.
