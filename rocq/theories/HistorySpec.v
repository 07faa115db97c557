(** Which calls keep all objects valid (C53): every one, except those listed here. *)
From Coq Require Import List Arith ZArith Bool Reals.
From Verif Require Import Scalar Tensor Base Ops OpsR BatchOps Decomp Approx Kron Riem Autodiff Init History ValidSpec.
Import ListNotations.
Local Open Scope nat_scope.

(** Arguments of a constructor: the cores have 3 or 4 axes (one more for a batch), and the shape and
    the ranks, if given, have the right lengths.  (Everything else the constructor checks.) *)
Definition sized_cores (batch_axis : nat) (cs : list rtensor) (sh : shape_arg) (ranks : option (list nat)) : Prop :=
  (forall c, nth_error cs 0 = Some c -> rank c = batch_axis + 3 \/ rank c = batch_axis + 4) /\
  (forall ss, clean_raw_shape sh = Ok (Some ss) ->
     (forall c, nth_error cs 0 = Some c -> rank c = batch_axis + 2 + length ss) /\ forall s, In s ss -> length s = length cs) /\
  (forall rs, ranks = Some rs -> length rs = S (length cs)).
Definition same_first_axis (cs : list rtensor) : Prop :=
  forall c c', In c cs -> In c' cs -> nth 0 (shape c) 0 = nth 0 (shape c') 0.

(** The shape of a matrix: two rows, not of one number each. *)
Definition two_axes (s : shape2) : Prop :=
  exists r c, s = S2Rows [r; c] /\ forall row, r = Some row \/ c = Some row -> length row <> 1.

Definition names (e : env) (a : nat) (P : rtt -> Prop) : Prop := forall o, nth_error e a = Some o -> P (o_tt o).
Definition plain (t : rtt) : Prop := bsz t = None.

Definition proper (e : env) (c : op) : Prop :=
  match c with
  (* what the user passes to a constructor *)
  | CallTensorTrain cs sh ranks => sized_cores 0 cs sh ranks
  | CallTensorTrainBatch cs sh ranks bs => sized_cores 1 cs sh ranks /\ (bs = None -> same_first_axis cs)
  (* TT-matrices with one core or with a shape of more than two rows *)
  | CallEye s => forall n, s <> S1Vec [n]
  | CallMatrixOnes s | CallMatrixZeros s | CallMatrixWithRandomCores _ s _ _ _ | CallMatrixBatchWithRandomCores _ s _ _ _ _
  | CallRandomMatrix _ s _ _ _ | CallRandomMatrixBatch _ s _ _ _ _ | CallGlorot _ s _ | CallHe _ s _ | CallLecun _ s _ => two_axes s
  | CallOnesLike a | CallZerosLike a => names e a (fun t => length (rshape t) = 1 \/ length (cores t) <> 1)
  (* the left parts of a tangent space: not a batch *)
  | CallDeltasToTangentSpace _ a (Some l) _ => names e l plain
  | CallDeltasToTangentSpace _ a None (Some _) => names e a plain
  (* all other calls *)
  | _ => True
  end.

(** A program all of whose calls are proper when they are made. *)
Section Proper.
Variable qr : rtensor -> rtensor * rtensor.
Variable svd : rtensor -> rtensor * rtensor * rtensor.
Variable la : linalg.
Variable grad : (list rtensor -> res R) -> list rtensor -> list (option rtensor).
Fixpoint proper_run (e : env) (p : list op) : Prop :=
  match p with
  | [] => True
  | c :: p' => proper e c /\ match call qr svd la grad e c with Ok o => proper_run (e ++ [o]) p' | Err _ => proper_run e p' end
  end.
End Proper.

(** [tf.linalg.inv] and [tf.linalg.cholesky] keep the shape of their argument. *)
Definition keeps_shapes (la : linalg) : Prop :=
  (forall x y, tf_inv la x = Ok y -> shape y = shape x) /\ (forall x y, tf_cholesky la x = Ok y -> shape y = shape x).

Definition all_valid (e : env) : Prop := forall o, In o e -> valid (o_tt o).
