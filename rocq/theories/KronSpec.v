(** What is assumed about [tf.linalg.inv] and [tf.linalg.cholesky], and the words used in the claims
    about Kronecker products. *)
From Coq Require Import List Arith ZArith Bool Reals.
From Verif Require Import Scalar Tensor TensorLemmas Base Spec OpsR Det DecompSpec.
Import ListNotations.

(** The matrix number [p] of a batch of matrices. *)
Definition mat (x : rtensor) (p : list nat) (i j : nat) : R := @get Rring x (p ++ [i; j]).
(** Product of n x n matrices, transpose. *)
Definition mmul (n : nat) (A B : nat -> nat -> R) (i j : nat) : R := @sumn Rring n (fun k => (A i k * B k j)%R).
Definition mtr (A : nat -> nat -> R) (i j : nat) : R := A j i.
(** [A] and [B] are equal as n x n matrices. *)
Definition meq (n : nat) (A B : nat -> nat -> R) : Prop := forall i j, i < n -> j < n -> A i j = B i j.
(** [kron i j] (DecompSpec.v) is the identity matrix. *)
Definition right_inverse (n : nat) (A B : nat -> nat -> R) : Prop := meq n (mmul n A B) kron.

Definition symmetric (n : nat) (A : nat -> nat -> R) : Prop := forall i j, i < n -> j < n -> A i j = A j i.
Definition quad (n : nat) (A : nat -> nat -> R) (v : nat -> R) : R :=
  @sumn Rring n (fun i => @sumn Rring n (fun j => (v i * A i j * v j)%R)).
Definition posdef (n : nat) (A : nat -> nat -> R) : Prop :=
  forall v, (exists i, i < n /\ v i <> 0%R) -> (0 < quad n A v)%R.
Definition cholesky_factor (n : nat) (A L : nat -> nat -> R) : Prop :=
  (forall i j, i < j -> j < n -> L i j = 0%R) /\ (forall i, i < n -> (0 < L i i)%R) /\ meq n (mmul n L (mtr L)) A.

(** [tf.linalg.inv] of a batch of square matrices: the inverses, or an exception if one of the matrices
    is singular. *)
Definition inv_ok (minv : rtensor -> res rtensor) : Prop :=
  forall pre n x, wft x -> shape x = pre ++ [n; n] -> Forall (fun k => 0 < k) (pre ++ [n; n]) ->
  ((forall p, vidx pre p -> det n (mat x p) <> 0%R) ->
     exists y, minv x = Ok y /\ wft y /\ shape y = shape x /\ forall p, vidx pre p -> right_inverse n (mat x p) (mat y p)) /\
  ((exists p, vidx pre p /\ det n (mat x p) = 0%R) -> minv x = Err TFError).

(** [tf.linalg.cholesky] of a batch of symmetric matrices: the factors, or an exception if one of the
    matrices is not positive definite. *)
Definition cho_ok (mcho : rtensor -> res rtensor) : Prop :=
  forall pre n x, wft x -> shape x = pre ++ [n; n] -> Forall (fun k => 0 < k) (pre ++ [n; n]) ->
  (forall p, vidx pre p -> symmetric n (mat x p)) ->
  ((forall p, vidx pre p -> posdef n (mat x p)) ->
     exists y, mcho x = Ok y /\ wft y /\ shape y = shape x /\ forall p, vidx pre p -> cholesky_factor n (mat x p) (mat y p)) /\
  ((exists p, vidx pre p /\ ~ posdef n (mat x p)) -> mcho x = Err TFError).

(** A Kronecker product of square matrices of sizes [ns]. *)
Definition kronecker (t : rtt) (ns : list nat) : Prop :=
  wf t /\ rshape t = [ns; ns] /\ forall k, k <= ndims t -> rk t k = 1.
(** Factor [k] (of batch element [p]). *)
Definition factor (t : rtt) (p : list nat) (k i j : nat) : R := @get Rring (core t k) (p ++ [0; i; j; 0]).
