(** Specification of gradients. *)
From Coq Require Import List Arith Bool Reals.
From Verif Require Import Scalar Tensor TensorLemmas Base Spec BaseLemmas Chain Ops OpsR.
Import ListNotations.
Local Open Scope nat_scope.

(** A tensor of shape [s] as a function of the index; such functions are compared on valid indices only. *)
Definition agree (s : list nat) (T T' : list nat -> R) : Prop := forall i, vidx s i -> T i = T' i.
Definition inner (s : list nat) (T T' : list nat -> R) : R := isum (K := Rring) s (fun i => T i * T' i)%R.
Definition shift (X T : list nat -> R) (t : R) : list nat -> R := fun i => (X i + t * T i)%R.

(** [E] is the gradient of [F] at [X]: the derivative in every direction [T] is the scalar product with
    [E]. *)
Definition gradient_at (s : list nat) (F : (list nat -> R) -> R) (X E : list nat -> R) : Prop :=
  forall T, derivable_pt_lim (fun t => F (shift X T t)) 0%R (inner s E T).

(** [H] is the Hessian at [X] of the function with the gradients [E Y]: the matrix of the derivatives of the
    gradient.  It is symmetric. *)
Definition hessian_at (s : list nat) (E : (list nat -> R) -> list nat -> R) (X : list nat -> R) (H : list nat -> list nat -> R) : Prop :=
  (forall T i, vidx s i -> derivable_pt_lim (fun t => E (shift X T t) i) 0%R (inner s (H i) T)) /\
  (forall i j, vidx s i -> vidx s j -> H i j = H j i).

(** [func] computes the function [F] of the tensor that its argument represents (for TT objects of the shape
    of [x]). *)
Definition function_of_tensor (x : tt Rring) (func : tt Rring -> res R) (F : (list nat -> R) -> R) : Prop :=
  (forall t dt, wf t -> rshape t = rshape x -> bsz t = None -> full t = Ok dt -> func t = Ok (F (get dt))) /\
  (forall T T', agree (ishape x) T T' -> F T = F T').

(** ** [tf.GradientTape] on a list of tensors *)
Definition same_shapes (ds hs : list rtensor) : Prop := Forall2 (fun d h : rtensor => wft h /\ shape h = shape d) ds hs.
Definition move (t : R) (ds hs : list rtensor) : list rtensor :=
  map2 (fun d h : rtensor => mk (K := Rring) (shape d) (fun i => get d i + t * get h i)%R) ds hs.
Fixpoint inners (gs hs : list rtensor) : R :=
  match gs, hs with
  | g :: gs, h :: hs => (inner (shape g) (get g) (get h) + inners gs hs)%R
  | _, _ => 0%R
  end.

(** [gs] are the gradients of [f] at [ds]: near [ds] the function is defined on every line through [ds],
    with the derivative given by [gs]. *)
Definition is_gradient (f : list rtensor -> res R) (ds gs : list rtensor) : Prop :=
  same_shapes ds gs /\
  forall hs, same_shapes ds hs -> exists phi : R -> R,
    (exists eps, (0 < eps)%R /\ forall t, (Rabs t < eps)%R -> f (move t ds hs) = Ok (phi t)) /\
    derivable_pt_lim phi 0%R (inners gs hs).

(** The contract: where the gradients exist they are returned, or [None] is (for tensors on which the value
    does not depend). *)
Definition grad_ok (grad : (list rtensor -> res R) -> list rtensor -> list (option rtensor)) : Prop :=
  forall f ds gs, is_gradient f ds gs -> Forall2 (fun o g => o = Some g \/ o = None) (grad f ds) gs.
