(** What is assumed about an inexact QR decomposition, and the quantities in the claim about
    orthogonalization with such a routine. *)
From Coq Require Import List Arith ZArith Reals.
From Verif Require Import Scalar Tensor TensorLemmas Base Spec OpsR DecompSpec SvdSpec NearSpec.
Import ListNotations.

(** [qr x] = (q, r) of the right shapes, for every matrix of the batch: some matrix x' within [delta] |x|
    of the given x is q' r with orthonormal columns of q', and q is within [delta] of q' (backward
    stability).  q need not have orthonormal columns and q r need not be x. *)
Definition qr_near (delta : R) (qr : rtensor -> rtensor * rtensor) : Prop :=
  forall pre m n x, wft x -> shape x = pre ++ [m; n] -> Forall (fun k => 0 < k) (pre ++ [m; n]) ->
  let '(q, r) := qr x in
  let k := Nat.min m n in
  wft q /\ shape q = pre ++ [m; k] /\ wft r /\ shape r = pre ++ [k; n] /\
  forall p, vidx pre p -> exists x' q' : nat -> nat -> R,
    (forall i j, i < m -> j < n -> x' i j = sumn (K := Rring) k (fun l => (q' i l * get r (p ++ [l; j]))%R)) /\
    (forall a b, a < k -> b < k -> sumn (K := Rring) m (fun i => (q' i a * q' i b)%R) = kron a b) /\
    (mnorm m n (fun i j => x' i j - get x (p ++ [i; j])) <= delta * mnorm m n (fun i j => get x (p ++ [i; j])))%R /\
    (mnorm m k (fun i l => get q (p ++ [i; l]) - q' i l) <= delta)%R.

(** Frobenius norm of core [k] (of its batch element [p]) and of the difference to given numbers [f]. *)
Definition core_dist (t : rtt) (p : list nat) (k : nat) (f : list nat -> R) : R :=
  sqrt (isum (K := Rring) (rk t k :: modes t k ++ [rk t (S k)]) (fun x => (get (core t k) (p ++ x) - f x) * (get (core t k) (p ++ x) - f x))%R).
Definition core_norm (t : rtt) (p : list nat) (k : nat) : R := core_dist t p k (fun _ => 0%R).
(** Product of the norms of all cores: at least the norm of the tensor, and the scale of the errors below. *)
Definition cores_norm (t : rtt) (p : list nat) : R := fold_right Rmult 1%R (map (core_norm t p) (seq 0 (ndims t))).

(** Frobenius norm of (batch element [p] of) a dense tensor without its batch axis, distance of two. *)
Definition norm_at (sh : list nat) (x : rtensor) (p : list nat) : R := sqrt (isum (K := Rring) sh (fun i => (get x (p ++ i) * get x (p ++ i))%R)).
Definition dist_at (sh : list nat) (x y : rtensor) (p : list nat) : R := sqrt (sq_dist sh x y p).

(** Numbers [f] for core [k] with orthonormal columns: rows are the left rank index and the mode
    indices, columns the right rank index. *)
Definition orthonormal_core (t : rtt) (k : nat) (f : list nat -> R) : Prop :=
  forall b b', b < rk t (S k) -> b' < rk t (S k) ->
  isum (K := Rring) (rk t k :: modes t k) (fun x => (f (x ++ [b]) * f (x ++ [b']))%R) = kron b b'.
(** The same from the other side: rows are the left rank index, columns the rest, and the rows are orthonormal. *)
Definition orthonormal_core_right (t : rtt) (k : nat) (f : list nat -> R) : Prop :=
  forall a a', a < rk t k -> a' < rk t k ->
  isum (K := Rring) (modes t k ++ [rk t (S k)]) (fun x => (f (a :: x) * f (a' :: x))%R) = kron a a'.
