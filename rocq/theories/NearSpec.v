(** What is assumed about an inexact singular value decomposition (the usual statement of backward
    stability), and the bound of the claim about the TT-SVD with such a routine. *)
From Coq Require Import List Arith ZArith Reals.
From Verif Require Import Scalar Tensor TensorLemmas Base Spec OpsR DecompSpec SvdSpec.
Import ListNotations.

(** Frobenius norm of an m x n matrix given by its entries. *)
Definition mnorm (m n : nat) (f : nat -> nat -> R) : R :=
  sqrt (sumn (K := Rring) m (fun i => sumn (K := Rring) n (fun j => (f i j * f i j)%R))).

(** [svd x] = (s, u, v) of the right shapes, for every matrix of the batch: some matrix x' within
    [delta] |x| of the given x has the exact singular value decomposition u' diag(s) v'^T, and u, v
    are within [delta] of u', v'.  Neither u nor v need have orthonormal columns, and u diag(s) v^T
    need not be x. *)
Definition svd_near (delta : R) (svd : rtensor -> rtensor * rtensor * rtensor) : Prop :=
  forall pre m n x, wft x -> shape x = pre ++ [m; n] -> Forall (fun k => 0 < k) (pre ++ [m; n]) ->
  let '(s, u, v) := svd x in
  let k := Nat.min m n in
  wft s /\ shape s = pre ++ [k] /\ wft u /\ shape u = pre ++ [m; k] /\ wft v /\ shape v = pre ++ [n; k] /\
  forall p, vidx pre p -> exists x' u' v' : nat -> nat -> R,
    (forall i j, i < m -> j < n -> x' i j = sumn (K := Rring) k (fun l => (u' i l * get s (p ++ [l]) * v' j l)%R)) /\
    (forall a b, a < k -> b < k -> sumn (K := Rring) m (fun i => (u' i a * u' i b)%R) = kron a b) /\
    (forall a b, a < k -> b < k -> sumn (K := Rring) n (fun i => (v' i a * v' i b)%R) = kron a b) /\
    (forall a, a < k -> (0 <= get s (p ++ [a]))%R) /\
    (forall a b, a <= b -> b < k -> (get s (p ++ [b]) <= get s (p ++ [a]))%R) /\
    (mnorm m n (fun i j => x' i j - get x (p ++ [i; j])) <= delta * mnorm m n (fun i j => get x (p ++ [i; j])))%R /\
    (mnorm m k (fun i l => get u (p ++ [i; l]) - u' i l) <= delta)%R /\
    (mnorm n k (fun j l => get v (p ++ [j; l]) - v' j l) <= delta)%R.

(** Frobenius norm of a dense tensor and distance of two dense tensors of the same shape. *)
Definition dnorm (x : rtensor) : R := sqrt (isum (K := Rring) (shape x) (fun i => (get x i * get x i)%R)).
Definition ddist (x y : rtensor) : R := sqrt (sq_dist (shape x) x y []).

(** The relative error that the inexactness adds for [d] axes: of first order in [delta],
    (3 (d-1) + 2 sqrt(d-1) (2d-3)) delta + O(delta^2), and 0 for [delta] = 0. *)
Definition near_loss (delta : R) (d : nat) : R :=
  ((1 + delta) ^ (3 * (d - 1)) - 1 + 2 * sqrt (INR (d - 1)) * ((1 + delta) ^ (2 * d - 3) - 1))%R.
