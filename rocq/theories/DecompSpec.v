(** What is assumed about [tf.linalg.qr] and [tf.linalg.svd], and the words used in the claims
    about decompositions. *)
From Coq Require Import List Arith ZArith Bool Reals.
From Verif Require Import Scalar Tensor TensorLemmas Base Spec OpsR.
Import ListNotations.

Definition kron (a b : nat) : R := if Nat.eqb a b then 1%R else 0%R.

(** A reduced QR decomposition of every matrix of a batch: x = q r, the columns of q are
    orthonormal.  ([r] is upper triangular in reality; that is not needed and not assumed.) *)
Definition qr_ok (qr : rtensor -> rtensor * rtensor) : Prop :=
  forall pre m n x, wft x -> shape x = pre ++ [m; n] -> Forall (fun k => 0 < k) (pre ++ [m; n]) ->
  wft (fst (qr x)) /\ shape (fst (qr x)) = pre ++ [m; Nat.min m n] /\
  wft (snd (qr x)) /\ shape (snd (qr x)) = pre ++ [Nat.min m n; n] /\
  forall p, vidx pre p ->
    (forall i j, i < m -> j < n ->
       get x (p ++ [i; j]) =
       sumn (Nat.min m n) (fun l => get (fst (qr x)) (p ++ [i; l]) * get (snd (qr x)) (p ++ [l; j]))%K) /\
    (forall a b, a < Nat.min m n -> b < Nat.min m n ->
       sumn m (fun i => get (fst (qr x)) (p ++ [i; a]) * get (fst (qr x)) (p ++ [i; b]))%K = kron a b).

(** A reduced singular value decomposition of every matrix of a batch (TensorFlow's order s, u, v):
    x = u diag(s) v^T, orthonormal columns of u and v, non-negative non-increasing s. *)
Definition svd_ok (svd : rtensor -> rtensor * rtensor * rtensor) : Prop :=
  forall pre m n x, wft x -> shape x = pre ++ [m; n] -> Forall (fun k => 0 < k) (pre ++ [m; n]) ->
  let '(s, u, v) := svd x in
  let k := Nat.min m n in
  wft s /\ shape s = pre ++ [k] /\ wft u /\ shape u = pre ++ [m; k] /\ wft v /\ shape v = pre ++ [n; k] /\
  forall p, vidx pre p ->
    (forall i j, i < m -> j < n ->
       get x (p ++ [i; j]) =
       sumn k (fun l => get u (p ++ [i; l]) * get s (p ++ [l]) * get v (p ++ [j; l]))%K) /\
    (forall a b, a < k -> b < k -> sumn m (fun i => get u (p ++ [i; a]) * get u (p ++ [i; b]))%K = kron a b) /\
    (forall a b, a < k -> b < k -> sumn n (fun i => get v (p ++ [i; a]) * get v (p ++ [i; b]))%K = kron a b) /\
    (forall a, a < k -> (0 <= get s (p ++ [a]))%R) /\
    (forall a b, a <= b -> b < k -> (get s (p ++ [b]) <= get s (p ++ [a]))%R).

(** Core [k] (of batch element [pre]), unfolded with the right rank as columns, has orthonormal
    columns; unfolded with the left rank as rows, has orthonormal rows. *)
Definition left_orthonormal (t : rtt) (pre : list nat) (k : nat) : Prop :=
  forall b b', b < rk t (S k) -> b' < rk t (S k) ->
    isum (rk t k :: modes t k) (fun x => get (core t k) (pre ++ x ++ [b]) * get (core t k) (pre ++ x ++ [b']))%K
    = kron b b'.
Definition right_orthonormal (t : rtt) (pre : list nat) (k : nat) : Prop :=
  forall a a', a < rk t k -> a' < rk t k ->
    isum (modes t k ++ [rk t (S k)]) (fun x => get (core t k) (pre ++ a :: x) * get (core t k) (pre ++ a' :: x))%K
    = kron a a'.
