(** Singular value decompositions in the conventions of NumPy and of TensorFlow. *)
From Coq Require Import List Arith ZArith Bool Reals.
From Verif Require Import Scalar Tensor TensorLemmas Base Spec OpsR DecompSpec.
Import ListNotations.
Local Open Scope nat_scope.

(** Number of columns of u and v: all of them, or as many as there are singular values. *)
Definition width (full : bool) (size k : nat) : nat := if full then size else k.

(** u, s, vh of NumPy: x = u diag(s) vh, columns of u and rows of vh orthonormal, s non-negative, non-increasing. *)
Definition np_decomposes (full : bool) (pre : list nat) (m n : nat) (x u s vh : rtensor) : Prop :=
  let k := Nat.min m n in
  wft u /\ shape u = pre ++ [m; width full m k] /\ wft s /\ shape s = pre ++ [k] /\
  wft vh /\ shape vh = pre ++ [width full n k; n] /\
  forall p, vidx pre p ->
    (forall i j, i < m -> j < n ->
       get x (p ++ [i; j]) = sumn k (fun l => get u (p ++ [i; l]) * get s (p ++ [l]) * get vh (p ++ [l; j]))%K) /\
    (forall a b, a < width full m k -> b < width full m k ->
       sumn m (fun i => get u (p ++ [i; a]) * get u (p ++ [i; b]))%K = kron a b) /\
    (forall a b, a < width full n k -> b < width full n k ->
       sumn n (fun j => get vh (p ++ [a; j]) * get vh (p ++ [b; j]))%K = kron a b) /\
    (forall a, a < k -> (0 <= get s (p ++ [a]))%R) /\
    (forall a b, a <= b -> b < k -> (get s (p ++ [b]) <= get s (p ++ [a]))%R).

(** s, u, v of TensorFlow: x = u diag(s) v^T, columns of u and v orthonormal. *)
Definition tf_decomposes (full : bool) (pre : list nat) (m n : nat) (x s u v : rtensor) : Prop :=
  let k := Nat.min m n in
  wft s /\ shape s = pre ++ [k] /\ wft u /\ shape u = pre ++ [m; width full m k] /\
  wft v /\ shape v = pre ++ [n; width full n k] /\
  forall p, vidx pre p ->
    (forall i j, i < m -> j < n ->
       get x (p ++ [i; j]) = sumn k (fun l => get u (p ++ [i; l]) * get s (p ++ [l]) * get v (p ++ [j; l]))%K) /\
    (forall a b, a < width full m k -> b < width full m k ->
       sumn m (fun i => get u (p ++ [i; a]) * get u (p ++ [i; b]))%K = kron a b) /\
    (forall a b, a < width full n k -> b < width full n k ->
       sumn n (fun i => get v (p ++ [i; a]) * get v (p ++ [i; b]))%K = kron a b) /\
    (forall a, a < k -> (0 <= get s (p ++ [a]))%R) /\
    (forall a b, a <= b -> b < k -> (get s (p ++ [b]) <= get s (p ++ [a]))%R).

(** [np.linalg.svd] does what it should for one setting of full_matrices. *)
Definition np_svd_ok (full : bool) (np : bool -> rtensor -> rtensor * rtensor * rtensor) : Prop :=
  forall pre m n x, wft x -> shape x = pre ++ [m; n] -> Forall (fun k => 0 < k) (pre ++ [m; n]) ->
    let '(u, s, vh) := np full x in np_decomposes full pre m n x u s vh.
(** Singular values only: one per row or column, whichever are fewer. *)
Definition np_vals_ok (np : bool -> rtensor -> rtensor) : Prop :=
  forall full pre m n x, wft x -> shape x = pre ++ [m; n] -> Forall (fun k => 0 < k) (pre ++ [m; n]) ->
    wft (np full x) /\ shape (np full x) = pre ++ [Nat.min m n].
