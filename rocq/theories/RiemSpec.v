(** Specification of tangent spaces of the set of tensors with given TT-ranks. *)
From Coq Require Import List Arith Bool Reals.
From Verif Require Import Scalar Tensor TensorLemmas Base Spec BaseLemmas Chain.
Import ListNotations.
Local Open Scope nat_scope.

(** [T] is the derivative of the map (cores -> tensor) at the cores of [x] in the direction [dG]: the
    sum over m of the train in which core m of [x] is replaced by [dG m]. *)
Definition tangent (x : tt Rring) (T : list nat -> R) : Prop :=
  exists dG : nat -> nat -> list nat -> nat -> R, forall i, vidx (ishape x) i ->
    T i = sumn (K := Rring) (ndims x) (fun m =>
      chain (K := Rring) (fun k => if Nat.eqb k m then dG m else coreG x [] k) (rk x) 0 (split_idx x i) (fun _ => 1%R) 0).

(** The first k cores of [x] multiplied out, and the cores from number k on; [J] are the physical
    indices of these cores. *)
Definition left_part (x : tt Rring) (J : list (list nat)) (a : nat) : R :=
  chain (K := Rring) (coreG x []) (rk x) 0 J (fun b => if Nat.eqb a b then 1%R else 0%R) 0.
Definition right_part (x : tt Rring) (k : nat) (J : list (list nat)) (a : nat) : R :=
  chain (K := Rring) (coreG x []) (rk x) k J (fun _ => 1%R) a.

(** The TT-ranks of [x] are those of the tensor: at every cut the columns of the left factor and the
    rows of the right factor of the unfolding are linearly independent. *)
Definition full_tt_ranks (x : tt Rring) : Prop := forall k, 0 < k < ndims x ->
  (forall c : nat -> R,
     (forall J, vchain (modes x) 0 J -> length J = k -> sumn (K := Rring) (rk x k) (fun a => (left_part x J a * c a)%R) = 0%R) ->
     forall a, a < rk x k -> c a = 0%R) /\
  (forall c : nat -> R,
     (forall J, vchain (modes x) k J -> k + length J = ndims x -> sumn (K := Rring) (rk x k) (fun a => (c a * right_part x k J a)%R) = 0%R) ->
     forall a, a < rk x k -> c a = 0%R).

(** No TT-rank is larger than the sizes of the neighbouring cores allow. *)
Definition admissible (x : tt Rring) : Prop := forall k, 0 < k < ndims x ->
  rk x k <= rk x (k - 1) * prodn (modes x (k - 1)) /\ rk x k <= prodn (modes x k) * rk x (S k).

(** The element of the tangent space of [x] with given delta cores: the sum over m of the train
    with the cores of [l] before m, the core [D m] at m and the cores of [r] after m. *)
Definition of_deltas (x l r : tt Rring) (D : nat -> nat -> list nat -> nat -> R) (i : list nat) : R :=
  let J := split_idx x i in
  sumn (K := Rring) (ndims x) (fun m => sumn (K := Rring) (rk l m) (fun a => sumn (K := Rring) (rk r (S m)) (fun c =>
    (left_part l (firstn m J) a * D m a (nth m J []) c * right_part r (S m) (skipn (S m) J) c)%R))).
