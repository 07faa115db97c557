(** Specification of truncation errors, for [round] and the TT-SVD. *)
From Coq Require Import List Arith ZArith Reals.
From Verif Require Import Scalar Tensor TensorLemmas Base Spec BaseLemmas OpsR Decomp DecompSpec.
Import ListNotations.

(** Squared Frobenius distance between two dense tensors (between their elements [p] of the
    batch); [sh] is the shape without the batch axis. *)
Definition sq_dist (sh : list nat) (x y : rtensor) (p : list nat) : R :=
  isum (K := Rring) sh (fun i => ((get x (p ++ i) - get y (p ++ i)) * (get x (p ++ i) - get y (p ++ i)))%R).

(** Dense position with the physical indices [J] (one index list per core): the indices
    themselves for a tensor, the row and the column number for a matrix. *)
Definition glue (rsh : list (list nat)) (J : list (list nat)) : list nat :=
  match rsh with
  | [_] => map (fun j => nth 0 j 0) J
  | _ => [ravel (nth 0 rsh []) (map (fun j => nth 0 j 0) J); ravel (nth 1 rsh []) (map (fun j => nth 1 j 0) J)]
  end.

(** [n], [U], [s], [V] are a singular value decomposition of the [k]-th unfolding of the dense
    tensor [x] (of its batch element [p]): the matrix whose rows are the indices of the first
    [k] cores and whose columns are the indices of the others. *)
Record unfolding_svd (rsh : list (list nat)) (ms : nat -> list nat) (d : nat) (x : rtensor) (p : list nat) (k n : nat)
    (U : list (list nat) -> nat -> R) (s : nat -> R) (V : list (list nat) -> nat -> R) : Prop := {
  us_eq : forall J1 J2, vjdx (map ms (seq 0 k)) J1 -> vjdx (map ms (seq k (d - k))) J2 ->
    get x (p ++ glue rsh (J1 ++ J2)) = sumn (K := Rring) n (fun l => (U J1 l * s l * V J2 l)%R);
  us_U : forall a b, a < n -> b < n ->
    jsum (K := Rring) (map ms (seq 0 k)) (fun J => (U J a * U J b)%R) = kron a b;
  us_V : forall a b, a < n -> b < n ->
    jsum (K := Rring) (map ms (seq k (d - k))) (fun J => (V J a * V J b)%R) = kron a b;
  us_nonneg : forall l, l < n -> (0 <= s l)%R;
  us_sorted : forall a b, a <= b -> b < n -> (s b <= s a)%R }.

(** Sum of the squares of all but the [r] largest of [n] sorted singular values. *)
Definition discarded (n r : nat) (s : nat -> R) : R :=
  sumn (K := Rring) (n - r) (fun l => (s (r + l)%nat * s (r + l)%nat)%R).

(** Sum over the cuts 1, ..., d-1. *)
Definition sum_cuts (d : nat) (f : nat -> R) : R := sumn (K := Rring) (d - 1) (fun x => f (S x)).

(** What the documentation says about the arguments [max_tt_rank] and [epsilon]: a number, or a
    list of ndims + 1 numbers, all at least 1; epsilon not negative.  [m k] is the bound for the
    TT-rank number [k].  Batches: a number. *)
Definition rank_limits (batch : bool) (a : rank_arg) (eps : option R) (d : nat) (m : nat -> nat) : Prop :=
  match eps with Some e => (0 <= e)%R | None => True end /\
  match a with
  | RkNum z => (1 <= z)%Z /\ forall k, k <= d -> m k = Z.to_nat z
  | RkList l => batch = false /\ length l = S d /\ Forall (fun z => 1 <= z)%Z l /\ forall k, k <= d -> m k = Z.to_nat (nth k l 0%Z)
  | RkNone | RkInf => False
  end.
