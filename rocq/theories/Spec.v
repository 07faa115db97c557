(** Specifications: the TT format and dense objects, independent of t3f's code. *)
From Coq Require Import List Arith ZArith Bool.
From Verif Require Import Scalar Tensor TensorLemmas Base.
Import ListNotations.

Section Spec.
Variable K : cring.
Local Open Scope k_scope.

(** A train of cores seen as a function: [G k a j b] is the element of core [k] with left
    rank index [a], physical index [j] (one or two numbers) and right rank index [b];
    [r k] is the k-th rank.  [chain G r k [j_k; j_{k+1}; ...] v a] is
      sum_{b1} G k a j_k b1 * (sum_{b2} G (k+1) b1 j_{k+1} b2 * ( ... v b_last)). *)
Fixpoint chain (G : nat -> nat -> list nat -> nat -> K) (r : nat -> nat) (k : nat)
    (J : list (list nat)) (v : nat -> K) (a : nat) : K :=
  match J with
  | [] => v a
  | j :: J' => sumn (r (S k)) (fun b => G k a j b * chain G r (S k) J' v b)
  end.

(** Element of core [k] of [t]; [pre] is [] for a TensorTrain, [[o]] for batch element o. *)
Definition coreG (t : tt K) (pre : list nat) (k a : nat) (j : list nat) (b : nat) : K :=
  get (core t k) (pre ++ a :: j ++ [b]).

(** The TT format: the element with physical indices J is the sum over all rank
    indices of the product of core elements. *)
Definition tt_entry (t : tt K) (pre : list nat) (J : list (list nat)) : K :=
  chain (coreG t pre) (rk t) 0 J (fun _ => 1) 0.

(** Mode sizes of core k (one number for a TT-tensor, two for a TT-matrix). *)
Definition modes (t : tt K) (k : nat) : list nat := map (fun s => nth k s 0%nat) (rshape t).
Definition all_modes (t : tt K) : list (list nat) := map (modes t) (seq 0 (ndims t)).
Definition bpre (t : tt K) : list nat := match bsz t with Some b => [b] | None => [] end.

(** A well-formed TT object: the stored shape and ranks describe the cores, and no
    dimension is zero. *)
Record wf (t : tt K) : Prop := {
  wf_d : 0 < ndims t;
  wf_kind : length (rshape t) = 1%nat \/ length (rshape t) = 2%nat;
  wf_rlen : Forall (fun s => length s = ndims t) (rshape t);
  wf_klen : length (rks t) = S (ndims t);
  wf_first : rk t 0 = 1%nat;
  wf_last : rk t (ndims t) = 1%nat;
  wf_rpos : Forall (Forall (fun n => 0 < n)) (rshape t);
  wf_kpos : Forall (fun n => 0 < n) (rks t);
  wf_bpos : Forall (fun n => 0 < n) (bpre t);
  wf_core : forall k, k < ndims t ->
    wft (core t k) /\ shape (core t k) = bpre t ++ rk t k :: modes t k ++ [rk t (S k)] }.

(** Physical indices of the dense position [idx] (without batch coordinate): a TT-matrix
    row (column) number is split into its row-major digits. *)
Definition split_idx (t : tt K) (idx : list nat) : list (list nat) :=
  if is_tt_matrix t then
    map2 (fun i j => [i; j]) (unravel (nth 0 (rshape t) []) (nth 0 idx 0%nat))
                             (unravel (nth 1 (rshape t) []) (nth 1 idx 0%nat))
  else map (fun i => [i]) idx.

(** The element of the tensor (matrix, batch) represented by [t] at a dense position. *)
Definition tt_at (t : tt K) (idx : list nat) : K :=
  match bsz t with
  | None => tt_entry t [] (split_idx t idx)
  | Some _ => tt_entry t [nth 0 idx 0%nat] (split_idx t (tl idx))
  end.

(** [t] represents the dense tensor [d]. *)
Definition represents (t : tt K) (d : tensor K) : Prop :=
  wft d /\ shape d = get_shape t /\ forall idx, vidx (get_shape t) idx -> get d idx = tt_at t idx.

End Spec.

Arguments chain {K} _ _ _ _ _ _. Arguments coreG {K} _ _ _ _ _ _. Arguments tt_entry {K} _ _ _.
Arguments modes {K} _ _. Arguments all_modes {K} _. Arguments bpre {K} _. Arguments wf {K} _.
Arguments split_idx {K} _ _. Arguments tt_at {K} _ _. Arguments represents {K} _ _.
Arguments wf_d {K} {t}. Arguments wf_kind {K} {t}. Arguments wf_rlen {K} {t}.
Arguments wf_klen {K} {t}. Arguments wf_first {K} {t}. Arguments wf_last {K} {t}.
Arguments wf_rpos {K} {t}. Arguments wf_kpos {K} {t}. Arguments wf_bpos {K} {t}.
Arguments wf_core {K} {t}.
