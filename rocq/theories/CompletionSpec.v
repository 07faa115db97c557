(** Specification of tensor completion: observed cells, losses, gradients. *)
From Coq Require Import List Arith Bool ZArith Reals.
From Verif Require Import Scalar Tensor TensorLemmas Base Spec BaseLemmas Chain Ops OpsR AutoSpec.
Import ListNotations.
Local Open Scope nat_scope.

Definition sq (x : R) : R := (x * x)%R.

(** The tensor with ones in the observed cells, zeros elsewhere. *)
Definition mask_of (sh : list nat) (observed : list nat -> bool) : rtensor := mk (K := Rring) sh (fun i => if observed i then 1%R else 0%R).
(** [a] with the other cells set to zero. *)
Definition observed_part (sh : list nat) (observed : list nat -> bool) (a : rtensor) : rtensor := mk (K := Rring) sh (fun i => if observed i then get a i else 0%R).
(** The number of observed cells; the mean of [f] over them. *)
Definition count (sh : list nat) (observed : list nat -> bool) : nat := length (filter observed (map (unravel sh) (seq 0 (prodn sh)))).
Definition mean_over (sh : list nat) (observed : list nat -> bool) (f : list nat -> R) : R :=
  (fold_right Rplus 0 (map f (filter observed (map (unravel sh) (seq 0 (prodn sh))))) / INR (count sh observed))%R.

(** The tape, for a function [f] of all of the variables: where the gradients exist they are returned. *)
Definition tape_ok (grad : (list rtensor -> res R) -> list rtensor -> list (option rtensor)) (f : list rtensor -> res R) : Prop :=
  forall ds gs, is_gradient f ds gs -> grad f ds = map Some gs.
(** An update rule: one new value for each variable, of the shape of the old one. *)
Definition opt_ok {ost : Type} (opt : ost -> list (nat * rtensor * rtensor) -> ost * list rtensor) : Prop :=
  forall st l, Forall2 (fun u v : rtensor => wft v /\ shape v = shape u) (map (fun u => snd (fst u)) l) (snd (opt st l)).

(** The derivative of the entry [i] of the tensor with respect to entry [idx] of core k: the train whose core k is one at [idx] and zero
    elsewhere. *)
Definition unit_core (idx : list nat) (a : nat) (j : list nat) (b : nat) : R := if list_eqb (a :: j ++ [b]) idx then 1%R else 0%R.
Definition partial_entry (x : rtt) (k : nat) (idx i : list nat) : R :=
  chain (K := Rring) (fun q => if Nat.eqb q k then unit_core idx else coreG x [] q) (rk x) 0 (split_idx x i) (fun _ => 1%R) 0.
