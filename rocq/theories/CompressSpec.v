(** Specification of layers and of their compression. *)
From Coq Require Import String List Arith Bool Reals.
From Verif Require Import Scalar Tensor TensorLemmas Base Spec BaseLemmas OpsR Layers Vars VarSpec.
Import ListNotations.

(** A layer with row modes [rows], column modes [cols] and TT-ranks [ranks], as made by the constructor (C54), whatever
    the values of its weights. *)
Record is_layer {loss} (s : store Rring loss) (l : layer) (rows cols ranks : list nat) : Prop := {
  il_var : is_variable s (lmatrix l);
  il_wf : wf (value s (lmatrix l));
  il_shape : vrshape (lmatrix l) = [rows; cols];
  il_ranks : vrks (lmatrix l) = ranks;
  il_nb : vbsz (lmatrix l) = None;
  il_bias : exists b, lbias l = Some b /\ ~ In (CVar b) (vcores (lmatrix l)) /\ b < length (heap s) /\
    wft (value_of (heap s) b) /\ shape (value_of (heap s) b) = [prodn cols] }.

(** Squared norm of a matrix and squared distance of two. *)
Definition sq_norm2 (m n : nat) (x : rtensor) : R := sumn (K := Rring) m (fun i => sumn (K := Rring) n (fun j => (get x [i; j] * get x [i; j])%R)).
Definition sq_dist2 (m n : nat) (x y : rtensor) : R :=
  sumn (K := Rring) m (fun i => sumn (K := Rring) n (fun j => ((get x [i; j] - get y [i; j]) * (get x [i; j] - get y [i; j]))%R)).
