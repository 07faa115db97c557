(** Compressing a dense layer, docs/tutorials/tensor_nets.ipynb cells 22-28: the weights of a KerasDense layer
    and Keras' set_weights.  Model only, no proofs. *)
From Coq Require Import String List Arith Bool Reals.
From Verif Require Import Scalar Tensor Base Ops OpsR Decomp Init Vars Layers.
Import ListNotations.

(** The weights of a layer, in the order in which the attributes are assigned ([nn.py:61-65]): the cores, the bias. *)
Definition weights (l : layer) : list (cref Rring) :=
  vcores (lmatrix l) ++ match lbias l with Some b => [CVar b] | None => [] end.

(** Keras' [Layer.count_params] ([model.summary()], cells 22-28): the number of elements of all weights. *)
Definition count_params (l : layer) (h : list (var Rring)) : nat :=
  fold_right Nat.add 0 (map (fun c => prodn (shape (read h c))) (weights l)).

Section SetWeights.
Context {loss : Type}.
(** Keras' [Layer.set_weights] (TF 2.4): the number of arrays and their shapes are checked, then all are written.
    Simplification: the arrays are given as tensors of the dtype of the weights. *)
Definition set_weights (l : layer) (vals : list rtensor) : M Rring loss unit := fun s =>
  let ws := weights l in
  if negb (Nat.eqb (length vals) (length ws)) then (s, Err ValueError)
  else if negb (forallb (fun p => list_eqb (shape (read (heap s) (fst p))) (shape (snd p))) (combine ws vals)) then (s, Err ValueError)
  else (run_ops (flat_map (fun p => match fst p with CVar id => [(id, snd p)] | CTensor _ => [] end) (combine ws vals)) s, Ok Datatypes.tt).

(** Cells 22-28: [Wtt = t3f.to_tt_matrix(W, shape=[rows, cols], max_tt_rank=r)];
    [set_weights(list(Wtt.tt_cores) + [bias])] of the new layer.  (The notebook sets the weights of the whole model, which starts with
    those of this layer.) *)
Variable svd : rtensor -> rtensor * rtensor * rtensor.
Definition compress (l : layer) (w b : rtensor) (rows cols : list nat) (r : rank_arg) : M Rring loss rtt :=
  bindM (liftR (to_tt_matrix svd w (Some rows) (Some cols) r None)) (fun z =>
  bindM (set_weights l (cores z ++ [b])) (fun _ => ret z)).
End SetWeights.
