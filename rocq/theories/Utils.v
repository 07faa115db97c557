(** [t3f/utils.py:16-34] replace_tf_svd_with_np_svd.  [numpy.linalg.svd] is a parameter; its contract is in
    UtilsSpec.v.  Model only, no proofs. *)
From Coq Require Import List Arith ZArith Bool Reals.
From Verif Require Import Scalar Tensor Base OpsR.
Import ListNotations.

(** What a singular value decomposition returns in TensorFlow: s, or s, u, v ([utils.py:25-32]). *)
Inductive svd_out := SVals (s : rtensor) | SAll (s u v : rtensor).
(** A function in the place of [tf.linalg.svd]: arguments eager (or graph) mode, tensor, full_matrices, compute_uv ([utils.py:25]). *)
Definition svd_fn := bool -> rtensor -> bool -> bool -> res svd_out.
(** The two attributes of the module [tf] concerned: [tf.linalg.svd] and [tf.original_svd], if there ([utils.py:20-34]). *)
Record tf_module := TF { linalg_svd : svd_fn; original_svd : option svd_fn }.

Section Np.
(** [np.linalg.svd(x, full_matrices, True)] = u, s, vh and [np.linalg.svd(x, full_matrices, False)] = s. *)
Variable np_uv : bool -> rtensor -> rtensor * rtensor * rtensor.
Variable np_vals : bool -> rtensor -> rtensor.

(** [u, s, v = array]: an array is unpacked along its first axis ([utils.py:27]). *)
Definition unpack3 (a : rtensor) : res (rtensor * rtensor * rtensor) :=
  match shape a with
  | [] => Err TypeError
  | 3 :: rest => let part i := mk rest (fun idx => get a (i :: idx)) in Ok (part 0, part 1, part 2)
  | _ => Err ValueError
  end.

(** [utils.py:29-30] [list(range(ndims))] with the last two entries exchanged. *)
Definition swapped_order (nd : nat) : res (list nat) :=
  if Nat.ltb nd 2 then Err IndexError
  else let o := seq 0 nd in Ok (upd (nd - 1) (nth (nd - 2) o 0) (upd (nd - 2) (nth (nd - 1) o 0) o)).

(** [utils.py:25-32] my_svd.  The values of a symbolic tensor cannot be taken in graph mode; numpy raises LinAlgError
    (a ValueError subclass) for fewer than two axes. *)
Definition my_svd : svd_fn := fun eager x full_matrices compute_uv =>
  if negb eager then Err NotImplementedError else
  if Nat.ltb (rank x) 2 then Err ValueError else
  do usv <- (if compute_uv then Ok (np_uv full_matrices x) else unpack3 (np_vals full_matrices x));
  let '(u, s, v) := usv in
  do order <- swapped_order (rank x);
  do v <- transpose v order;
  Ok (SAll s u v).

(** [utils.py:18-34] *)
Definition replace_tf_svd_with_np_svd (t : tf_module) : tf_module :=
  match original_svd t with
  | Some _ => t
  | None => TF my_svd (Some (linalg_svd t))
  end.

(** [s, u, v = tf.linalg.svd(x, full_matrices=False)] ([decompositions.py:169], [:294], [:370]) in eager mode,
    as the function the model of decompositions.py is given (Decomp.v).  Simplification: when the call raises
    (fewer than two axes, which the callers exclude) some value is returned. *)
Definition svd_call (t : tf_module) (x : rtensor) : rtensor * rtensor * rtensor :=
  match linalg_svd t true x false true with Ok (SAll s u v) => (s, u, v) | _ => (x, x, x) end.
End Np.
