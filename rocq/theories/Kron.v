(** [t3f/kronecker.py].  Model only, no proofs.

    Static shapes are defined, so the branches that call [ops.raw_shape] (which does not exist) are
    not taken.  [tf.linalg.inv] and [tf.linalg.cholesky] are fields of a
    parameter [la : linalg]; what is assumed about them is stated in KronSpec.v ([inv_ok], [cho_ok]). *)
From Coq Require Import String Ascii List Arith ZArith Bool Reals.
From Verif Require Import Scalar Tensor Base Ops OpsR Det.
Import ListNotations.
Local Open Scope nat_scope.

(** [tf.linalg.det] of a batch of matrices (LU in TensorFlow, here the exact value), [kronecker.py:8-58]. *)
Definition tf_det (x : rtensor) : res rtensor :=
  match rev (shape x) with
  | n :: m :: rpre =>
      if Nat.eqb m n
      then Ok (mk (K := Rring) (rev rpre) (fun p => det n (fun i j => get x (p ++ [i; j]))))
      else Err TFError
  | _ => Err TFError
  end.

(** [tf.pow] with a base of any sign: for a negative base the exponent has to be an integer, otherwise
    the result is nan (0 here; not reached, the exponents below are integers), [kronecker.py:8-58]. *)
Definition tf_pow_any (x y : R) : R :=
  if Rlt_dec x 0 then
    if Req_EM_T (IZR (Int_part y)) y
    then ((if Z.even (Int_part y) then 1 else -1) * Rpower (- x) y)%R
    else 0%R
  else tf_pow x y.

(** [kronecker.py:232-243] _is_kron.  [max] of an empty list is not reached. *)
Definition is_kron (t : rtt) : bool :=
  if is_tt_matrix t then Nat.eqb (fold_right Nat.max 0 (rks t)) 1 else false.

(** [kronecker.py:27-42] and the same lines of the other functions: the checks. *)
Definition check_kron (t : rtt) : res unit :=
  if negb (is_kron t) then Err ValueError else
  if negb (list_eqb (nth 0 (rshape t) []) (nth 1 (rshape t) [])) then Err ValueError else Ok Datatypes.tt.

(** [core[:, 0, :, :, 0]] or [core[0, :, :, 0]], [kronecker.py:52-54], [:106-108], [:159-162], [:217-220]. *)
Definition core_matrix (t : rtt) (i : nat) : res rtensor :=
  match bsz t with
  | Some _ => getitem (core t i) [full_slice; IInt 0; full_slice; full_slice; IInt 0]
  | None => getitem (core t i) [IInt 0; full_slice; full_slice; IInt 0]
  end.

(** [kronecker.py:46], [:55] pows / i_shapes[core_idx]. *)
Definition core_pow (t : rtt) (i : nat) : R := (INR (prodn (nth 0 (rshape t) [])) / INR (mode t 0 i))%R.

(** [kronecker.py:8-58] determinant. *)
Definition determinant (t : rtt) : res rtensor :=
  do _ <- check_kron t;
  foldM (fun i d =>
      do m <- core_matrix t i;
      do cd <- tf_det m;
      ewise (K := Rring) Rmult d (tmap (K := Rring) (fun x => tf_pow_any x (core_pow t i)) cd))
    (seq 0 (ndims t)) (Tensor (K := Rring) [] [1%R]).

(** Logarithms: [None] is minus infinity, [kronecker.py:61-114]. *)
Definition tf_log (x : R) : option R := if Req_EM_T x 0 then None else Some (ln x).
(** A logarithm multiplied by a number, [kronecker.py:61-114]. *)
Definition log_mul (l : option R) (p : R) : option R := option_map (fun x => (x * p)%R) l.
(** The sum of two logarithms, [kronecker.py:61-114]. *)
Definition log_add (a b : option R) : option R :=
  match a, b with Some x, Some y => Some (x + y)%R | _, _ => None end.

(** [kronecker.py:61-114] slog_determinant: the signs and the logarithms, the latter as the list of the elements of
    the tensor of the same shape ([logdet = 0.] is broadcast to that shape at the first addition). *)
Definition slog_determinant (t : rtt) : res (rtensor * list (option R)) :=
  do _ <- check_kron t;
  foldM (fun i '(s, l) =>
      do m <- core_matrix t i;
      do cd <- tf_det m;
      let l' := map2 log_add l (map (fun x : R => log_mul (tf_log (Rabs x)) (core_pow t i)) (data cd)) in
      do s' <- ewise (K := Rring) Rmult s (tmap (K := Rring) (fun x => tf_pow_any (tf_sign x) (core_pow t i)) cd);
      Ok (s', l'))
    (seq 0 (ndims t))
    (Tensor (K := Rring) [] [1%R], repeat (Some 0%R) (match bsz t with Some b => b | None => 1 end)).

Section Cores.
(** A function of every core, [kronecker.py:117-171], [:174-229]. *)
Definition map_kron (f : rtensor -> res rtensor) (t : rtt) : res rtt :=
  do _ <- check_kron t;
  do cs <- mapM (fun i =>
      do m <- core_matrix t i;
      do x <- f m;
      match bsz t with
      | Some _ => Ok (expand_dims (expand_dims x 1) 4)
      | None => Ok (expand_dims (expand_dims x 0) 3)
      end)
    (seq 0 (ndims t));
  match bsz t with
  | Some _ => TensorTrainBatch cs (STuple (rshape t)) (Some (rks t)) None
  | None => TensorTrain cs (STuple (rshape t)) (Some (rks t))
  end.

End Cores.
(** The two routines of [tf.linalg]: inv [kronecker.py:117-171], cholesky [:174-229]. *)
Record linalg := Linalg { tf_inv : rtensor -> res rtensor; tf_cholesky : rtensor -> res rtensor }.
(** [kronecker.py:117-171] inv, [:174-229] cholesky: the same code around [tf.linalg.inv] and
    [tf.linalg.cholesky]. *)
Definition inv (la : linalg) (t : rtt) : res rtt := map_kron (tf_inv la) t.
(** [kronecker.py:174-229] cholesky. *)
Definition cholesky (la : linalg) (t : rtt) : res rtt := map_kron (tf_cholesky la) t.
