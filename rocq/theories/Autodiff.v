(** [t3f/autodiff.py].  Model only, no proofs.

    [qr] is [tf.linalg.qr], [grad] the gradient of [tf.GradientTape] ([tape.gradient(f(x), x)] of
    [value_and_grad], :9-18): for a function of a list of tensors and a point, the list of the
    gradients, [None] for a tensor that the value is not connected to.  Contracts: [qr_ok] in
    DecompSpec.v, [grad_ok] in AutoSpec.v.  Only eager mode is modelled.  A function given by the user is a
    Gallina function on TT objects whose value is a number (or an exception). *)
From Coq Require Import List Arith ZArith Bool Reals.
From Verif Require Import Scalar Tensor Base Ops OpsR Decomp Riem.
Import ListNotations.
Local Open Scope nat_scope.

(** [autodiff.py:21-36] _enforce_gauge_conditions.  A missing gradient ([None]) makes [tf.reshape] raise; the one
    of the last core is used (and refused in the same way) only in [deltas_to_tangent_space]. *)
Definition enforce_gauge_conditions (deltas : list (option rtensor)) (left : rtt) : res (list rtensor) :=
  mapM (fun i =>
      do right_r <- nthr (lazy_tt_ranks left) (S i);
      do lc <- nthr (cores left) i;
      do q <- reshape lc [None; Some right_r];
      do o <- nthr deltas i;
      match o with
      | None => Err ValueError
      | Some delta =>
          if Nat.ltb i (ndims left - 1) then
            do p <- reshape delta [None; Some right_r];
            do qt <- transpose_rev q;
            do s <- matmul qt p;
            do s <- matmul q s;
            do p <- ewise (K := Rring) Rminus p s;
            reshape p (map Some (shape lc))
          else Ok delta
      end)
    (seq 0 (ndims left)).

(** [autodiff.py:39-67] _is_invariant_to_input_transforms.  The quotient by 0 is NaN or infinite, hence not below
    1e-5; in eager mode [tf.Assert] raises at once. *)
Definition is_invariant_to_input_transforms (v1 v2 : R) : res unit :=
  if Req_EM_T v1 0%R then Err TFError
  else if Rlt_dec (Rabs ((v1 - v2) / v1)) (1 / 100000) then Ok Datatypes.tt else Err TFError.

(** [autodiff.py:109-110], [:174-175]: deltas. *)
Definition start_deltas (right : rtt) : list rtensor :=
  match cores right with
  | [] => []
  | c :: cs => c :: map (fun cc => zeros (shape cc)) cs
  end.

(** [tf.reduce_sum], [autodiff.py:192]. *)
Definition sum_all (t : rtensor) : R := isum (K := Rring) (shape t) (get t).

Section Autodiff.
Variable qr : rtensor -> rtensor * rtensor.
Variable grad : (list rtensor -> res R) -> list rtensor -> list (option rtensor).

(** [autodiff.py:9-18] value_and_grad. *)
Definition value_and_grad (f : list rtensor -> res R) (x : list rtensor) : res (R * list (option rtensor)) :=
  do v <- f x;
  Ok (v, grad f x).

(** [autodiff.py:112-114] augmented_func, [:179-182] augmented_inner_func. *)
Definition augmented (func : rtt -> res R) (addr : nat) (x l r : rtt) (d : list rtensor) : res R :=
  do p <- deltas_to_tangent_space qr d addr x (Some l) (Some r);
  func (p_tt p).

(** [autodiff.py:70-123] gradients. *)
Definition gradients (func : rtt -> res R) (addr : nat) (x : rtt) (runtime_check : bool) : res projected :=
  do (l, r) <- frame qr x;
  do (v, cores_grad) <- value_and_grad (augmented func addr x l r) (start_deltas r);
  do _ <- (if runtime_check then do w <- func x; is_invariant_to_input_transforms v w else Ok Datatypes.tt);
  do deltas <- enforce_gauge_conditions cores_grad l;
  deltas_to_tangent_space qr deltas addr x (Some l) (Some r).

(** [autodiff.py:192] one product; a missing gradient cannot be multiplied. *)
Definition product (a : option rtensor) (b : rtensor) : res R :=
  match a with
  | None => Err TypeError
  | Some a => do y <- ewise (K := Rring) Rmult a b; Ok (sum_all y)
  end.
(** [autodiff.py:177-193] augmented_outer_func. *)
Definition outer (func : rtt -> res R) (addr : nat) (x l r vector : rtt) (runtime_check : bool) (d : list rtensor) : res R :=
  do (v, cores_grad) <- value_and_grad (augmented func addr x l r) d;
  do _ <- (if runtime_check then do w <- func x; is_invariant_to_input_transforms v w else Ok Datatypes.tt);
  do vector_projected <- project qr vector addr x;
  do vec_deltas <- tangent_space_to_deltas vector_projected;
  do products <- mapM (fun ab => product (fst ab) (snd ab)) (combine cores_grad vec_deltas);
  match products with
  | [] => Err ValueError
  | p :: ps => Ok (fold_left Rplus ps p)
  end.

(** [autodiff.py:126-197] hessian_vector_product. *)
Definition hessian_vector_product (func : rtt -> res R) (addr : nat) (x vector : rtt) (runtime_check : bool) : res projected :=
  do (l, r) <- frame qr x;
  do (_, second) <- value_and_grad (outer func addr x l r vector runtime_check) (start_deltas r);
  do deltas <- enforce_gauge_conditions second l;
  deltas_to_tangent_space qr deltas addr x (Some l) (Some r).
End Autodiff.
