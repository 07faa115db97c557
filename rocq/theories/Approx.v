(** [t3f/approximate.py].  Model only, no proofs.

    The python [while] loops run on fuel: the number of objects (the batch size), which is more
    than the number of iterations; running out of fuel is [Err TFError] and the theorems on
    successful runs show that it does not happen. *)
From Coq Require Import String Ascii List Arith ZArith Bool Reals.
From Verif Require Import Scalar Tensor Base Ops OpsR BatchOps Decomp.
Import ListNotations.

Section Approx.
Variable qr : rtensor -> rtensor * rtensor.
Variable svd : rtensor -> rtensor * rtensor * rtensor.

(** [approximate.py:34-39]: one pass of the [for] loop over the pairs of a level. *)
Fixpoint add_level (a : rank_arg) (l : list rtt) : res (list rtt) :=
  match l with
  | x :: y :: l' =>
      do s <- add x y;
      do z <- round qr svd s a None;
      do r <- add_level a l';
      Ok (z :: r)
  | _ => Ok l
  end.

(** [approximate.py:33-40] the [while] loop. *)
Fixpoint add_levels (fuel : nat) (a : rank_arg) (l : list rtt) : res (list rtt) :=
  if Nat.ltb 1 (length l) then
    match fuel with
    | O => Err TFError
    | S f => do l' <- add_level a l; add_levels f a l'
    end
  else Ok l.

(** [approximate.py:9-41] add_n.  [prev_level[0]] of an empty list is an IndexError. *)
Definition add_n (l : list rtt) (a : rank_arg) : res rtt :=
  do r <- add_levels (length l) a l;
  nthr r 0.

(** [approximate.py:152-161] merge the first two dimensions. *)
Definition merge2 (x : rtensor) : res rtensor :=
  match shape x with
  | n :: m :: sh => reshape x (map Some (n * m :: sh))
  | _ => Err IndexError
  end.

(** [approximate.py:132-161]: the elements with even and with odd numbers, the latter padded with a zero
    element; [nout] is [Some output_size] when the output is a batch.
    [unraveled_shape[0] /= output_size] is exact when it is reached ([output_size] is positive
    and divides the batch size); a coefficient matrix without columns is not modelled. *)
Definition even_odd (nout : option nat) (c : rtensor) : res (rtensor * rtensor) :=
  do c <- (match nout, shape c with
           | Some N, b :: sh => reshape c (map Some (b / N :: N :: sh))
           | _, _ => Ok c
           end);
  do a <- getitem c (ISlice None None (Some 2%Z) :: repeat full_slice (rank c - 1));
  do b <- getitem c (ISlice (Some 1%Z) None (Some 2%Z) :: repeat full_slice (rank c - 1));
  do b <- (if Nat.ltb (nth 0 (shape b) 0) (nth 0 (shape a) 0)
           then concat [b; zeros (upd 0 1 (shape b))] 0 else Ok b);
  match nout with
  | Some _ => do a <- merge2 a; do b <- merge2 b; Ok (a, b)
  | None => Ok (a, b)
  end.

(** [approximate.py:130-173]: the batch of the sums of neighbours.  [ndims], [shape] and the rank dimensions are
    those of the argument of reduce_sum_batch, which are the same on every level. *)
Definition sum_level (nout : option nat) (t : rtt) : res rtt :=
  let right := if is_tt_matrix t then 4 else 3 in
  do cs <- mapM (fun i =>
      do (a, b) <- even_odd nout (core t i);
      if Nat.eqb i 0 then concat [a; b] right
      else if Nat.eqb i (ndims t - 1) then concat [a; b] 1
      else
        let z := zeros (shape b) in
        do upper <- concat [a; z] right;
        do lower <- concat [z; b] right;
        concat [upper; lower] 1)
    (seq 0 (ndims t));
  TensorTrainBatch cs (STuple (rshape t)) None None.

(** [approximate.py:129-174] the [while] loop. *)
Fixpoint sum_levels (fuel : nat) (nout : option nat) (a : rank_arg) (t : rtt) : res rtt :=
  match bsz t with
  | None => Err AttributeError
  | Some b =>
      if Nat.ltb (match nout with Some N => N | None => 1 end) b then
        match fuel with
        | O => Err TFError
        | S f => do l <- sum_level nout t;
                 do t' <- round qr svd l a None;
                 sum_levels f nout a t'
        end
      else Ok t
  end.

(** [approximate.py:91-120]: every element of the batch repeated once per column of [coef], the first core
    multiplied by the coefficients. *)
Definition expand_to (w : rtensor) (n : nat) : rtensor := Tensor (shape w ++ repeat 1 (n - rank w)) (data w).
(** [approximate.py:91-120]: one core, the first one multiplied by the coefficients. *)
Definition spread_core (coef : rtensor) (N i : nat) (c : rtensor) : res rtensor :=
  match shape c with
  | b :: sh =>
      do x <- reshape c (map Some (b :: 1 :: sh));
      do x <- tile x (1 :: N :: repeat 1 (length sh));
      do x <- (if Nat.eqb i 0 then ewise (K := Rring) Rmult x (expand_to coef (rank x)) else Ok x);
      reshape x (map Some (b * N :: sh))
  | [] => Err IndexError
  end.
(** [approximate.py:91-120]: the batch of the repeated elements. *)
Definition spread (t : rtt) (coef : rtensor) (N : nat) : res rtt :=
  do cs <- mapM (fun i => spread_core coef N i (core t i)) (seq 0 (ndims t));
  TensorTrainBatch cs (STuple (rshape t)) (Some (rks t)) None.

(** [approximate.py:44-178] reduce_sum_batch. *)
Definition reduce_sum_batch (t : rtt) (a : rank_arg) (coef : option rtensor) : res rtt :=
  match coef with
  | None =>
      do r <- sum_levels (match bsz t with Some b => b | None => 0 end) None a t;
      batch_dim_getitem r (IInt 0)
  | Some w =>
      match shape w with
      | [_] =>
          do t <- multiply_along_batch_dim t w;
          do r <- sum_levels (match bsz t with Some b => b | None => 0 end) None a t;
          batch_dim_getitem r (IInt 0)
      | [n; N] =>
          match bsz t with
          | None => Err AttributeError
          | Some b =>
              if negb (Nat.eqb n b) then Err ValueError else
              do t' <- spread t w N;
              sum_levels b (Some N) a t'
          end
      | _ => Err ValueError
      end
  end.

End Approx.
