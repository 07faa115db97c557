(** Dense programs (C56): what a user program (History.v) computes, said with dense tensors only.

    An object of the library stands for a dense array, possibly a batch of arrays, together with the
    factorization of its axes.  [means] gives, call by call, the dense array that the call is for; it
    does not mention cores (except for objects given by their cores).  TT-ranks occur as upper bounds, because the truncating functions are
    exact only when the ranks they are given suffice. *)
From Coq Require Import List Arith ZArith Bool Reals.
From Verif Require Import Scalar Tensor TensorLemmas Base Spec Ops OpsR Dense Det Decomp DecompSpec SvdSpec Approx Kron KronSpec RiemSpec AutoSpec Init History.
From Verif Require Import InitProofs SliceProofs.
Import ListNotations.
Local Open Scope nat_scope.

(** A dense value: the axis sizes (one list for a tensor; for a matrix the factors of the number of rows
    and those of the number of columns), the batch size, bounds of the TT-ranks, and the array. *)
Record dval := DV { d_modes : list (list nat); d_batch : option nat; d_rank : nat -> nat; d_x : rtensor }.

Definition axes (v : dval) : nat := length (nth 0 (d_modes v) []).
Definition d_shape (ms : list (list nat)) (B : option nat) : list nat :=
  match B with None => [] | Some b => [b] end ++
  match ms with [rows; cols] => [prodn rows; prodn cols] | _ => nth 0 ms [] end.

(** The object [t] stands for the dense value [v]. *)
Definition denotes (t : rtt) (v : dval) : Prop :=
  wf t /\ rshape t = d_modes v /\ bsz t = d_batch v /\ full t = Ok (d_x v) /\
  forall k, k <= ndims t -> rk t k <= d_rank v k.

(** [v] is the array of the given shape with the elements [f]. *)
Definition value (v : dval) (ms : list (list nat)) (B : option nat) (rs : nat -> nat) (f : list nat -> R) : Prop :=
  d_modes v = ms /\ d_batch v = B /\ (forall k, d_rank v k = rs k) /\ wft (d_x v) /\ shape (d_x v) = d_shape ms B /\
  forall i, vidx (d_shape ms B) i -> @get Rring (d_x v) i = f i.

(** The same value, with other bounds of the ranks. *)
Definition same_value (v x : dval) (rs : nat -> nat) : Prop :=
  d_modes v = d_modes x /\ d_batch v = d_batch x /\ (forall k, d_rank v k = rs k) /\ d_x v = d_x x.

(** Element of the operand [x] that belongs to position [i] of a result with batch size [B]: an operand
    without batch axis, or with one element, is used for all elements of the result. *)
Definition operand (B : option nat) (x : dval) (i : list nat) : R :=
  @get Rring (d_x x) match B with None => i | Some _ => opidx (d_batch x) (hd 0 i) (tl i) end.

(** Sums of two objects: which batch sizes work (C04: a TensorTrain plus a batch does not, nor a batch
    of one element plus a TensorTrain). *)
Definition addable (x y : dval) : Prop :=
  d_modes x = d_modes y /\ 2 <= axes x /\
  match d_batch x, d_batch y with
  | None, None => True
  | Some b, None => b <> 1
  | None, Some _ => False
  | Some b, Some c => b = c \/ b = 1 \/ c = 1
  end.

(** Row [i] of [x] times column [k] of [y], for batch element [o]. *)
Definition row_by_column (n : nat) (x y : dval) (o i k : nat) : R :=
  @sumn Rring n (fun j => (@get Rring (d_x x) (opidx (d_batch x) o [i; j]) * @get Rring (d_x y) (opidx (d_batch y) o [j; k]))%R).

(** Element [o] of the concatenation of batches. *)
Fixpoint element_of (xs : list dval) (o : nat) (i : list nat) : R :=
  match xs with
  | [] => 0%R
  | x :: xs' => match d_batch x with
                | Some b => if o <? b then @get Rring (d_x x) (o :: i) else element_of xs' (o - b) i
                | None => 0%R
                end
  end.
Definition batch_total (xs : list dval) : nat := list_sum (map (fun x => match d_batch x with Some b => b | None => 0 end) xs).

(** The array has TT-ranks at most [lim]: some object with such ranks stands for it. *)
Definition has_ranks (ms : list (list nat)) (B : option nat) (x : rtensor) (lim : nat -> nat) : Prop :=
  exists t : rtt, wf t /\ rshape t = ms /\ bsz t = B /\ full t = Ok x /\ forall k, 0 < k < ndims t -> rk t k <= lim k.

(** Sizes given to to_tt_matrix. *)
Definition factor_sizes (s0 s1 : option (list nat)) (rows cols : list nat) : Prop :=
  length rows = length cols /\
  ((s0 = Some rows /\ s1 = Some cols) \/ (s0 = None /\ s1 = Some cols /\ rows = repeat 1 (length cols)) \/
   (s0 = Some rows /\ s1 = None /\ cols = repeat 1 (length rows))).

Definition swap_last (i : list nat) : list nat :=
  match i with [a; b] => [b; a] | [o; a; b] => [o; b; a] | _ => i end.
Definition positive (l : list nat) : Prop := Forall (fun n => 0 < n) l.

(** The bounds of the ranks of [x] are the TT-ranks of the array. *)
Definition exact_ranks (x : dval) : Prop :=
  exists u : rtt, denotes u x /\ full_tt_ranks u /\ forall k, k <= ndims u -> d_rank x k = rk u k.
(** [T] is in the tangent space at the array of [x] of the set of arrays with its TT-ranks: it is a derivative of the
    map from cores to arrays at some cores of the array (RiemSpec.v; which cores does not matter, C60). *)
Definition tangent_at (x : dval) (T : list nat -> R) : Prop := exists u : rtt, denotes u x /\ full_tt_ranks u /\ tangent u T.
(** [P] is the orthogonal projection of [F] on that space. *)
Definition projection_at (x : dval) (F P : list nat -> R) : Prop :=
  tangent_at x P /\ forall T, tangent_at x T ->
    @isum Rring (d_shape (d_modes x) None) (fun i => (P i * T i)%R) = @isum Rring (d_shape (d_modes x) None) (fun i => (F i * T i)%R).
(** [v] has the projections of the arrays [F o], o over the batch [B], on the tangent space at [x]. *)
Definition projections (v x : dval) (B : option nat) (F : list nat -> list nat -> R) : Prop :=
  d_batch x = None /\ 2 <= axes x /\ exact_ranks x /\
  d_modes v = d_modes x /\ d_batch v = B /\ (forall k, d_rank v k = 2 * d_rank x k) /\ wft (d_x v) /\ shape (d_x v) = d_shape (d_modes x) B /\
  forall o, vidx (match B with None => [] | Some b => [b] end) o -> projection_at x (F o) (fun i => @get Rring (d_x v) (o ++ i)).
(** The number of arrays in [z], and the array number [s]. *)
Definition count (z : dval) : nat := match d_batch z with Some b => b | None => 1 end.
Definition array (z : dval) (s : nat) (i : list nat) : R := @get Rring (d_x z) (match d_batch z with Some _ => [s] | None => [] end ++ i).

(** Ways to write the sizes [ms] in the argument shape of a constructor, and an optional argument. *)
Definition names_sizes (sh : shape_arg) (ms : list (list nat)) : Prop :=
  sh = SNone \/ sh = STuple ms \/ (exists l, ms = [l] /\ (sh = STensorShape l \/ (2 <= length l /\ sh = SList l))) \/
  (exists rows cols, ms = [rows; cols] /\ 2 <= length rows /\ length cols = length rows /\ sh = SList2 ms).
Definition names {A} (o : option A) (a : A) : Prop := o = None \/ o = Some a.
(** The TT format with the TT-ranks [rs] and random cores: core number k has the elements mean + sd * xi k, where xi k are the numbers
    drawn for it. *)
Definition sampled (v : dval) (ms : list (list nat)) (B : option nat) (rs : list nat) (mean sd : R) (xi : nat -> list nat -> R) : Prop :=
  exists t : rtt, wf t /\ rshape t = ms /\ rks t = rs /\ bsz t = B /\
    (forall k ix, k < ndims t -> vidx (shape (core t k)) ix -> @get Rring (core t k) ix = (mean + sd * xi k ix)%R) /\
    value v ms B (fun k => nth k rs 0) (tt_at t).
(** [s]: the standard deviation of the elements of d cores for which the elements of the array have the variance [var] (C38). *)
Definition core_sd (d : nat) (rs : list nat) (var s : R) : Prop := (0 <= s /\ (s ^ d) ^ 2 * INR (prodn rs) = var)%R.
(** Arguments: sizes of a tensor, of a matrix, and TT-ranks. *)
Definition tensor_args (s : shape1) (r : rarg) (l rs : list nat) : Prop := s = S1Vec (nints l) /\ 2 <= length l /\ positive l /\ rank_arg (length l) r rs.
Definition matrix_args (s : shape2) (r : rarg) (rows cols rs : list nat) : Prop :=
  rows_of rows cols s /\ 2 <= length rows /\ length cols = length rows /\ positive rows /\ positive cols /\ rank_arg (length rows) r rs.
Definition batch_arg (b : num) (B : nat) : Prop := b = NI (Z.of_nat B) /\ 0 < B.
(** mean, which has to be 0, and sd. *)
Definition moments (mean sd : R) : Prop := (Rabs mean < / 10 ^ 8 /\ 0 <= sd)%R.

(** The value of call [c] when the earlier results have the values [e].  [False]: no such value is
    given here (the call is outside the dense language, or it is not one for which the library promises
    a result). *)
Definition means (e : list dval) (c : op) (v : dval) : Prop :=
  let arg a x := nth_error e a = Some x in
  match c with
  (* an object given by its cores: the TT format (Spec.v) *)
  | CallTensorTrain cs sh ranks => exists t : rtt, wf t /\ cores t = cs /\ bsz t = None /\ names_sizes sh (rshape t) /\ names ranks (rks t) /\
      value v (rshape t) None (rk t) (tt_at t)
  | CallTensorTrainBatch cs sh ranks bs => exists (t : rtt) b, wf t /\ cores t = cs /\ bsz t = Some b /\ names_sizes sh (rshape t) /\ names ranks (rks t) /\ names bs b /\
      value v (rshape t) (Some b) (rk t) (tt_at t)
  (* indexing: python's indexing of the dense array *)
  | CallGetitem a spec => exists x sizes, arg a x /\ d_modes x = [sizes] /\ getitem (d_x x) spec = Ok (d_x v) /\ positive (shape (d_x v)) /\
      match d_batch x with
      | None => shape (d_x v) <> [] /\ d_modes v = [shape (d_x v)] /\ d_batch v = None /\
          forall k, d_rank v k = nth k (slice_ranks spec (map (d_rank x) (seq 0 (S (axes x))))) 0
      | Some _ => exists b0 spec', spec = b0 :: spec' /\ existsb is_slice spec' = true /\
          d_modes v = [if is_slice b0 then tl (shape (d_x v)) else shape (d_x v)] /\
          d_batch v = (if is_slice b0 then Some (hd 0 (shape (d_x v))) else None) /\
          forall k, d_rank v k = nth k (slice_ranks spec' (map (d_rank x) (seq 0 (S (axes x))))) 0
      end
  | CallBatchItem a ix => exists x b, arg a x /\ d_batch x = Some b /\
      getitem (d_x x) (ix :: repeat full_slice (length (shape (d_x x)) - 1)) = Ok (d_x v) /\ positive (shape (d_x v)) /\
      d_modes v = d_modes x /\ d_batch v = (if is_slice ix then Some (hd 0 (shape (d_x v))) else None) /\ forall k, d_rank v k = d_rank x k
  | CallSqueezeBatchDim a => exists x, arg a x /\
      match d_batch x with
      | Some 1 => value v (d_modes x) None (d_rank x) (fun i => @get Rring (d_x x) (0 :: i))
      | _ => same_value v x (d_rank x)
      end
  | CallExpandBatchDim a => exists x, arg a x /\
      match d_batch x with
      | None => value v (d_modes x) (Some 1) (d_rank x) (fun i => @get Rring (d_x x) (tl i))
      | _ => same_value v x (d_rank x)
      end
  (* linear algebra *)
  | CallTranspose a => exists x rows cols, arg a x /\ d_modes x = [rows; cols] /\
      value v [cols; rows] (d_batch x) (d_rank x) (fun i => @get Rring (d_x x) (swap_last i))
  | CallMatmul a b => exists x y rows mid cols, arg a x /\ arg b y /\ d_modes x = [rows; mid] /\ d_modes y = [mid; cols] /\
      bc_ok (d_batch x) (d_batch y) /\
      value v [rows; cols] (match bc_size (d_batch x) (d_batch y) with Some 1 => None | B => B end) (fun k => d_rank x k * d_rank y k)
        (fun i => match i with [i; k] => row_by_column (prodn mid) x y 0 i k | [o; i; k] => row_by_column (prodn mid) x y o i k | _ => 0%R end)
  | CallAdd a b => exists x y, arg a x /\ arg b y /\ addable x y /\
      let B := bc_size (d_batch x) (d_batch y) in
      value v (d_modes x) B (fun k => d_rank x k + d_rank y k) (fun i => (operand B x i + operand B y i)%R)
  | CallSub a b => exists x y, arg a x /\ arg b y /\ addable x y /\
      let B := bc_size (d_batch x) (d_batch y) in
      value v (d_modes x) B (fun k => d_rank x k + d_rank y k) (fun i => (operand B x i - operand B y i)%R)
  | CallNeg a => exists x, arg a x /\ value v (d_modes x) (d_batch x) (d_rank x) (fun i => (- @get Rring (d_x x) i)%R)
  | CallMultiply a b => exists x y, arg a x /\ arg b y /\ d_modes x = d_modes y /\ bc_ok (d_batch x) (d_batch y) /\
      let B := bc_size (d_batch x) (d_batch y) in
      value v (d_modes x) B (fun k => d_rank x k * d_rank y k) (fun i => (operand B x i * operand B y i)%R)
  | CallMultiplyNum a c => exists x, arg a x /\ value v (d_modes x) (d_batch x) (d_rank x) (fun i => (c * @get Rring (d_x x) i)%R)
  | CallInv a => exists x ns, arg a x /\ d_modes x = [ns; ns] /\ (forall k, d_rank x k <= 1) /\
      let n := prodn ns in let pre := match d_batch x with None => [] | Some b => [b] end in
      (forall p, vidx pre p -> det n (mat (d_x x) p) <> 0%R) /\
      d_modes v = d_modes x /\ d_batch v = d_batch x /\ (forall k, d_rank v k = 1) /\
      wft (d_x v) /\ shape (d_x v) = shape (d_x x) /\ forall p, vidx pre p -> right_inverse n (mat (d_x x) p) (mat (d_x v) p)
  | CallCholesky a => exists x ns, arg a x /\ d_modes x = [ns; ns] /\ (forall k, d_rank x k <= 1) /\
      let n := prodn ns in let pre := match d_batch x with None => [] | Some b => [b] end in
      (forall p, vidx pre p -> symmetric n (mat (d_x x) p) /\ posdef n (mat (d_x x) p)) /\
      d_modes v = d_modes x /\ d_batch v = d_batch x /\ (forall k, d_rank v k = 1) /\
      wft (d_x v) /\ shape (d_x v) = shape (d_x x) /\ forall p, vidx pre p -> cholesky_factor n (mat (d_x x) p) (mat (d_x v) p)
  (* functions that keep the array *)
  | CallCast a f => exists x, arg a x /\ (forall y, f y = y) /\ same_value v x (d_rank x)
  | CallRenormalize a eps => exists x, arg a x /\ (0 < eps)%R /\ same_value v x (d_rank x)
  | CallOrthogonalize a l2r => exists x, arg a x /\ (l2r = false -> d_batch x = None) /\ same_value v x (d_rank x)
  | CallRound a m eps => exists x lim, arg a x /\
      rank_limits (match d_batch x with Some _ => true | None => false end) m eps (axes x) lim /\
      ((forall k, 0 < k < axes x -> d_rank x k <= lim k) \/ has_ranks (d_modes x) (d_batch x) (d_x x) lim) /\
      same_value v x (fun k => Nat.min (d_rank x k) (lim k))
  (* dense arrays as TT objects *)
  | CallToTTTensor x m eps => exists lim, wft x /\ 2 <= length (shape x) /\ positive (shape x) /\ rank_limits false m eps (length (shape x)) lim /\
      ((forall k, 0 < k < length (shape x) -> Nat.min (prodn (firstn k (shape x))) (prodn (skipn k (shape x))) <= lim k) \/
       has_ranks [shape x] None x lim) /\
      value v [shape x] None lim (fun i => @get Rring x i)
  | CallToTTMatrix x s0 s1 m eps => exists rows cols lim, factor_sizes s0 s1 rows cols /\ wft x /\ shape x = [prodn rows; prodn cols] /\
      2 <= length rows /\ positive rows /\ positive cols /\ rank_limits false m eps (length rows) lim /\
      ((forall k, 0 < k < length rows ->
          Nat.min (prodn (map (fun i => nth i rows 0 * nth i cols 0) (seq 0 k)))
                  (prodn (map (fun i => nth i rows 0 * nth i cols 0) (seq k (length rows - k)))) <= lim k) \/
       has_ranks [rows; cols] None x lim) /\
      value v [rows; cols] None lim (fun i => @get Rring x i)
  (* batches *)
  | CallConcat l => exists xs x0, Forall2 arg l xs /\ hd_error xs = Some x0 /\ Forall (fun x => d_modes x = d_modes x0 /\ d_batch x <> None) xs /\
      value v (d_modes x0) (Some (batch_total xs)) (d_rank x0) (fun i => element_of xs (hd 0 i) (tl i))
  | CallConcatSingle a => exists x, arg a x /\ d_batch x <> None /\ same_value v x (d_rank x)
  | CallMultiplyBatch a w => exists x b, arg a x /\ d_batch x = Some b /\ wft w /\ shape w = [b] /\
      value v (d_modes x) (Some b) (d_rank x) (fun i => (@get Rring w [hd 0%nat i] * @get Rring (d_x x) i)%R)
  (* approximate sums with ranks that suffice *)
  | CallAddN l m => exists xs x0 lim, Forall2 arg l xs /\ hd_error xs = Some x0 /\ 2 <= axes x0 /\
      Forall (fun x => d_modes x = d_modes x0 /\ d_batch x = d_batch x0) xs /\
      rank_limits (match d_batch x0 with Some _ => true | None => false end) m None (axes x0) lim /\
      (forall k, 0 < k < axes x0 -> list_sum (map (fun x => d_rank x k) xs) <= lim k) /\
      value v (d_modes x0) (d_batch x0) lim (fun i => fold_right Rplus 0%R (map (fun x => @get Rring (d_x x) i) xs))
  | CallReduceSumBatch a m coef => exists x b lim, arg a x /\ d_batch x = Some b /\ 2 <= axes x /\ rank_limits true m None (axes x) lim /\
      (forall k, 0 < k < axes x -> b * d_rank x k <= lim k) /\
      match coef with
      | None => value v (d_modes x) None lim (fun i => @sumn Rring b (fun o => @get Rring (d_x x) (o :: i)))
      | Some w => wft w /\
          ((shape w = [b] /\ value v (d_modes x) None lim (fun i => @sumn Rring b (fun o => (@get Rring w [o] * @get Rring (d_x x) (o :: i))%R))) \/
           (exists N, 0 < N /\ shape w = [b; N] /\
             value v (d_modes x) (Some N) lim (fun i => @sumn Rring b (fun o => (@get Rring w [o; hd 0%nat i] * @get Rring (d_x x) (o :: tl i))%R))))
      end
  (* constants *)
  | CallTensorOnes s => exists l, s = S1Vec (nints l) /\ 2 <= length l /\ positive l /\ value v [l] None (fun _ => 1) (fun _ => 1%R)
  | CallTensorZeros s => exists l, s = S1Vec (nints l) /\ 2 <= length l /\ positive l /\ value v [l] None (fun _ => 1) (fun _ => 0%R)
  | CallEye s => exists l, s = S1Vec (nints l) /\ 2 <= length l /\ positive l /\
      value v [l; l] None (fun _ => 1) (fun i => match i with [i; j] => if Nat.eqb i j then 1%R else 0%R | _ => 0%R end)
  | CallMatrixOnes s => exists rows cols, rows_of rows cols s /\ 2 <= length rows /\ length cols = length rows /\ positive rows /\ positive cols /\
      value v [rows; cols] None (fun _ => 1) (fun _ => 1%R)
  | CallMatrixZeros s => exists rows cols, rows_of rows cols s /\ 2 <= length rows /\ length cols = length rows /\ positive rows /\ positive cols /\
      value v [rows; cols] None (fun _ => 1) (fun _ => 0%R)
  | CallOnesLike a => exists x, arg a x /\ 2 <= axes x /\ value v (d_modes x) None (fun _ => 1) (fun _ => 1%R)
  | CallZerosLike a => exists x, arg a x /\ 2 <= axes x /\ value v (d_modes x) None (fun _ => 1) (fun _ => 0%R)
  (* random arrays *)
  | CallTensorWithRandomCores xi s r mean sd => exists l rs, tensor_args s r l rs /\ sampled v [l] None rs mean sd xi
  | CallTensorBatchWithRandomCores xi s r b mean sd => exists l rs B, tensor_args s r l rs /\ batch_arg b B /\ sampled v [l] (Some B) rs mean sd xi
  | CallMatrixWithRandomCores xi s r mean sd => exists rows cols rs, matrix_args s r rows cols rs /\ sampled v [rows; cols] None rs mean sd xi
  | CallMatrixBatchWithRandomCores xi s r b mean sd => exists rows cols rs B, matrix_args s r rows cols rs /\ batch_arg b B /\
      sampled v [rows; cols] (Some B) rs mean sd xi
  | CallRandomTensor xi s r mean sd => exists l rs c, tensor_args s r l rs /\ moments mean sd /\ core_sd (length l) rs (sd ^ 2) c /\
      sampled v [l] None rs 0 c xi
  | CallRandomTensorBatch xi s r b mean sd => exists l rs c B, tensor_args s r l rs /\ batch_arg b B /\ moments mean sd /\ core_sd (length l) rs (sd ^ 2) c /\
      sampled v [l] (Some B) rs 0 c xi
  | CallRandomMatrix xi s r mean sd => exists rows cols rs c, matrix_args s r rows cols rs /\ moments mean sd /\ core_sd (length rows) rs (sd ^ 2) c /\
      sampled v [rows; cols] None rs 0 c xi
  | CallRandomMatrixBatch xi s r b mean sd => exists rows cols rs c B, matrix_args s r rows cols rs /\ batch_arg b B /\ moments mean sd /\
      core_sd (length rows) rs (sd ^ 2) c /\ sampled v [rows; cols] (Some B) rs 0 c xi
  | CallGlorot xi s r => exists rows cols rs c, matrix_args s r rows cols rs /\ core_sd (length rows) rs (2 / (INR (prodn rows) + INR (prodn cols))) c /\
      sampled v [rows; cols] None rs 0 c xi
  | CallHe xi s r => exists rows cols rs c, matrix_args s r rows cols rs /\ core_sd (length rows) rs (2 / INR (prodn rows)) c /\
      sampled v [rows; cols] None rs 0 c xi
  | CallLecun xi s r => exists rows cols rs c, matrix_args s r rows cols rs /\ core_sd (length rows) rs (1 / INR (prodn rows)) c /\
      sampled v [rows; cols] None rs 0 c xi
  (* orthogonal projections on the tangent space: of every array, of weighted sums, of products with a matrix *)
  | CallProject a b => exists z x, arg a z /\ arg b x /\ d_modes z = d_modes x /\ projections v x (d_batch z) (fun o i => @get Rring (d_x z) (o ++ i))
  | CallProjectSum a b ws => exists z x N, arg a z /\ arg b x /\ d_modes z = d_modes x /\
      match ws with
      | None => N = None
      | Some w => (shape w = [count z] /\ N = None) \/ (exists n, 1 < n /\ shape w = [count z; n] /\ N = Some n)
      end /\
      projections v x N (fun o i => @sumn Rring (count z) (fun s => (match ws with Some w => @get Rring w (s :: o) | None => 1 end * array z s i)%R))
  | CallProjectMatmul a b c => exists z x y B rows cols, arg a z /\ arg b x /\ arg c y /\
      d_modes x = [rows; cols] /\ d_modes z = [rows; cols] /\ d_batch z = Some B /\ d_modes y = [rows; rows] /\ d_batch y = None /\
      projections v x (Some B) (fun o i => @sumn Rring (prodn rows) (fun k => (@get Rring (d_x y) [hd 0%nat i; k] * @get Rring (d_x z) (o ++ k :: tl i))%R))
  (* the projection of the gradient E of a function F of arrays; the argument func computes F from TT objects *)
  | CallGradients func a check => exists x F E, arg a x /\
      (forall u : rtt, wf u -> rshape u = d_modes x -> bsz u = None -> forall du, full u = Ok du -> func u = Ok (F (@get Rring du))) /\
      (forall T T', agree (d_shape (d_modes x) None) T T' -> F T = F T') /\ gradient_at (d_shape (d_modes x) None) F (@get Rring (d_x x)) E /\
      (check = true -> F (@get Rring (d_x x)) <> 0%R) /\ projections v x None (fun _ => E)
  (* the projection of the Hessian H of F applied to the projection W of a vector *)
  | CallHessianVectorProduct func a b check => exists x z F E H W, arg a x /\ arg b z /\ d_modes z = d_modes x /\ d_batch z = None /\
      (forall u : rtt, wf u -> rshape u = d_modes x -> bsz u = None -> forall du, full u = Ok du -> func u = Ok (F (@get Rring du))) /\
      (forall T T', agree (d_shape (d_modes x) None) T T' -> F T = F T') /\
      (forall T, exists eps, (0 < eps)%R /\ forall t, (Rabs t < eps)%R ->
        gradient_at (d_shape (d_modes x) None) F (shift (@get Rring (d_x x)) T t) (E (shift (@get Rring (d_x x)) T t))) /\
      hessian_at (d_shape (d_modes x) None) E (@get Rring (d_x x)) H /\ (check = true -> F (@get Rring (d_x x)) <> 0%R) /\
      projection_at x (@get Rring (d_x z)) W /\ projections v x None (fun _ i => inner (d_shape (d_modes x) None) (H i) W)
  (* sums of projections, coordinates of projections *)
  | _ => False
  end.

(** A dense program: every call has a value. *)
Fixpoint means_run (e : list dval) (p : list op) (vs : list dval) : Prop :=
  match p, vs with
  | [], [] => True
  | c :: p', v :: vs' => means e c v /\ means_run (e ++ [v]) p' vs'
  | _, _ => False
  end.

(** The objects stand for the values, one by one. *)
Definition denote_all (e : env) (de : list dval) : Prop := Forall2 (fun o v => denotes (o_tt o) v) e de.

(** The calls of the dense language that may still raise: concatenation of batches with different
    TT-ranks, the Cholesky factor of a positive definite Kronecker product of negative definite
    matrices, and gradients and Hessian-by-vector products for which the tape returns None. *)
Definition may_raise (c : op) : bool :=
  match c with CallConcat _ | CallCholesky _ | CallGradients _ _ _ | CallHessianVectorProduct _ _ _ _ => true | _ => false end.

(** Second derivatives are derivatives of gradients.  The tape returns None for a tensor that the value is not connected
    to; this must not change from point to point. *)
Definition second_order (c : op) : bool := match c with CallHessianVectorProduct _ _ _ _ => true | _ => false end.
Definition steady (grad : (list rtensor -> res R) -> list rtensor -> list (option rtensor)) : Prop :=
  forall f ds ds', In None (grad f ds) -> In None (grad f ds').
Definition differentiates (c : op) : bool := match c with CallGradients _ _ _ | CallHessianVectorProduct _ _ _ _ => true | _ => false end.

(** ** Sums of projections.  add_n_projected wants elements of one tangent space; so a value carries the number of
    the point at whose tangent space it was made, if any. *)
Definition point_of (c : op) : option nat :=
  match c with
  | CallProject _ b | CallProjectSum _ b _ | CallProjectMatmul _ b _ | CallGradients _ b _ | CallHessianVectorProduct _ b _ _ => Some b
  | _ => None
  end.
Definition weight (coef : option rtensor) (k : nat) (o : list nat) : R :=
  match coef with
  | None => 1%R
  | Some w => @get Rring w match shape w with [_] => [k] | _ => k :: o end
  end.
Definition means_on (e : list (dval * option nat)) (c : op) (v : dval * option nat) : Prop :=
  match c with
  | CallAddNProjected l coef => exists b x xs B,
      Forall2 (fun a y => nth_error e a = Some (y, Some b)) l (x :: xs) /\ Forall (fun y => d_batch y = B) (x :: xs) /\
      match coef with None => True | Some w => shape w = [length l] \/ exists n, B = Some n /\ shape w = [length l; n] end /\
      snd v = Some b /\
      value (fst v) (d_modes x) B (d_rank x) (fun i =>
        @sumn Rring (length l) (fun k => (weight coef k (match B with None => [] | Some _ => [hd 0%nat i] end) * @get Rring (d_x (nth k (x :: xs) x)) i)%R))
  | _ => means (map fst e) c (fst v) /\ snd v = point_of c
  end.
Fixpoint means_on_run (e : list (dval * option nat)) (p : list op) (vs : list (dval * option nat)) : Prop :=
  match p, vs with
  | [], [] => True
  | c :: p', v :: vs' => means_on e c v /\ means_on_run (e ++ [v]) p' vs'
  | _, _ => False
  end.
