(** Counting arithmetic.  The numerical work of the library is done by the kernels of TensorFlow: tf.einsum,
    tf.matmul, tf.linalg.qr and elementwise arithmetic (reshape, transpose, concat, tile, slices and squeeze
    move numbers without computing).  Here: the record of a kernel call, the number of multiplications of an
    einsum done as a sequence of contractions of two tensors, and the cost of a list of calls.
    None of this is code of the repository; it is what the "Complexity" paragraphs of its docstrings count
    ([ops.py:339-348], [ops.py:1067-1074], [batch_ops.py:103-117], [batch_ops.py:142-159],
    [decompositions.py:428-440], [riemannian.py:30-38], [:218-226], [:391-397], [:552-559]).
    Definitions only, no proofs. *)
From Coq Require Import String Ascii List Arith Bool Permutation.
From Verif Require Import Scalar Tensor Base Spec.
Import ListNotations.

(** A call of a kernel, with the shapes of its operands. *)
Inductive call :=
| KEinsum (eq : string) (shapes : list (list nat))
| KMatmul (a b : list nat)
| KQr (a : list nat)
| KEwise (result : list nat).

(** *** The order of an einsum
    An einsum of several tensors is done two tensors at a time.  An order is a binary tree whose leaves are
    the positions of the operands; every position occurs once. *)
Inductive order := OLeaf (i : nat) | ONode (l r : order).

Fixpoint leaves (p : order) : list nat :=
  match p with OLeaf i => [i] | ONode l r => leaves l ++ leaves r end.

Definition occurs (l : ascii) (ls : list ascii) : bool := existsb (Ascii.eqb l) ls.
Fixpoint uniq (ls : list ascii) : list ascii :=
  match ls with [] => [] | l :: t => if occurs l t then uniq t else l :: uniq t end.

Section Order.
Variables (ins : list (list ascii)) (out : list ascii).

(** A label is still needed after the operands [used] have been contracted when it belongs to the result or
    to another operand. *)
Definition needed (used : list nat) (l : ascii) : bool :=
  occurs l out ||
  existsb (fun j => negb (existsb (Nat.eqb j) used) && occurs l (nth j ins [])) (seq 0 (length ins)).

(** The axes of the tensor that a subtree produces. *)
Fixpoint olabels (p : order) : list ascii :=
  match p with
  | OLeaf i => nth i ins []
  | ONode l r => filter (needed (leaves l ++ leaves r)) (uniq (olabels l ++ olabels r))
  end.

(** One multiplication for every combination of values of the axes of the two tensors contracted. *)
Fixpoint omults (dim : ascii -> nat) (p : order) : nat :=
  match p with
  | OLeaf _ => 0
  | ONode l r => omults dim l + omults dim r + prodn (map dim (uniq (olabels l ++ olabels r)))
  end.
End Order.

(** The contraction itself, on tensors: every node is the einsum of the two tensors below it.
    [einsum_of] is [einsum] (Tensor.v) after the equation has been parsed. *)
Section Contract.
Context {K : cring}.
Definition einsum_of (ins : list (list ascii)) (out : list ascii) (ts : list (tensor K)) : res (tensor K) :=
  do env <- bind_all ins ts [];
  if forallb (fun l => match lookup l env with Some _ => true | None => false end) out then
    let summed := filter (fun p => negb (existsb (Ascii.eqb (fst p)) out)) env in
    Ok (mk (map (lookup0 env) out)
           (fun oidx => esum summed (combine out oidx) (fun asg => eprod asg ins ts)))
  else Err TFError.

Fixpoint contract (ins : list (list ascii)) (out : list ascii) (ts : list (tensor K)) (p : order)
  : res (tensor K) :=
  match p with
  | OLeaf i => nthr ts i
  | ONode l r =>
      do x <- contract ins out ts l;
      do y <- contract ins out ts r;
      einsum_of [olabels ins out l; olabels ins out r] (olabels ins out (ONode l r)) [x; y]
  end.

(** The whole einsum: the last contraction gives the axes in the order of the equation. *)
Definition einsum_in_order (eq : string) (ts : list (tensor K)) (p : order) : res (tensor K) :=
  match parse_eq eq [] [] with
  | None => Err TFError
  | Some (ins, out) =>
      match p with
      | OLeaf _ => einsum_of ins out ts
      | ONode l r =>
          do x <- contract ins out ts l;
          do y <- contract ins out ts r;
          einsum_of [olabels ins out l; olabels ins out r] out [x; y]
      end
  end.
End Contract.

(** Sizes of the labels of an equation, from the shapes of the operands. *)
Fixpoint bind_shapes (ins : list (list ascii)) (shs : list (list nat)) (env : list (ascii * nat))
  : res (list (ascii * nat)) :=
  match ins, shs with
  | [], [] => Ok env
  | ls :: ins', sh :: shs' => do env' <- bind_labels ls sh env; bind_shapes ins' shs' env'
  | _, _ => Err TFError
  end.

Definition is_order (n : nat) (p : order) : Prop := Permutation (leaves p) (seq 0 n).

(** The number of multiplications of the einsum [eq] on operands of these shapes, done in the order [p]. *)
Definition order_cost (eq : string) (shs : list (list nat)) (p : order) : nat :=
  match parse_eq eq [] [] with
  | Some (ins, out) =>
      match bind_shapes ins shs [] with
      | Ok env => omults ins out (lookup0 env) p
      | Err _ => 0
      end
  | None => 0
  end.

(** *** The cost of a call
    [ec]: number of multiplications of an einsum.  [c]: the constant of the QR decomposition, which takes
    c m n min(m, n) operations for an m x n matrix (Householder: c = 4 with Q formed). *)
Section Total.
Variable ec : string -> list (list nat) -> nat.
Variable c : nat.

Definition call_cost (k : call) : nat :=
  match k with
  | KEinsum eq shs => ec eq shs
  | KMatmul a b => prodn (removelast a) * last a 0 * last b 0
  | KQr a => let m := last (removelast a) 0 in let n := last a 0 in
             c * (prodn (removelast (removelast a)) * m * n * Nat.min m n)
  | KEwise r => prodn r
  end.
Definition total (l : list call) : nat := list_sum (map call_cost l).
End Total.

(** tf.einsum uses some order. *)
Definition some_order (ec : string -> list (list nat) -> nat) : Prop :=
  forall eq shs, shs <> [] -> exists p, is_order (length shs) p /\ ec eq shs = order_cost eq shs p.

(** tf.einsum uses an order with the fewest multiplications. *)
Definition best_order (ec : string -> list (list nat) -> nat) : Prop :=
  forall eq shs, shs <> [] ->
    (exists p, is_order (length shs) p /\ ec eq shs = order_cost eq shs p) /\
    (forall p, is_order (length shs) p -> ec eq shs <= order_cost eq shs p).

(** *** Greedy orders
    The order chosen one contraction at a time: among the pairs of tensors that share an axis that is summed over, contract the
    one whose result is smallest compared with the two tensors it replaces, size(result) - size(first) -
    size(second).  (This is the default of tf.einsum in TensorFlow 2 as we understand it; it is not part of
    the repository.)  State: the tensors still to be contracted, as orders. *)
Section Greedy.
Variables (ins : list (list ascii)) (out : list ascii) (dim : ascii -> nat).

Definition osize (p : order) : nat := prodn (map dim (olabels ins out p)).

(** [p; q] is contracted before [p'; q'] when it removes more memory. *)
Definition removes_more (p q p' q' : order) : Prop :=
  osize (ONode p q) + osize p' + osize q' <= osize (ONode p' q') + osize p + osize q.

Definition share_axis (p q : order) : Prop :=
  exists l, ~ In l out /\ In l (olabels ins out p) /\ In l (olabels ins out q).

Inductive greedy : list order -> order -> Prop :=
| greedy_one p : greedy [p] p
| greedy_step ps p q rest r :
    Permutation ps (p :: q :: rest) ->
    share_axis p q ->
    (forall p' q' rest', Permutation ps (p' :: q' :: rest') -> share_axis p' q' ->
       removes_more p q p' q') ->
    greedy (ONode p q :: rest) r -> greedy ps r.
End Greedy.

(** tf.einsum uses a greedy order whenever there is one. *)
Definition greedy_order (ec : string -> list (list nat) -> nat) : Prop :=
  forall eq shs ins out env, parse_eq eq [] [] = Some (ins, out) -> bind_shapes ins shs [] = Ok env ->
    (exists p, greedy ins out (lookup0 env) (map OLeaf (seq 0 (length shs))) p) ->
    exists p, greedy ins out (lookup0 env) (map OLeaf (seq 0 (length shs))) p /\
              ec eq shs = order_cost eq shs p.

(** *** The quantities of the docstrings: the largest TT-rank, the largest size of the axes of a core (for
    a TT-matrix the product of its row and column size), the largest row and column size, the batch size. *)
Section Sizes.
Context {K : cring}.
Definition rmax (t : tt K) : nat := list_max (rks t).
Definition nmax (t : tt K) : nat := list_max (map (fun i => prodn (modes t i)) (seq 0 (ndims t))).
Definition rowmax (t : tt K) : nat := list_max (nth 0 (rshape t) []).
Definition colmax (t : tt K) : nat := list_max (nth 1 (rshape t) []).
Definition bnum (t : tt K) : nat := match bsz t with Some b => b | None => 1 end.
End Sizes.
