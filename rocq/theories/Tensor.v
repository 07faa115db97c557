(** The part of TensorFlow / numpy that t3f is written in.

    A tensor is its (fully defined) shape and its elements in row-major order.
    Operations return [Err TFError] where TF would raise because of shapes.
    This file is the model's reading of the library, it is part of the trusted
    base; t3f itself is modelled on top of it.  No proofs here. *)
From Coq Require Import String Ascii List Arith ZArith Bool.
From Verif Require Import Scalar.
Import ListNotations.

(** ** Exceptions as values
    The exceptions of python, numpy and TensorFlow that [t3f/*.py] raise or pass on. *)
Inductive err :=
| ValueError | TypeError | IndexError | NotImplementedError | AttributeError
| TFError   (* tf.errors.InvalidArgumentError and friends, raised inside TF ops *).

(** A value or an exception. *)
Inductive res (A : Type) := Ok (a : A) | Err (e : err).
Arguments Ok {A} _. Arguments Err {A} _.

(** Python sequencing: the first exception ends the function. *)
Definition bind {A B} (m : res A) (k : A -> res B) : res B :=
  match m with Ok a => k a | Err e => Err e end.
Notation "'do' x <- m ; k" := (bind m (fun x => k))
  (at level 200, x pattern, m at level 100, k at level 200).
(** [if b: raise e]. *)
Definition raise_if {A} (b : bool) (e : err) (k : res A) : res A := if b then Err e else k.

(** Python list comprehension / [append] loop, stopping at the first exception. *)
Fixpoint mapM {A B} (f : A -> res B) (l : list A) : res (list B) :=
  match l with
  | [] => Ok []
  | x :: l' => do y <- f x; do ys <- mapM f l'; Ok (y :: ys)
  end.

(** Python [for i in l: s = body(i, s)]. *)
Fixpoint foldM {A S} (f : A -> S -> res S) (l : list A) (s : S) : res S :=
  match l with
  | [] => Ok s
  | x :: l' => do s' <- f x s; foldM f l' s'
  end.

(** ** Shapes and multi-indices *)
Definition prodn (sh : list nat) : nat := fold_right Nat.mul 1 sh.

(** Row-major position of a multi-index. *)
Fixpoint ravel (sh idx : list nat) : nat :=
  match sh, idx with
  | n :: sh', i :: idx' => i * prodn sh' + ravel sh' idx'
  | _, _ => 0
  end.

(** The multi-index at a row-major position. *)
Fixpoint unravel (sh : list nat) (k : nat) : list nat :=
  match sh with
  | [] => []
  | n :: sh' => k / prodn sh' :: unravel sh' (k mod prodn sh')
  end.

(** [l[i] = x] on a python list in range, e.g. [decompositions.py:476]. *)
Fixpoint upd {A} (k : nat) (v : A) (l : list A) : list A :=
  match l, k with
  | [], _ => []
  | _ :: l', O => v :: l'
  | x :: l', S k' => x :: upd k' v l'
  end.

(** Position of the first occurrence. *)
Fixpoint index_of (j : nat) (l : list nat) : nat :=
  match l with
  | [] => 0
  | x :: l' => if Nat.eqb x j then 0 else S (index_of j l')
  end.

(** [zip] and a comprehension. *)
Fixpoint map2 {A B C} (f : A -> B -> C) (l : list A) (m : list B) : list C :=
  match l, m with
  | x :: l', y :: m' => f x y :: map2 f l' m'
  | _, _ => []
  end.

(** Equality of shapes. *)
Fixpoint list_eqb (l m : list nat) : bool :=
  match l, m with
  | [], [] => true
  | x :: l', y :: m' => Nat.eqb x y && list_eqb l' m'
  | _, _ => false
  end.

(** Equality of tuples of shapes. *)
Fixpoint llist_eqb (l m : list (list nat)) : bool :=
  match l, m with
  | [], [] => true
  | x :: l', y :: m' => list_eqb x y && llist_eqb l' m'
  | _, _ => false
  end.

Section Tensor.
Variable K : cring.

(** A tensor: its shape and its elements in row-major order. *)
Record tensor := Tensor { shape : list nat; data : list K }.

(** The number of axes. *)
Definition rank (t : tensor) : nat := length (shape t).
(** The number of elements. *)
Definition size (t : tensor) : nat := prodn (shape t).

(** Element access and construction from an element function. *)
Definition get (t : tensor) (idx : list nat) : K := nth (ravel (shape t) idx) (data t) c0.
(** The tensor of the given shape with the given elements. *)
Definition mk (sh : list nat) (f : list nat -> K) : tensor :=
  Tensor sh (map (fun k => f (unravel sh k)) (seq 0 (prodn sh))).

(** [tf.zeros], e.g. [initializers.py:118]. *)
Definition zeros (sh : list nat) : tensor := mk sh (fun _ => c0).
(** [tf.ones], e.g. [initializers.py:93]. *)
Definition ones (sh : list nat) : tensor := mk sh (fun _ => c1).
(** Elementwise maps. *)
Definition tmap (f : K -> K) (t : tensor) : tensor := Tensor (shape t) (map f (data t)).

(** [tf.reshape], e.g. [ops.py:33-66]; [None] is -1.  TF refuses to infer a dimension when the other
    ones multiply to zero, and more than one -1. *)
Definition reshape (t : tensor) (spec : list (option nat)) : res tensor :=
  let known := prodn (map (fun d => match d with Some n => n | None => 1 end) spec) in
  let holes := length (filter (fun d => match d with None => true | _ => false end) spec) in
  match holes with
  | O => if Nat.eqb known (size t) then
           Ok (Tensor (map (fun d => match d with Some n => n | None => 0 end) spec) (data t))
         else Err TFError
  | S O => if Nat.eqb known 0 then Err TFError
           else if Nat.eqb (size t mod known) 0 then
             Ok (Tensor (map (fun d => match d with Some n => n | None => size t / known end) spec)
                        (data t))
           else Err TFError
  | _ => Err TFError
  end.

(** [tf.transpose(t, perm)], e.g. [ops.py:1000-1036]: perm is a permutation of the axes. *)
Definition perm_ok (perm : list nat) (n : nat) : bool :=
  Nat.eqb (length perm) n && forallb (fun j => existsb (Nat.eqb j) perm) (seq 0 n).
(** [tf.transpose(t, perm)]. *)
Definition transpose (t : tensor) (perm : list nat) : res tensor :=
  if perm_ok perm (rank t) then
    Ok (mk (map (fun p => nth p (shape t) O) perm)
           (fun idx => get t (map (fun j => nth (index_of j perm) idx O) (seq 0 (rank t)))))
  else Err TFError.
(** [tf.transpose(t)] reverses the axes, e.g. [autodiff.py:31]. *)
Definition transpose_rev (t : tensor) : res tensor := transpose t (rev (seq 0 (rank t))).

(** [tf.concat(ts, axis)], e.g. [ops.py:599]: the element at position [i] of the axis. *)
Fixpoint concat_get (ts : list tensor) (ax : nat) (idx : list nat) (i : nat) : K :=
  match ts with
  | [] => c0
  | t :: ts' => let n := nth ax (shape t) O in
                if Nat.ltb i n then get t (upd ax i idx) else concat_get ts' ax idx (i - n)
  end.
(** [tf.concat(ts, axis)]. *)
Definition concat (ts : list tensor) (ax : nat) : res tensor :=
  match ts with
  | [] => Err ValueError
  | t0 :: _ =>
      if Nat.ltb ax (rank t0)
         && forallb (fun t => list_eqb (upd ax 0%nat (shape t)) (upd ax 0%nat (shape t0))) ts
      then Ok (mk (upd ax (fold_right Nat.add 0%nat (map (fun t => nth ax (shape t) O) ts)) (shape t0))
                  (fun idx => concat_get ts ax idx (nth ax idx O)))
      else Err TFError
  end.

(** [tf.tile], e.g. [ops.py:594]. *)
Definition tile (t : tensor) (mult : list nat) : res tensor :=
  if Nat.eqb (length mult) (rank t) then
    Ok (mk (map2 Nat.mul (shape t) mult) (fun idx => get t (map2 Nat.modulo idx (shape t))))
  else Err TFError.

(** numpy-style broadcasting of two shapes (right aligned). *)
Fixpoint bcast_rev (a b : list nat) : option (list nat) :=
  match a, b with
  | [], _ => Some b
  | _, [] => Some a
  | n :: a', m :: b' =>
      match bcast_rev a' b' with
      | None => None
      | Some s => if Nat.eqb n m then Some (n :: s)
                  else if Nat.eqb n 1 then Some (m :: s)
                  else if Nat.eqb m 1 then Some (n :: s) else None
      end
  end.
(** Broadcasting of two shapes. *)
Definition bcast (a b : list nat) : option (list nat) :=
  match bcast_rev (rev a) (rev b) with Some s => Some (rev s) | None => None end.
(** Index of the operand of shape [sh] that a result index [idx] reads. *)
Definition bidx (sh idx : list nat) : list nat :=
  map2 (fun i n => if Nat.eqb n 1 then 0%nat else i) (skipn (length idx - length sh) idx) sh.
(** Elementwise binary operation with broadcasting ([a + b], [a * b] ...). *)
Definition ewise (f : K -> K -> K) (a b : tensor) : res tensor :=
  match bcast (shape a) (shape b) with
  | None => Err TFError
  | Some s => Ok (mk s (fun idx => f (get a (bidx (shape a) idx)) (get b (bidx (shape b) idx))))
  end.

(** [tf.matmul], e.g. [decompositions.py:306], with broadcasting batch dimensions. *)
Definition matmul (a b : tensor) : res tensor :=
  let ba := firstn (rank a - 2) (shape a) in
  let bb := firstn (rank b - 2) (shape b) in
  match skipn (rank a - 2) (shape a), skipn (rank b - 2) (shape b) with
  | [m; k], [k'; n] =>
      if Nat.eqb k k' then
        match bcast ba bb with
        | None => Err TFError
        | Some s =>
            Ok (mk (s ++ [m; n])
              (fun idx => let bi := firstn (length s) idx in
                 let i := nth (length s) idx O in
                 let j := nth (S (length s)) idx O in
                 sumn k (fun l => (get a (bidx ba bi ++ [i; l]) * get b (bidx bb bi ++ [l; j]))%K)))
        end
      else Err TFError
  | _, _ => Err TFError
  end.

(** [tf.expand_dims], e.g. [shapes.py:306]. *)
Definition expand_dims (t : tensor) (ax : nat) : tensor :=
  Tensor (firstn ax (shape t) ++ [1%nat] ++ skipn ax (shape t)) (data t).
(** [tf.squeeze(t)], all axes of size one, e.g. [ops.py:400]. *)
Definition squeeze (t : tensor) : tensor :=
  Tensor (filter (fun n => negb (Nat.eqb n 1)) (shape t)) (data t).
Fixpoint del (k : nat) (l : list nat) : list nat :=
  match l, k with
  | [], _ => []
  | _ :: l', O => l'
  | x :: l', S k' => x :: del k' l'
  end.
(** [tf.squeeze(t, axis)], e.g. [ops.py:962]. *)
Definition squeeze_axis (t : tensor) (ax : nat) : res tensor :=
  match nth_error (shape t) ax with
  | Some 1%nat => Ok (Tensor (del ax (shape t)) (data t))
  | _ => Err TFError
  end.

(** ** [tf.einsum]

    The equation string is interpreted literally: output element = sum over all
    labels that do not occur in the output of the product of the operands'
    elements.  A label bound to two different sizes is an error (TF does not
    broadcast named labels). *)
Fixpoint parse_eq (s : string) (cur : list ascii) (acc : list (list ascii))
  : option (list (list ascii) * list ascii) :=
  match s with
  | EmptyString => None
  | String c s' =>
      if Ascii.eqb c "," then parse_eq s' [] (acc ++ [cur])
      else if Ascii.eqb c "-" then
        match s' with
        | String c' s'' => if Ascii.eqb c' ">" then Some (acc ++ [cur], list_ascii_of_string s'')
                           else None
        | EmptyString => None
        end
      else parse_eq s' (cur ++ [c]) acc
  end.

Fixpoint lookup (l : ascii) (env : list (ascii * nat)) : option nat :=
  match env with
  | [] => None
  | (l', n) :: env' => if Ascii.eqb l l' then Some n else lookup l env'
  end.
Definition lookup0 (env : list (ascii * nat)) (l : ascii) : nat :=
  match lookup l env with Some n => n | None => 0%nat end.

Fixpoint bind_labels (ls : list ascii) (sh : list nat) (env : list (ascii * nat))
  : res (list (ascii * nat)) :=
  match ls, sh with
  | [], [] => Ok env
  | l :: ls', n :: sh' =>
      match lookup l env with
      | None => bind_labels ls' sh' (env ++ [(l, n)])
      | Some m => if Nat.eqb m n then bind_labels ls' sh' env else Err TFError
      end
  | _, _ => Err TFError
  end.
Fixpoint bind_all (ins : list (list ascii)) (ts : list tensor) (env : list (ascii * nat))
  : res (list (ascii * nat)) :=
  match ins, ts with
  | [], [] => Ok env
  | ls :: ins', t :: ts' =>
      do env' <- bind_labels ls (shape t) env; bind_all ins' ts' env'
  | _, _ => Err TFError
  end.

Fixpoint esum (dims asg : list (ascii * nat)) (body : list (ascii * nat) -> K) : K :=
  match dims with
  | [] => body asg
  | (l, n) :: ds => sumn n (fun i => esum ds ((l, i) :: asg) body)
  end.
Fixpoint eprod (asg : list (ascii * nat)) (ins : list (list ascii)) (ts : list tensor) : K :=
  match ins, ts with
  | [ls], [t] => get t (map (lookup0 asg) ls)
  | ls :: ins', t :: ts' => (get t (map (lookup0 asg) ls) * eprod asg ins' ts')%K
  | _, _ => c1
  end.

Definition einsum (eq : string) (ts : list tensor) : res tensor :=
  match parse_eq eq [] [] with
  | None => Err TFError
  | Some (ins, out) =>
      do env <- bind_all ins ts [];
      if forallb (fun l => match lookup l env with Some _ => true | None => false end) out then
        let summed := filter (fun p => negb (existsb (Ascii.eqb (fst p)) out)) env in
        Ok (mk (map (lookup0 env) out)
               (fun oidx => esum summed (combine out oidx) (fun asg => eprod asg ins ts)))
      else Err TFError
  end.

(** ** Indexing with python ints and slices ([tf.strided_slice]) *)
Inductive pyindex :=
| IInt (z : Z)
| ISlice (start stop step : option Z).

(** python's slice.indices: positions selected by [start:stop:step] on an axis of size n. *)
Definition clampZ (lo hi z : Z) : Z := Z.max lo (Z.min hi z).
Definition slice_positions (n : nat) (start stop step : option Z) : option (list nat) :=
  let nz := Z.of_nat n in
  let st := match step with Some s => s | None => 1%Z end in
  if Z.eqb st 0 then None
  else
    let norm z := if Z.ltb z 0 then (z + nz)%Z else z in
    if Z.ltb 0 st then
      let a := match start with Some z => clampZ 0 nz (norm z) | None => 0%Z end in
      let b := match stop with Some z => clampZ 0 nz (norm z) | None => nz end in
      let cnt := Z.to_nat (Z.max 0 ((b - a + st - 1) / st)%Z) in
      Some (map (fun k => Z.to_nat (a + Z.of_nat k * st)) (seq 0 cnt))
    else
      let a := match start with Some z => clampZ (-1) (nz - 1) (norm z) | None => (nz - 1)%Z end in
      let b := match stop with Some z => clampZ (-1) (nz - 1) (norm z) | None => (-1)%Z end in
      let cnt := Z.to_nat (Z.max 0 ((b - a + st + 1) / st)%Z) in
      Some (map (fun k => Z.to_nat (a + Z.of_nat k * st)) (seq 0 cnt)).

(** Resolve one index against one axis: the positions read, and whether the axis is kept. *)
Definition resolve1 (i : pyindex) (n : nat) : res (list nat * bool) :=
  match i with
  | IInt z => let z' := if Z.ltb z 0 then (z + Z.of_nat n)%Z else z in
              if (Z.leb 0 z' && Z.ltb z' (Z.of_nat n))%bool then Ok ([Z.to_nat z'], false)
              else Err TFError
  | ISlice a b s => match slice_positions n a b s with
                    | Some l => Ok (l, true)
                    | None => Err ValueError
                    end
  end.
Fixpoint resolve (spec : list pyindex) (sh : list nat) : res (list (list nat * bool)) :=
  match spec, sh with
  | [], [] => Ok []
  | i :: spec', n :: sh' => do p <- resolve1 i n; do ps <- resolve spec' sh'; Ok (p :: ps)
  | _, _ => Err TFError
  end.
Fixpoint sel_shape (ps : list (list nat * bool)) : list nat :=
  match ps with
  | [] => []
  | (l, true) :: ps' => length l :: sel_shape ps'
  | (_, false) :: ps' => sel_shape ps'
  end.
Fixpoint sel_idx (ps : list (list nat * bool)) (idx : list nat) : list nat :=
  match ps with
  | [] => []
  | (l, true) :: ps' => match idx with
                        | i :: idx' => nth i l 0%nat :: sel_idx ps' idx'
                        | [] => []
                        end
  | (l, false) :: ps' => nth 0 l 0%nat :: sel_idx ps' idx
  end.
(** [t[spec]] with one entry per axis. *)
Definition getitem (t : tensor) (spec : list pyindex) : res tensor :=
  do ps <- resolve spec (shape t);
  Ok (mk (sel_shape ps) (fun idx => get t (sel_idx ps idx))).

End Tensor.

Arguments Tensor {K} _ _. Arguments shape {K} _. Arguments data {K} _.
Arguments rank {K} _. Arguments size {K} _. Arguments get {K} _ _. Arguments mk {K} _ _.
Arguments zeros {K} _. Arguments ones {K} _. Arguments tmap {K} _ _.
Arguments reshape {K} _ _. Arguments transpose {K} _ _. Arguments transpose_rev {K} _.
Arguments concat {K} _ _. Arguments concat_get {K} _ _ _ _. Arguments tile {K} _ _.
Arguments ewise {K} _ _ _. Arguments matmul {K} _ _. Arguments expand_dims {K} _ _.
Arguments squeeze {K} _. Arguments squeeze_axis {K} _ _. Arguments einsum {K} _ _.
Arguments getitem {K} _ _. Arguments esum {K} _ _ _. Arguments eprod {K} _ _ _.
Arguments bind_all {K} _ _ _.

Definition full_slice : pyindex := ISlice None None None.
