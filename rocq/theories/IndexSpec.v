(** What python ints and slices select, stated without the functions of the model: the positions on an axis of size [n]. *)
From Coq Require Import List Arith ZArith Bool Sorted.
From Verif Require Import Scalar Tensor Base.
Import ListNotations.

(** Negative bounds count from the end. *)
Definition from_end (n : nat) (z : Z) : Z := if (z <? 0)%Z then (z + Z.of_nat n)%Z else z.

(** [l] is what [start:stop:step] selects.  Forward (step k > 0): the positions x of the axis with first <= x, x < stop, k dividing x - first,
    in increasing order; first is start, or 0 where start is missing or lies before the axis.
    Backward (k < 0): first >= x > stop, in decreasing order; first is the last position where start is missing or lies behind the axis. *)
Definition selects (n : nat) (start stop step : option Z) (l : list nat) : Prop :=
  let k := match step with Some s => s | None => 1%Z end in
  if (0 <? k)%Z then
    let first := match start with Some z => Z.max 0 (from_end n z) | None => 0%Z end in
    StronglySorted lt l /\
    forall x, In x l <-> (x < n)%nat /\ (first <= Z.of_nat x)%Z /\ (match stop with Some z => Z.of_nat x < from_end n z | None => True end)%Z /\
                         (k | Z.of_nat x - first)%Z
  else
    (k < 0)%Z /\
    let first := match start with Some z => Z.min (Z.of_nat n - 1) (from_end n z) | None => (Z.of_nat n - 1)%Z end in
    StronglySorted gt l /\
    forall x, In x l <-> (x < n)%nat /\ (Z.of_nat x <= first)%Z /\ (match stop with Some z => from_end n z < Z.of_nat x | None => True end)%Z /\
                         (k | Z.of_nat x - first)%Z.

(** The positions one index reads on an axis of size [n]: an int reads one. *)
Definition reads (i : pyindex) (n : nat) (l : list nat) : Prop :=
  match i with
  | IInt z => exists x, l = [x] /\ (x < n)%nat /\ (Z.of_nat x = z \/ Z.of_nat x = z + Z.of_nat n)%Z
  | ISlice a b s => selects n a b s l
  end.

(** One list of positions for every axis. *)
Inductive reads_all : list pyindex -> list nat -> list (list nat) -> Prop :=
| reads_nil : reads_all [] [] []
| reads_cons i n l spec sh ls : reads i n l -> reads_all spec sh ls -> reads_all (i :: spec) (n :: sh) (l :: ls).

(** The shape of the selection: axes read by an int disappear. *)
Fixpoint sliced_shape (spec : list pyindex) (ls : list (list nat)) : list nat :=
  match spec, ls with
  | IInt _ :: spec, _ :: ls => sliced_shape spec ls
  | ISlice _ _ _ :: spec, l :: ls => length l :: sliced_shape spec ls
  | _, _ => []
  end.
(** The element of the original behind element [I] of the selection. *)
Fixpoint source (spec : list pyindex) (ls : list (list nat)) (I : list nat) : list nat :=
  match spec, ls with
  | IInt _ :: spec, l :: ls => hd 0 l :: source spec ls I
  | ISlice _ _ _ :: spec, l :: ls => nth (hd 0 I) l 0 :: source spec ls (tl I)
  | _, _ => []
  end.
