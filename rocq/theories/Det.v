(** The determinant, by expansion along the first row. *)
From Coq Require Import Arith Reals.
From Verif Require Import Scalar.
Local Open Scope R_scope.

(** Column [c] of a matrix without column [j]. *)
Definition skip (j c : nat) : nat := if Nat.ltb c j then c else S c.
(** [det n A]: the determinant of the matrix [A i j], [i, j < n]. *)
Fixpoint det (n : nat) (A : nat -> nat -> R) : R :=
  match n with
  | O => 1
  | S m => @sumn Rring n (fun j => (-1) ^ j * A 0%nat j * det m (fun r c => A (S r) (skip j c)))
  end.
