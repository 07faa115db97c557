(** What is asked of the random number generator for the moments of random objects (C38): an
    expectation is a linear functional on a class of integrable functions of the outcome, and the
    numbers drawn are independent with mean 0 and variance 1, as far as products of distinct numbers
    with exponents 1 and 2 are concerned.  Independent standard normal numbers have this property
    for the Lebesgue expectation; [signs] below is a finite instance. *)
From Coq Require Import String List Arith ZArith Lia Lra Bool Reals.
From Verif Require Import Scalar Tensor Base Ops FullProofs OpsR Init.
Import ListNotations.
Local Open Scope R_scope.

Record expectation (W : Type) := {
  integrable : (W -> R) -> Prop;
  Ex : (W -> R) -> R;
  Ex_ext : forall f g, (forall w, f w = g w) -> integrable f -> integrable g /\ Ex g = Ex f;
  Ex_add : forall f g, integrable f -> integrable g -> integrable (fun w => f w + g w) /\ Ex (fun w => f w + g w) = Ex f + Ex g;
  Ex_scale : forall c f, integrable f -> integrable (fun w => c * f w) /\ Ex (fun w => c * f w) = c * Ex f }.
Arguments integrable {W} _ _. Arguments Ex {W} _ _.
Arguments Ex_ext {W} _ _ _ _ _. Arguments Ex_add {W} _ _ _ _ _. Arguments Ex_scale {W} _ _ _ _.

(** A number drawn: the number of the call and the position in the tensor it returns. *)
Definition draw := (nat * list nat)%type.
Definition monomial (x : nat -> list nat -> R) (l : list (draw * nat)) : R :=
  fold_right (fun pe acc => x (fst (fst pe)) (snd (fst pe)) ^ snd pe * acc) 1 l.

(** The expectation of a product of powers of different numbers is the product of their moments:
    0 for a number, 1 for its square. *)
Definition white {W} (E : expectation W) (S : draw -> Prop) (xi : W -> nat -> list nat -> R) : Prop :=
  forall l : list (draw * nat), NoDup (map fst l) ->
    Forall (fun pe => S (fst pe) /\ (snd pe = 1%nat \/ snd pe = 2%nat)) l ->
    integrable E (fun w => monomial (xi w) l) /\
    Ex E (fun w => monomial (xi w) l) = (if forallb (fun pe => Nat.eqb (snd pe) 2) l then 1 else 0).

(** The element at [i] of the dense form of an object (0 if there is none). *)
Definition element (r : res rtt) (i : list nat) : R :=
  match r with
  | Ok t => match full t with Ok d => get (K := Rring) d i | Err _ => 0 end
  | Err _ => 0
  end.

(** [E f] is [v]: [f] is integrable and its expectation is [v]. *)
Definition expects {W} (E : expectation W) (f : W -> R) (v : R) : Prop := integrable E f /\ Ex E f = v.

(** The numbers that fill the cores of an object of the given sizes. *)
Definition core_draws (bs : option nat) (rsh : list (list nat)) (rk : list nat) (p : draw) : Prop :=
  let (k, ix) := p in
  (k < length (nth 0 rsh []))%nat /\
  vidx ((match bs with Some b => [b] | None => [] end) ++ nth k rk 0%nat :: map (fun r => nth k r 0%nat) rsh ++ [nth (S k) rk 0%nat]) ix.

(** ** An instance: signs chosen with probability 1/2 for a finite list of draws. *)
Fixpoint all_signs (n : nat) : list (list R) :=
  match n with O => [[]] | S m => map (cons 1) (all_signs m) ++ map (cons (-1)) (all_signs m) end.
Definition mean_of (n : nat) (f : list R -> R) : R := fold_right Rplus 0 (map f (all_signs n)) / 2 ^ n.
Definition draw_eqb (p q : draw) : bool := Nat.eqb (fst p) (fst q) && (if list_eq_dec Nat.eq_dec (snd p) (snd q) then true else false).
Fixpoint sign_at (P : list draw) (w : list R) (p : draw) : R :=
  match P, w with
  | q :: P', s :: w' => if draw_eqb p q then s else sign_at P' w' p
  | _, _ => 0
  end.
