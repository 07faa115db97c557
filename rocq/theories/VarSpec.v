(** Specification of the variable store: what a call leaves alone, names of variables. *)
From Coq Require Import String Ascii List Arith Bool.
From Verif Require Import Scalar Tensor Base Vars.
Import ListNotations.
Local Open Scope nat_scope.
Local Open Scope string_scope.
Local Open Scope list_scope.

(** The full name of a TensorTrain variable, and the name of its core number i. *)
Definition full_path (sc : scope) (name : string) : string :=
  if String.eqb (sname sc) "" then name else (sname sc ++ "/" ++ name)%string.
Definition core_path (p : string) (i : nat) : string := (p ++ "/" ++ core_label i)%string.

(** The names TensorFlow allows: a letter, a digit or a dot, then letters, digits and _ . - / . *)
Definition letters : list ascii := list_ascii_of_string "ABCDEFGHIJKLMNOPQRSTUVWXYZabcdefghijklmnopqrstuvwxyz0123456789.".
Definition legal_name (p : string) : Prop :=
  exists c r, list_ascii_of_string p = c :: r /\ In c letters /\ forall x, In x r -> In x (letters ++ ["_"; "-"; "/"]%char).

Section Spec.
Context {K : cring} {loss : Type}.
Implicit Types s : store K loss.

(** Every variable, with its value, every registered name and every registered object is still there. *)
Definition keeps s s' : Prop :=
  (forall id v, nth_error (heap s) id = Some v -> nth_error (heap s') id = Some v) /\
  (forall n id, lookup n s = Some id -> lookup n s' = Some id) /\
  (exists l, coll s' = coll s ++ l) /\ (exists l, losses s' = losses s ++ l).

(** As [keeps], but variables may have got another value of the same shape. *)
Definition keeps_but_values s s' : Prop :=
  (forall id v, nth_error (heap s) id = Some v -> exists w, nth_error (heap s') id = Some w /\ vname w = vname v /\ vdtype w = vdtype v /\ shape (vval w) = shape (vval v)) /\
  (forall n id, lookup n s = Some id -> lookup n s' = Some id) /\
  (exists l, coll s' = coll s ++ l) /\ (exists l, losses s' = losses s ++ l).

(** The graph has a variable with this name, dtype and value. *)
Definition has_variable s (n : string) (d : dtype) (x : tensor K) : Prop :=
  exists id, lookup n s = Some id /\ nth_error (heap s) id = Some (Var n d x).

(** An object whose cores are different variables of the store, of its dtype. *)
Definition is_variable s (o : vobj K) : Prop :=
  NoDup (vcores o) /\ forall c, In c (vcores o) -> exists id v, c = CVar id /\ nth_error (heap s) id = Some v /\ vdtype v = vdt o.
(** Its value as a TT object. *)
Definition value s (o : vobj K) : tt K := deref (heap s) o.
(** A TT object of tensors. *)
Definition constant (t : tt K) (d : dtype) : vobj K := VObj (map CTensor (cores t)) (rshape t) (rks t) (bsz t) d.
(** The variables an object refers to exist. *)
Definition refs_ok s (o : vobj K) : Prop := forall id, In (CVar id) (vcores o) -> id < length (heap s).
(** Core j of [val] can be written to core j of [ref]: same dtype, same shape. *)
Definition passes (ref val : vobj K) s (j : nat) : Prop := exists c id, nth_error (vcores val) j = Some c /\ nth_error (vcores ref) j = Some (CVar id) /\
  id < length (heap s) /\ nth id (map vdtype (heap s)) Float32 = vdt val /\ shape (read (heap s) c) = shape (value_of (heap s) id).
(** No variable of [ref] is read after it has been written. *)
Definition no_alias (ref val : vobj K) : Prop := forall i id, nth_error (vcores val) i = Some (CVar id) -> In (CVar id) (vcores ref) -> nth_error (vcores ref) i = Some (CVar id).
End Spec.
