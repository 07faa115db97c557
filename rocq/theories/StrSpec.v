(** What the text of an object has to say, independent of the printing functions. *)
From Coq Require Import String Ascii List Arith Bool.
Import ListNotations.
Local Open Scope string_scope.
Local Open Scope list_scope.

(** The value of a decimal digit and of a text of digits. *)
Definition digit (c : ascii) : option nat :=
  let n := nat_of_ascii c in if Nat.leb 48 n && Nat.leb n 57 then Some (n - 48) else None.
Fixpoint digits (acc : nat) (s : string) : option nat :=
  match s with
  | EmptyString => Some acc
  | String c r => match digit c with Some d => digits (10 * acc + d) r | None => None end
  end.
(** [s] is a decimal numeral for [n]. *)
Definition numeral (n : nat) (s : string) : Prop := s <> "" /\ digits 0 s = Some n.
(** A dimension: a numeral, or the word None. *)
Definition dim_text (d : option nat) (s : string) : Prop :=
  match d with Some n => numeral n s | None => s = "None" end.
(** The entries of a shape, separated by a comma and a space. *)
Inductive entries : list (option nat) -> string -> Prop :=
| en_one d s : dim_text d s -> entries [d] s
| en_cons d s l r : dim_text d s -> entries l r -> entries (d :: l) (s ++ ", " ++ r)%string.
(** A shape in parentheses; with one entry there is a comma at the end. *)
Inductive shape_text : list (option nat) -> string -> Prop :=
| st_none : shape_text [] "()"
| st_one d s : dim_text d s -> shape_text [d] ("(" ++ s ++ ",)")%string
| st_more d l s : l <> [] -> entries (d :: l) s -> shape_text (d :: l) ("(" ++ s ++ ")")%string.
