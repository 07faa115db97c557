(** Specification of static and dynamic shapes (Static.v). *)
From Coq Require Import List Arith.
From Verif Require Import Scalar Tensor Base Static.
Import ListNotations.

(** The run time value [n] is possible for the static dimension [d]. *)
Definition allows (d : dim) (n : nat) : Prop := forall m, d = Some m -> m = n.
Definition shape_allows (s : option (list dim)) (l : list nat) : Prop :=
  forall ds, s = Some ds -> Forall2 allows ds l.

(** Run time shape of core [i] of a TT object with batch size [b], raw shape [rsh] and ranks
    [rks]. *)
Definition run_core (b : option nat) (rsh : list (list nat)) (rks : list nat) (i : nat) : list nat :=
  (match b with Some n => [n] | None => [] end) ++
  [nth i rks 0] ++ map (fun s => nth i s 0) rsh ++ [nth (S i) rks 0].

(** The run time shapes [rt] are those of a TT-tensor or TT-matrix (or a batch of them). *)
Record runs (rt : list (list nat)) (b : option nat) (rsh : list (list nat)) (rks : list nat) : Prop := Runs {
  runs_d : 0 < length rt;
  runs_ax : length rsh = 1 \/ length rsh = 2;
  runs_sh : forall s, In s rsh -> length s = length rt;
  runs_rks : length rks = S (length rt);
  runs_core : forall i, i < length rt -> nth i rt [] = run_core b rsh rks i }.

(** Shape of the dense object. *)
Definition run_shape (b : option nat) (rsh : list (list nat)) : list nat :=
  (match b with Some n => [n] | None => [] end) ++
  (match rsh with [m; n] => [prodn m; prodn n] | _ => nth 0 rsh [] end).

(** What the object stores is what runs, as far as it stores anything. *)
Record truthful (o : sobj) (b : option nat) (rsh : list (list nat)) (rks : list nat) : Prop := Truthful {
  tr_raw : Forall2 (Forall2 allows) (srshape o) rsh;
  tr_rks : Forall2 allows (srks o) rks;
  tr_bsz : match sbsz o, b with None, None => True | Some d, Some n => allows d n | _, _ => False end }.

(** The arguments of the constructor say nothing wrong. *)
Definition true_hints (sh : sarg) (ranks : option (list dim)) (bs : option nat)
    (b : option nat) (rsh : list (list nat)) (rks : list nat) : Prop :=
  (forall ss, s_clean_raw_shape sh = Ok (Some ss) -> Forall2 (Forall2 allows) ss rsh) /\
  (forall rs, ranks = Some rs -> Forall2 allows rs rks) /\
  (forall n, bs = Some n -> b = Some n).

(** The arguments have the right length. *)
Definition sized_hints (sh : sarg) (ranks : option (list dim)) (rsh : list (list nat)) (rks : list nat) : Prop :=
  (forall ss, s_clean_raw_shape sh = Ok (Some ss) -> Forall2 (fun s r => length s = length r) ss rsh) /\
  (forall rs, ranks = Some rs -> length rs = length rks).

Definition all_ranked (cs : list score) : Prop := forall c, In c cs -> sshape c <> None.

(** What is known of the cores allows the run time shapes [rt]. *)
Definition cores_allow (cs : list score) (rt : list (list nat)) : Prop :=
  Forall2 (fun c s => shape_allows (sshape c) s) cs rt.

(** No unknown mode. *)
Definition known_modes (o : sobj) : Prop := forall s, In s (srshape o) -> ~ In None s.

(** The batch sizes at run time: [None] for a single object. *)
Definition can_broadcast (x y : option nat) : Prop :=
  match x, y with Some n, Some m => n = m \/ n = 1 \/ m = 1 | _, _ => True end.

Definition bsz_allows (s : option dim) (x : option nat) : Prop :=
  match s, x with None, None => True | Some d, Some n => allows d n | _, _ => False end.

Section Known.
Variable K : cring.
Variable dt : nat.
(** What the graph knows of a core with a fully known shape, and of a whole object. *)
Definition static_core (c : tensor K) : score := SCore dt (Some (map Some (shape c))).
Definition static_tt (t : Base.tt K) : sobj :=
  SObj (map static_core (cores t)) (map (map Some) (rshape t)) (map Some (rks t)) (option_map Some (bsz t)).

End Known.
Arguments static_core {K} _ _. Arguments static_tt {K} _ _.

(** A core with an axis of size 1 in front. *)
Definition expand_core (c : score) : score := SCore (sdt c) (option_map (cons (Some 1)) (sshape c)).

(** A core without its first axis. *)
Definition squeeze_core (c : score) : score := SCore (sdt c) (option_map (@tl dim) (sshape c)).

(** The shape stored in the batch says of the modes what the cores say: neither more nor less. *)
Definition modes_of_cores (o : sobj) : Prop :=
  forall ax i l, ax < length (srshape o) -> i < length (scores o) -> sshape (nth i (scores o) snocore) = Some l ->
    nth i (nth ax (srshape o) []) None = nth (ax + 2) l None.
