(** Specifications of operations on TT objects in terms of the dense tensors that [full]
    returns, and how to prove them from element formulas. *)
From Coq Require Import String List Arith ZArith Lia Bool Ring.
From Verif Require Import Scalar Tensor TensorLemmas TensorLemmas2 Base Spec Chain BaseLemmas Ops
  FullProofs ResultLemmas.
Import ListNotations.

(** Position read from an operand for element [o] of the resulting batch and position [i]
    inside that element: a TensorTrain has no batch coordinate, a batch of one element is
    broadcast, any other batch is read at [o]. *)
Definition opidx (bs : option nat) (o : nat) (i : list nat) : list nat :=
  match bs with None => i | Some 1 => 0 :: i | Some _ => o :: i end.

(** [full c] is obtained from [full a] and [full b] by applying [F] to corresponding elements. *)
Definition elementwise2 {K : cring} (F : K -> K -> K) (a b c : tt K) : Prop :=
  exists da db dc, full a = Ok da /\ full b = Ok db /\ full c = Ok dc /\ shape dc = get_shape c /\
    match bsz c with
    | None => forall i, vidx (shape dc) i -> get dc i = F (get da i) (get db i)
    | Some B => forall o i, vidx (shape dc) (o :: i) ->
        get dc (o :: i) = F (get da (opidx (bsz a) o i)) (get db (opidx (bsz b) o i))
    end.

(** [full c] is obtained from [full a] by applying [F] to every element. *)
Definition elementwise1 {K L : cring} (F : K -> L) (a : tt K) (c : tt L) : Prop :=
  exists da dc, full a = Ok da /\ full c = Ok dc /\ shape da = shape dc /\
    forall i, vidx (shape dc) i -> get dc i = F (get da i).

(** [a] and [b] represent the same dense tensor. *)
Definition same_full {K : cring} (a b : tt K) : Prop :=
  exists da db, full a = Ok da /\ full b = Ok db /\ shape da = shape db /\
    forall i, vidx (shape da) i -> get da i = get db i.

(** Batch sizes that can be combined, and the size of the result (None: a TensorTrain). *)
Definition bc_ok (x y : option nat) : Prop :=
  match x, y with Some x, Some y => x = y \/ x = 1 \/ y = 1 | _, _ => True end.
Definition bc_size (x y : option nat) : option nat :=
  match x, y with Some x, Some y => Some (Nat.max x y) | Some x, None => Some x | None, y => y end.

(** [r] is the matrix product of the dense matrices [x] and [y]. *)
Definition dense_product {K : cring} (x y r : tensor K) : Prop :=
  exists M N P, shape x = [M; N] /\ shape y = [N; P] /\ shape r = [M; P] /\
    forall i k, i < M -> k < P -> get r [i; k] = sumn N (fun j => get x [i; j] * get y [j; k])%K.

Section WithK.
Variable K : cring.
Implicit Types a b c : tt K.

Lemma bc_ok_possible a b : bc_ok (bsz a) (bsz b) <-> is_batch_broadcasting_possible a b = true.
Proof.
  unfold bc_ok, is_batch_broadcasting_possible. destruct (bsz a), (bsz b); try tauto.
  rewrite !orb_true_iff, !Nat.eqb_eq. tauto.
Qed.

Lemma opidx_bsel a o i : opidx (bsz a) o i = bsel a o ++ i.
Proof. unfold opidx, bsel. destruct (bsz a) as [[|[|x]]|]; reflexivity. Qed.

Lemma elementwise2_intro (F : K -> K -> K) a b c :
  wf a -> wf b -> wf c -> rshape c = rshape a -> rshape c = rshape b ->
  (match bsz c with None => bsz a = None /\ bsz b = None | Some B => compat a B /\ compat b B end) ->
  (forall o J, vchain (modes c) 0 J -> length J = ndims c ->
     (match bsz c with Some B => o < B | None => True end) ->
     tt_entry c (match bsz c with Some _ => [o] | None => [] end) J =
     F (tt_entry a (bsel a o) J) (tt_entry b (bsel b o) J)) ->
  elementwise2 F a b c.
Proof.
  intros Ha Hb Hc Ra Rb Hbs H.
  pose proof (lift_entries K c a b F Ha Hb Hc Ra Rb Hbs H) as HL.
  destruct (full_correct K a Ha) as (da & Fa & Wa & Sa & Ea).
  destruct (full_correct K b Hb) as (db & Fb & Wb & Sb & Eb).
  destruct (full_correct K c Hc) as (dc & Fc & Wc & Sc & Ec).
  exists da, db, dc. repeat (split; [assumption|]).
  assert (Hsub : forall t : tt K, rshape c = rshape t -> wf t -> ishape t = ishape c).
  { intros t E _. unfold ishape, is_tt_matrix. now rewrite E. }
  destruct (bsz c) as [B|] eqn:EB.
  - intros o i Hi. rewrite Sc in Hi. rewrite Ec by auto. rewrite HL by auto.
    unfold bdense. rewrite EB. cbn [nth tl]. rewrite <- !opidx_bsel.
    assert (Hoi : o < B /\ vidx (ishape c) i).
    { rewrite get_shape_ishape in Hi. unfold bpre in Hi. rewrite EB in Hi. inversion Hi; subst. auto. }
    assert (Hv : forall t : tt K, wf t -> rshape c = rshape t -> compat t B -> vidx (get_shape t) (opidx (bsz t) o i)).
    { intros t Ht Et Ct. rewrite get_shape_ishape, (Hsub t Et Ht), opidx_bsel.
      apply vidx_app; [|apply Hoi]. eapply bsel_valid; eauto. apply Hoi. }
    now rewrite <- Ea, <- Eb by (apply Hv; auto; apply Hbs).
  - intros i Hi. rewrite Sc in Hi. rewrite Ec by auto. rewrite HL by auto. unfold bdense. rewrite EB.
    rewrite <- Ea, <- Eb; auto.
    + rewrite get_shape_ishape in *. unfold bpre in *. rewrite EB in Hi. rewrite (proj2 Hbs). rewrite (Hsub b); auto.
    + rewrite get_shape_ishape in *. unfold bpre in *. rewrite EB in Hi. rewrite (proj1 Hbs). rewrite (Hsub a); auto.
Qed.

End WithK.

Section Unary.
Variables K L : cring.

Lemma elementwise1_intro (F : K -> L) (a : tt K) (c : tt L) :
  wf a -> wf c -> rshape c = rshape a -> bsz c = bsz a ->
  (forall pre J, vidx (bpre a) pre -> vchain (modes a) 0 J -> length J = ndims a ->
     tt_entry c pre J = F (tt_entry a pre J)) ->
  elementwise1 F a c.
Proof.
  intros Ha Hc R B H.
  destruct (full_correct K a Ha) as (da & Fa & Wa & Sa & Ea).
  destruct (full_correct L c Hc) as (dc & Fc & Wc & Sc & Ec).
  assert (Hsh : get_shape c = get_shape a).
  { unfold get_shape, is_tt_matrix. now rewrite R, B. }
  exists da, dc. repeat (split; [assumption|]). split; [congruence|].
  intros idx Hidx. rewrite Sc in Hidx. rewrite Ec, Ea by (rewrite <- ?Hsh; auto).
  rewrite Hsh, get_shape_ishape in Hidx. apply vidx_app_inv in Hidx as (pre & I & -> & Hpre & HI).
  destruct (split_idx_valid _ a I Ha HI) as [V1 V2].
  rewrite !tt_at_entry; auto.
  2:{ unfold bpre in *. now rewrite B. }
  assert (Es : split_idx c I = split_idx a I) by (unfold split_idx, is_tt_matrix; now rewrite R).
  rewrite Es. now apply H.
Qed.

End Unary.

(** *** Checking well-formedness by computation, for examples *)
Definition wfb {K : cring} (t : tt K) : bool :=
  Nat.ltb 0 (ndims t) &&
  (Nat.eqb (length (rshape t)) 1 || Nat.eqb (length (rshape t)) 2) &&
  forallb (fun s => Nat.eqb (length s) (ndims t)) (rshape t) &&
  Nat.eqb (length (rks t)) (S (ndims t)) && Nat.eqb (rk t 0) 1 && Nat.eqb (rk t (ndims t)) 1 &&
  forallb (forallb (Nat.ltb 0)) (rshape t) && forallb (Nat.ltb 0) (rks t) && forallb (Nat.ltb 0) (bpre t) &&
  forallb (fun k => list_eqb (shape (core t k)) (bpre t ++ rk t k :: modes t k ++ [rk t (S k)]) &&
                    Nat.eqb (length (data (core t k))) (prodn (shape (core t k)))) (seq 0 (ndims t)).

Lemma wfb_wf {K : cring} (t : tt K) : wfb t = true -> wf t.
Proof.
  unfold wfb. rewrite !andb_true_iff. intros [[[[[[[[[H1 H2] H3] H4] H5] H6] H7] H8] H9] H10].
  rewrite Nat.ltb_lt in H1. rewrite orb_true_iff, !Nat.eqb_eq in H2. rewrite forallb_forall in H3, H7, H8, H9, H10.
  rewrite Nat.eqb_eq in H4, H5, H6.
  constructor; auto.
  - apply Forall_forall. intros s Hs. now apply Nat.eqb_eq, H3.
  - apply Forall_forall. intros s Hs. apply Forall_forall. intros n Hn.
    specialize (H7 s Hs). rewrite forallb_forall in H7. now apply Nat.ltb_lt, H7.
  - apply Forall_forall. intros s Hs. now apply Nat.ltb_lt, H8.
  - apply Forall_forall. intros s Hs. now apply Nat.ltb_lt, H9.
  - intros k Hk. specialize (H10 k). rewrite in_seq, andb_true_iff in H10.
    destruct H10 as [A B]; [lia|]. split; [apply Nat.eqb_eq in B; exact B|now apply list_eqb_eq].
Qed.
