(** Proofs about the variable store and get_variable. *)
From Coq Require Import String Ascii List Arith Lia Bool DecimalString DecimalNat.
From Verif Require Import Scalar Tensor TensorLemmas Base Spec BaseLemmas ConstructProofs Dense Vars VarSpec.
Import ListNotations.
Local Open Scope nat_scope.
Local Open Scope string_scope.
Local Open Scope list_scope.

(** ** Strings *)
Lemma app_inj_l (a b c : string) : (a ++ b = a ++ c)%string -> b = c.
Proof. induction a as [|x a IH]; cbn; auto. intros H. injection H as H. auto. Qed.
Lemma core_label_inj i j : core_label i = core_label j -> i = j.
Proof.
  unfold core_label. intros H. apply app_inj_l in H.
  assert (E : NilEmpty.uint_of_string (NilEmpty.string_of_uint (Nat.to_uint i)) = NilEmpty.uint_of_string (NilEmpty.string_of_uint (Nat.to_uint j))) by now rewrite H.
  rewrite !NilEmpty.usu in E. injection E as E. now apply Unsigned.to_uint_inj.
Qed.
Lemma core_path_inj p i j : core_path p i = core_path p j -> i = j.
Proof. unfold core_path. intros H. apply app_inj_l in H. apply (app_inj_l "/") in H. now apply core_label_inj. Qed.
Lemma before_app p q r : before_last_slash q = Some r -> before_last_slash (p ++ q) = Some (p ++ r)%string.
Proof. induction p as [|c p IH]; intros H; cbn; auto. now rewrite IH. Qed.
Lemma sapp_assoc (a b c : string) : ((a ++ b) ++ c = a ++ (b ++ c))%string.
Proof. induction a; cbn; auto. now rewrite IHa. Qed.
Lemma sapp_nil (a : string) : (a ++ "" = a)%string.
Proof. induction a; cbn; auto. now rewrite IHa. Qed.

Lemma dtype_eqb_eq a b : dtype_eqb a b = true <-> a = b.
Proof.
  split.
  - destruct a, b; cbn; intros H; try discriminate; auto. apply Nat.eqb_eq in H. now subst.
  - intros ->. destruct b; cbn; auto. apply Nat.eqb_refl.
Qed.

Section Proofs.
Context {K : cring} {loss : Type}.
Implicit Types s : store K loss.

Lemma lookup_app n s id (h : list (var K)) l c (ls : list loss) : lookup n s = Some id -> lookup n (Store h (names s ++ l) c ls) = Some id.
Proof.
  unfold lookup. cbn [names]. induction (names s) as [|[m k] ns IH]; cbn; [discriminate|].
  destruct (String.eqb m n); auto.
Qed.
Lemma lookup_new n s k (h : list (var K)) c (ls : list loss) : lookup n s = None -> lookup n (Store h (names s ++ [(n, k)]) c ls) = Some k.
Proof.
  unfold lookup. cbn [names]. induction (names s) as [|[m j] ns IH]; cbn; [now rewrite String.eqb_refl|].
  destruct (String.eqb m n); [discriminate|auto].
Qed.
Lemma lookup_other n m s k (h : list (var K)) c (ls : list loss) : n <> m -> lookup n (Store h (names s ++ [(m, k)]) c ls) = lookup n s.
Proof.
  unfold lookup. cbn [names]. intros H. induction (names s) as [|[q j] ns IH]; cbn.
  - destruct (String.eqb_spec m n); [congruence|reflexivity].
  - destruct (String.eqb q n); auto.
Qed.

Lemma keeps_refl s : keeps s s.
Proof. repeat split; auto; exists []; now rewrite app_nil_r. Qed.
Lemma keeps_trans s1 s2 s3 : keeps s1 s2 -> keeps s2 s3 -> keeps s1 s3.
Proof.
  intros (A & B & (l & C) & m & D) (A' & B' & (l' & C') & m' & D'). repeat split; auto.
  - exists (l ++ l'). now rewrite C', C, app_assoc.
  - exists (m ++ m'). now rewrite D', D, app_assoc.
Qed.
Lemma kbv_refl s : keeps_but_values s s.
Proof. split; [intros id v H; exists v; auto|]. repeat split; auto; exists []; now rewrite app_nil_r. Qed.
Lemma kbv_trans s1 s2 s3 : keeps_but_values s1 s2 -> keeps_but_values s2 s3 -> keeps_but_values s1 s3.
Proof.
  intros (A & B & (l & C) & m & D) (A' & B' & (l' & C') & m' & D'). repeat split; auto.
  - intros id v H. destruct (A id v H) as (w & H1 & E1 & E2 & E3). destruct (A' id w H1) as (u & H2 & F1 & F2 & F3). exists u. repeat split; congruence.
  - exists (l ++ l'). now rewrite C', C, app_assoc.
  - exists (m ++ m'). now rewrite D', D, app_assoc.
Qed.
Lemma keeps_kbv s s' : keeps s s' -> keeps_but_values s s'.
Proof. intros (A & B & C & D). repeat split; auto. intros id v H. exists v. auto. Qed.

(** ** tf.get_variable *)
Lemma nv_keeps eager n d (x : tensor K) s : keeps s (fst (new_variable eager n d x s)).
Proof.
  unfold new_variable. cbn [fst]. split; [|split; [|split]]; cbn [heap coll losses].
  - intros id v H. rewrite nth_error_app1; auto. apply nth_error_Some. congruence.
  - intros m id H. destruct eager; [exact H|now apply lookup_app].
  - exists []. now rewrite app_nil_r.
  - exists []. now rewrite app_nil_r.
Qed.
Lemma tf_keeps eager sc l dt init s : keeps s (fst (tf_get_variable eager sc l dt init s)).
Proof.
  unfold tf_get_variable. destruct (match dt, init with Some d, Some (d', _) => negb (dtype_eqb d d') | _, _ => false end); [apply keeps_refl|].
  assert (C : forall n, keeps s (fst (match init with None => raise ValueError | Some (d', x) => new_variable eager n d' x end s))).
  { intros n. destruct init as [[d x]|]; [apply nv_keeps|apply keeps_refl]. }
  destruct eager; [apply C|]. destruct (lookup _ s); destruct (sreuse sc); try apply keeps_refl.
  - destruct (dtype_eqb _ _); apply keeps_refl.
  - destruct (dtype_eqb _ _); apply keeps_refl.
  - destruct (valid_op_name _); [apply C|apply keeps_refl].
  - destruct (valid_op_name _); [apply C|apply keeps_refl].
Qed.
Lemma bind_keeps {A B} (m : M K loss A) (k : A -> M K loss B) s : keeps s (fst (m s)) ->
  (forall a s', keeps s s' -> m s = (s', Ok a) -> keeps s (fst (k a s'))) -> keeps s (fst (bindM m k s)).
Proof.
  intros H1 H2. unfold bindM. destruct (m s) as [s' [a|e]] eqn:E; cbn [fst] in *; [|exact H1]. now apply H2.
Qed.
Lemma for_keeps {A S} (f : A -> S -> M K loss S) l st s : (forall a st s, keeps s (fst (f a st s))) -> keeps s (fst (forM f l st s)).
Proof.
  intros H. revert st s. induction l as [|a l IH]; intros st s; cbn; [apply keeps_refl|].
  apply bind_keeps; [apply H|]. intros st' s' Ks _. eapply keeps_trans; [exact Ks|apply IH].
Qed.
Lemma create_keeps eager sc dt (i : vobj K) s : keeps s (fst (create_cores eager sc dt i s)).
Proof.
  unfold create_cores. apply for_keeps. intros j acc s0. apply bind_keeps; [apply keeps_refl|].
  intros c s1 K1 _. eapply keeps_trans; [exact K1|]. apply bind_keeps; [apply tf_keeps|]. intros id s2 K2 _. exact K2.
Qed.
(** get_variable never changes anything that was there. *)
Lemma get_keeps eager sc n dt (i : option (vobj K)) reg s : keeps s (fst (get_variable eager sc n dt i reg s)).
Proof.
  unfold get_variable. destruct (negb (eager || truthy (sreuse sc)) && _); [apply keeps_refl|].
  destruct ((eager || truthy (sreuse sc)) && negb eager).
  - destruct (find _ (coll s)) as [v|]; [|apply keeps_refl]. apply bind_keeps; [apply tf_keeps|]. intros a s' Ks _. exact Ks.
  - destruct i as [i|]; [|apply keeps_refl]. apply bind_keeps; [apply create_keeps|]. intros cs s1 K1 _.
    eapply keeps_trans; [exact K1|]. apply bind_keeps; [apply keeps_refl|]. intros v s2 K2 _. eapply keeps_trans; [exact K2|].
    apply bind_keeps.
    { cbn [fst]. split; [auto|]. split; [auto|]. split; [exists [v]; auto|exists []; now rewrite app_nil_r]. }
    intros u s3 K3 _. eapply keeps_trans; [exact K3|]. destruct reg as [reg|]; [|apply keeps_refl].
    apply bind_keeps; [apply keeps_refl|]. intros [l|] s4 K4 _; [|exact K4]. eapply keeps_trans; [exact K4|]. destruct eager; [apply keeps_refl|].
    cbn [fst]. split; [auto|]. split; [auto|]. split; [exists []; now rewrite app_nil_r|exists [l]; auto].
Qed.

(** ** Writing *)
Lemma nth_error_upd {A} k (x : A) l j : nth_error (upd k x l) j = if Nat.eqb j k then match nth_error l j with Some _ => Some x | None => None end else nth_error l j.
Proof.
  revert k j. induction l as [|a l IH]; intros [|k] [|j]; cbn; auto.
  now destruct (Nat.eqb j k).
Qed.
Lemma nth_error_write (h : list (var K)) id x j : nth_error (write h id x) j =
  if Nat.eqb j id then match nth_error h j with Some v => Some (Var (vname v) (vdtype v) x) | None => None end else nth_error h j.
Proof.
  unfold write. rewrite nth_error_upd. destruct (Nat.eqb_spec j id) as [->|]; auto. destruct (nth_error h id) eqn:E; auto. now rewrite (nth_error_nth _ _ _ E).
Qed.
Lemma value_of_error (h : list (var K)) id v : nth_error h id = Some v -> value_of h id = vval v.
Proof. intros H. unfold value_of. apply nth_error_nth. now rewrite nth_error_map, H. Qed.
Lemma vdtype_error (h : list (var K)) id v d : nth_error h id = Some v -> nth id (map vdtype h) d = vdtype v.
Proof. intros H. apply nth_error_nth. now rewrite nth_error_map, H. Qed.
Lemma vname_error (h : list (var K)) id v d : nth_error h id = Some v -> nth id (map vname h) d = vname v.
Proof. intros H. apply nth_error_nth. now rewrite nth_error_map, H. Qed.

(** A heap that differs in the values of some variables only. *)
Definition only (ids : list nat) (h h' : list (var K)) : Prop :=
  forall id, match nth_error h id, nth_error h' id with
             | Some v, Some w => vname w = vname v /\ vdtype w = vdtype v /\ shape (vval w) = shape (vval v) /\ (~ In id ids -> w = v)
             | None, None => True
             | _, _ => False
             end.
Lemma only_refl ids h : only ids h h.
Proof. intros id. destruct (nth_error h id); auto. Qed.
Lemma only_trans ids h1 h2 h3 : only ids h1 h2 -> only ids h2 h3 -> only ids h1 h3.
Proof.
  intros A B id. specialize (A id). specialize (B id). destruct (nth_error h1 id), (nth_error h2 id), (nth_error h3 id); try tauto.
  destruct A as (A1 & A2 & A3 & A4), B as (B1 & B2 & B3 & B4). repeat split; try congruence. intros N. rewrite (B4 N). auto.
Qed.
Lemma only_write ids h id x : In id ids -> shape x = shape (value_of h id) -> only ids h (write h id x).
Proof.
  intros I Hs j. rewrite nth_error_write. destruct (nth_error h j) as [v|] eqn:E.
  - destruct (Nat.eqb_spec j id) as [->|]; [|auto]. cbn. rewrite (value_of_error h id v E) in Hs. repeat split; auto. intros []. exact I.
  - destruct (Nat.eqb j id); exact I0 || exact Logic.I.
Qed.
Lemma check_inv (h : list (var K)) r c d id x : assign_check h r c d = Ok (id, x) -> r = CVar id /\ x = read h c /\ nth id (map vdtype h) Float32 = d /\ shape x = shape (value_of h id).
Proof.
  unfold assign_check. destruct r as [t|k]; [discriminate|]. destruct (dtype_eqb d _) eqn:E1; cbn; [|discriminate]. destruct (list_eqb _ _) eqn:E2; cbn; [|discriminate].
  intros H. injection H as <- <-. apply dtype_eqb_eq in E1. apply list_eqb_eq in E2. auto.
Qed.
Definition ids_of (o : vobj K) : list nat := flat_map (fun c => match c with CVar id => [id] | _ => [] end) (vcores o).
Lemma ids_in o id : In id (ids_of o) <-> In (CVar id) (vcores o).
Proof.
  unfold ids_of. rewrite in_flat_map. split.
  - intros (c & H & I). destruct c as [t|k]; [destruct I|]. destruct I as [->|[]]. exact H.
  - intros H. exists (CVar id). split; [exact H|now left].
Qed.

Definition assign_body (ref value : vobj K) (i : nat) (acc : list (cref K)) (s : store K loss) : store K loss * res (list (cref K)) :=
  match nthr (vcores value) i with
  | Err e => (s, Err e)
  | Ok c => match assign_check (heap s) (nth i (vcores ref) (CVar 0)) c (vdt value) with
            | Err e => (s, Err e)
            | Ok (id, x) => (set_heap s (write (heap s) id x), Ok (acc ++ [CVar id]))
            end
  end.
Definition loop_only (ref value : vobj K) (l : list nat) : Prop := forall acc s, (forall i, In i l -> i < length (vcores ref)) ->
  let s' := fst (forM (assign_body ref value) l acc s) in
  only (ids_of ref) (heap s) (heap s') /\ names s' = names s /\ coll s' = coll s /\ losses s' = losses s.
Lemma body_cases ref value i acc s s1 r : assign_body ref value i acc s = (s1, r) ->
  (s1 = s /\ exists e, r = Err e) \/
  exists c id x, nth_error (vcores value) i = Some c /\ assign_check (heap s) (nth i (vcores ref) (CVar 0)) c (vdt value) = Ok (id, x) /\
    s1 = set_heap s (write (heap s) id x) /\ r = Ok (acc ++ [CVar id]).
Proof.
  unfold assign_body, nthr. destruct (nth_error (vcores value) i) as [c|] eqn:E1; [|intros E; injection E as <- <-; left; eauto].
  destruct (assign_check _ _ c _) as [[id x]|e] eqn:E; intros F; injection F as <- <-; [right; exists c, id, x; auto|left; eauto].
Qed.
Lemma assign_loop_only ref value l : loop_only ref value l.
Proof.
  induction l as [|i l IH]; intros acc s Hl; cbn; [split; [apply only_refl|auto]|].
  unfold bindM. destruct (assign_body ref value i acc s) as [s1 r] eqn:EB. apply body_cases in EB as [(-> & e & ->)|(c & id & x & _ & E & -> & ->)]; [split; [apply only_refl|auto]|].
  apply check_inv in E as (Er & Ex & _ & Es).
  destruct (IH (acc ++ [CVar id]) (set_heap s (write (heap s) id x))) as (A & B & C & D); [intros j Hj; apply Hl; now right|].
  split; [|cbn in *; auto]. eapply only_trans; [|exact A]. apply only_write; auto. apply ids_in. rewrite <- Er. apply nth_In. apply Hl. now left.
Qed.
Lemma assign_only (ref value : vobj K) s : let s' := fst (assign ref value s) in
  only (ids_of ref) (heap s) (heap s') /\ names s' = names s /\ coll s' = coll s /\ losses s' = losses s.
Proof.
  destruct (assign_loop_only ref value (seq 0 (length (vcores ref))) [] s) as (A & B & C & D); [intros i Hi; apply in_seq in Hi; lia|].
  change (assign ref value s) with (bindM (forM (assign_body ref value) (seq 0 (length (vcores ref))) [])
    (fun cs s => liftR (construct (heap s) cs (vrshape value) (vrks value) (vbsz value) (vdt ref)) s) s).
  unfold bindM. destruct (forM (assign_body ref value) _ [] s) as [s' [cs|e]]; cbn in *; auto.
Qed.
Lemma only_kbv s s' ids : only ids (heap s) (heap s') -> names s' = names s -> coll s' = coll s -> losses s' = losses s -> keeps_but_values s s'.
Proof.
  intros A B C D. split; [|split; [|split]].
  - intros id v H. specialize (A id). rewrite H in A. destruct (nth_error (heap s') id) as [w|]; [|destruct A]. exists w. tauto.
  - unfold lookup. now rewrite B.
  - exists []. now rewrite app_nil_r.
  - exists []. now rewrite app_nil_r.
Qed.
Lemma run_ops_only ops s ids : (forall id x, In (id, x) ops -> In id ids /\ shape x = shape (value_of (heap s) id)) ->
  only ids (heap s) (heap (run_ops ops s)) /\ names (run_ops ops s) = names s /\ coll (run_ops ops s) = coll s /\ losses (run_ops ops s) = losses s.
Proof.
  revert s. induction ops as [|[id x] ops IH]; intros s H; [split; [apply only_refl|auto]|].
  change (run_ops ((id, x) :: ops) s) with (run_ops ops (set_heap s (write (heap s) id x))).
  destruct (H id x (or_introl eq_refl)) as [Hid Hx].
  pose proof (only_write ids (heap s) id x Hid Hx) as W.
  destruct (IH (set_heap s (write (heap s) id x))) as (A & B & C & D).
  { intros j y Hj. destruct (H j y (or_intror Hj)) as [Hj1 Hj2]. split; auto. cbn [heap set_heap]. rewrite Hj2. specialize (W j).
    unfold value_of. destruct (nth_error (heap s) j) as [v|] eqn:E1, (nth_error (write (heap s) id x) j) as [w|] eqn:E2; try tauto.
    - fold (value_of (heap s) j) (value_of (write (heap s) id x) j). rewrite (value_of_error _ _ _ E1), (value_of_error _ _ _ E2). symmetry. apply W.
    - apply nth_error_None in E1. apply nth_error_None in E2. rewrite !nth_overflow by now rewrite map_length. reflexivity. }
  split; [eapply only_trans; [exact W|exact A]|auto].
Qed.
Lemma mapM_in {A B} (f : A -> res B) l ys y : mapM f l = Ok ys -> In y ys -> exists x, In x l /\ f x = Ok y.
Proof.
  revert ys. induction l as [|x l IH]; intros ys; cbn; [intros E; injection E as <-; intros []|].
  destruct (f x) as [b|e] eqn:E1; cbn; [|discriminate]. destruct (mapM f l) as [bs|e] eqn:E2; cbn; [|discriminate].
  intros E. injection E as <-. intros [->|H]; [exists x; auto|]. destruct (IH bs eq_refl H) as (x' & I & F). exists x'. auto.
Qed.
Lemma graph_ops_ok (ref value : vobj K) s ops v : assign_graph ref value s = Ok (ops, v) ->
  forall id x, In (id, x) ops -> In id (ids_of ref) /\ shape x = shape (value_of (heap s) id).
Proof.
  unfold assign_graph. intros E id x I. destruct (mapM _ _) as [os|e] eqn:E1; cbn in E; [|discriminate]. destruct (construct _ _ _ _ _ _) as [w|e]; cbn in E; [|discriminate].
  injection E as -> _. destruct (mapM_in _ _ _ _ E1 I) as (i & Hi & Ei). destruct (nthr (vcores value) i) as [c|e]; cbn in Ei; [|discriminate].
  apply check_inv in Ei as (A & _ & _ & B). split; auto. apply ids_in. rewrite <- A. apply nth_In. apply in_seq in Hi. lia.
Qed.
Lemma step_kbv eager c s : keeps_but_values s (step eager c s).
Proof.
  destruct c; cbn [step].
  - apply keeps_kbv, get_keeps.
  - apply keeps_kbv, tf_keeps.
  - apply keeps_kbv, nv_keeps.
  - destruct eager.
    + destruct (assign_only ref value s) as (A & B & C & D). now apply (only_kbv _ _ (ids_of ref)).
    + destruct (assign_graph ref value s) as [[ops v]|e] eqn:E; [|apply kbv_refl].
      destruct (run_ops_only ops s (ids_of ref) (graph_ops_ok _ _ _ _ _ E)) as (A & B & C & D). now apply (only_kbv _ _ (ids_of ref)).
Qed.
Lemma run_kbv eager cs s : keeps_but_values s (run eager cs s).
Proof.
  revert s. induction cs as [|c cs IH]; intros s; [apply kbv_refl|]. cbn. eapply kbv_trans; [apply (step_kbv eager c)|apply IH].
Qed.
End Proofs.
