(** C49, C50: variables (variables.py).  [get_variable eager scope name dtype initializer regularizer store] returns the
    new store and the result or exception; [eager = false] is graph mode.  [run eager calls store] is the
    store after a sequence of calls, whether they succeed or not. *)
From Coq Require Import String List Arith ZArith Lia Bool FinFun.
From Verif Require Import Scalar Tensor TensorLemmas Base Spec Chain BaseLemmas Ops Dense Vars VarSpec VarProofs VarThms AssignProofs Samples.
Import ListNotations.
Local Open Scope nat_scope.
Local Open Scope string_scope.
Local Open Scope list_scope.

(** ** C49: get_variable *)
(** Creation: one variable per core, with the name of the core, holding the core; the object represents the same
    tensor as the initializer; nothing else changes. *)
Theorem C49_creates_one_variable_per_core : forall (K : cring) (loss : Type) (s : store K loss) sc name dt init regularizer l,
  let p := full_path sc name in
  sreuse sc = NoReuse -> p <> "" -> valid_op_name p = true -> wf (value s init) -> refs_ok s init -> (dt = None \/ dt = Some (vdt init)) ->
  (forall i, i < ndims (value s init) -> lookup (core_path p i) s = None) ->
  match regularizer with None => l = None | Some f => f (value s init) = Ok l end ->
  exists s' v, get_variable false sc name dt (Some init) regularizer s = (s', Ok v) /\ keeps s s' /\
    length (heap s') = length (heap s) + ndims (value s init) /\ is_variable s' v /\ value s' v = value s init /\ vdt v = vdt init /\
    (forall i, i < ndims (value s init) -> has_variable s' (core_path p i) (vdt init) (core (value s init) i) /\
       exists id, nth_error (vcores v) i = Some (CVar id) /\ lookup (core_path p i) s' = Some id) /\
    (forall n id, lookup n s' = Some id -> lookup n s = Some id \/ exists i, i < ndims (value s init) /\ n = core_path p i) /\
    coll s' = coll s ++ [v] /\ losses s' = losses s ++ match l with Some x => [x] | None => [] end.
Proof.
  intros K loss s sc name dt init reg l p HN Hp Hv Hw HR Hd HL Hreg. unfold value in *. unfold ndims in *. cbn [deref cores] in HL |- *. rewrite map_length in *.
  assert (EN : forall i, cname p i = core_path p i) by (intros; now apply cname_path).
  destruct (create_full false sc name dt init s Hw Hd HR) with (reg := reg) as (s' & Eh & Ec & El & HK & HLk & HNm & HD & EG).
  { intros _. split; [exact HN|]. intros j Hj. fold p. rewrite EN. split; [now apply HL|now apply valid_core]. }
  fold p in Eh, HLk, HNm.
  assert (FIN : forall s2 : store K loss, heap s2 = heap s' -> names s2 = names s' -> coll s2 = coll s' -> (exists m, losses s2 = losses s ++ m) ->
    keeps s s2 /\ length (heap s2) = length (heap s) + length (vcores init) /\ is_variable s2 (new_object init s) /\ deref (heap s2) (new_object init s) = deref (heap s) init /\ vdt (new_object init s) = vdt init /\
    (forall i, i < length (vcores init) -> has_variable s2 (core_path p i) (vdt init) (core (deref (heap s) init) i) /\ exists id, nth_error (vcores (new_object init s)) i = Some (CVar id) /\ lookup (core_path p i) s2 = Some id) /\
    (forall n id, lookup n s2 = Some id -> lookup n s = Some id \/ exists i, i < length (vcores init) /\ n = core_path p i) /\ coll s2 = coll s ++ [new_object init s]).
  { intros s2 Q1 Q2 Q3 Q4.
    assert (QL : forall n, lookup n s2 = lookup n s') by (intros; unfold lookup; now rewrite Q2).
    assert (HE : forall i, i < length (vcores init) -> nth_error (heap s2) (length (heap s) + i) = Some (Var (core_path p i) (vdt init) (core (deref (heap s) init) i))).
    { intros i Hi. rewrite Q1, Eh, nth_error_app2 by lia. replace (length (heap s) + i - length (heap s)) with i by lia. rewrite nth_error_map, (nth_error_nth' _ 0) by now rewrite seq_length.
      cbn [option_map]. rewrite seq_nth by auto. cbn [plus]. rewrite EN. do 2 f_equal. unfold core. cbn [deref cores]. now rewrite (ConstructProofs.nth_map' _ _ i (CVar 0)). }
    split. { destruct HK as (A & B & C & _). split; [now rewrite Q1|]. split; [intros; rewrite QL; auto|]. split; [now rewrite Q3|exact Q4]. }
    split; [rewrite Q1, Eh, app_length, map_length, seq_length; lia|]. split.
    { split; [apply Injective_map_NoDup; [intros a b E; now injection E|apply seq_NoDup]|].
      intros c Hc. apply in_map_iff in Hc as (id & <- & Hid). apply in_seq in Hid. exists id, (Var (core_path p (id - length (heap s))) (vdt init) (core (deref (heap s) init) (id - length (heap s)))). split; [auto|].
      split; [|reflexivity]. rewrite <- HE by lia. f_equal. lia. }
    split; [now rewrite Q1|]. split; [auto|]. split.
    { intros i Hi. assert (LK : lookup (core_path p i) s2 = Some (length (heap s) + i)) by (rewrite QL, <- EN; now apply HLk). split.
      - exists (length (heap s) + i). split; [exact LK|now apply HE].
      - exists (length (heap s) + i). split; [|exact LK]. cbn [new_object vcores]. rewrite nth_error_map, (nth_error_nth' _ 0) by now rewrite seq_length. cbn [option_map]. now rewrite seq_nth. }
    split; [|now rewrite Q3]. intros n id Hn. rewrite QL in Hn. destruct (HNm n id Hn) as [A|(_ & j & Hj & A)]; auto. right. exists j. rewrite <- EN. auto. }
  destruct reg as [f|]; cbn [run_reg] in EG.
  - rewrite Hreg in EG. destruct l as [x|].
    + eexists. exists (new_object init s). split; [exact EG|]. cbn [heap names coll losses].
      destruct (FIN (Store (heap s') (names s') (coll s') (losses s' ++ [x]))) as (A & B & C & D & E & F & G & H); auto; [exists [x]; cbn [losses]; now rewrite El|].
      do 8 (split; [assumption|]). now rewrite El.
    + exists s', (new_object init s). split; [exact EG|]. destruct (FIN s') as (A & B & C & D & E & F & G & H); auto; [exists []; now rewrite app_nil_r|]. do 8 (split; [assumption|]). now rewrite El, app_nil_r.
  - subst l. exists s', (new_object init s). split; [exact EG|]. destruct (FIN s') as (A & B & C & D & E & F & G & H); auto; [exists []; now rewrite app_nil_r|]. do 8 (split; [assumption|]). now rewrite El, app_nil_r.
Qed.
Print Assumptions C49_creates_one_variable_per_core.

(** A second creation with the same full name raises, at any later time; nothing changes. *)
Theorem C49_second_creation_raises : forall (K : cring) (loss : Type) calls sc name dt init regularizer (s1 : store K loss) v calls' sc' name' dt' init' regularizer',
  sreuse sc = NoReuse -> get_variable false sc name dt init regularizer (run false calls empty_store) = (s1, Ok v) ->
  sreuse sc' = NoReuse -> full_path sc' name' = full_path sc name -> (forall i, init' = Some i -> vcores i <> []) ->
  get_variable false sc' name' dt' init' regularizer' (run false calls' s1) = (run false calls' s1, Err ValueError).
Proof. intros. eapply (second_raises sc name dt init regularizer (run false calls empty_store)); eauto. apply inv_run, inv_empty. Qed.
Print Assumptions C49_second_creation_raises.

(** With reuse (True or AUTO_REUSE) the same object is returned, at any later time; nothing changes. *)
Theorem C49_reuse_returns_the_same_object : forall (K : cring) (loss : Type) calls sc name dt init regularizer (s1 : store K loss) v calls' sc' name' dt' init' regularizer',
  sreuse sc = NoReuse -> get_variable false sc name dt (Some init) regularizer (run false calls empty_store) = (s1, Ok v) ->
  sreuse sc' <> NoReuse -> last_is_slash (sname sc') = false -> full_path sc' name' = full_path sc name -> full_path sc name <> "" ->
  match dt' with Some d => d | None => Float32 end = vdt v ->
  get_variable false sc' name' dt' init' regularizer' (run false calls' s1) = (run false calls' s1, Ok v).
Proof.
  intros K loss calls sc name dt init reg s1 v calls' sc' name' dt' init' reg' HN E HT HS HP Hne Hdt.
  apply (reuse_ok sc name dt init reg (run false calls empty_store) s1 v calls'); auto; [apply inv_run, inv_empty|]. destruct (sreuse sc'); [now destruct HT| |]; reflexivity.
Qed.
Print Assumptions C49_reuse_returns_the_same_object.

(** Whatever the arguments, the mode and the outcome: no existing variable, name or object is touched. *)
Theorem C49_changes_no_other_variable : forall (K : cring) (loss : Type) eager sc name dt init regularizer (s : store K loss),
  keeps s (fst (get_variable eager sc name dt init regularizer s)).
Proof. intros. apply get_keeps. Qed.
Print Assumptions C49_changes_no_other_variable.

(** Over any history of calls variables keep their names, dtypes and shapes. *)
Theorem C49_variables_stay : forall (K : cring) (loss : Type) eager calls (s : store K loss), keeps_but_values s (run eager calls s).
Proof. intros. apply run_kbv. Qed.
Print Assumptions C49_variables_stay.

(** ** C49: failures *)
Theorem C49_no_initializer_raises : forall (K : cring) (loss : Type) sc name dt regularizer (s : store K loss),
  (sreuse sc = NoReuse -> get_variable false sc name dt None regularizer s = (s, Err ValueError)) /\ get_variable true sc name dt None regularizer s = (s, Err AttributeError).
Proof. intros. split; [|reflexivity]. intros H. unfold get_variable. rewrite H. reflexivity. Qed.
Print Assumptions C49_no_initializer_raises.

(** Without a variable of that name reuse raises; AUTO_REUSE never creates. *)
Theorem C49_reuse_of_nothing_raises : forall (K : cring) (loss : Type) sc name dt init regularizer (s : store K loss),
  sreuse sc <> NoReuse -> coll s = [] -> get_variable false sc name dt init regularizer s = (s, Err ValueError).
Proof.
  intros K loss sc name dt init reg s HN HC. unfold get_variable. replace (truthy (sreuse sc)) with true by (destruct (sreuse sc); auto; contradiction). cbn [orb negb andb]. now rewrite HC.
Qed.
Print Assumptions C49_reuse_of_nothing_raises.

(** The names the model of TensorFlow accepts. *)
Theorem C49_op_names : forall p, valid_op_name p = true <-> legal_name p.
Proof. exact valid_legal. Qed.
Print Assumptions C49_op_names.
(** A dtype that is not the initializer's, or a name that TensorFlow does not allow: ValueError, and nothing changes. *)
Theorem C49_refused : forall (K : cring) (loss : Type) eager (s : store K loss) sc name dt init regularizer, vcores init <> [] ->
  (eager = false -> sreuse sc = NoReuse) ->
  (exists d, dt = Some d /\ d <> vdt init) \/ (eager = false /\ full_path sc name <> "" /\ ~ legal_name (full_path sc name)) ->
  get_variable eager sc name dt (Some init) regularizer s = (s, Err ValueError).
Proof.
  intros K loss eager s sc name dt init reg Hc Hr H. apply first_core_err; auto. unfold tf_get_variable. destruct H as [(d & -> & Hd)|(-> & Hp & Hl)].
  - replace (dtype_eqb d (vdt init)) with false; [reflexivity|]. symmetry. apply not_true_iff_false. now rewrite dtype_eqb_eq.
  - rewrite enter_name. fold (cname (full_path sc name) 0). rewrite cname_path by auto.
    destruct (match dt with Some d => negb (dtype_eqb d (vdt init)) | None => false end); [reflexivity|].
    replace (sreuse (enter sc name)) with NoReuse by (symmetry; exact (Hr eq_refl)).
    destruct (lookup _ s); [reflexivity|]. destruct (valid_op_name (core_path (full_path sc name) 0)) eqn:V; [|reflexivity].
    exfalso. apply Hl, valid_legal. now apply core_valid with (i := 0).
Qed.
Print Assumptions C49_refused.
(** The same with other variables around. *)
Theorem C49_reuse_of_another_name_raises : forall (K : cring) (loss : Type) sc name dt init regularizer (s : store K loss),
  sreuse sc <> NoReuse -> last_is_slash (sname sc) = false -> (forall o, In o (coll s) -> obj_name (heap s) o <> full_path sc name) ->
  get_variable false sc name dt init regularizer s = (s, Err ValueError).
Proof.
  intros K loss sc name dt init reg s HN HS HC. unfold get_variable. replace (truthy (sreuse sc)) with true by (destruct (sreuse sc); auto; contradiction). cbn [orb negb andb].
  rewrite path_ok by auto. destruct (find _ (coll s)) as [o|] eqn:E; [|reflexivity]. apply find_some in E as [E1 E2]. apply String.eqb_eq in E2. now destruct (HC o E1).
Qed.
Print Assumptions C49_reuse_of_another_name_raises.

(** If the name of core k is taken, the call raises, but the variables of the cores before k have been
    created; if k > 0 the name can never be used again, with or without reuse. *)
Theorem C49_partial_creation_blocks_the_name : forall (K : cring) (loss : Type) calls sc name dt init regularizer k id,
  let p := full_path sc name in let s := run (K := K) (loss := loss) false calls empty_store in
  sreuse sc = NoReuse -> p <> "" -> valid_op_name p = true -> (dt = None \/ dt = Some (vdt init)) -> refs_ok s init -> 0 < k < length (vcores init) ->
  (forall i, i < k -> lookup (core_path p i) s = None) -> lookup (core_path p k) s = Some id -> (forall o, In o (coll s) -> obj_name (heap s) o <> p) ->
  exists s', get_variable false sc name dt (Some init) regularizer s = (s', Err ValueError) /\ length (heap s') = length (heap s) + k /\ coll s' = coll s /\
    (forall i, i < k -> exists x, has_variable s' (core_path p i) (vdt init) x) /\
    forall calls' sc' name' dt' init' regularizer', full_path sc' name' = p -> last_is_slash (sname sc') = false -> (forall i, init' = Some i -> vcores i <> []) ->
      get_variable false sc' name' dt' init' regularizer' (run false calls' s') = (run false calls' s', Err ValueError).
Proof.
  intros K loss calls sc name dt init reg k id p s HN Hp Hv Hd HR Hk HL Hid HO. assert (EN : forall i, cname p i = core_path p i) by (intros; now apply cname_path).
  destruct (partial_creation sc name dt init reg s k id HN Hd HR) as (s' & E & HK & Ec & Eh & L & Nm); [lia| | |].
  { intros j Hj. fold p. rewrite EN. split; [now apply HL|now apply valid_core]. }
  { fold p. now rewrite EN. }
  assert (Is : inv s) by apply inv_run, inv_empty.
  assert (Is' : inv s'). { pose proof (get_graph sc name dt (Some init) reg s s' _ Is E) as X. apply X. }
  assert (L0 : lookup (cname p 0) s' = Some (length (heap s))). { unfold p. rewrite (L 0) by lia. f_equal. lia. }
  exists s'. split; [exact E|]. split; [rewrite Eh, app_length, map_length, seq_length; lia|]. split; [exact Ec|]. split.
  - intros i Hi. eexists. exists (length (heap s) + i). rewrite <- EN. split; [apply (L i Hi)|]. rewrite Eh, nth_error_app2 by lia. replace (length (heap s) + i - length (heap s)) with i by lia.
    rewrite nth_error_map, (nth_error_nth' _ 0) by now rewrite seq_length. cbn [option_map]. rewrite seq_nth by auto. reflexivity.
  - intros calls' sc' name' dt' init' reg' HP HS Hi. destruct (sreuse sc') eqn:ER.
    + apply (exists_raises sc' name' dt' init' reg' _ (length (heap s))); auto. rewrite HP. now apply (run_kbv false calls' s').
    + apply not_found_raises; [now rewrite ER|auto|]. rewrite HP. apply (no_object_run calls' p (length (heap s))); auto.
      intros o Ho. rewrite Ec in Ho. destruct (proj2 Is o Ho) as (q & i & cs & A & B & C). rewrite (obj_name_ok s' o q i cs Is' A (proj1 (proj2 HK) _ _ B)). specialize (HO o Ho). now rewrite (obj_name_ok s o q i cs Is A B) in HO.
    + apply not_found_raises; [now rewrite ER|auto|]. rewrite HP. apply (no_object_run calls' p (length (heap s))); auto.
      intros o Ho. rewrite Ec in Ho. destruct (proj2 Is o Ho) as (q & i & cs & A & B & C). rewrite (obj_name_ok s' o q i cs Is' A (proj1 (proj2 HK) _ _ B)). specialize (HO o Ho). now rewrite (obj_name_ok s o q i cs Is A B) in HO.
Qed.
Print Assumptions C49_partial_creation_blocks_the_name.

(** A regularizer that raises: the variable exists all the same, and is registered. *)
Theorem C49_failing_regularizer_keeps_the_variable : forall (K : cring) (loss : Type) eager (s : store K loss) sc name dt init f e,
  let p := full_path sc name in
  (eager = false -> sreuse sc = NoReuse /\ forall i, i < length (vcores init) -> lookup (cname p i) s = None /\ valid_op_name (cname p i) = true) ->
  wf (value s init) -> refs_ok s init -> (dt = None \/ dt = Some (vdt init)) -> f (value s init) = Err e ->
  exists s' v, get_variable eager sc name dt (Some init) (Some f) s = (s', Err e) /\ coll s' = coll s ++ [v] /\ value s' v = value s init.
Proof.
  intros K loss eager s sc name dt init f e p He Hw HR Hd Hf.
  destruct (create_full eager sc name dt init s Hw Hd HR He (Some f)) as (s' & _ & Ec & _ & _ & _ & _ & HD & EG). exists s', (new_object init s). cbn [run_reg] in EG. unfold value in Hf. rewrite Hf in EG. auto.
Qed.
Print Assumptions C49_failing_regularizer_keeps_the_variable.

(** ** C49: eager mode *)
(** In eager mode every call creates new variables, whatever the name and the reuse flag. *)
Theorem C49_eager_always_creates : forall (K : cring) (loss : Type) (s : store K loss) sc name dt init,
  wf (value s init) -> refs_ok s init -> (dt = None \/ dt = Some (vdt init)) ->
  exists s' v, get_variable true sc name dt (Some init) None s = (s', Ok v) /\ keeps s s' /\ value s' v = value s init /\ is_variable s' v /\
    forall id, In (CVar id) (vcores v) -> nth_error (heap s) id = None.
Proof.
  intros K loss s sc name dt init Hw HR Hd. destruct (create_full true sc name dt init s Hw Hd HR) with (reg := @None (tt K -> res (option loss))) as (s' & Eh & Ec & _ & HK & _ & _ & HD & EG); [discriminate|].
  exists s', (new_object init s). split; [exact EG|]. split; [exact HK|]. split; [exact HD|]. split.
  - split; [apply Injective_map_NoDup; [intros a b E; now injection E|apply seq_NoDup]|].
    intros c Hc. apply in_map_iff in Hc as (id & <- & Hid). apply in_seq in Hid. exists id. eexists. split; [auto|]. rewrite Eh, nth_error_app2 by lia.
    rewrite nth_error_map, (nth_error_nth' _ 0) by (rewrite seq_length; lia). cbn [option_map]. split; reflexivity.
  - intros id Hid. apply in_map_iff in Hid as (i & E & Hi). injection E as <-. apply in_seq in Hi. apply nth_error_None. lia.
Qed.
Print Assumptions C49_eager_always_creates.

(** a tensor of the shape and TT-ranks of s_a *)
Definition s_c : tt Zring := TT [zt [1;2;2] [0;2;3;1]%Z; zt [2;3;2] [1;0;1;1;0;3;5;1;1;-2;2;7]%Z; zt [2;2;1] [4;5;6;7]%Z] [[2;3;2]] [1;2;2;1] None.
Lemma s_c_wf : wf s_c. Proof. apply wfb_wf. vm_compute. reflexivity. Qed.
Definition c_a : vobj Zring := constant s_a Float32.
Definition no_reg : option (tt Zring -> res (option unit)) := None.
(** So "a second creation raises" is false in eager mode ... *)
Theorem C49_eager_second_creation_refuted : exists (init : vobj Zring) sc s1 v1 s2 v2, sreuse sc = NoReuse /\ wf (deref [] init) /\
  get_variable true sc "x" None (Some init) no_reg empty_store = (s1, Ok v1) /\ get_variable true sc "x" None (Some init) no_reg s1 = (s2, Ok v2) /\ v2 <> v1.
Proof. exists c_a, (Scope "" NoReuse). do 4 eexists. split; [reflexivity|]. split; [exact s_a_wf|]. split; [vm_compute; reflexivity|]. split; [vm_compute; reflexivity|discriminate]. Qed.
Print Assumptions C49_eager_second_creation_refuted.

(** ... and so is "with reuse the same object is returned". *)
Theorem C49_eager_reuse_refuted : exists (init : vobj Zring) s1 v1 s2 v2, wf (deref [] init) /\
  get_variable true (Scope "" NoReuse) "x" None (Some init) no_reg empty_store = (s1, Ok v1) /\
  get_variable true (Scope "" Reuse) "x" None (Some init) no_reg s1 = (s2, Ok v2) /\ (forall c, In c (vcores v1) -> ~ In c (vcores v2)) /\
  get_variable true (Scope "" Reuse) "x" None None no_reg s1 = (s1, Err AttributeError).
Proof.
  exists c_a. do 4 eexists. split; [exact s_a_wf|]. split; [vm_compute; reflexivity|]. split; [vm_compute; reflexivity|]. split; [|reflexivity].
  cbn. intuition subst; discriminate.
Qed.
Print Assumptions C49_eager_reuse_refuted.

(** In eager mode a regularizer with a result raises, after the variable has been created. *)
Theorem C49_eager_regularizer_refuted : exists (init : vobj Zring) (f : tt Zring -> res (option unit)) s v, wf (deref [] init) /\ f (deref [] init) = Ok (Some Datatypes.tt) /\
  get_variable true (Scope "" NoReuse) "x" None (Some init) (Some f) empty_store = (s, Err AttributeError) /\ coll s = [v] /\ losses s = [].
Proof. exists c_a, (fun _ => Ok (Some Datatypes.tt)). do 2 eexists. split; [exact s_a_wf|]. split; [reflexivity|]. split; [vm_compute; reflexivity|]. split; reflexivity. Qed.
Print Assumptions C49_eager_regularizer_refuted.

(** Graph mode: a float64 variable is not found again unless the dtype is given, *)
Theorem C49_reuse_default_dtype_refuted : exists (init : vobj Zring) s1 v, wf (deref [] init) /\
  get_variable false (Scope "" NoReuse) "x" None (Some init) no_reg empty_store = (s1, Ok v) /\
  get_variable false (Scope "" Reuse) "x" None None no_reg s1 = (s1, Err ValueError) /\ get_variable false (Scope "" Reuse) "x" (Some Float64) None no_reg s1 = (s1, Ok v).
Proof. exists (constant s_a Float64). do 2 eexists. split; [exact s_a_wf|]. split; [vm_compute; reflexivity|]. split; vm_compute; reflexivity. Qed.
Print Assumptions C49_reuse_default_dtype_refuted.

(** and a variable with the empty name is not found again at all. *)
Theorem C49_empty_name_refuted : exists (init : vobj Zring) s1 v, wf (deref [] init) /\
  get_variable false (Scope "" NoReuse) "" None (Some init) no_reg empty_store = (s1, Ok v) /\ get_variable false (Scope "" Reuse) "" None None no_reg s1 = (s1, Err ValueError).
Proof. exists c_a. do 2 eexists. split; [exact s_a_wf|]. split; vm_compute; reflexivity. Qed.
Print Assumptions C49_empty_name_refuted.

(** A case: two variables, a failed creation, an assignment, then reuse through another scope with the same full name. *)
Example C49_case : exists s1 v s2, get_variable false (Scope "net" NoReuse) "w/x" None (Some c_a) no_reg empty_store = (s1, Ok v) /\
  s2 = run false [CallGet (Scope "" NoReuse) "net/w" None (Some c_a) no_reg; CallGet (Scope "net" NoReuse) "w/x" None (Some c_a) no_reg; CallAssign v (constant s_c Float32)] s1 /\
  length (heap s2) = 6 /\ full_path (Scope "net/w" AutoReuse) "x" = full_path (Scope "net" NoReuse) "w/x" /\
  get_variable false (Scope "net/w" AutoReuse) "x" None None no_reg s2 = (s2, Ok v) /\ value s2 v = s_c /\
  lookup "net/w/x/core_2" s2 = Some 2 /\ valid_op_name "net/w/x" = true.
Proof. do 3 eexists. split; [vm_compute; reflexivity|]. split; [reflexivity|]. repeat split; vm_compute; reflexivity. Qed.
Example C49_refused_case : get_variable true (Scope "" NoReuse) "w" (Some Float64) (Some c_a) no_reg empty_store = (empty_store, Err ValueError) /\
  get_variable false (Scope "net" NoReuse) "my weights" None (Some c_a) no_reg empty_store = (empty_store, Err ValueError).
Proof.
  split; apply C49_refused; try discriminate; auto.
  - left. exists Float64. split; [reflexivity|discriminate].
  - right. split; [reflexivity|]. split; [discriminate|]. rewrite <- C49_op_names. discriminate.
Qed.
Example C49_partial_case : let s := run (K := Zring) (loss := unit) false [CallTf (Scope "" NoReuse) "x/core_1" None (Some (Float32, zt [1] [5]%Z))] empty_store in
  lookup (core_path "x" 0) s = None /\ lookup (core_path "x" 1) s = Some 0 /\ coll s = [] /\ refs_ok s c_a /\
  exists s', get_variable false (Scope "" NoReuse) "x" None (Some c_a) no_reg s = (s', Err ValueError) /\ length (heap s') = 2.
Proof.
  cbv zeta. split; [reflexivity|]. split; [reflexivity|]. split; [reflexivity|]. split; [intros id H; cbn in H; intuition discriminate|]. eexists. split; vm_compute; reflexivity.
Qed.

(** ** C50: assign *)
Lemma passes_all (K : cring) (loss : Type) (s : store K loss) ref val : is_variable s ref -> wf (value s ref) -> wf (value s val) ->
  vrshape val = vrshape ref -> vrks val = vrks ref -> vbsz val = vbsz ref -> vdt val = vdt ref ->
  length (vcores val) = length (vcores ref) /\ forall j, j < length (vcores ref) -> passes ref val s j.
Proof.
  intros [ND HV] Wr Wv R1 R2 R3 R4.
  assert (HL : length (vcores val) = length (vcores ref)).
  { pose proof (wf_klen Wr) as A. pose proof (wf_klen Wv) as B. unfold ndims, value in *. cbn [deref cores rks] in *. rewrite map_length in *. rewrite R2 in B. lia. }
  split; [exact HL|]. intros j Hj. destruct (nth_error (vcores val) j) as [c|] eqn:Ec; [|apply nth_error_None in Ec; lia]. destruct (nth_error (vcores ref) j) as [r|] eqn:Er; [|apply nth_error_None in Er; lia].
  destruct (HV r (nth_error_In _ _ Er)) as (id & v & -> & Hv & Dv). exists c, id. do 2 (split; [auto|]). split; [apply nth_error_Some; congruence|].
  split; [rewrite (vdtype_error _ _ _ _ Hv); congruence|].
  destruct (wf_core Wr j) as [_ S1]; [unfold ndims, value; cbn [deref cores]; now rewrite map_length|]. destruct (wf_core Wv j) as [_ S2]; [unfold ndims, value; cbn [deref cores]; now rewrite map_length, HL|].
  assert (C1 : core (value s ref) j = value_of (heap s) id). { unfold core, value. cbn [deref cores]. rewrite (ConstructProofs.nth_map' _ _ j (CVar 0)) by auto. now rewrite (nth_error_nth _ _ _ Er). }
  assert (C2 : core (value s val) j = read (heap s) c). { unfold core, value. cbn [deref cores]. rewrite (ConstructProofs.nth_map' _ _ j (CVar 0)) by lia. now rewrite (nth_error_nth _ _ _ Ec). }
  rewrite <- C1, <- C2, S1, S2. unfold value. cbn [deref]. unfold bpre, rk, modes, mode. cbn [deref rks bsz rshape]. now rewrite R1, R2, R3.
Qed.

(** assign(ref, value) in eager mode, for a value of the same shape, TT-ranks and dtype: the variable gets the
    value, no other variable changes, the result is the variable. *)
Theorem C50_assign : forall (K : cring) (loss : Type) (s : store K loss) ref val, is_variable s ref -> wf (value s ref) -> wf (value s val) ->
  vrshape val = vrshape ref -> vrks val = vrks ref -> vbsz val = vbsz ref -> vdt val = vdt ref -> no_alias ref val ->
  exists s', assign ref val s = (s', Ok ref) /\ value s' ref = value s val /\ full (value s' ref) = full (value s val) /\
    names s' = names s /\ coll s' = coll s /\ length (heap s') = length (heap s) /\
    forall id, ~ In (CVar id) (vcores ref) -> nth_error (heap s') id = nth_error (heap s) id.
Proof.
  intros K loss s ref val HV Wr Wv R1 R2 R3 R4 HA. destruct (passes_all K loss s ref val HV Wr Wv R1 R2 R3 R4) as [HL HP].
  destruct (assign_ok ref val s (proj1 HV) HA HL HP Wv) as (s' & E & O & E1 & E2 & E3 & EV).
  assert (EQ : value s' ref = value s val) by (unfold value, deref; now rewrite EV, R1, R2, R3).
  exists s'. split; [rewrite E, R1, R2, R3; now destruct ref|]. split; [exact EQ|]. split; [now rewrite EQ|]. do 2 (split; [auto|]). split; [apply (only_length _ _ _ O)|].
  intros id N. specialize (O id). rewrite <- ids_in in N. destruct (nth_error (heap s) id), (nth_error (heap s') id); try tauto. f_equal. now apply O.
Qed.
Print Assumptions C50_assign.

(** Whatever the arguments and the outcome: other variables do not change, and no variable changes its name, dtype or shape. *)
Theorem C50_changes_no_other_variable : forall (K : cring) (loss : Type) (s : store K loss) ref val, let s' := fst (assign ref val s) in
  keeps_but_values s s' /\ forall id, ~ In (CVar id) (vcores ref) -> nth_error (heap s') id = nth_error (heap s) id.
Proof.
  intros K loss s ref val s'. destruct (assign_only ref val s) as (O & E1 & E2 & E3). fold s' in O, E1, E2, E3. split; [now apply (only_kbv _ _ (ids_of ref))|].
  intros id N. specialize (O id). rewrite <- ids_in in N. destruct (nth_error (heap s) id), (nth_error (heap s') id); try tauto. f_equal. now apply O.
Qed.
Print Assumptions C50_changes_no_other_variable.

(** Failure at core k (another shape or dtype, or no such core): the cores before k have been overwritten, the others not. *)
Theorem C50_failure_overwrites_the_cores_before : forall (K : cring) (loss : Type) (s : store K loss) ref val k, is_variable s ref -> no_alias ref val -> k < length (vcores ref) ->
  (forall i, i < k -> passes ref val s i) -> ~ passes ref val s k ->
  exists s', assign ref val s = (s', Err (if Nat.ltb k (length (vcores val)) then ValueError else IndexError)) /\
    (forall i, i < k -> core (value s' ref) i = core (value s val) i) /\ (forall i, k <= i < length (vcores ref) -> core (value s' ref) i = core (value s ref) i).
Proof.
  intros K loss s ref val k HV HA Hk HP HF. destruct (assign_fails ref val s k (proj1 HV) HA Hk HP HF) as (s' & E & _ & _ & _ & _ & V1 & V2).
  { intros c Hc. destruct (proj2 HV c Hc) as (id & v & -> & Hv & _). exists id. split; auto. apply nth_error_Some. congruence. }
  exists s'. split; [exact E|]. unfold core, value. cbn [deref cores]. split.
  - intros i Hi. destruct (HP i Hi) as (c & id & Hc & _). assert (i < length (vcores val)) by (apply nth_error_Some; congruence). rewrite !(ConstructProofs.nth_map' _ _ i (CVar 0)) by lia. now apply V1.
  - intros i Hi. rewrite !(ConstructProofs.nth_map' _ _ i (CVar 0)) by lia. now apply V2.
Qed.
Print Assumptions C50_failure_overwrites_the_cores_before.

(** Graph mode: all checks come before the first write, so a failing call changes nothing; running the ops of a
    successful one does what the eager assign does. *)
Theorem C50_graph_mode : forall (K : cring) (loss : Type) (s : store K loss) ref val, is_variable s ref -> wf (value s ref) -> wf (value s val) ->
  vrshape val = vrshape ref -> vrks val = vrks ref -> vbsz val = vbsz ref -> vdt val = vdt ref -> (forall c, In c (vcores val) -> exists t, c = CTensor t) ->
  exists ops, assign_graph ref val s = Ok (ops, ref) /\ let s' := run_ops ops s in value s' ref = value s val /\ full (value s' ref) = full (value s val) /\
    names s' = names s /\ coll s' = coll s /\ forall id, ~ In (CVar id) (vcores ref) -> nth_error (heap s') id = nth_error (heap s) id.
Proof.
  intros K loss s ref val HV Wr Wv R1 R2 R3 R4 HT. destruct (passes_all K loss s ref val HV Wr Wv R1 R2 R3 R4) as [HL HP].
  destruct (graph_assign_ok ref val s (proj1 HV) HT HL HP Wr R1 R2 R3) as (ops & E & O & E1 & E2 & E3 & EV). exists ops.
  assert (EQ : value (run_ops ops s) ref = value s val) by (unfold value, deref; now rewrite EV, R1, R2, R3).
  split; [rewrite E, R1, R2, R3; now destruct ref|]. cbv zeta. split; [exact EQ|]. split; [now rewrite EQ|]. do 2 (split; [auto|]).
  intros id N. specialize (O id). rewrite <- ids_in in N. destruct (nth_error (heap s) id), (nth_error (heap (run_ops ops s)) id); try tauto. f_equal. now apply O.
Qed.
Print Assumptions C50_graph_mode.
Theorem C50_graph_failure_changes_nothing : forall (K : cring) (loss : Type) (s : store K loss) ref val e, assign_graph ref val s = Err e -> step false (CallAssign ref val) s = s.
Proof. intros K loss s ref val e H. cbn [step]. now rewrite H. Qed.
Print Assumptions C50_graph_failure_changes_nothing.

(** Refutations, in eager mode: a failing assign changes the variable (core 1 has another mode size), *)
Definition st_a : store Zring unit := fst (get_variable true (Scope "" NoReuse) "x" None (Some c_a) no_reg empty_store).
Definition v_a : vobj Zring := VObj [CVar 0; CVar 1; CVar 2] [[2;3;2]] [1;2;2;1] None Float32.
Definition s_other : tt Zring := TT [zt [1;2;2] [7;7;7;7]%Z; zt [2;2;2] [0;0;0;0;0;0;0;0]%Z; zt [2;2;1] [0;0;0;0]%Z] [[2;2;2]] [1;2;2;1] None.
Theorem C50_failed_assign_refuted : exists (s : store Zring unit) ref val s', is_variable s ref /\ wf (value s ref) /\ wf (value s val) /\
  assign ref val s = (s', Err ValueError) /\ full (value s' ref) <> full (value s ref).
Proof.
  exists st_a, v_a, (constant s_other Float32). eexists. split; [split; [repeat constructor; cbn; intuition discriminate|]|].
  { intros c Hc. cbn in Hc. destruct Hc as [<-|[<-|[<-|[]]]]; do 2 eexists; (split; [reflexivity|]); split; vm_compute; reflexivity. }
  split; [apply wfb_wf; vm_compute; reflexivity|]. split; [apply wfb_wf; vm_compute; reflexivity|]. split; [vm_compute; reflexivity|]. vm_compute. discriminate.
Qed.
Print Assumptions C50_failed_assign_refuted.

(** a value with too many cores is accepted: the surplus cores are dropped, and the result is an object with fewer
    cores than its shape says; *)
Definition s_longer : tt Zring := TT [zt [1;2;2] [7;7;7;7]%Z; zt [2;3;2] [0;0;0;0;0;0;0;0;0;0;0;1]%Z; zt [2;2;1] [0;0;0;9]%Z; zt [1;1;1] [1]%Z] [[2;3;2;1]] [1;2;2;1;1] None.
Theorem C50_too_many_cores_refuted : exists (s : store Zring unit) ref val s' v, is_variable s ref /\ wf (value s ref) /\ wf (value s val) /\
  assign ref val s = (s', Ok v) /\ length (vcores v) = 3 /\ vrshape v = [[2;3;2;1]] /\ ~ wf (value s' v).
Proof.
  exists st_a, v_a, (constant s_longer Float32). do 2 eexists. split; [split; [repeat constructor; cbn; intuition discriminate|]|].
  { intros c Hc. cbn in Hc. destruct Hc as [<-|[<-|[<-|[]]]]; do 2 eexists; (split; [reflexivity|]); split; vm_compute; reflexivity. }
  split; [apply wfb_wf; vm_compute; reflexivity|]. split; [apply wfb_wf; vm_compute; reflexivity|]. split; [vm_compute; reflexivity|]. split; [reflexivity|]. split; [reflexivity|].
  intros W. pose proof (wf_klen W) as E. vm_compute in E. discriminate.
Qed.
Print Assumptions C50_too_many_cores_refuted.

(** a value whose cores are the variables in another order: the assignment succeeds and the result is wrong; *)
Definition st_2 : store Zring unit := fst (get_variable true (Scope "" NoReuse) "x" None (Some (constant s_t2 Float32)) no_reg empty_store).
Definition v_2 : vobj Zring := VObj [CVar 0; CVar 1] [[2;2]] [1;1;1] None Float32.
Theorem C50_aliased_refuted : exists (s : store Zring unit) ref val s' v, is_variable s ref /\ wf (value s ref) /\ wf (value s val) /\
  assign ref val s = (s', Ok v) /\ full (value s' ref) <> full (value s val).
Proof.
  exists st_2, v_2, (VObj [CVar 1; CVar 0] [[2;2]] [1;1;1] None Float32). do 2 eexists. split; [split; [repeat constructor; cbn; intuition discriminate|]|].
  { intros c Hc. cbn in Hc. destruct Hc as [<-|[<-|[]]]; do 2 eexists; (split; [reflexivity|]); split; vm_compute; reflexivity. }
  split; [apply wfb_wf; vm_compute; reflexivity|]. split; [apply wfb_wf; vm_compute; reflexivity|]. split; [vm_compute; reflexivity|]. vm_compute. discriminate.
Qed.
Print Assumptions C50_aliased_refuted.

(** a batch of one tensor assigned to a TT-matrix with one row: the assignment succeeds, the tensors have different shapes. *)
Definition st_row : store Zring unit := fst (get_variable true (Scope "" NoReuse) "x" None
  (Some (constant (TT [zt [1;1;2;1] [1;2]%Z; zt [1;1;3;1] [1;2;3]%Z] [[1;1];[2;3]] [1;1;1] None) Float32)) no_reg empty_store).
Definition v_row : vobj Zring := VObj [CVar 0; CVar 1] [[1;1];[2;3]] [1;1;1] None Float32.
Theorem C50_kinds_refuted : exists (s : store Zring unit) ref val s' v, is_variable s ref /\ wf (value s ref) /\ wf (value s val) /\
  assign ref val s = (s', Ok v) /\ full (value s' ref) <> full (value s val) /\ get_shape (value s' ref) = [1;6] /\ get_shape (value s val) = [1;2;3].
Proof.
  exists st_row, v_row, (constant (TT [zt [1;1;2;1] [5;6]%Z; zt [1;1;3;1] [1;0;3]%Z] [[2;3]] [1;1;1] (Some 1)) Float32). do 2 eexists. split; [split; [repeat constructor; cbn; intuition discriminate|]|].
  { intros c Hc. cbn in Hc. destruct Hc as [<-|[<-|[]]]; do 2 eexists; (split; [reflexivity|]); split; vm_compute; reflexivity. }
  split; [apply wfb_wf; vm_compute; reflexivity|]. split; [apply wfb_wf; vm_compute; reflexivity|]. split; [vm_compute; reflexivity|]. split; [vm_compute; discriminate|]. split; reflexivity.
Qed.
Print Assumptions C50_kinds_refuted.

(** A case for C50_assign: a variable gets the value of another object. *)
Example C50_case : is_variable st_a v_a /\ wf (value st_a v_a) /\ wf (value st_a (constant s_c Float32)) /\ no_alias v_a (constant s_c Float32) /\
  vrshape (constant s_c Float32) = vrshape v_a /\ vrks (constant s_c Float32) = vrks v_a /\ value st_a v_a = s_a /\ s_a <> s_c.
Proof.
  split; [split; [repeat constructor; cbn; intuition discriminate|]|].
  { intros c Hc. cbn in Hc. destruct Hc as [<-|[<-|[<-|[]]]]; do 2 eexists; (split; [reflexivity|]); split; vm_compute; reflexivity. }
  split; [apply wfb_wf; vm_compute; reflexivity|]. split; [exact s_c_wf|]. split; [intros i id H; cbn in H; destruct i as [|[|[|i]]]; cbn in H; try discriminate; destruct i; discriminate|].
  do 2 (split; [reflexivity|]). split; [vm_compute; reflexivity|]. vm_compute. discriminate.
Qed.
