(** get_variable: failures; assign. *)
From Coq Require Import String Ascii List Arith Lia Bool.
From Verif Require Import Scalar Tensor TensorLemmas Base Spec Chain BaseLemmas ConstructProofs Dense Vars VarSpec VarProofs VarThms.
Import ListNotations.
Local Open Scope nat_scope.
Local Open Scope string_scope.
Local Open Scope list_scope.

Section A.
Context {K : cring} {loss : Type}.
Implicit Types s : store K loss.

(** ** Second creation *)
Lemma exists_raises sc name dt (init : option (vobj K)) reg s id : sreuse sc = NoReuse -> lookup (cname (full_path sc name) 0) s = Some id ->
  (forall i, init = Some i -> vcores i <> []) -> get_variable false sc name dt init reg s = (s, Err ValueError).
Proof.
  intros HN HL Hi. unfold get_variable. rewrite HN. cbn [orb truthy negb andb]. destruct init as [i|]; [|reflexivity]. specialize (Hi i eq_refl).
  destruct (vcores i) as [|c cs] eqn:EC; [contradiction|]. unfold bindM at 1. unfold create_cores. rewrite EC. cbn [length seq forM]. unfold bindM at 1. unfold bindM at 1. cbn [nthr nth_error].
  unfold bindM at 1, tf_get_variable. rewrite enter_name. fold (cname (full_path sc name) 0). rewrite HL. cbn [enter sreuse]. rewrite HN.
  destruct (match dt with Some d => negb (dtype_eqb d (vdt i)) | None => false end); reflexivity.
Qed.
Lemma second_raises sc name dt (init : option (vobj K)) reg s s1 v cs sc' name' dt' init' reg' : inv s ->
  sreuse sc = NoReuse -> get_variable false sc name dt init reg s = (s1, Ok v) ->
  sreuse sc' = NoReuse -> full_path sc' name' = full_path sc name -> (forall i, init' = Some i -> vcores i <> []) ->
  get_variable false sc' name' dt' init' reg' (run false cs s1) = (run false cs s1, Err ValueError).
Proof.
  intros Hs HN E HN' HP Hi. apply (get_graph _ _ _ _ _ _ _ _ Hs) in E as (I1 & HC & HQ). destruct (HQ HN v eq_refl) as (l & Ec & ->).
  destruct HC as [Q|(v' & id & rs & _ & _ & _ & L1 & _)].
  { rewrite Q in Ec. apply (f_equal (@length _)) in Ec. rewrite app_length in Ec. cbn in Ec. lia. }
  apply (exists_raises sc' name' dt' init' reg' _ id); auto. rewrite HP. now apply (run_kbv false cs s1).
Qed.

(** ** Failure in the middle *)
Lemma forM_app {A S} (f : A -> S -> M K loss S) l m st s : forM f (l ++ m) st s = bindM (forM f l st) (fun st' => forM f m st') s.
Proof.
  revert st s. induction l as [|a l IH]; intros st s; cbn; [unfold bindM; reflexivity|]. unfold bindM at 1. unfold bindM at 1. unfold bindM at 1. destruct (f a st s) as [s' [st'|e]]; auto.
  rewrite IH. reflexivity.
Qed.
Lemma partial_creation sc name dt (init : vobj K) reg s k id : sreuse sc = NoReuse -> (dt = None \/ dt = Some (vdt init)) -> refs_ok s init -> k < length (vcores init) ->
  (forall j, j < k -> lookup (cname (full_path sc name) j) s = None /\ valid_op_name (cname (full_path sc name) j) = true) -> lookup (cname (full_path sc name) k) s = Some id ->
  exists s', get_variable false sc name dt (Some init) reg s = (s', Err ValueError) /\ keeps s s' /\ coll s' = coll s /\
    heap s' = heap s ++ map (fun j => Var (cname (full_path sc name) j) (vdt init) (read (heap s) (nth j (vcores init) (CVar 0)))) (seq 0 k) /\
    (forall j, j < k -> lookup (cname (full_path sc name) j) s' = Some (length (heap s) + j)) /\
    (forall n id, lookup n s' = Some id -> lookup n s = Some id \/ exists j, j < k /\ n = cname (full_path sc name) j).
Proof.
  intros HN Hd HR Hk HL Hid. destruct (loop_ok false (enter sc name) dt init k 0 [] s) as (s' & E & Eh & Ec & El & HK & L & N); auto; [lia| |].
  { intros _. split; [exact HN|]. intros j Hj. apply HL. lia. }
  exists s'. split; [|split; [exact HK|split; [exact Ec|split; [exact Eh|split; [intros j Hj; now apply (L eq_refl j)|]]]]].
  2:{ intros n i Hn. destruct (N n i Hn) as [A|(_ & j & Hj & A)]; auto. right. exists j. auto. }
  unfold get_variable. rewrite HN. cbn [orb truthy negb andb]. unfold bindM at 1.
  change (create_cores false (enter sc name) dt init s) with (forM (create_body false (enter sc name) dt init) (seq 0 (length (vcores init))) [] s).
  replace (length (vcores init)) with (k + S (length (vcores init) - S k)) by lia. rewrite seq_app, forM_app. unfold bindM at 1. rewrite E. cbn [seq forM plus].
  unfold bindM at 1. unfold create_body at 1, bindM at 1. unfold nthr. destruct (nth_error (vcores init) k) as [c|] eqn:Hc; [|apply nth_error_None in Hc; lia].
  unfold bindM at 1, tf_get_variable. rewrite enter_name. fold (cname (full_path sc name) k). rewrite (proj1 (proj2 HK) _ _ Hid). cbn [enter sreuse]. rewrite HN.
  destruct (match dt with Some d => negb (dtype_eqb d (vdt init)) | None => false end); reflexivity.
Qed.
(** No object gets a name whose first core is taken. *)
Lemma no_object_step c p id s : inv s -> p <> "" -> valid_op_name p = true -> lookup (cname p 0) s = Some id -> (forall o, In o (coll s) -> obj_name (heap s) o <> p) ->
  forall o, In o (coll (step false c s)) -> obj_name (heap (step false c s)) o <> p.
Proof.
  intros Hs Hp Hv HL H o Ho. pose proof (inv_step c s Hs) as Hi. pose proof (step_kbv false c s) as (KV & KL & _).
  assert (OLD : In o (coll s) -> obj_name (heap (step false c s)) o <> p).
  { intros Io. destruct (proj2 Hs o Io) as (q & i & cs & A & B & C). rewrite (obj_name_ok _ o q i cs Hi A (KL _ _ B)). specialize (H o Io). now rewrite (obj_name_ok s o q i cs Hs A B) in H. }
  destruct c; cbn [step] in *.
  - destruct (get_variable _ _ _ _ _ _ s) as [s' r] eqn:E. cbn [fst] in *. apply (get_graph _ _ _ _ _ _ _ _ Hs) in E as (_ & [Q|(v & i & cs & Ec & Ev & L0 & L1 & V & _)] & _); [rewrite Q in Ho; auto|].
    rewrite Ec in Ho. apply in_app_or in Ho as [Ho|[<-|[]]]; auto. rewrite (obj_name_ok s' v _ i cs Hi Ev L1). destruct (String.eqb_spec (full_path sc name) "") as [Q|Q].
    + intros <-. discriminate Hv.
    + intros <-. congruence.
  - destruct (tf_get_variable false sc label dt init s) as [s' r] eqn:E. cbn [fst] in *. apply tf_cases in E. cbv zeta in E. destruct E as [[-> _]|(d & x & _ & _ & _ & -> & _)]; auto.
  - now apply OLD.
  - destruct (assign_graph ref value s) as [[ops v]|e] eqn:E; auto. destruct (run_ops_only ops s (ids_of ref) (graph_ops_ok _ _ _ _ _ E)) as (_ & _ & C & _). rewrite C in Ho. auto.
Qed.
Lemma no_object_run cs p id s : inv s -> p <> "" -> valid_op_name p = true -> lookup (cname p 0) s = Some id -> (forall o, In o (coll s) -> obj_name (heap s) o <> p) ->
  forall o, In o (coll (run false cs s)) -> obj_name (heap (run false cs s)) o <> p.
Proof.
  revert s. induction cs as [|c cs IH]; intros s Hs Hp Hv HL H; cbn; auto. apply IH; auto; [now apply inv_step| |].
  - now apply (step_kbv false c s).
  - now apply (no_object_step c p id s).
Qed.
Lemma not_found_raises sc name dt (init : option (vobj K)) reg s : truthy (sreuse sc) = true -> last_is_slash (sname sc) = false -> (forall o, In o (coll s) -> obj_name (heap s) o <> full_path sc name) ->
  get_variable false sc name dt init reg s = (s, Err ValueError).
Proof.
  intros HT HS H. unfold get_variable. rewrite HT. cbn [orb negb andb]. rewrite path_ok by auto.
  destruct (find _ (coll s)) as [v|] eqn:E; [|reflexivity]. apply find_some in E as [E1 E2]. apply String.eqb_eq in E2. now apply H in E1.
Qed.

(** ** assign *)
Variables ref val : vobj K.
Local Notation passes := (passes ref val).
Local Notation no_alias := (no_alias ref val).
Definition idn j : nat := match nth j (vcores ref) (CVar 0) with CVar id => id | _ => 0 end.

Lemma only_shape ids (h h' : list (var K)) c : only ids h h' -> shape (read h' c) = shape (read h c).
Proof.
  intros H. destruct c as [t|id]; auto. cbn. specialize (H id). destruct (nth_error h id) as [v|] eqn:E1, (nth_error h' id) as [w|] eqn:E2; try tauto.
  - rewrite (value_of_error _ _ _ E1), (value_of_error _ _ _ E2). apply H.
  - unfold value_of. apply nth_error_None in E1. apply nth_error_None in E2. now rewrite !nth_overflow by now rewrite map_length.
Qed.
Lemma only_dtype ids (h h' : list (var K)) id : only ids h h' -> nth id (map vdtype h') Float32 = nth id (map vdtype h) Float32.
Proof.
  intros H. specialize (H id). destruct (nth_error h id) as [v|] eqn:E1, (nth_error h' id) as [w|] eqn:E2; try tauto.
  - rewrite (vdtype_error _ _ _ _ E1), (vdtype_error _ _ _ _ E2). apply H.
  - apply nth_error_None in E1. apply nth_error_None in E2. now rewrite !nth_overflow by now rewrite map_length.
Qed.
Lemma only_length ids (h h' : list (var K)) : only ids h h' -> length h' = length h.
Proof.
  intros H. assert (A : forall n, nth_error h n = None <-> nth_error h' n = None).
  { intros n. specialize (H n). destruct (nth_error h n), (nth_error h' n); split; intros; try discriminate; tauto. }
  assert (B : nth_error h' (length h) = None) by (apply A, nth_error_None; lia). assert (C : nth_error h (length h') = None) by (apply A, nth_error_None; lia).
  apply nth_error_None in B. apply nth_error_None in C. lia.
Qed.
Lemma only_read ids (h h' : list (var K)) c : only ids h h' -> (forall id, c = CVar id -> ~ In id ids) -> read h' c = read h c.
Proof.
  intros H N. destruct c as [t|id]; auto. cbn. specialize (N id eq_refl). specialize (H id). destruct (nth_error h id) as [v|] eqn:E1, (nth_error h' id) as [w|] eqn:E2; try tauto.
  - rewrite (value_of_error _ _ _ E1), (value_of_error _ _ _ E2). f_equal. now apply H.
  - unfold value_of. apply nth_error_None in E1. apply nth_error_None in E2. now rewrite !nth_overflow by now rewrite map_length.
Qed.
Lemma only_sub ids ids' (h h' : list (var K)) : (forall i, In i ids -> In i ids') -> only ids h h' -> only ids' h h'.
Proof.
  intros I H id. specialize (H id). destruct (nth_error h id), (nth_error h' id); auto. destruct H as (A & B & C & D). repeat split; auto.
Qed.
Lemma only_passes ids s s' j : only ids (heap s) (heap s') -> passes s j -> passes s' j.
Proof.
  intros H (c & id & A & B & Hl & C & D). exists c, id. do 2 (split; [auto|]). split; [now rewrite (only_length ids (heap s))|]. split; [now rewrite (only_dtype ids (heap s))|].
  rewrite (only_shape ids (heap s)) by auto. rewrite D. symmetry. exact (only_shape ids (heap s) (heap s') (CVar id) H).
Qed.
Lemma check_ok h r c d id x : r = CVar id -> x = read h c -> nth id (map vdtype h) Float32 = d -> shape x = shape (value_of h id) -> assign_check h r c d = Ok (id, x : tensor K).
Proof.
  intros -> -> <- Hs. unfold assign_check. rewrite (proj2 (dtype_eqb_eq _ _) eq_refl). cbn [negb]. rewrite (proj2 (list_eqb_eq _ _) Hs). reflexivity.
Qed.
Lemma idn_ok j id : nth_error (vcores ref) j = Some (CVar id) -> idn j = id /\ nth j (vcores ref) (CVar 0) = CVar id.
Proof. intros H. unfold idn. now rewrite (nth_error_nth _ _ _ H). Qed.

Lemma assign_loop k : NoDup (vcores ref) -> no_alias -> forall i acc s, (forall j, i <= j < i + k -> passes s j) ->
  exists s', forM (assign_body ref val) (seq i k) acc s = (s', Ok (acc ++ map (fun j => nth j (vcores ref) (CVar 0)) (seq i k))) /\
    only (map idn (seq i k)) (heap s) (heap s') /\ names s' = names s /\ coll s' = coll s /\ losses s' = losses s /\
    forall j, i <= j < i + k -> read (heap s') (nth j (vcores ref) (CVar 0)) = read (heap s) (nth j (vcores val) (CVar 0)).
Proof.
  intros HD HA. induction k as [|k IH]; intros i acc s HP.
  - exists s. cbn. rewrite app_nil_r. split; [auto|]. split; [apply only_refl|]. do 3 (split; [auto|]). intros; lia.
  - cbn [seq forM map]. destruct (HP i) as (c & id & Hc & Hr & Hlen & Hty & Hsh); [lia|]. destruct (idn_ok i id Hr) as [Ei En].
    set (s1 := set_heap s (write (heap s) id (read (heap s) c))).
    assert (EB : assign_body ref val i acc s = (s1, Ok (acc ++ [CVar id]))).
    { unfold assign_body, nthr. rewrite Hc. rewrite (check_ok _ _ _ _ id (read (heap s) c) En eq_refl Hty Hsh). reflexivity. }
    unfold bindM at 1. rewrite EB.
    assert (O1 : only [id] (heap s) (heap s1)) by (apply only_write; [now left|auto]).
    destruct (IH (S i) (acc ++ [CVar id]) s1) as (s' & E & O2 & E1 & E2 & E3 & V). { intros j Hj. apply (only_passes [id] s); auto. apply HP. lia. }
    exists s'. split; [rewrite E, <- app_assoc, En; reflexivity|]. split.
    { eapply only_trans; [eapply only_sub; [|exact O1]|eapply only_sub; [|exact O2]].
      - intros x [<-|[]]. left. exact Ei.
      - intros x Hx. now right. }
    do 3 (split; [auto|]). intros j Hj. destruct (Nat.eq_dec j i) as [->|Nj].
    + rewrite En. rewrite (only_read _ (heap s1) _ (CVar id) O2).
      * rewrite (nth_error_nth _ _ _ Hc). unfold s1. cbn [heap set_heap read].
        destruct (nth_error (heap s) id) as [v|] eqn:Ev; [|apply nth_error_None in Ev; lia].
        rewrite (value_of_error _ id (Var (vname v) (vdtype v) (read (heap s) c))); [reflexivity|]. rewrite nth_error_write, Nat.eqb_refl, Ev. reflexivity.
      * intros id' Q Hin. injection Q as <-. apply in_map_iff in Hin as (j' & Ej & Hj'). apply in_seq in Hj'. destruct (HP j') as (c' & id' & _ & Hr' & _); [lia|].
        destruct (idn_ok j' id' Hr') as [Ej' _]. assert (id' = id) by congruence. subst id'.
        assert (i = j'); [|lia]. apply (proj1 (NoDup_nth_error _) HD); [apply nth_error_Some; congruence|congruence].
    + rewrite V by lia. destruct (HP j) as (c' & id' & Hc' & Hr' & _); [lia|]. rewrite (nth_error_nth _ _ _ Hc'). apply (only_read [id]); auto.
      intros x -> [<-|[]]. specialize (HA j id Hc'). assert (Hj' : nth_error (vcores ref) j = Some (CVar id)) by (apply HA; eapply nth_error_In; exact Hr).
      apply Nj. apply (proj1 (NoDup_nth_error _) HD); [apply nth_error_Some; congruence|congruence].
Qed.

Lemma map_read_eq (h h' : list (var K)) (l m : list (cref K)) : length l = length m -> (forall j, j < length m -> read h' (nth j l (CVar 0)) = read h (nth j m (CVar 0))) -> map (read h') l = map (read h) m.
Proof.
  intros HL H. apply (nth_ext _ _ (Tensor [] []) (Tensor [] [])); rewrite !map_length; auto. intros j Hj.
  rewrite !(nth_map' _ _ j (CVar 0)) by lia. apply H. lia.
Qed.
Lemma self_nth {A} (l : list A) d : map (fun j => nth j l d) (seq 0 (length l)) = l.
Proof.
  apply (nth_ext _ _ d d); [now rewrite map_length, seq_length|]. rewrite map_length, seq_length. intros j Hj. rewrite (nth_map' _ _ j 0) by now rewrite seq_length. now rewrite seq_nth.
Qed.
(** Success. *)
Lemma assign_ok s : NoDup (vcores ref) -> no_alias -> length (vcores val) = length (vcores ref) -> (forall j, j < length (vcores ref) -> passes s j) -> wf (deref (heap s) val) ->
  exists s', assign ref val s = (s', Ok (VObj (vcores ref) (vrshape val) (vrks val) (vbsz val) (vdt ref))) /\
    only (ids_of ref) (heap s) (heap s') /\ names s' = names s /\ coll s' = coll s /\ losses s' = losses s /\ map (read (heap s')) (vcores ref) = map (read (heap s)) (vcores val).
Proof.
  intros HD HA HL HP HW. destruct (assign_loop (length (vcores ref)) HD HA 0 [] s) as (s' & E & O & E1 & E2 & E3 & V); [intros j Hj; apply HP; lia|].
  assert (ER : map (read (heap s')) (vcores ref) = map (read (heap s)) (vcores val)) by (apply map_read_eq; [auto|]; intros j Hj; apply V; lia).
  exists s'. split; [|split; [|auto]].
  - change (assign ref val s) with (bindM (forM (assign_body ref val) (seq 0 (length (vcores ref))) [])
      (fun cs s => liftR (construct (heap s) cs (vrshape val) (vrks val) (vbsz val) (vdt ref)) s) s).
    unfold bindM. rewrite E. cbn [app]. rewrite self_nth. unfold liftR. f_equal.
    exact (construct_ok (heap s') (vcores ref) (deref (heap s) val) (vdt ref) HW ER).
  - eapply only_sub; [|exact O]. intros x Hx. apply in_map_iff in Hx as (j & Ej & Hj). apply in_seq in Hj. destruct (HP j) as (c & id & _ & Hr & _); [lia|].
    destruct (idn_ok j id Hr) as [Q _]. apply ids_in. rewrite <- Ej, Q. eapply nth_error_In; exact Hr.
Qed.
(** Failure: the cores before the first one that does not pass have been written. *)
Lemma assign_fails s k : NoDup (vcores ref) -> no_alias -> k < length (vcores ref) -> (forall j, j < k -> passes s j) -> ~ passes s k ->
  (forall c, In c (vcores ref) -> exists id, c = CVar id /\ id < length (heap s)) ->
  exists s', assign ref val s = (s', Err (if Nat.ltb k (length (vcores val)) then ValueError else IndexError)) /\
    only (map idn (seq 0 k)) (heap s) (heap s') /\ names s' = names s /\ coll s' = coll s /\ losses s' = losses s /\
    (forall j, j < k -> read (heap s') (nth j (vcores ref) (CVar 0)) = read (heap s) (nth j (vcores val) (CVar 0))) /\
    (forall j, k <= j < length (vcores ref) -> read (heap s') (nth j (vcores ref) (CVar 0)) = read (heap s) (nth j (vcores ref) (CVar 0))).
Proof.
  intros HD HA Hk HP HF HV. destruct (assign_loop k HD HA 0 [] s) as (s' & E & O & E1 & E2 & E3 & V); [intros j Hj; apply HP; lia|].
  exists s'. split; [|split; [exact O|do 3 (split; [auto|]); split; [intros j Hj; apply V; lia|]]].
  - change (assign ref val s) with (bindM (forM (assign_body ref val) (seq 0 (length (vcores ref))) [])
      (fun cs s => liftR (construct (heap s) cs (vrshape val) (vrks val) (vbsz val) (vdt ref)) s) s).
    unfold bindM at 1. replace (length (vcores ref)) with (k + S (length (vcores ref) - S k)) by lia. rewrite seq_app, forM_app. unfold bindM at 1. rewrite E. cbn [seq forM plus].
    unfold bindM at 1. unfold assign_body at 1, nthr. destruct (nth_error (vcores val) k) as [c|] eqn:Ec.
    + assert (Hlt : k < length (vcores val)) by (apply nth_error_Some; congruence). apply Nat.ltb_lt in Hlt. rewrite Hlt.
      destruct (HV (nth k (vcores ref) (CVar 0)) (nth_In _ _ Hk)) as (id & Er & Hid). rewrite Er.
      destruct (assign_check (heap s') (CVar id) c (vdt val)) as [[id' x]|e] eqn:EC.
      * exfalso. apply HF. apply check_inv in EC as (Q & -> & Q1 & Q2). injection Q as <-. exists c, id. split; auto. split; [rewrite <- Er; now apply nth_error_nth'|]. split; auto.
        rewrite <- (only_dtype _ _ _ id O), Q1. split; auto. rewrite <- (only_shape _ _ _ c O), Q2. exact (only_shape _ _ _ (CVar id) O).
      * unfold assign_check in EC. destruct (negb (dtype_eqb _ _)); [injection EC as <-; reflexivity|]. destruct (negb (list_eqb _ _)); [injection EC as <-; reflexivity|discriminate].
    + apply nth_error_None in Ec. replace (Nat.ltb k (length (vcores val))) with false by (symmetry; now apply Nat.ltb_ge). reflexivity.
  - intros j Hj. apply (only_read _ _ _ _ O). intros id Q Hin. apply in_map_iff in Hin as (i & Ei & Hi). apply in_seq in Hi. destruct (HP i) as (c & id' & _ & Hr & _); [lia|].
    destruct (idn_ok i id' Hr) as [Q' _]. assert (id' = id) by congruence. subst id'. assert (i = j); [|lia]. apply (proj1 (NoDup_nth_error _) HD); [apply nth_error_Some; congruence|].
    assert (X : nth_error (vcores ref) j = Some (nth j (vcores ref) (CVar 0))) by (apply nth_error_nth'; lia). congruence.
Qed.

(** Graph mode. *)
Lemma upd_length {A} k (x : A) l : length (upd k x l) = length l.
Proof. revert k. induction l as [|a l IH]; intros [|k]; cbn; auto. Qed.
Lemma run_ops_other ops id : forall s, ~ In id (map fst ops) -> value_of (heap (run_ops ops s)) id = value_of (heap s) id.
Proof.
  induction ops as [|[j z] ops IH]; intros s1 N1; auto.
  change (run_ops ((j, z) :: ops) s1) with (run_ops ops (set_heap s1 (write (heap s1) j z))). rewrite IH; [|intros H; apply N1; now right].
  cbn [heap set_heap].
  assert (E : nth_error (write (heap s1) j z) id = nth_error (heap s1) id). { rewrite nth_error_write. destruct (Nat.eqb_spec id j) as [->|]; auto. exfalso. apply N1. now left. }
  destruct (nth_error (heap s1) id) as [v|] eqn:Ev.
  + now rewrite (value_of_error _ _ _ E), (value_of_error _ _ _ Ev).
  + unfold value_of. apply nth_error_None in E. apply nth_error_None in Ev. now rewrite !nth_overflow by now rewrite map_length.
Qed.
Lemma run_ops_value ops : forall s, NoDup (map fst ops) -> (forall p, In p ops -> fst p < length (heap s)) -> forall id x, In (id, x) ops -> value_of (heap (run_ops ops s)) id = x.
Proof.
  induction ops as [|[i y] ops IH]; intros s HN HL id x; [intros []|]. inversion HN as [|? ? N1 N2]; subst.
  change (run_ops ((i, y) :: ops) s) with (run_ops ops (set_heap s (write (heap s) i y))). set (s1 := set_heap s (write (heap s) i y)).
  assert (L1 : length (heap s1) = length (heap s)) by (unfold s1, write; cbn [heap set_heap]; apply upd_length).
  intros [Q|Hin].
  - injection Q as -> ->. pose proof (HL (id, x) (or_introl eq_refl)) as Hid. cbn [fst] in Hid.
    assert (W : value_of (heap s1) id = x).
    { destruct (nth_error (heap s) id) as [v|] eqn:Ev; [|apply nth_error_None in Ev; lia]. apply (value_of_error _ id (Var (vname v) (vdtype v) x)). unfold s1. cbn [heap set_heap]. now rewrite nth_error_write, Nat.eqb_refl, Ev. }
    rewrite run_ops_other; auto.
  - apply IH; auto. intros p Hp. rewrite L1. apply HL. now right.
Qed.
Lemma graph_assign_ok s : NoDup (vcores ref) -> (forall c, In c (vcores val) -> exists t, c = CTensor t) -> length (vcores val) = length (vcores ref) -> (forall j, j < length (vcores ref) -> passes s j) ->
  wf (deref (heap s) ref) -> vrshape val = vrshape ref -> vrks val = vrks ref -> vbsz val = vbsz ref ->
  exists ops, assign_graph ref val s = Ok (ops, VObj (vcores ref) (vrshape val) (vrks val) (vbsz val) (vdt ref)) /\
    only (ids_of ref) (heap s) (heap (run_ops ops s)) /\ names (run_ops ops s) = names s /\ coll (run_ops ops s) = coll s /\ losses (run_ops ops s) = losses s /\
    map (read (heap (run_ops ops s))) (vcores ref) = map (read (heap s)) (vcores val).
Proof.
  intros HD HT HL HP HW R1 R2 R3. set (ops := map (fun j => (idn j, read (heap s) (nth j (vcores val) (CVar 0)))) (seq 0 (length (vcores ref)))).
  assert (EM : mapM (fun i => do c <- nthr (vcores val) i; assign_check (heap s) (nth i (vcores ref) (CVar 0)) c (vdt val)) (seq 0 (length (vcores ref))) = Ok ops).
  { unfold ops. assert (X : forall j, In j (seq 0 (length (vcores ref))) -> (do c <- nthr (vcores val) j; assign_check (heap s) (nth j (vcores ref) (CVar 0)) c (vdt val)) = Ok (idn j, read (heap s) (nth j (vcores val) (CVar 0)))).
    { intros j Hj. apply in_seq in Hj. destruct (HP j) as (c & id & Hc & Hr & _ & Hty & Hsh); [lia|]. destruct (idn_ok j id Hr) as [Ei En]. unfold nthr. rewrite Hc. cbn [bind].
      rewrite Ei, (nth_error_nth _ _ _ Hc). now apply check_ok. }
    revert X. generalize (seq 0 (length (vcores ref))). induction l as [|j l IH]; intros X; cbn; auto. rewrite (X j) by now left. cbn [bind]. rewrite IH by (intros; apply X; now right). reflexivity. }
  assert (EC : map (fun p => CVar (fst p)) ops = vcores ref).
  { unfold ops. rewrite map_map. cbn [fst]. rewrite <- (self_nth (vcores ref) (CVar 0)) at 2. apply map_ext_in. intros j Hj. apply in_seq in Hj. destruct (HP j) as (c & id & _ & Hr & _); [lia|].
    now destruct (idn_ok j id Hr) as [-> ->]. }
  assert (EG : assign_graph ref val s = Ok (ops, VObj (vcores ref) (vrshape val) (vrks val) (vbsz val) (vdt ref))).
  { unfold assign_graph. rewrite EM. cbn [bind]. rewrite EC, R1, R2, R3. pose proof (construct_ok (heap s) (vcores ref) (deref (heap s) ref) (vdt ref) HW eq_refl) as X.
    cbn [rshape rks bsz deref] in X. rewrite X. reflexivity. }
  exists ops. split; [exact EG|]. destruct (run_ops_only ops s (ids_of ref) (graph_ops_ok _ _ _ _ _ EG)) as (A & B & C & D). do 4 (split; [assumption|]).
  apply map_read_eq; [auto|]. intros j Hj. rewrite HL in Hj. destruct (HP j Hj) as (c & id & Hc & Hr & Hid & _). destruct (idn_ok j id Hr) as [Ei En]. rewrite En. cbn [read].
  apply run_ops_value.
  - apply NoDup_map_inv with (f := @CVar K). rewrite map_map. now rewrite EC.
  - intros p Hp. unfold ops in Hp. apply in_map_iff in Hp as (i & <- & Hi). apply in_seq in Hi. cbn [fst]. destruct (HP i) as (c' & id' & _ & Hr' & Hid' & _); [lia|]. now destruct (idn_ok i id' Hr') as [-> _].
  - unfold ops. apply in_map_iff. exists j. rewrite Ei. split; auto. apply in_seq. lia.
Qed.
End A.
