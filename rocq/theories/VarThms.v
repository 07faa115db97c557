(** get_variable: creation, second creation, reuse. *)
From Coq Require Import String Ascii List Arith Lia Bool DecimalString DecimalNat.
From Verif Require Import Scalar Tensor TensorLemmas Base Spec Chain BaseLemmas ConstructProofs Dense Vars VarSpec VarProofs.
Import ListNotations.
Local Open Scope nat_scope.
Local Open Scope string_scope.
Local Open Scope list_scope.

(** ** Names *)
Lemma all_chars_app f a b : all_chars f (a ++ b) = all_chars f a && all_chars f b.
Proof. induction a as [|c a IH]; cbn; auto. now rewrite IH, andb_assoc. Qed.
Lemma digits_ok u : all_chars inner_char (NilEmpty.string_of_uint u) = true.
Proof. induction u; cbn; auto. Qed.
Lemma valid_core p i : valid_op_name p = true -> valid_op_name (core_path p i) = true.
Proof.
  destruct p as [|c p]; [discriminate|]. unfold core_path, core_label. cbn [valid_op_name append]. intros H. apply andb_true_iff in H as [A B]. rewrite A. cbn [andb].
  rewrite all_chars_app, B. cbn [andb]. change (all_chars inner_char ("/" ++ "core_" ++ NilEmpty.string_of_uint (Nat.to_uint i)) = true). rewrite !all_chars_app, digits_ok. reflexivity.
Qed.
(** The name of a core in a scope. *)
Definition cname (p : string) (i : nat) : string := if String.eqb p "" then core_label i else (p ++ "/" ++ core_label i)%string.
Lemma cname_path p i : p <> "" -> cname p i = core_path p i.
Proof. intros H. unfold cname. now apply String.eqb_neq in H as ->. Qed.
Lemma cname_inj p i j : cname p i = cname p j -> i = j.
Proof. unfold cname. destruct (String.eqb p ""); [apply core_label_inj|apply core_path_inj]. Qed.
Lemma enter_name sc n : sname (enter sc n) = full_path sc n. Proof. reflexivity. Qed.

Section Thms.
Context {K : cring} {loss : Type}.
Implicit Types s : store K loss.

Lemma tf_cases eager sc l dt init s s' r : tf_get_variable eager sc l dt init s = (s', r) ->
  let n := if String.eqb (sname sc) "" then l else (sname sc ++ "/" ++ l)%string in
  (s' = s /\ (r = Err ValueError \/ exists id, r = Ok id /\ eager = false /\ lookup n s = Some id /\ sreuse sc <> NoReuse /\ dtype_of s id = match dt with Some d => d | None => Float32 end)) \/
  (exists d x, init = Some (d, x) /\ (eager = false -> lookup n s = None /\ valid_op_name n = true /\ sreuse sc <> Reuse) /\ (dt = None \/ dt = Some d) /\
     s' = Store (heap s ++ [Var n d x]) (if eager then names s else names s ++ [(n, length (heap s))]) (coll s) (losses s) /\ r = Ok (length (heap s))).
Proof.
  unfold tf_get_variable. cbv zeta. set (n := if String.eqb (sname sc) "" then l else (sname sc ++ "/" ++ l)%string).
  destruct (match dt, init with Some d, Some (d', _) => negb (dtype_eqb d d') | _, _ => false end) eqn:ED.
  { intros E. injection E as <- <-. auto. }
  assert (C : forall P : Prop, P -> (match init with None => raise ValueError | Some (d', x) => new_variable eager n d' x end) s = (s', r) ->
     (s' = s /\ r = Err ValueError) \/ exists d x, init = Some (d, x) /\ P /\ (dt = None \/ dt = Some d) /\
       s' = Store (heap s ++ [Var n d x]) (if eager then names s else names s ++ [(n, length (heap s))]) (coll s) (losses s) /\ r = Ok (length (heap s))).
  { intros P HP. destruct init as [[d x]|].
    - intros E. injection E as <- <-. right. exists d, x. do 2 (split; [auto|]). split; [|auto]. destruct dt as [d0|]; auto. right. apply negb_false_iff, dtype_eqb_eq in ED. congruence.
    - intros E. injection E as <- <-. auto. }
  destruct eager.
  - intros E. apply (C True I) in E as [[-> ->]|(d & x & E1 & _ & E2)]; [auto|]. right. exists d, x. split; [auto|]. split; [discriminate|exact E2].
  - destruct (lookup n s) as [id|] eqn:EL.
    + intros E. left. destruct (sreuse sc) eqn:ER; [injection E as <- <-; auto| |];
      (destruct (dtype_eqb _ _) eqn:EQ; injection E as <- <-; [|auto]; split; [auto|]; right; exists id; do 3 (split; [auto; try discriminate|]); split; [discriminate|]; apply dtype_eqb_eq in EQ; symmetry; exact EQ).
    + destruct (sreuse sc) eqn:ER; [|intros E; injection E as <- <-; auto|];
      (destruct (valid_op_name n) eqn:EV; [|intros E; injection E as <- <-; auto]; intros E;
       apply (C True I) in E as [[-> ->]|(d & x & E1 & _ & E2)]; [auto|]; right; exists d, x; split; [auto|]; split; [|exact E2]; intros _; repeat split; auto; discriminate).
Qed.

Definition create_body eager sc dt (init : vobj K) (i : nat) (acc : list (cref K)) : M K loss (list (cref K)) :=
  bindM (fun s => (s, nthr (vcores init) i)) (fun c s =>
    bindM (tf_get_variable eager sc (core_label i) dt (Some (vdt init, read (heap s) c))) (fun id => ret (acc ++ [CVar id])) s).
Lemma read_keeps s s' (c : cref K) : keeps s s' -> (forall id, c = CVar id -> id < length (heap s)) -> read (heap s') c = read (heap s) c.
Proof.
  intros (A & _) H. destruct c as [t|id]; auto. cbn. specialize (H id eq_refl). destruct (nth_error (heap s) id) as [v|] eqn:E; [|apply nth_error_None in E; lia].
  now rewrite (value_of_error _ _ _ E), (value_of_error _ _ _ (A id v E)).
Qed.
Lemma deref_keeps s s' (o : vobj K) : keeps s s' -> refs_ok s o -> deref (heap s') o = deref (heap s) o.
Proof.
  intros HK HR. unfold deref. f_equal. apply map_ext_in. intros c Hc. apply read_keeps; auto. intros id ->. now apply HR.
Qed.

(** One round. *)
Lemma body_ok eager sc dt init i acc s c : nth_error (vcores init) i = Some c -> (dt = None \/ dt = Some (vdt init)) ->
  (eager = false -> sreuse sc = NoReuse /\ lookup (cname (sname sc) i) s = None /\ valid_op_name (cname (sname sc) i) = true) ->
  create_body eager sc dt init i acc s =
    (Store (heap s ++ [Var (cname (sname sc) i) (vdt init) (read (heap s) c)]) (if eager then names s else names s ++ [(cname (sname sc) i, length (heap s))]) (coll s) (losses s),
     Ok (acc ++ [CVar (length (heap s))])).
Proof.
  intros Hc Hd He. unfold create_body, bindM, nthr. rewrite Hc. unfold tf_get_variable. fold (cname (sname sc) i).
  assert (D : match dt with Some d => negb (dtype_eqb d (vdt init)) | None => false end = false) by (destruct Hd as [->| ->]; auto; apply negb_false_iff, dtype_eqb_eq; reflexivity).
  rewrite D. destruct eager; [reflexivity|]. destruct (He eq_refl) as (R & L & V). rewrite L, R, V. reflexivity.
Qed.
Lemma loop_ok eager sc dt init k : forall i acc s, i + k <= length (vcores init) -> (dt = None \/ dt = Some (vdt init)) -> refs_ok s init ->
  (eager = false -> sreuse sc = NoReuse /\ forall j, i <= j < i + k -> lookup (cname (sname sc) j) s = None /\ valid_op_name (cname (sname sc) j) = true) ->
  exists s', forM (create_body eager sc dt init) (seq i k) acc s = (s', Ok (acc ++ map CVar (seq (length (heap s)) k))) /\
    heap s' = heap s ++ map (fun j => Var (cname (sname sc) j) (vdt init) (read (heap s) (nth j (vcores init) (CVar 0)))) (seq i k) /\
    coll s' = coll s /\ losses s' = losses s /\ keeps s s' /\
    (eager = false -> forall j, j < k -> lookup (cname (sname sc) (i + j)) s' = Some (length (heap s) + j)) /\
    (forall n id, lookup n s' = Some id -> lookup n s = Some id \/ eager = false /\ exists j, j < k /\ n = cname (sname sc) (i + j)).
Proof.
  induction k as [|k IH]; intros i acc s Hk Hd HR He.
  - exists s. cbn. rewrite !app_nil_r. do 4 (split; [auto|]). split; [apply keeps_refl|]. split; [intros; lia|auto].
  - cbn [seq forM map]. destruct (nth_error (vcores init) i) as [c|] eqn:Hc; [|apply nth_error_None in Hc; lia].
    unfold bindM at 1. rewrite (body_ok eager sc dt init i acc s c Hc Hd); [|intros ->; destruct (He eq_refl) as [A B]; destruct (B i); [lia|]; auto].
    set (s1 := Store _ _ _ _).
    assert (K1 : keeps s s1).
    { pose proof (nv_keeps eager (cname (sname sc) i) (vdt init) (read (heap s) c) s) as X. unfold new_variable in X. exact X. }
    destruct (IH (S i) (acc ++ [CVar (length (heap s))]) s1) as (s' & E & Eh & Ec & El & HK & HL & HN); auto; [lia| | |].
    { intros id Hid. specialize (HR id Hid). unfold s1. cbn [heap]. rewrite app_length. lia. }
    { intros ->. destruct (He eq_refl) as [A B]. split; auto. intros j Hj. destruct (B j) as [B1 B2]; [lia|]. split; auto. unfold s1. rewrite lookup_other; auto. intros Q. apply cname_inj in Q. lia. }
    assert (HL1 : length (heap s1) = S (length (heap s))) by (unfold s1; cbn [heap]; rewrite app_length; cbn; lia).
    exists s'. split; [|split; [|split; [|split; [|split; [|split]]]]].
    + rewrite E, HL1, <- app_assoc. reflexivity.
    + rewrite Eh. unfold s1 at 1. cbn [heap]. rewrite <- app_assoc. cbn [app]. rewrite (nth_error_nth _ _ _ Hc). do 2 f_equal.
      apply map_ext_in. intros j Hj. apply in_seq in Hj. f_equal. apply read_keeps; auto. intros id Q. apply HR. rewrite <- Q. apply nth_In. lia.
    + now rewrite Ec.
    + now rewrite El.
    + eapply keeps_trans; eauto.
    + intros E0. subst eager. intros [|j] Hj.
      * rewrite Nat.add_0_r. replace (length (heap s) + 0) with (length (heap s)) by lia. apply (proj1 (proj2 HK)). unfold s1. apply lookup_new. destruct (He eq_refl) as [_ B]. apply (B i). lia.
      * replace (i + S j) with (S i + j) by lia. rewrite HL by (auto; lia). f_equal. lia.
    + intros n id Hn. destruct (HN n id Hn) as [A|(A & j & Hj & B)].
      * unfold s1 in A. destruct eager; [left; exact A|]. destruct (string_dec n (cname (sname sc) i)) as [->|N].
        -- right. split; auto. exists 0. split; [lia|]. now rewrite Nat.add_0_r.
        -- left. rewrite lookup_other in A; auto.
      * right. split; auto. exists (S j). split; [lia|]. rewrite B. f_equal. lia.
Qed.
Lemma create_ok eager sc dt init s : (dt = None \/ dt = Some (vdt init)) -> refs_ok s init ->
  (eager = false -> sreuse sc = NoReuse /\ forall j, j < length (vcores init) -> lookup (cname (sname sc) j) s = None /\ valid_op_name (cname (sname sc) j) = true) ->
  exists s', create_cores eager sc dt init s = (s', Ok (map CVar (seq (length (heap s)) (length (vcores init))))) /\
    heap s' = heap s ++ map (fun j => Var (cname (sname sc) j) (vdt init) (read (heap s) (nth j (vcores init) (CVar 0)))) (seq 0 (length (vcores init))) /\
    coll s' = coll s /\ losses s' = losses s /\ keeps s s' /\
    (eager = false -> forall j, j < length (vcores init) -> lookup (cname (sname sc) j) s' = Some (length (heap s) + j)) /\
    (forall n id, lookup n s' = Some id -> lookup n s = Some id \/ eager = false /\ exists j, j < length (vcores init) /\ n = cname (sname sc) j).
Proof.
  intros Hd HR He. destruct (loop_ok eager sc dt init (length (vcores init)) 0 [] s) as (s' & E & R); auto.
  - intros E0. destruct (He E0) as [A B]. split; auto. intros j Hj. apply B. lia.
  - exists s'. split; [exact E|]. exact R.
Qed.

(** The constructor accepts the new variables. *)
Lemma construct_ok h (cs : list (cref K)) (t : tt K) d : wf t -> map (read h) cs = cores t ->
  construct h cs (rshape t) (rks t) (bsz t) d = Ok (VObj cs (rshape t) (rks t) (bsz t) d).
Proof.
  intros Hw Hc. unfold construct. rewrite Hc.
  pose proof (wf_shaped K t Hw) as S0. unfold bpre in S0.
  assert (Ne : rshape t <> []) by (destruct (wf_kind Hw) as [E|E]; intros X; rewrite X in E; discriminate).
  pose proof (wf_d Hw) as Hd. pose proof (wf_rlen Hw). pose proof (wf_klen Hw). pose proof (wf_first Hw). pose proof (wf_last Hw).
  destruct t as [c s r b]. unfold ndims, rk in *. cbn [bsz cores rshape rks] in *. destruct b as [b|].
  - now rewrite TensorTrainBatch_ok by auto.
  - now rewrite TensorTrain_ok by auto.
Qed.

Definition run_reg (reg : option (tt K -> res (option loss))) (t : tt K) : res (option loss) := match reg with None => Ok None | Some f => f t end.
Definition with_loss (l : list loss) (x : option loss) : list loss := match x with Some y => l ++ [y] | None => l end.

Section Create.
Variables (eager : bool) (sc : scope) (name : string) (dt : option dtype) (init : vobj K) (s : store K loss).
Hypothesis (Hw : wf (deref (heap s) init)) (Hd : dt = None \/ dt = Some (vdt init)) (HR : refs_ok s init).
Let p := full_path sc name.
Hypothesis He : eager = false -> sreuse sc = NoReuse /\ forall j, j < length (vcores init) -> lookup (cname p j) s = None /\ valid_op_name (cname p j) = true.

Definition new_object : vobj K := VObj (map CVar (seq (length (heap s)) (length (vcores init)))) (vrshape init) (vrks init) (vbsz init) (vdt init).

Lemma create_full reg :
  exists s', heap s' = heap s ++ map (fun j => Var (cname p j) (vdt init) (read (heap s) (nth j (vcores init) (CVar 0)))) (seq 0 (length (vcores init))) /\
    coll s' = coll s ++ [new_object] /\ losses s' = losses s /\ keeps s s' /\
    (eager = false -> forall j, j < length (vcores init) -> lookup (cname p j) s' = Some (length (heap s) + j)) /\
    (forall n id, lookup n s' = Some id -> lookup n s = Some id \/ eager = false /\ exists j, j < length (vcores init) /\ n = cname p j) /\
    deref (heap s') new_object = deref (heap s) init /\
    get_variable eager sc name dt (Some init) reg s =
      match run_reg reg (deref (heap s) init) with
      | Err e => (s', Err e)
      | Ok None => (s', Ok new_object)
      | Ok (Some l) => if eager then (s', Err AttributeError) else (Store (heap s') (names s') (coll s') (losses s' ++ [l]), Ok new_object)
      end.
Proof.
  destruct (create_ok eager (enter sc name) dt init s Hd HR He) as (s1 & E & Eh & Ec & El & HK & HL & HN). rewrite enter_name in *. fold p in Eh, HL, HN.
  set (s2 := Store (heap s1) (names s1) (coll s1 ++ [new_object]) (losses s1)).
  assert (HD : map (read (heap s1)) (map CVar (seq (length (heap s)) (length (vcores init)))) = map (read (heap s)) (vcores init)).
  { rewrite map_map. apply (nth_ext _ _ (Tensor [] []) (Tensor [] [])); rewrite !map_length, ?seq_length; auto. intros j Hj.
    rewrite (nth_map' _ _ j 0) by now rewrite seq_length. rewrite seq_nth by auto. cbn [read]. unfold value_of. rewrite Eh, map_app, app_nth2 by (rewrite map_length; lia).
    rewrite map_length. replace (length (heap s) + j - length (heap s)) with j by lia. rewrite map_map. rewrite (nth_map' _ _ j 0) by now rewrite seq_length. rewrite seq_nth by auto. cbn [vval].
    now rewrite (nth_map' _ _ j (CVar 0)) by auto. }
  exists s2. unfold s2. cbn [heap coll losses]. split; [exact Eh|]. split; [now rewrite Ec|]. split; [auto|]. split.
  { destruct HK as (A & B & C & D). split; [exact A|]. split; [exact B|]. split; [|exact D]. cbn [coll]. exists [new_object]. now rewrite Ec. }
  split; [exact HL|]. split; [exact HN|].
  assert (HDD : deref (heap s1) new_object = deref (heap s) init) by (unfold deref, new_object; cbn [vcores vrshape vrks vbsz]; now rewrite HD).
  split; [exact HDD|].
  unfold get_variable.
  assert (E1 : (negb (eager || truthy (sreuse sc)) && false) = false) by apply andb_false_r. rewrite E1. clear E1.
  assert (E2 : (eager || truthy (sreuse sc)) && negb eager = false).
  { destruct eager; [reflexivity|]. destruct (He eq_refl) as [-> _]. reflexivity. }
  rewrite E2. clear E2. unfold bindM at 1. rewrite E.
  unfold bindM at 1, liftR at 1. change (vrshape init) with (rshape (deref (heap s) init)). change (vrks init) with (rks (deref (heap s) init)). change (vbsz init) with (bsz (deref (heap s) init)).
  rewrite (construct_ok (heap s1) _ (deref (heap s) init) (vdt init) Hw HD).
  change (VObj _ (rshape (deref (heap s) init)) (rks (deref (heap s) init)) (bsz (deref (heap s) init)) (vdt init)) with new_object.
  unfold bindM at 1. cbn [heap names coll losses].
  destruct reg as [f|]; cbn [run_reg]; [|reflexivity]. unfold bindM, liftR. cbn [heap]. rewrite HDD.
  destruct (f (deref (heap s) init)) as [[l|]|e]; try reflexivity. destruct eager; reflexivity.
Qed.
End Create.

(** ** Reuse *)
Definition inv s : Prop :=
  (forall n id, lookup n s = Some id -> exists v, nth_error (heap s) id = Some v /\ vname v = n) /\
  (forall o, In o (coll s) -> exists p id cs, vcores o = CVar id :: cs /\ lookup (cname p 0) s = Some id /\ valid_op_name (cname p 0) = true).
Lemma inv_empty : inv (empty_store (K := K) (loss := loss)).
Proof. split; [intros n id H; discriminate|intros o []]. Qed.
Lemma obj_name_ok s o p id cs : inv s -> vcores o = CVar id :: cs -> lookup (cname p 0) s = Some id -> obj_name (heap s) o = if String.eqb p "" then "core_0:" else p.
Proof.
  intros [H1 _] Hc Hl. unfold obj_name. rewrite Hc. destruct (H1 _ _ Hl) as (v & Hv & Hn). rewrite (vname_error _ _ _ "" Hv), Hn. unfold cname.
  destruct (String.eqb_spec p "") as [->|N]; [reflexivity|]. rewrite sapp_assoc.
  change (("/" ++ core_label 0) ++ ":0")%string with "/core_0:0". rewrite (before_app p "/core_0:0" "" eq_refl). apply sapp_nil.
Qed.
(** names only grow by new variables *)
Lemma inv_new s n d x : inv s -> lookup n s = None ->
  inv (Store (heap s ++ [Var n d x]) (names s ++ [(n, length (heap s))]) (coll s) (losses s)).
Proof.
  intros [H1 H2] HN. split.
  - intros m id. destruct (string_dec m n) as [->|Q].
    + rewrite lookup_new by auto. intros E. injection E as <-. exists (Var n d x). cbn [heap]. rewrite nth_error_app2, Nat.sub_diag by lia. auto.
    + rewrite lookup_other by auto. intros E. destruct (H1 m id E) as (v & A & B). exists v. split; auto. cbn [heap]. rewrite nth_error_app1; auto. apply nth_error_Some. congruence.
  - intros o Ho. destruct (H2 o Ho) as (p & id & cs & A & B & C). exists p, id, cs. split; auto. split; auto. now apply lookup_app.
Qed.
Lemma inv_tf sc l dt init s : inv s -> inv (fst (tf_get_variable false sc l dt init s)).
Proof.
  intros H. destruct (tf_get_variable false sc l dt init s) as [s' r] eqn:E. cbn [fst]. apply tf_cases in E. cbv zeta in E.
  destruct E as [[-> _]|(d & x & _ & A & _ & -> & _)]; auto. apply inv_new; auto. now apply A.
Qed.
Lemma inv_for {A S} (f : A -> S -> M K loss S) l : (forall a st s, inv s -> inv (fst (f a st s))) -> forall st s, inv s -> inv (fst (forM f l st s)).
Proof.
  intros H. induction l as [|a l IH]; intros st s Hs; cbn; auto. unfold bindM. specialize (H a st s Hs). destruct (f a st s) as [s' [st'|e]]; cbn in *; auto.
Qed.
Lemma inv_body sc dt init i acc s : inv s -> inv (fst (create_body false sc dt init i acc s)).
Proof.
  intros H. unfold create_body, bindM. destruct (nthr (vcores init) i) as [c|e]; [|exact H].
  pose proof (inv_tf sc (core_label i) dt (Some (vdt init, read (heap s) c)) s H) as H'.
  destruct (tf_get_variable _ _ _ _ _ s) as [s' [id|e]]; exact H'.
Qed.
(** A successful loop in graph mode without reuse creates the first core. *)
Lemma loop_first sc dt init l : forall acc s s' cs, sreuse sc = NoReuse -> inv s -> forM (create_body false sc dt init) l acc s = (s', Ok cs) ->
  keeps s s' /\ inv s' /\ exists cs', cs = acc ++ cs' /\ length cs' = length l /\
    match l with [] => True | i :: _ => exists id r, cs' = CVar id :: r /\ lookup (cname (sname sc) i) s' = Some id /\ valid_op_name (cname (sname sc) i) = true /\ lookup (cname (sname sc) i) s = None /\ exists w, nth_error (heap s') id = Some w /\ vdtype w = vdt init end.
Proof.
  induction l as [|i l IH]; intros acc s s' cs HN Hs; cbn [forM].
  - intros E. injection E as <- <-. split; [apply keeps_refl|]. split; auto. exists []. now rewrite app_nil_r.
  - unfold bindM. pose proof (inv_body sc dt init i acc s Hs) as H1. destruct (create_body false sc dt init i acc s) as [s1 [acc1|e]] eqn:E1; [|discriminate].
    intros E. cbn [fst] in H1. destruct (IH acc1 s1 s' cs HN H1 E) as (HK & Hi & cs1 & -> & Hlen & _).
    unfold create_body, bindM in E1. destruct (nthr (vcores init) i) as [c|e]; [|discriminate].
    destruct (tf_get_variable _ _ _ _ _ s) as [s2 [id|e]] eqn:E2; [|discriminate]. injection E1 as <- <-. apply tf_cases in E2. cbv zeta in E2. fold (cname (sname sc) i) in E2.
    destruct E2 as [(_ & [Q|(id' & _ & _ & _ & Q & _)])|(d & x & Ei & A & _ & -> & Er)]; [discriminate|contradiction|]. injection Er as ->. destruct (A eq_refl) as (A1 & A2 & _).
    split; [|split; [exact Hi|]].
    + eapply keeps_trans; [|exact HK]. exact (nv_keeps false (cname (sname sc) i) d x s).
    + exists (CVar (length (heap s)) :: cs1). split; [now rewrite <- app_assoc|]. split; [cbn; lia|]. exists (length (heap s)), cs1. split; auto. split; [|split; [auto|split; [auto|]]].
      * apply (proj1 (proj2 HK)). now apply lookup_new.
      * injection Ei as <- <-. eexists. split; [apply (proj1 HK); cbn [heap]; rewrite nth_error_app2, Nat.sub_diag by lia; reflexivity|reflexivity].
Qed.
Lemma loop_coll sc dt init l : forall acc s, coll (fst (forM (create_body false sc dt init) l acc s)) = coll s.
Proof.
  induction l as [|j l IH]; intros acc s; cbn [forM]; auto. unfold bindM.
  assert (X : coll (fst (create_body false sc dt init j acc s)) = coll s).
  { unfold create_body, bindM. destruct (nthr (vcores init) j) as [c|e]; auto.
    destruct (tf_get_variable _ _ _ _ _ s) as [s3 r3] eqn:E3. apply tf_cases in E3. cbv zeta in E3.
    destruct E3 as [[-> _]|(d & x & _ & _ & _ & -> & _)]; destruct r3; reflexivity. }
  destruct (create_body false sc dt init j acc s) as [s2 [a|e]]; cbn [fst] in *; [now rewrite IH|auto].
Qed.
Lemma construct_inv h cs sh rs bs d (v : vobj K) : construct h cs sh rs bs d = Ok v -> vcores v = cs /\ cs <> [] /\ vdt v = d.
Proof.
  unfold construct. destruct (match bs with None => _ | Some _ => _ end) as [t|e] eqn:E; cbn; [|discriminate]. intros H. injection H as <-. cbn. split; [auto|]. split; [|auto]. intros ->.
  destruct bs as [b|]; cbn in E.
  - apply TensorTrainBatch_inv in E as (clean & b' & _ & N & _). now apply N.
  - apply TensorTrain_inv in E as (clean & _ & N & _). now apply N.
Qed.
(** What a call of get_variable in graph mode does to the collection. *)
Lemma get_graph sc name dt init reg s s' r : inv s -> get_variable false sc name dt init reg s = (s', r) ->
  inv s' /\ (coll s' = coll s \/ exists v id cs, coll s' = coll s ++ [v] /\ vcores v = CVar id :: cs /\ lookup (cname (full_path sc name) 0) s = None /\
     lookup (cname (full_path sc name) 0) s' = Some id /\ valid_op_name (cname (full_path sc name) 0) = true /\ (forall w, r = Ok w -> w = v) /\ exists i, init = Some i /\ vdt v = vdt i /\ exists w, nth_error (heap s') id = Some w /\ vdtype w = vdt i) /\
  (sreuse sc = NoReuse -> forall w, r = Ok w -> exists l, coll s' = l ++ [w] /\ l = coll s).
Proof.
  intros Hs. unfold get_variable. cbn [orb negb]. destruct (sreuse sc) eqn:ER; cbn [truthy negb andb].
  2,3: destruct (find _ (coll s)) as [v|] eqn:EF; [|intros E; injection E as <- <-; split; [auto|]; split; [auto|discriminate]]; unfold bindM;
    pose proof (inv_tf (enter sc name) "core_0" dt None s Hs) as HI;
    destruct (tf_get_variable false (enter sc name) "core_0" dt None s) as [s1 r1] eqn:E1; pose proof E1 as E2; apply tf_cases in E2; cbv zeta in E2;
    destruct E2 as [[-> _]|(d & x & Q & _)]; [|discriminate]; destruct r1; intros E; injection E as <- <-; (split; [auto|]; split; [auto|discriminate]).
  destruct init as [i|]; [|intros E; injection E as <- <-; split; [auto|]; split; [auto|discriminate]].
  unfold bindM at 1. destruct (create_cores false (enter sc name) dt i s) as [s1 r1] eqn:E1.
  assert (H1 : inv s1) by (pose proof (inv_for (create_body false (enter sc name) dt i) (seq 0 (length (vcores i))) (fun a st s0 => inv_body (enter sc name) dt i a st s0) [] s Hs) as X;
    change (forM (create_body false (enter sc name) dt i) _ [] s) with (create_cores false (enter sc name) dt i s) in X; now rewrite E1 in X).
  assert (C1 : coll s1 = coll s).
  { pose proof (loop_coll (enter sc name) dt i (seq 0 (length (vcores i))) [] s) as X. change (forM _ _ _ s) with (create_cores false (enter sc name) dt i s) in X. now rewrite E1 in X. }
  destruct r1 as [cs|e]; [|intros E; injection E as <- <-; split; [auto|]; split; [auto|discriminate]].
  assert (EN : sreuse (enter sc name) = NoReuse) by exact ER.
  destruct (loop_first (enter sc name) dt i _ [] s s1 cs EN Hs E1) as (HK & _ & cs' & Ecs & Hlen & HF). cbn [app] in Ecs. subst cs'.
  unfold bindM at 1, liftR at 1. destruct (construct (heap s1) cs (vrshape i) (vrks i) (vbsz i) (vdt i)) as [v|e] eqn:EC; [|intros E; injection E as <- <-; split; [auto|]; split; [auto|discriminate]].
  apply construct_inv in EC as (Ev & Nn & Ed).
  assert (HF' : exists id r, cs = CVar id :: r /\ lookup (cname (full_path sc name) 0) s1 = Some id /\ valid_op_name (cname (full_path sc name) 0) = true /\ lookup (cname (full_path sc name) 0) s = None /\ exists w, nth_error (heap s1) id = Some w /\ vdtype w = vdt i).
  { destruct (length (vcores i)) as [|d] eqn:EL; [destruct cs; [contradiction|discriminate]|]. exact HF. }
  destruct HF' as (id & rs & -> & L1 & V1 & L0 & w0 & W0 & D0).
  unfold bindM at 1. set (s2 := Store (heap s1) (names s1) (coll s1 ++ [v]) (losses s1)).
  assert (H2 : inv s2).
  { destruct H1 as [A B]. split; [exact A|]. intros o Ho. unfold s2 in Ho. cbn [coll] in Ho. apply in_app_or in Ho as [Ho|[<-|[]]]; [now apply B|].
    exists (full_path sc name), id, rs. auto. }
  assert (FIN : forall s3 r3, heap s3 = heap s2 -> names s3 = names s2 -> coll s3 = coll s2 -> (forall w, r3 = Ok w -> w = v) ->
    inv s3 /\ (coll s3 = coll s \/ exists v id cs, coll s3 = coll s ++ [v] /\ vcores v = CVar id :: cs /\ lookup (cname (full_path sc name) 0) s = None /\
     lookup (cname (full_path sc name) 0) s3 = Some id /\ valid_op_name (cname (full_path sc name) 0) = true /\ (forall w, r3 = Ok w -> w = v) /\ exists i', Some i = Some i' /\ vdt v = vdt i' /\ exists w, nth_error (heap s3) id = Some w /\ vdtype w = vdt i') /\
     (NoReuse = NoReuse -> forall w, r3 = Ok w -> exists l, coll s3 = l ++ [w] /\ l = coll s)).
  { intros s3 r3 Q1 Q2 Q3 Q4. split.
    - destruct H2 as [A B]. split; unfold lookup in *; rewrite ?Q1, ?Q2, ?Q3; auto.
    - split.
      + right. exists v, id, rs. unfold lookup at 2. rewrite Q2, Q3. unfold s2. cbn [coll names]. rewrite C1. do 5 (split; [auto|]). split; [exact Q4|]. exists i. split; [auto|]. split; [auto|]. exists w0. rewrite Q1. auto.
      + intros _ w Hw. apply Q4 in Hw as ->. exists (coll s). rewrite Q3. unfold s2. cbn [coll]. now rewrite C1. }
  destruct reg as [f|].
  - unfold bindM, liftR. destruct (f _) as [[l|]|e]; intros E; injection E as <- <-; apply FIN; auto; try (intros w Hw; now injection Hw); discriminate.
  - intros E; injection E as <- <-. apply FIN; auto. intros w Hw; now injection Hw.
Qed.
Lemma inv_kbv s s' : inv s -> keeps_but_values s s' -> names s' = names s -> coll s' = coll s -> inv s'.
Proof.
  intros [A B] (H & L & _) EN EC. split.
  - intros n id Hn. unfold lookup in Hn. rewrite EN in Hn. destruct (A n id Hn) as (v & Hv & Nv). destruct (H id v Hv) as (w & Hw & Nw & _). exists w. split; auto. congruence.
  - intros o Ho. rewrite EC in Ho. destruct (B o Ho) as (p & id & cs & P1 & P2 & P3). exists p, id, cs. split; auto.
Qed.
Lemma inv_step c s : inv s -> inv (step false c s).
Proof.
  intros Hs. destruct c; cbn [step].
  - destruct (get_variable _ _ _ _ _ _ s) as [s' r] eqn:E. now apply get_graph in E.
  - now apply inv_tf.
  - apply (inv_kbv s); auto. apply keeps_kbv, nv_keeps.
  - destruct (assign_graph ref value s) as [[ops v]|e] eqn:E; auto.
    destruct (run_ops_only ops s (ids_of ref) (graph_ops_ok _ _ _ _ _ E)) as (A & B & C & D). apply (inv_kbv s); auto. now apply (only_kbv _ _ (ids_of ref)).
Qed.
Lemma inv_run cs s : inv s -> inv (run false cs s).
Proof. revert s. induction cs as [|c cs IH]; intros s Hs; cbn; auto. apply IH. now apply inv_step. Qed.

Lemma find_app_none {A} (f : A -> bool) l x m : (forall y, In y l -> f y = false) -> f x = true -> find f (l ++ x :: m) = Some x.
Proof. induction l as [|a l IH]; cbn; intros H Hx; [now rewrite Hx|]. rewrite (H a) by auto. auto. Qed.
Lemma path_ok sc name : last_is_slash (sname sc) = false ->
  ((if negb (String.eqb (sname sc) "") && negb (last_is_slash (sname sc)) then (sname sc ++ "/")%string else sname sc) ++ name)%string = full_path sc name.
Proof.
  intros ->. unfold full_path. destruct (String.eqb_spec (sname sc) "") as [E|N]; cbn [negb andb]; [now rewrite E|]. rewrite sapp_assoc. reflexivity.
Qed.
Lemma colon_invalid : valid_op_name (cname "core_0:" 0) = false. Proof. reflexivity. Qed.

(** After a creation, whatever is done: get_variable with reuse gives back the object. *)
Lemma reuse_ok sc name dt init reg s s1 v cs sc' name' dt' init' reg' : inv s ->
  sreuse sc = NoReuse -> get_variable false sc name dt (Some init) reg s = (s1, Ok v) ->
  truthy (sreuse sc') = true -> last_is_slash (sname sc') = false -> full_path sc' name' = full_path sc name -> full_path sc name <> "" ->
  match dt' with Some d => d | None => Float32 end = vdt v ->
  get_variable false sc' name' dt' init' reg' (run false cs s1) = (run false cs s1, Ok v).
Proof.
  intros Hs HN E HT HS HP Hne Hdt. pose proof E as E0. apply (get_graph _ _ _ _ _ _ _ _ Hs) in E0 as (I1 & HC & HQ). destruct (HQ HN v eq_refl) as (l & Ec & ->). clear HQ.
  destruct HC as [Q|(v' & id & rs & Ec' & Ev & L0 & L1 & V1 & Hv' & i & Hi & Edt & w & Ew & Dw)].
  { rewrite Q in Ec. apply (f_equal (@length _)) in Ec. rewrite app_length in Ec. cbn in Ec. lia. }
  assert (v = v') by now apply Hv'. subst v'. clear Hv' Ec'.
  pose proof (inv_run cs s1 I1) as I2. destruct (run_kbv false cs s1) as (KV & KL & (m & KC) & _). set (s2 := run false cs s1) in *.
  unfold get_variable. rewrite HT. cbn [orb negb andb]. rewrite path_ok by auto. rewrite HP.
  assert (EF : find (fun o => String.eqb (obj_name (heap s2) o) (full_path sc name)) (coll s2) = Some v).
  { rewrite KC, Ec, <- app_assoc. cbn [app]. apply find_app_none.
    - intros o Ho. destruct (proj2 Hs o Ho) as (p & id' & cs' & A & B & C).
      assert (K1 : keeps s s1) by (pose proof (get_keeps false sc name dt (Some init) reg s) as X; now rewrite E in X).
      assert (B2 : lookup (cname p 0) s2 = Some id') by (apply KL; now apply K1).
      rewrite (obj_name_ok s2 o p id' cs' I2 A B2). apply String.eqb_neq. destruct (String.eqb_spec p "") as [->|Np].
      + intros Q. rewrite <- Q in V1. discriminate V1.
      + intros ->. congruence.
    - rewrite (obj_name_ok s2 v (full_path sc name) id rs I2 Ev (KL _ _ L1)). apply String.eqb_neq in Hne. rewrite Hne. apply String.eqb_refl. }
  rewrite EF. unfold bindM, tf_get_variable.
  assert (DT : match dt' with Some _ => false | None => false end = false) by now destruct dt'.
  assert (EN : (if String.eqb (sname (enter sc' name')) "" then "core_0" else (sname (enter sc' name') ++ "/" ++ "core_0")%string) = cname (full_path sc name) 0).
  { rewrite enter_name, HP. unfold cname. reflexivity. }
  rewrite EN, (KL _ _ L1). assert (ET : dtype_of s2 id = vdt v).
  { destruct (KV id w Ew) as (w' & Hw' & _ & D' & _). unfold dtype_of. rewrite (vdtype_error _ _ _ _ Hw'), D'. congruence. }
  rewrite ET, Hdt. replace (dtype_eqb (vdt v) (vdt v)) with true by (symmetry; now apply dtype_eqb_eq).
  rewrite (proj2 (String.eqb_eq _ _) eq_refl) || idtac.
  destruct dt'; cbn [enter sreuse]; destruct (sreuse sc'); try discriminate; reflexivity.
Qed.
End Thms.

(** Names. *)
Definition mem (c : ascii) (l : list ascii) : bool := existsb (Ascii.eqb c) l.
Lemma mem_In c l : mem c l = true <-> In c l.
Proof. unfold mem. rewrite existsb_exists. split; [intros (x & H & E); apply Ascii.eqb_eq in E; now subst|intros H; exists c; split; auto; apply Ascii.eqb_refl]. Qed.
Lemma first_mem c : (alnum c || Ascii.eqb c ".")%bool = mem c letters.
Proof. destruct c as [[] [] [] [] [] [] [] []]; vm_compute; reflexivity. Qed.
Lemma inner_mem c : inner_char c = mem c (letters ++ ["_"; "-"; "/"]%char).
Proof. destruct c as [[] [] [] [] [] [] [] []]; vm_compute; reflexivity. Qed.
Lemma chars_legal p : all_chars inner_char p = true <-> forall x, In x (list_ascii_of_string p) -> In x (letters ++ ["_"; "-"; "/"]%char).
Proof.
  induction p as [|c p IH]; cbn [all_chars list_ascii_of_string]; [split; [intros _ x []|reflexivity]|]. rewrite andb_true_iff, IH, inner_mem, mem_In. split.
  - intros [A B] x [<-|H]; auto.
  - intros H. split; [apply H; now left|intros x Hx; apply H; now right].
Qed.
Lemma valid_legal p : valid_op_name p = true <-> legal_name p.
Proof.
  destruct p as [|c p]; cbn [valid_op_name]; [split; [discriminate|intros (c & r & E & _); discriminate]|].
  rewrite andb_true_iff, chars_legal. rewrite first_mem, mem_In. unfold legal_name. cbn [list_ascii_of_string]. split.
  - intros [A B]. exists c, (list_ascii_of_string p). auto.
  - intros (c' & r & E & A & B). injection E as <- <-. auto.
Qed.
Lemma core_valid p i : p <> "" -> valid_op_name (core_path p i) = true -> valid_op_name p = true.
Proof.
  destruct p as [|c p]; [contradiction|]. intros _. unfold core_path, core_label. cbn [valid_op_name append]. intros H. apply andb_true_iff in H as [A B].
  rewrite A. rewrite all_chars_app in B. now apply andb_true_iff in B as [-> _].
Qed.

Section F.
Context {K : cring} {loss : Type}.
Lemma first_core_err eager sc name dt (init : vobj K) reg (s : store K loss) : vcores init <> [] ->
  (eager = false -> sreuse sc = NoReuse) ->
  tf_get_variable eager (enter sc name) (core_label 0) dt (Some (vdt init, read (heap s) (nth 0 (vcores init) (CVar 0)))) s = (s, Err ValueError) ->
  get_variable eager sc name dt (Some init) reg s = (s, Err ValueError).
Proof.
  intros Hc Hr E. unfold get_variable. destruct (vcores init) as [|c cs] eqn:Ec; [contradiction|].
  destruct eager; [|rewrite (Hr eq_refl)]; cbn [orb truthy negb andb]; unfold bindM at 1, create_cores; rewrite Ec; cbn [length seq forM]; unfold bindM; unfold nthr; cbn [nth_error nth] in *; rewrite E; reflexivity.
Qed.
End F.
