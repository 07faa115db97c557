(** Static and dynamic shapes agree: proofs. *)
From Coq Require Import List Arith Lia Bool.
From Verif Require Import Scalar Tensor TensorLemmas Base BaseLemmas Spec ConstructProofs InitProofs Static StaticSpec.
Import ListNotations.

(** ** Lists *)

Lemma run_core_left b rsh rks i :
  nth_error (run_core b rsh rks i) (match b with None => 0 | Some _ => 1 end) = Some (nth i rks 0).
Proof. destruct b; reflexivity. Qed.

Lemma run_core_mode b rsh rks i ax : ax < length rsh ->
  nth_error (run_core b rsh rks i) (ax + (match b with None => 1 | Some _ => 2 end)) = Some (nth i (nth ax rsh []) 0).
Proof.
  intros H. assert (E : nth_error (map (fun s => nth i s 0) rsh ++ [nth (S i) rks 0]) ax = Some (nth i (nth ax rsh []) 0)).
  { rewrite nth_error_app1 by (rewrite map_length; auto).
    rewrite (map_nth_error (fun s => nth i s 0) ax rsh (nth_error_nth' _ [] H)). reflexivity. }
  destruct b; cbn [run_core app]; rewrite Nat.add_comm; exact E.
Qed.

Lemma run_core_last b rsh rks i : exists l, run_core b rsh rks i = l ++ [nth (S i) rks 0].
Proof.
  exists ((match b with Some n => [n] | None => [] end) ++ [nth i rks 0] ++ map (fun s => nth i s 0) rsh).
  unfold run_core. now rewrite <- !app_assoc.
Qed.

Lemma run_core_length b rsh rks i :
  length (run_core b rsh rks i) = (match b with Some _ => 1 | None => 0 end) + 2 + length rsh.
Proof. unfold run_core. rewrite !app_length, map_length. destruct b; cbn; lia. Qed.

Lemma nth_rt rt b rsh rks s : runs rt b rsh rks -> In s rt -> exists i, i < length rt /\ s = run_core b rsh rks i.
Proof.
  intros R H. destruct (In_nth _ _ [] H) as (i & Hi & <-). exists i. split; auto. now apply (runs_core _ _ _ _ R).
Qed.

Lemma last_at {A} (l : list A) d : last l d = nth (length l - 1) l d.
Proof.
  induction l as [|x l IH]; [auto|]. destruct l as [|y l]; [auto|]. change (last (x :: y :: l) d) with (last (y :: l) d). rewrite IH.
  cbn [length nth Nat.sub]. now rewrite Nat.sub_0_r.
Qed.

Lemma Forall2_len {A B} {P : A -> B -> Prop} {l l'} : Forall2 P l l' -> length l = length l'.
Proof. induction 1; cbn; auto. Qed.

Lemma list_eq_nth {A} (d : A) l l' : length l = length l' -> (forall i, i < length l -> nth i l d = nth i l' d) -> l = l'.
Proof. intros. now apply (nth_ext _ _ d d). Qed.

(** ** Dynamic shapes are right *)

Lemma tt_ranks_runs o rt b rsh rks : runs rt b rsh rks -> (sbsz o = None <-> b = None) -> tt_ranks o rt = Ok rks.
Proof.
  intros R Hb. unfold tt_ranks, left_tt_rank_dim.
  assert (Eo : match sbsz o with None => 0 | Some _ => 1 end = match b with None => 0 | Some _ => 1 end).
  { destruct (sbsz o), b; auto; [destruct Hb as [_ Hb]|destruct Hb as [Hb _]]; specialize (Hb eq_refl); discriminate. }
  rewrite Eo. set (off := match b with None => 0 | Some _ => 1 end).
  rewrite (mapM_ok _ (fun s => nth off s 0)).
  2:{ intros s Hs. destruct (nth_rt _ _ _ _ _ R Hs) as (i & Hi & ->). unfold tf_dim, off. rewrite run_core_left.
      now rewrite (nth_error_nth _ _ 0 (run_core_left b rsh rks i)). }
  cbn [bind]. pose proof (runs_d _ _ _ _ R) as Hd. pose proof (runs_rks _ _ _ _ R) as Hr.
  assert (El : lastr rt = Ok (run_core b rsh rks (length rt - 1))).
  { rewrite (lastr_last rt []) by (destruct rt; [cbn in Hd; lia|discriminate]). f_equal. rewrite last_at.
    apply (runs_core _ _ _ _ R). lia. }
  rewrite El. cbn [bind]. unfold tf_dim_last. destruct (run_core_last b rsh rks (length rt - 1)) as (l & ->).
  rewrite rev_app_distr. cbn [rev app bind]. f_equal. apply (list_eq_nth 0).
  - rewrite app_length, map_length. cbn. lia.
  - intros i Hi. rewrite app_length, map_length in Hi. cbn in Hi. destruct (Nat.eq_dec i (length rt)) as [->|Hn].
    + rewrite app_nth2 by (rewrite map_length; lia). rewrite map_length, Nat.sub_diag. cbn [nth]. f_equal. lia.
    + rewrite app_nth1 by (rewrite map_length; lia). rewrite (nth_map' _ rt i [] 0) by lia.
      rewrite (runs_core _ _ _ _ R) by lia. apply nth_error_nth. apply run_core_left.
Qed.

Lemma raw_shape_runs o rt b rsh rks : runs rt b rsh rks -> (sbsz o = None <-> b = None) ->
  length (srshape o) = length rsh -> raw_shape o rt = Ok rsh.
Proof.
  intros R Hb Hl. unfold raw_shape.
  assert (Eo : match sbsz o with None => 1 | Some _ => 2 end = match b with None => 1 | Some _ => 2 end).
  { destruct (sbsz o), b; auto; [destruct Hb as [_ Hb]|destruct Hb as [Hb _]]; specialize (Hb eq_refl); discriminate. }
  rewrite Eo. set (off := match b with None => 1 | Some _ => 2 end). cbv zeta.
  destruct (srshape o) as [|s0 ss] eqn:Es; [cbn in Hl; pose proof (runs_ax _ _ _ _ R); lia|]. rewrite <- Es in *. clear Es.
  rewrite (mapM_ok _ (fun ax => map (fun s => nth (ax + off) s 0) rt)).
  2:{ intros ax Hax. apply in_seq in Hax. apply mapM_ok. intros s Hs.
      destruct (nth_rt _ _ _ _ _ R Hs) as (i & Hi & ->). unfold tf_dim, off. rewrite run_core_mode by lia.
      now rewrite (nth_error_nth _ _ 0 (run_core_mode b rsh rks i ax ltac:(lia))). }
  f_equal. apply (list_eq_nth []); [rewrite map_length, seq_length; auto|]. intros ax Hax. rewrite map_length, seq_length in Hax.
  rewrite (nth_map' _ _ ax 0 []) by (rewrite seq_length; lia). rewrite seq_nth by lia. cbn [Nat.add].
  assert (Hin : In (nth ax rsh []) rsh) by (apply nth_In; lia). pose proof (runs_sh _ _ _ _ R _ Hin) as Hs.
  apply (list_eq_nth 0); [rewrite map_length; auto|]. intros i Hi. rewrite map_length in Hi.
  rewrite (nth_map' _ rt i [] 0) by lia. rewrite (runs_core _ _ _ _ R) by lia.
  apply nth_error_nth. unfold off. apply run_core_mode. lia.
Qed.

Lemma batch_size_runs o rt n rsh rks : runs rt (Some n) rsh rks -> sbsz o <> None -> batch_size o rt = Ok n.
Proof.
  intros R Hb. unfold batch_size. destruct (sbsz o); [|congruence]. pose proof (runs_d _ _ _ _ R) as Hd.
  rewrite (nthr_nth rt 0 []) by lia. cbn [bind]. rewrite (runs_core _ _ _ _ R) by lia. reflexivity.
Qed.

Lemma shape_runs o rt b rsh rks : runs rt b rsh rks -> (sbsz o = None <-> b = None) ->
  length (srshape o) = length rsh -> shape_dyn o rt = Ok (run_shape b rsh).
Proof.
  intros R Hb Hl. unfold shape_dyn. rewrite (raw_shape_runs o rt b rsh rks) by auto. cbn [bind].
  unfold s_is_tt_matrix, run_shape. rewrite Hl.
  assert (E : (if length rsh =? 2 then Ok (map prodn rsh) else nthr rsh 0) =
    Ok (match rsh with [m; n] => [prodn m; prodn n] | _ => nth 0 rsh [] end)).
  { destruct (runs_ax _ _ _ _ R) as [H|H]; destruct rsh as [|s1 [|s2 [|? ?]]]; cbn in H; try lia; reflexivity. }
  rewrite E. cbn [bind]. destruct (sbsz o) eqn:Eb.
  - destruct b as [n|]; [|destruct Hb as [_ Hb]; specialize (Hb eq_refl); discriminate].
    rewrite (batch_size_runs o rt n rsh rks R) by congruence. reflexivity.
  - destruct b as [n|]; [destruct Hb as [Hb _]; specialize (Hb eq_refl); discriminate|]. reflexivity.
Qed.

(** ** Static shapes, when defined, are right *)

Lemma fully_allows l : forall ns r, Forall2 allows l ns -> fully_defined l = Some r -> r = ns.
Proof.
  induction l as [|d l IH]; intros ns r H E; inversion H as [|? n ? ns' Hd Hl]; subst; cbn in E.
  - congruence.
  - destruct d as [m|]; [|discriminate]. destruct (fully_defined l) as [r'|] eqn:F; [|discriminate].
    cbn in E. injection E as <-. f_equal; [now apply Hd|]. eapply IH; eauto.
Qed.

Lemma fully_some l : fully_defined l <> None <-> ~ In None l.
Proof.
  induction l as [|[m|] l IH]; cbn.
  - split; [tauto|discriminate].
  - destruct (fully_defined l) as [r|]; cbn.
    + split; [|discriminate]. intros _ [H|H]; [discriminate|]. now apply IH in H.
    + split; [congruence|]. intros H. exfalso. apply IH; [|reflexivity]. tauto.
  - split; [congruence|]. intros H. exfalso. auto.
Qed.

Lemma fully_none l : fully_defined l = None <-> In None l.
Proof.
  pose proof (fully_some l) as H. destruct (fully_defined l) eqn:E.
  - split; [discriminate|]. intros Hi. exfalso. apply (proj1 H); [discriminate|auto].
  - split; [|auto]. intros _. clear -E. induction l as [|[m|] l IH]; cbn in *; [discriminate| |auto].
    right. apply IH. destruct (fully_defined l); [discriminate|auto].
Qed.

Lemma fully_map l : fully_defined (map Some l) = Some l.
Proof. induction l as [|x l IH]; cbn; [auto|]. now rewrite IH. Qed.

Lemma fully_inv l r : fully_defined l = Some r -> l = map Some r.
Proof.
  revert r; induction l as [|[m|] l IH]; intros r E; cbn in E; [injection E as <-; auto| |discriminate].
  destruct (fully_defined l) as [r'|]; [|discriminate]. injection E as <-. cbn. f_equal. now apply IH.
Qed.

Lemma dim_fold_known l : forall x, foldM (fun d acc => dim_mul acc d) (map Some l) (Some x) = Ok (Some (x * prodn l)).
Proof.
  induction l as [|y l IH]; intros x; [cbn; now rewrite Nat.mul_1_r|]. change (map Some (y :: l)) with (Some y :: map Some l). cbn [foldM dim_mul bind].
  rewrite IH. rewrite prodn_cons. now rewrite Nat.mul_assoc.
Qed.

Lemma dim_prod_known l : l <> [] -> dim_prod (map Some l) = Ok (Some (prodn l)).
Proof. destruct l as [|x l]; [congruence|]. intros _. cbn [dim_prod map]. now rewrite dim_fold_known, prodn_cons. Qed.

Lemma dim_fold_none l : forall acc, In None l \/ (acc = None /\ l <> []) ->
  foldM (fun d acc => dim_mul acc d) l acc = Err TypeError.
Proof.
  induction l as [|d l IH]; intros acc [H|[-> H]]; cbn; try contradiction; try congruence.
  destruct acc as [x|]; cbn; [|auto]. destruct d as [y|]; cbn; [|auto]. apply IH. left. destruct H; [discriminate|auto].
Qed.

Lemma dim_prod_none l : In None l -> 2 <= length l -> dim_prod l = Err TypeError.
Proof.
  destruct l as [|d l]; cbn; [lia|]. intros H Hl. apply dim_fold_none. destruct H as [->|H]; auto.
  right. split; auto. destruct l; [cbn in Hl; lia|discriminate].
Qed.

Lemma none_dec (l : list dim) : In None l \/ ~ In None l.
Proof. destruct (fully_defined l) eqn:E; [right; apply fully_some; congruence|left; now apply fully_none]. Qed.

Lemma truthful_bsz o b rsh rks : truthful o b rsh rks -> (sbsz o = None <-> b = None).
Proof. intros [_ _ H]. destruct (sbsz o), b; split; auto; try contradiction; discriminate. Qed.

Lemma lazy_tt_ranks_ok o rt b rsh rks : runs rt b rsh rks -> truthful o b rsh rks -> s_lazy_tt_ranks o rt = Ok rks.
Proof.
  intros R T. unfold s_lazy_tt_ranks. destruct (fully_defined (srks o)) as [l|] eqn:E.
  - f_equal. eapply fully_allows; [apply T|exact E].
  - eapply tt_ranks_runs; eauto. eapply truthful_bsz; eauto.
Qed.

Lemma lazy_batch_size_ok o rt n rsh rks : runs rt (Some n) rsh rks -> truthful o (Some n) rsh rks ->
  s_lazy_batch_size o rt = Ok n.
Proof.
  intros R T. unfold s_lazy_batch_size. pose proof (tr_bsz _ _ _ _ T) as H. destruct (sbsz o) as [[m|]|] eqn:E; [| |contradiction].
  - f_equal. now apply H.
  - eapply batch_size_runs; eauto. congruence.
Qed.

(** The static shape: the raw shape decides, unless a product over several modes meets None. *)
Lemma get_shape_cases o rt b rsh rks : runs rt b rsh rks -> truthful o b rsh rks ->
  (length rsh = 1 \/ length rt = 1 \/ known_modes o ->
   exists s, s_get_shape o = Ok s /\ Forall2 allows s (run_shape b rsh) /\
             (fully_defined s <> None -> known_modes o)) /\
  (length rsh = 2 -> 2 <= length rt -> ~ known_modes o -> s_get_shape o = Err TypeError).
Proof.
  intros R T. pose proof (tr_raw _ _ _ _ T) as Hr. pose proof (runs_d _ _ _ _ R) as Hd.
  assert (Hl : length (srshape o) = length rsh) by (eapply Forall2_len; eauto).
  assert (Hp : forall s, Forall2 allows s (run_shape None rsh) ->
    Forall2 allows (match sbsz o with None => s | Some x => x :: s end) (run_shape b rsh)).
  { intros s Hs. pose proof (tr_bsz _ _ _ _ T) as Hb. unfold run_shape in *. destruct (sbsz o), b; try contradiction; cbn [app] in *; auto. }
  assert (Hf : forall s, fully_defined (match sbsz o with None => s | Some x => x :: s end) <> None -> fully_defined s <> None).
  { intros s. destruct (sbsz o) as [[x|]|]; cbn; auto. destruct (fully_defined s); auto. congruence. }
  unfold s_get_shape, s_is_tt_matrix. rewrite Hl.
  destruct (runs_ax _ _ _ _ R) as [Ha|Ha]; rewrite Ha; cbn [Nat.eqb].
  - split; [|lia]. intros _. destruct rsh as [|s1 [|? ?]]; cbn in Ha; try lia.
    inversion Hr as [|r1 ? l1 ? H1 H2 E1 E2]; subst. inversion H2; subst. unfold nthr; cbn [nth_error bind].
    eexists. split; [reflexivity|]. split; [apply Hp; exact H1|]. intros F. apply Hf in F.
    intros s Hs. rewrite <- E1 in Hs. destruct Hs as [<-|[]]. now apply fully_some.
  - destruct rsh as [|s1 [|s2 [|? ?]]]; cbn in Ha; try lia.
    inversion Hr as [|r1 ? l1 ? H1 H2 E1 E2]; subst. inversion H2 as [|r2 ? l2 ? H3 H4 E3 E4]; subst. inversion H4; subst.
    unfold nthr; cbn [nth_error bind].
    assert (L1 : length r1 = length rt) by (rewrite (Forall2_len H1); apply (runs_sh _ _ _ _ R); cbn; auto).
    assert (L2 : length r2 = length rt) by (rewrite (Forall2_len H3); apply (runs_sh _ _ _ _ R); cbn; auto).
    assert (Kn : known_modes o <-> ~ In None r1 /\ ~ In None r2).
    { unfold known_modes. rewrite <- E1. split.
      - intros H. split; apply H; cbn; auto.
      - intros [Ha1 Ha2] s [<-|[<-|[]]]; auto. }
    split.
    + intros [H|[H|H]]; [cbn in H; lia| |].
      * destruct r1 as [|d1 [|? ?]]; cbn in L1; try lia. destruct r2 as [|d2 [|? ?]]; cbn in L2; try lia.
        cbn [dim_prod foldM bind]. eexists. split; [reflexivity|].
        inversion H1 as [|? n1 ? ? A1 A2]; subst. inversion A2; subst. inversion H3 as [|? n2 ? ? B1 B2]; subst. inversion B2; subst.
        split.
        { apply Hp. unfold run_shape. cbn [app]. unfold prodn. cbn [fold_right]. rewrite !Nat.mul_1_r. repeat constructor; auto. }
        intros F. apply Hf in F. apply fully_some in F. apply Kn. cbn in F. split; intros [?|[]]; subst; tauto.
      * apply Kn in H as [K1 K2]. apply fully_some in K1, K2.
        destruct (fully_defined r1) as [n1|] eqn:F1; [|congruence]. destruct (fully_defined r2) as [n2|] eqn:F2; [|congruence].
        assert (n1 = s1) by (eapply fully_allows; eauto). assert (n2 = s2) by (eapply fully_allows; eauto). subst n1 n2.
        apply fully_inv in F1, F2. subst r1 r2. rewrite map_length in L1, L2.
        rewrite !dim_prod_known by (intros ->; cbn in *; lia). cbn [bind].
        cbn [bind]. eexists. split; [reflexivity|]. split.
        { apply Hp. unfold run_shape. cbn [app]. repeat constructor; intros ? [=]; auto. }
        intros _. apply Kn. split; apply fully_some; rewrite fully_map; discriminate.
    + intros _ H2d Hk. assert (D1 : 2 <= length r1) by (rewrite L1; exact H2d). assert (D2 : 2 <= length r2) by (rewrite L2; exact H2d). destruct (dim_prod r1) as [m|e] eqn:P1.
      * cbn [bind]. destruct (none_dec r1) as [I1|I1]; [rewrite (dim_prod_none r1 I1 D1) in P1; discriminate|].
        destruct (none_dec r2) as [I2|I2]; [|exfalso; apply Hk, Kn; auto].
        rewrite (dim_prod_none r2 I2 D2). reflexivity.
      * cbn [bind]. destruct (none_dec r1) as [I1|I1]; [rewrite (dim_prod_none r1 I1 D1) in P1; now injection P1 as <-|].
        apply fully_some in I1. destruct (fully_defined r1) as [n1|] eqn:F1; [|congruence]. apply fully_inv in F1. subst r1.
        rewrite dim_prod_known in P1 by (intros ->; cbn in *; lia). discriminate.
Qed.

Lemma all_defined_ok ss : forall rsh, Forall2 (Forall2 allows) ss rsh -> (forall s, In s ss -> ~ In None s) -> all_defined ss = Ok rsh.
Proof.
  unfold all_defined. induction ss as [|s ss IH]; intros rsh H K; inversion H as [|? r ? rs H1 H2]; subst; cbn [mapM]; auto.
  assert (Ks : ~ In None s) by (apply K; cbn; auto). apply fully_some in Ks.
  destruct (fully_defined s) as [l|] eqn:F; [|congruence]. cbn [bind]. rewrite (IH rs) by (auto; intros; apply K; cbn; auto). cbn [bind].
  do 2 f_equal. eapply fully_allows; eauto.
Qed.

Lemma lazy_shape_ok o rt b rsh rks : runs rt b rsh rks -> truthful o b rsh rks ->
  length rsh = 1 \/ length rt = 1 \/ known_modes o ->
  s_lazy_shape o rt = Ok (run_shape b rsh) /\ s_lazy_raw_shape o rt = Ok rsh.
Proof.
  intros R T H. destruct (get_shape_cases o rt b rsh rks R T) as [C _]. destruct (C H) as (s & E & Ha & Hk).
  assert (Hl : length (srshape o) = length rsh) by (eapply Forall2_len; apply T).
  pose proof (truthful_bsz _ _ _ _ T) as Hb.
  unfold s_lazy_shape, s_lazy_raw_shape. rewrite E. cbn [bind]. destruct (fully_defined s) as [l|] eqn:F.
  - split; [f_equal; eapply fully_allows; eauto|]. apply all_defined_ok; [apply T|]. apply Hk. discriminate.
  - split; [eapply shape_runs; eauto|eapply raw_shape_runs; eauto].
Qed.

(** A TT-matrix of several cores with an unknown mode has no static shape, and asking for it
    raises. *)
Lemma lazy_shape_raises o rt b rsh rks : runs rt b rsh rks -> truthful o b rsh rks ->
  length rsh = 2 -> 2 <= length rt -> ~ known_modes o ->
  s_lazy_shape o rt = Err TypeError /\ s_lazy_raw_shape o rt = Err TypeError.
Proof.
  intros R T H1 H2 H3. destruct (get_shape_cases o rt b rsh rks R T) as [_ C].
  unfold s_lazy_shape, s_lazy_raw_shape. rewrite C by auto. auto.
Qed.
