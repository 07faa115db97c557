(** Constructed objects: what the constructors store is what runs; agreement with the model of
    fully known shapes. *)
From Coq Require Import List Arith Lia Bool.
From Verif Require Import Scalar Tensor TensorLemmas Base BaseLemmas Spec ConstructProofs InitProofs Static StaticSpec StaticProofs.
Import ListNotations.

Definition off_of (b : option nat) : nat := match b with None => 0 | Some _ => 1 end.

Lemma Forall2_at {A B} {P : A -> B -> Prop} {l m} : Forall2 P l m -> forall k a b, k < length l -> P (nth k l a) (nth k m b).
Proof. induction 1; intros [|k] ? ? Hk; cbn in *; try lia; auto. apply IHForall2. lia. Qed.

Lemma Forall2_of_nth {A B} {P : A -> B -> Prop} a b : forall l m, length l = length m ->
  (forall k, k < length l -> P (nth k l a) (nth k m b)) -> Forall2 P l m.
Proof.
  induction l as [|x l IH]; intros [|y m] Hl H; cbn in Hl; try lia; constructor.
  - apply (H 0). cbn. lia.
  - apply IH; [lia|]. intros k Hk. apply (H (S k)). cbn. lia.
Qed.

Lemma allows_index c s i d x : shape_allows (sshape c) s -> ts_index (sshape c) i = Ok d -> nth_error s i = Some x -> allows d x.
Proof.
  intros H E Hx. destruct (sshape c) as [ds|] eqn:Ec; cbn in E.
  - specialize (H ds eq_refl). unfold nthr in E. destruct (nth_error ds i) as [d'|] eqn:Ed; [|discriminate]. injection E as ->.
    clear Ec. revert i s H Hx Ed. induction ds as [|d0 ds IH]; intros [|i] s H Hx Ed; cbn in Ed; try discriminate;
      inversion H; subst; cbn in Hx; [injection Hx as <-; injection Ed as <-; auto|eauto].
  - injection E as <-. intros m Hm. discriminate.
Qed.

Lemma allows_last c l x d : shape_allows (sshape c) (l ++ [x]) -> ts_last (sshape c) = Ok d -> allows d x.
Proof.
  intros H E. destruct (sshape c) as [ds|] eqn:Ec; cbn in E; [|injection E as <-; intros m Hm; discriminate].
  specialize (H ds eq_refl). apply Forall2_app_inv_r in H as (d1 & d2 & H1 & H2 & ->). inversion H2 as [|? ? l' ? Hx Hn]; subst. inversion Hn; subst.
  rewrite lastr_app in E. injection E as <-. exact Hx.
Qed.

Lemma cores_allow_at cs rt b rsh rks i : cores_allow cs rt -> runs rt b rsh rks -> i < length rt ->
  shape_allows (sshape (nth i cs snocore)) (run_core b rsh rks i).
Proof.
  intros H R Hi. rewrite <- (runs_core _ _ _ _ R i Hi). apply (Forall2_at H). now rewrite (Forall2_len H).
Qed.

Lemma infer_raw_true cs rt b rsh rks raw : cores_allow cs rt -> runs rt b rsh rks ->
  s_infer_raw_shape (off_of b) cs = Ok raw -> Forall2 (Forall2 allows) raw rsh.
Proof.
  intros H R E. unfold s_infer_raw_shape in E. pose proof (runs_d _ _ _ _ R) as Hd. pose proof (Forall2_len H) as Lc.
  rewrite (nthr_nth cs 0 snocore) in E by (rewrite Lc; lia). cbn [bind] in E.
  destruct (sshape (nth 0 cs snocore)) as [l|] eqn:El; [|discriminate]. cbn [as_list bind] in E.
  pose proof (cores_allow_at cs rt b rsh rks 0 H R ltac:(lia)) as H0. rewrite El in H0. specialize (H0 l eq_refl).
  apply Forall2_len in H0. rewrite run_core_length in H0.
  assert (En : length l - 2 - off_of b = length rsh).
  { transitivity ((match b with Some _ => 1 | None => 0 end + 2 + length rsh) - 2 - off_of b); [now rewrite <- H0|]. unfold off_of. destruct b; lia. }
  rewrite En in E. pose proof (mapM_length _ _ _ E) as Lr. rewrite seq_length in Lr.
  apply (Forall2_of_nth [] []); [auto|]. intros ax Hax. rewrite Lr in Hax.
  pose proof (mapM_nth _ _ _ E ax 0 [] ltac:(rewrite seq_length; lia)) as Ea. rewrite seq_nth in Ea by lia. cbn [Nat.add] in Ea.
  pose proof (mapM_length _ _ _ Ea) as La. assert (Hs : length (nth ax rsh []) = length rt) by (apply (runs_sh _ _ _ _ R), nth_In; lia).
  apply (Forall2_of_nth None 0); [etransitivity; [exact La|]; now rewrite Lc, Hs|]. intros i Hi. rewrite La, Lc in Hi.
  pose proof (mapM_nth _ _ _ Ea i snocore None ltac:(rewrite Lc; lia)) as Ei.
  eapply allows_index; [apply (cores_allow_at cs rt b rsh rks i H R Hi)|exact Ei|].
  rewrite <- (run_core_mode b rsh rks i ax Hax). f_equal. unfold off_of. destruct b; lia.
Qed.

Lemma infer_ranks_true cs rt b rsh rks rs : cores_allow cs rt -> runs rt b rsh rks ->
  s_infer_tt_ranks (off_of b) cs = Ok rs -> Forall2 allows rs rks.
Proof.
  intros H R E. unfold s_infer_tt_ranks in E. pose proof (runs_d _ _ _ _ R) as Hd. pose proof (Forall2_len H) as Lc.
  destruct (mapM _ cs) as [l|] eqn:El; [|discriminate]. cbn [bind] in E.
  assert (Hne : cs <> []) by (intros ->; cbn in Lc; lia).
  rewrite (lastr_last cs snocore Hne) in E. cbn [bind] in E. rewrite last_at in E.
  destruct (ts_last _) as [r|] eqn:Er; [|discriminate]. cbn [bind] in E. injection E as <-.
  pose proof (mapM_length _ _ _ El) as Ll. pose proof (runs_rks _ _ _ _ R) as Lk.
  apply (Forall2_of_nth None 0); [rewrite app_length; cbn; lia|]. intros i Hi. rewrite app_length in Hi. cbn in Hi.
  destruct (Nat.eq_dec i (length l)) as [->|Hn].
  - rewrite app_nth2, Nat.sub_diag by lia. cbn [nth].
    destruct (run_core_last b rsh rks (length rt - 1)) as (l0 & E0).
    replace (nth (length l) rks 0) with (nth (S (length rt - 1)) rks 0) by (f_equal; lia).
    eapply (allows_last _ l0); [|exact Er]. rewrite <- E0. rewrite Lc. apply cores_allow_at with (rt := rt); auto. lia.
  - rewrite app_nth1 by lia. pose proof (mapM_nth _ _ _ El i snocore None ltac:(lia)) as Ei.
    eapply allows_index; [apply (cores_allow_at cs rt b rsh rks i H R ltac:(lia))|exact Ei|]. apply run_core_left.
Qed.

(** ** What the constructors check and store *)

Lemma sTensorTrain_inv cs sh ranks o : sTensorTrain cs sh ranks = Ok o ->
  exists clean, s_clean_raw_shape sh = Ok clean /\ s_cores_valid 0 cs clean ranks None = Ok true /\
    scores o = cs /\ sbsz o = None /\
    (match clean with Some ss => srshape o = ss | None => s_infer_raw_shape 0 cs = Ok (srshape o) end) /\
    (match ranks with Some rs => srks o = rs | None => s_infer_tt_ranks 0 cs = Ok (srks o) end).
Proof.
  unfold sTensorTrain. destruct (s_clean_raw_shape sh) as [clean|]; [|discriminate]. cbn [bind].
  destruct (s_cores_valid 0 cs clean ranks None) as [[|]|] eqn:V; cbn [bind negb]; try discriminate. intros E. exists clean.
  split; auto. split; auto. destruct clean as [ss|]; cbn [bind] in E;
  [|destruct (s_infer_raw_shape 0 cs); [|discriminate]; cbn [bind] in E];
  (destruct ranks as [rs|]; cbn [bind] in E; [|destruct (s_infer_tt_ranks 0 cs); [|discriminate]; cbn [bind] in E]);
  injection E as <-; cbn; repeat split; auto.
Qed.

Lemma sTensorTrainBatch_inv cs sh ranks bs o : sTensorTrainBatch cs sh ranks bs = Ok o ->
  exists clean d, s_clean_raw_shape sh = Ok clean /\ s_cores_valid 1 cs clean ranks bs = Ok true /\
    scores o = cs /\ sbsz o = Some d /\
    (match bs with Some n => d = Some n | None => exists l, sshape (nth 0 cs snocore) = Some l /\ nthr l 0 = Ok d end) /\
    (match clean with Some ss => srshape o = ss | None => s_infer_raw_shape 1 cs = Ok (srshape o) end) /\
    (match ranks with Some rs => srks o = rs | None => s_infer_tt_ranks 1 cs = Ok (srks o) end).
Proof.
  unfold sTensorTrainBatch. destruct (s_clean_raw_shape sh) as [clean|]; [|discriminate]. cbn [bind].
  destruct (s_cores_valid 1 cs clean ranks bs) as [[|]|] eqn:V; cbn [bind negb]; try discriminate.
  assert (Hb : forall x, match bs with Some b => Ok (Some b) | None => do c <- nthr cs 0; do l <- as_list (sshape c); nthr l 0 end = Ok x ->
     match bs with Some n => x = Some n | None => exists l, sshape (nth 0 cs snocore) = Some l /\ nthr l 0 = Ok x end).
  { intros x. destruct bs as [b|]; [intros E; now injection E as <-|]. destruct cs as [|c cs']; [discriminate|]. cbn [nthr nth_error bind nth].
    intros E. change ((do l <- as_list (sshape c); nthr l 0) = Ok x) in E. destruct (sshape c) as [l|]; [|discriminate]. exists l. auto. }
  destruct (match bs with Some b => _ | None => _ end) as [d|]; [|discriminate]. specialize (Hb d eq_refl). cbn [bind]. intros E. exists clean, d.
  split; auto. split; auto. destruct clean as [ss|]; cbn [bind] in E;
  [|destruct (s_infer_raw_shape 1 cs); [|discriminate]; cbn [bind] in E];
  (destruct ranks as [rs|]; cbn [bind] in E; [|destruct (s_infer_tt_ranks 1 cs); [|discriminate]; cbn [bind] in E]);
  injection E as <-; cbn; repeat split; auto.
Qed.

(** True arguments make a truthful object, whatever is known of the cores. *)
Lemma TensorTrain_truthful cs sh ranks o rt rsh rks :
  sTensorTrain cs sh ranks = Ok o -> cores_allow cs rt -> runs rt None rsh rks ->
  true_hints sh ranks None None rsh rks -> truthful o None rsh rks.
Proof.
  intros E A R (H1 & H2 & _). destruct (sTensorTrain_inv _ _ _ _ E) as (clean & Ec & _ & _ & Eb & Er & Ek).
  split.
  - destruct clean as [ss|]; [rewrite Er; auto|]. eapply infer_raw_true with (b := None); eauto.
  - destruct ranks as [rs|]; [rewrite Ek; auto|]. eapply infer_ranks_true with (b := None); eauto.
  - now rewrite Eb.
Qed.

Lemma TensorTrainBatch_truthful cs sh ranks bs o rt n rsh rks :
  sTensorTrainBatch cs sh ranks bs = Ok o -> cores_allow cs rt -> runs rt (Some n) rsh rks ->
  true_hints sh ranks bs (Some n) rsh rks -> truthful o (Some n) rsh rks.
Proof.
  intros E A R (H1 & H2 & H3). destruct (sTensorTrainBatch_inv _ _ _ _ _ E) as (clean & d & Ec & _ & _ & Eb & Ed & Er & Ek).
  split.
  - destruct clean as [ss|]; [rewrite Er; auto|]. eapply infer_raw_true with (b := Some n); eauto.
  - destruct ranks as [rs|]; [rewrite Ek; auto|]. eapply infer_ranks_true with (b := Some n); eauto.
  - rewrite Eb. destruct bs as [m|].
    + subst d. specialize (H3 m eq_refl). injection H3 as <-. intros m' Hm. congruence.
    + destruct Ed as (l & El & Ei). pose proof (runs_d _ _ _ _ R) as Hd.
      eapply (allows_index (nth 0 cs snocore) _ 0); [apply (cores_allow_at cs rt (Some n) rsh rks 0 A R Hd)|rewrite El; exact Ei|reflexivity].
Qed.

(** ** Checked arguments *)

Lemma deqb_eq a b : deqb a b = true -> a = b.
Proof. destruct a, b; cbn; try discriminate; auto. intros H. apply Nat.eqb_eq in H. congruence. Qed.

Lemma all_axes_true f : forall n i, all_axes f i n = Ok true -> forall ax, i <= ax < i + n -> exists m, f ax m = Ok true.
Proof.
  induction n as [|n IH]; intros i E ax Hax; [lia|]. cbn in E. destruct (f i n) as [[|]|] eqn:Ef; cbn in E; try discriminate.
  destruct (Nat.eq_dec ax i) as [->|]; [eauto|]. apply (IH _ E). lia.
Qed.

(** A check that does not end in a ValueError has compared everything. *)
Lemma check_core_inv off cs sh ranks bs i : s_check_core off cs sh ranks bs i = Ok true ->
  exists cur, sshape (nth i cs snocore) = Some cur /\
  (forall ss ax, sh = Some ss -> ax < length ss ->
     exists d s m, nth_error cur (ax + off + 1) = Some d /\ nth_error ss ax = Some s /\ nth_error s i = Some m /\
       dim_ok (Nat.eqb off 0) d m = true) /\
  (forall rs, ranks = Some rs -> exists r r', nth_error cur off = Some r /\ nth_error rs i = Some r /\
     lastr cur = Ok r' /\ nth_error rs (S i) = Some r').
Proof.
  unfold s_check_core. destruct (sshape (nth i cs snocore)) as [cur|]; [|discriminate]. cbn [as_list bind].
  destruct (sshape (nth 0 cs snocore)) as [first|]; [|discriminate]. cbn [as_list bind].
  destruct (length cur =? length first); [|discriminate]. cbn [negb].
  destruct (match bs with Some b => _ | None => _ end) as [[|]|]; try discriminate. cbn [bind negb].
  destruct (match sh with Some ss => _ | None => _ end) as [[|]|] eqn:Es; try discriminate. cbn [bind negb].
  destruct (match i with O => _ | S _ => _ end) as [[|]|]; try discriminate. cbn [bind negb].
  intros Er. exists cur. split; auto. split.
  - intros ss ax -> Hax. destruct (all_axes_true _ _ _ Es ax ltac:(lia)) as (_ & E).
    destruct (nthr cur (ax + off + 1)) as [d|] eqn:E1; [|discriminate]. cbn [bind] in E.
    destruct (nthr ss ax) as [s|] eqn:E2; [|discriminate]. cbn [bind] in E.
    destruct (nthr s i) as [m|] eqn:E3; [|discriminate]. cbn [bind] in E. injection E as E.
    exists d, s, m. repeat split; auto using nthr_inv.
  - intros rs ->. destruct (nthr cur off) as [l|] eqn:E1; [|discriminate]. cbn [bind] in Er.
    destruct (nthr rs i) as [r|] eqn:E2; [|discriminate]. cbn [bind] in Er.
    destruct (deqb l r) eqn:E3; [|discriminate]. cbn [negb] in Er. apply deqb_eq in E3. subst l.
    destruct (lastr cur) as [l'|] eqn:E4; [|discriminate]. cbn [bind] in Er.
    destruct (nthr rs (S i)) as [r'|] eqn:E5; [|discriminate]. cbn [bind] in Er. injection Er as Er. apply deqb_eq in Er. subst l'.
    exists r, r'. repeat split; auto using nthr_inv.
Qed.

Lemma check_cores_inv off cs sh ranks bs is : s_check_cores off cs sh ranks bs is = Ok true ->
  forall i, In i is -> s_check_core off cs sh ranks bs i = Ok true.
Proof.
  induction is as [|j is IH]; cbn; [tauto|]. destruct (s_check_core off cs sh ranks bs j) as [[|]|] eqn:E; cbn; try discriminate.
  intros H i [<-|Hi]; auto.
Qed.

Lemma nthr_noval {A} (l : list A) i : nthr l i <> Err ValueError.
Proof. unfold nthr. destruct (nth_error l i); discriminate. Qed.
Lemma lastr_noval {A} (l : list A) : lastr l <> Err ValueError.
Proof. unfold lastr. destruct (rev l); discriminate. Qed.
Lemma nthr_cases {A} (l : list A) i : (exists x, nthr l i = Ok x) \/ nthr l i = Err IndexError.
Proof. unfold nthr. destruct (nth_error l i); eauto. Qed.
Lemma lastr_cases {A} (l : list A) : (exists x, lastr l = Ok x) \/ lastr l = Err IndexError.
Proof. unfold lastr. destruct (rev l); eauto. Qed.
Lemma bind_noval {A B} (m : res A) (k : A -> res B) : m <> Err ValueError -> (forall x, k x <> Err ValueError) -> bind m k <> Err ValueError.
Proof. destruct m as [x|e]; cbn; auto. intros H _ E. apply H. injection E as ->. reflexivity. Qed.
Lemma axes_noval f : (forall a m, f a m <> Err ValueError) -> forall n i, all_axes f i n <> Err ValueError.
Proof. intros H. induction n as [|n IH]; intros i; cbn; [discriminate|]. apply bind_noval; auto. intros [|]; auto. discriminate. Qed.

Ltac noval := repeat (first
  [ discriminate
  | apply bind_noval; [|intros ?]
  | apply nthr_noval | apply lastr_noval | apply axes_noval; intros ? ?
  | match goal with |- (if ?b then _ else _) <> _ => destruct b end
  | match goal with |- (match ?x with _ => _ end) <> _ => destruct x end ]).

Lemma ranked_at cs i : all_ranked cs -> i < length cs -> exists l, sshape (nth i cs snocore) = Some l.
Proof. intros H Hi. destruct (sshape (nth i cs snocore)) eqn:E; eauto. exfalso. apply (H (nth i cs snocore)); auto. now apply nth_In. Qed.

Lemma check_core_noval off cs sh ranks bs i : all_ranked cs -> i < length cs -> s_check_core off cs sh ranks bs i <> Err ValueError.
Proof.
  intros H Hi. unfold s_check_core. destruct (ranked_at cs i H Hi) as (l & ->). destruct (ranked_at cs 0 H ltac:(lia)) as (l0 & ->).
  cbn [as_list bind]. unfold ts_last. noval.
Qed.

Lemma check_all_ranked off cs sh ranks bs : all_ranked cs -> s_check_all off cs sh ranks bs <> Err ValueError.
Proof.
  intros H. unfold s_check_all. apply bind_noval.
  - assert (G : forall is, (forall i, In i is -> i < length cs) -> s_check_cores off cs sh ranks bs is <> Err ValueError).
    { induction is as [|i is IH]; intros Hi; cbn; [discriminate|]. apply bind_noval; [apply check_core_noval; auto; apply Hi; cbn; auto|].
      intros [|]; [|discriminate]. apply IH. intros j Hj. apply Hi. now right. }
    apply G. intros i Hi. apply in_seq in Hi. lia.
  - intros b. unfold ts_index, ts_last. noval.
Qed.

Lemma valid_inv off cs sh ranks bs : s_cores_valid off cs sh ranks bs = Ok true -> all_ranked cs ->
  forall i, i < length cs -> s_check_core off cs sh ranks bs i = Ok true.
Proof.
  unfold s_cores_valid. destruct (same_dtypes cs); [|discriminate]. cbn [negb]. intros E H i Hi.
  pose proof (check_all_ranked off cs sh ranks bs H) as Hv.
  destruct (s_check_all off cs sh ranks bs) as [b|e] eqn:Ea; [|destruct e; try discriminate; congruence].
  injection E as ->. unfold s_check_all in Ea. destruct (s_check_cores _ _ _ _ _ _) as [[|]|] eqn:Ec; cbn [bind negb] in Ea; try discriminate.
  eapply check_cores_inv; [exact Ec|]. apply in_seq. lia.
Qed.

Lemma hint_ranks_true off cs sh ranks bs rt b rsh rks : off = off_of b -> s_cores_valid off cs sh ranks bs = Ok true -> all_ranked cs ->
  cores_allow cs rt -> runs rt b rsh rks -> forall rs, ranks = Some rs -> length rs = length rks -> Forall2 allows rs rks.
Proof.
  intros -> V K A R rs Er Hl. pose proof (valid_inv _ _ _ _ _ V K) as Hc. pose proof (Forall2_len A) as Lc.
  pose proof (runs_rks _ _ _ _ R) as Lk. pose proof (runs_d _ _ _ _ R) as Hd.
  apply (Forall2_of_nth None 0); auto. intros k Hk. destruct (Nat.eq_dec k (length rt)) as [->|Hn].
  - destruct (check_core_inv _ _ _ _ _ _ (Hc (length rt - 1) ltac:(lia))) as (cur & Ecur & _ & H).
    destruct (H rs Er) as (r & r' & _ & _ & E1 & E2). replace (S (length rt - 1)) with (length rt) in E2 by lia.
    rewrite (nth_error_nth _ _ None E2). destruct (run_core_last b rsh rks (length rt - 1)) as (l0 & E0).
    replace (nth (length rt) rks 0) with (nth (S (length rt - 1)) rks 0) by (f_equal; lia).
    eapply (allows_last (nth (length rt - 1) cs snocore) l0); [|rewrite Ecur; exact E1]. rewrite <- E0. apply cores_allow_at with (rt := rt); auto. lia.
  - destruct (check_core_inv _ _ _ _ _ _ (Hc k ltac:(lia))) as (cur & Ecur & _ & H).
    destruct (H rs Er) as (r & r' & E1 & E2 & _). rewrite (nth_error_nth _ _ None E2).
    eapply (allows_index (nth k cs snocore) _ (off_of b)); [apply (cores_allow_at cs rt b rsh rks k A R ltac:(lia))| |apply run_core_left].
    rewrite Ecur. cbn. unfold nthr. now rewrite E1.
Qed.

Lemma hint_shape_true cs sh ranks rt rsh rks : s_cores_valid 0 cs sh ranks None = Ok true -> all_ranked cs ->
  cores_allow cs rt -> runs rt None rsh rks -> forall ss, sh = Some ss -> Forall2 (fun s r => length s = length r) ss rsh ->
  Forall2 (Forall2 allows) ss rsh.
Proof.
  intros V K A R ss Es Hl. pose proof (valid_inv _ _ _ _ _ V K) as Hc. pose proof (Forall2_len A) as Lc.
  apply (Forall2_of_nth [] []); [eapply Forall2_len; eauto|]. intros ax Hax.
  pose proof (Forall2_at Hl ax [] [] Hax) as La.
  assert (Hs : length (nth ax rsh []) = length rt) by (apply (runs_sh _ _ _ _ R), nth_In; rewrite <- (Forall2_len Hl); auto).
  apply (Forall2_of_nth None 0); auto. intros i Hi. rewrite La, Hs in Hi.
  destruct (check_core_inv _ _ _ _ _ _ (Hc i ltac:(lia))) as (cur & Ecur & H & _).
  destruct (H ss ax Es Hax) as (d & s & m & E1 & E2 & E3 & E4). cbn [Nat.eqb dim_ok] in E4. apply deqb_eq in E4. subst m.
  rewrite (nth_error_nth _ _ [] E2), (nth_error_nth _ _ None E3).
  eapply (allows_index (nth i cs snocore) _ (ax + 0 + 1)); [apply (cores_allow_at cs rt None rsh rks i A R ltac:(lia))| |].
  - rewrite Ecur. cbn [ts_index]. unfold nthr. now rewrite E1.
  - rewrite <- (run_core_mode None rsh rks i ax) by (rewrite <- (Forall2_len Hl); auto). f_equal. lia.
Qed.

(** TensorTrain compares everything that it is given, so its arguments need not be trusted. *)
Lemma TensorTrain_checked cs sh ranks o rt rsh rks :
  sTensorTrain cs sh ranks = Ok o -> all_ranked cs -> cores_allow cs rt -> runs rt None rsh rks ->
  sized_hints sh ranks rsh rks -> truthful o None rsh rks.
Proof.
  intros E K A R (H1 & H2). eapply TensorTrain_truthful; eauto.
  destruct (sTensorTrain_inv _ _ _ _ E) as (clean & Ec & V & _). split; [|split; [|discriminate]].
  - intros ss Es. rewrite Ec in Es. injection Es as ->. eapply hint_shape_true; eauto.
  - intros rs ->. eapply hint_ranks_true with (b := None); eauto; reflexivity.
Qed.

(** TensorTrainBatch compares the ranks in the same way; modes and the batch size have to be
    trusted where the cores do not say. *)
Lemma TensorTrainBatch_checked cs sh ranks bs o rt n rsh rks :
  sTensorTrainBatch cs sh ranks bs = Ok o -> all_ranked cs -> cores_allow cs rt -> runs rt (Some n) rsh rks ->
  (forall ss, s_clean_raw_shape sh = Ok (Some ss) -> Forall2 (Forall2 allows) ss rsh) ->
  (forall rs, ranks = Some rs -> length rs = length rks) ->
  (forall m, bs = Some m -> m = n) -> truthful o (Some n) rsh rks.
Proof.
  intros E K A R H1 H2 H3. eapply TensorTrainBatch_truthful; eauto.
  destruct (sTensorTrainBatch_inv _ _ _ _ _ E) as (clean & d & Ec & V & _). split; [auto|split].
  - intros rs ->. eapply hint_ranks_true with (b := Some n); eauto; reflexivity.
  - intros m Em. f_equal. symmetry. auto.
Qed.

(** ** Fully known shapes: the model of Base.v *)

Section Known.
Variable K : cring.
Variable dt : nat.
Notation static_core := (@static_core K dt).
Notation static_tt := (@static_tt K dt).

Lemma nth_static (cs : list (tensor K)) i : i < length cs ->
  sshape (nth i (map static_core cs) snocore) = Some (map Some (shape (nth i cs (Tensor [] [])))).
Proof. intros H. rewrite (nth_map' _ cs i (Tensor [] [])) by auto. reflexivity. Qed.

Lemma nthr_map {A B} (f : A -> B) l i : nthr (map f l) i = (do x <- nthr l i; Ok (f x)).
Proof. unfold nthr. rewrite nth_error_map. now destruct (nth_error l i). Qed.
Lemma lastr_map {A B} (f : A -> B) l : lastr (map f l) = (do x <- lastr l; Ok (f x)).
Proof. unfold lastr. rewrite <- map_rev. now destruct (rev l). Qed.

Lemma all_axes_ext f g n : forall i, (forall a m, f a m = g a m) -> all_axes f i n = all_axes g i n.
Proof. induction n as [|n IH]; intros i H; cbn; auto. rewrite H. destruct (g i n) as [[|]|]; cbn; auto. Qed.

Lemma check_core_static off cs sh ranks bs i : i < length cs ->
  s_check_core off (map static_core cs) (option_map (map (map Some)) sh) (option_map (map Some) ranks) bs i =
  check_core off cs sh ranks bs i.
Proof.
  intros Hi. unfold s_check_core, check_core. rewrite !nth_static by lia. cbn [as_list bind]. rewrite !map_length.
  set (c := nth i cs _). destruct (length (shape c) =? _); [|reflexivity]. cbn [negb].
  replace (match bs with Some b => do d <- nthr (map Some (shape c)) 0; Ok (dim_ok false d (Some b)) | None => Ok true end)
    with (match bs with Some b => do d <- nthr (shape c) 0; Ok (d =? b) | None => Ok true end).
  2:{ destruct bs; auto. rewrite nthr_map. destruct (nthr (shape c) 0); reflexivity. }
  destruct (match bs with Some b => _ | None => _ end) as [[|]|]; cbn [bind negb]; auto.
  set (A := match option_map (map (map Some)) sh with Some ss => _ | None => _ end).
  replace A with (match sh with None => Ok true | Some ss => all_axes (fun ax _ => do d <- nthr (shape c) (ax + off + 1);
                                       do s <- nthr ss ax; do m <- nthr s i; Ok (Nat.eqb d m)) 0 (length ss) end).
  2:{ unfold A. destruct sh as [ss|]; auto. cbn [option_map]. rewrite map_length. apply all_axes_ext. intros a m.
      rewrite !nthr_map. destruct (nthr (shape c) _); cbn [bind]; auto. destruct (nthr ss a) as [s|]; cbn [bind]; auto.
      rewrite nthr_map. destruct (nthr s i); cbn [bind]; auto. destruct (off =? 0); reflexivity. }
  clear A. destruct (match sh with Some ss => _ | None => _ end) as [[|]|]; cbn [bind negb]; auto.
  set (B := match i with O => _ | S i' => do l <- nthr (map Some (shape c)) off; _ end).
  replace B with (match i with O => Ok true | S i' => do l <- nthr (shape c) off;
                        do p <- lastr (shape (nth i' cs (Tensor [] []))); Ok (Nat.eqb l p) end).
  2:{ unfold B. destruct i as [|i']; auto. rewrite nth_static by lia. cbn [ts_last]. rewrite nthr_map, lastr_map.
      destruct (nthr (shape c) off); cbn [bind]; auto. destruct (lastr _); reflexivity. }
  clear B. destruct (match i with O => _ | S _ => _ end) as [[|]|]; cbn [bind negb]; auto.
  destruct ranks as [rs|]; auto. cbn [option_map]. rewrite !nthr_map, lastr_map.
  destruct (nthr (shape c) off); cbn [bind]; auto. destruct (nthr rs i); cbn [bind]; auto. cbn [deqb].
  destruct (_ =? _); cbn [negb]; auto. destruct (lastr (shape c)); cbn [bind]; auto. destruct (nthr rs (S i)); reflexivity.
Qed.

Lemma check_cores_static off cs sh ranks bs is : (forall i, In i is -> i < length cs) ->
  s_check_cores off (map static_core cs) (option_map (map (map Some)) sh) (option_map (map Some) ranks) bs is =
  check_cores off cs sh ranks bs is.
Proof.
  induction is as [|i is IH]; intros H; cbn; auto. rewrite check_core_static by (apply H; cbn; auto).
  destruct (check_core off cs sh ranks bs i) as [[|]|]; cbn; auto. apply IH. intros j Hj. apply H. now right.
Qed.

Lemma check_cores_noval off (cs : list (tensor K)) sh ranks bs is : check_cores off cs sh ranks bs is <> Err ValueError.
Proof.
  induction is as [|i is IH]; cbn; [discriminate|]. apply bind_noval; [|intros [|]; auto; discriminate].
  unfold check_core. cbv zeta. noval.
Qed.

Lemma valid_static off cs sh ranks bs :
  s_cores_valid off (map static_core cs) (option_map (map (map Some)) sh) (option_map (map Some) ranks) bs =
  cores_valid off cs sh ranks bs.
Proof.
  unfold s_cores_valid, cores_valid.
  assert (Ed : same_dtypes (map static_core cs) = true).
  { unfold same_dtypes. apply forallb_forall. intros i Hi. apply in_seq in Hi. rewrite map_length in Hi.
    rewrite !(nth_map' static_core cs _ (Tensor [] [])) by lia. apply Nat.eqb_refl. }
  rewrite Ed. cbn [negb]. unfold s_check_all. rewrite map_length.
  rewrite check_cores_static by (intros i Hi; apply in_seq in Hi; lia).
  pose proof (check_cores_noval off cs sh ranks bs (seq 0 (length cs))) as Hv.
  destruct (check_cores off cs sh ranks bs (seq 0 (length cs))) as [[|]|e]; cbn [bind negb]; auto; [|destruct e; congruence].
  rewrite nthr_map, lastr_map.
  destruct (nthr_cases cs 0) as [(c0 & ->)| ->]; cbn [bind]; auto.
  destruct (lastr_cases cs) as [(cl & ->)| ->]; cbn [bind]; auto.
  cbn [static_core sshape ts_index ts_last]. rewrite nthr_map, lastr_map.
  destruct (nthr_cases (shape c0) off) as [(f & ->)| ->]; cbn [bind]; auto. cbn [deqb].
  destruct (f =? 1); cbn [negb]; auto. destruct (lastr_cases (shape cl)) as [(l & ->)| ->]; reflexivity.
Qed.

Lemma valid_lengths off (cs : list (tensor K)) sh ranks bs : cores_valid off cs sh ranks bs = Ok true ->
  cs <> [] /\ forall c, In c cs -> length (shape c) = length (shape (nth 0 cs (Tensor [] []))) /\ off < length (shape c).
Proof.
  intros E. destruct (cores_valid_inv _ _ _ _ _ _ E) as (Hne & Hc & _). split; auto.
  assert (H0 : off < length (shape (nth 0 cs (Tensor [] [])))).
  { unfold cores_valid in E. destruct (check_cores _ _ _ _ _ _) as [[|]|]; cbn [bind negb] in E; try discriminate.
    destruct cs as [|c0 cs']; [congruence|]. change (nthr (c0 :: cs') 0) with (Ok c0) in E. cbn [bind] in E.
    destruct (lastr_cases (c0 :: cs')) as [(y & Ey)|Ey]; rewrite Ey in E; [|discriminate]. cbn [bind] in E.
    cbn [nth]. destruct (nthr (shape c0) off) as [f|] eqn:Ef; [|discriminate]. apply nthr_inv in Ef. apply nth_error_Some. congruence. }
  intros c Hi. destruct (In_nth _ _ (Tensor [] []) Hi) as (k & Hk & <-).
  assert (Hr : length (shape (nth k cs (Tensor [] []))) = length (shape (nth 0 cs (Tensor [] [])))).
  { apply (Hc k); apply nth_error_nth'; [auto|lia]. }
  split; auto. now rewrite Hr.
Qed.

Lemma mapM_static {B} (f : score -> res B) (g : tensor K -> B) cs : (forall c, In c cs -> f (static_core c) = Ok (g c)) ->
  mapM f (map static_core cs) = Ok (map g cs).
Proof.
  induction cs as [|c cs IH]; intros H; cbn [map mapM]; auto. rewrite H by (cbn; auto). cbn [bind].
  rewrite IH by (intros; apply H; cbn; auto). reflexivity.
Qed.

Lemma infer_raw_static off cs sh ranks bs : cores_valid off cs sh ranks bs = Ok true ->
  s_infer_raw_shape off (map static_core cs) = Ok (map (map Some) (infer_raw_shape off cs)).
Proof.
  intros V. destruct (valid_lengths _ _ _ _ _ V) as (Hne & Hl). unfold s_infer_raw_shape, infer_raw_shape.
  destruct cs as [|c0 cs']; [congruence|]. set (cs := c0 :: cs') in *.
  change (nthr (map static_core cs) 0) with (Ok (static_core c0)). cbn [bind static_core sshape as_list]. rewrite map_length.
  change (nth 0 cs (Tensor [] [])) with c0 in *.
  rewrite (mapM_ok _ (fun ax => map (fun c => Some (nth (ax + 1 + off) (shape c) 0)) cs)).
  - f_equal. rewrite map_map. apply map_ext. intros ax. rewrite map_map. reflexivity.
  - intros ax Hax. apply in_seq in Hax. apply mapM_static. intros c Hc. destruct (Hl c Hc) as [L1 L2].
    cbn [static_core sshape ts_index]. rewrite nthr_map. rewrite (nthr_nth _ _ 0) by lia. reflexivity.
Qed.

Lemma infer_ranks_static off cs sh ranks bs : cores_valid off cs sh ranks bs = Ok true ->
  s_infer_tt_ranks off (map static_core cs) = Ok (map Some (infer_tt_ranks off cs)).
Proof.
  intros V. destruct (valid_lengths _ _ _ _ _ V) as (Hne & Hl). unfold s_infer_tt_ranks, infer_tt_ranks.
  rewrite (mapM_static _ (fun c => Some (nth off (shape c) 0))).
  2:{ intros c Hc. destruct (Hl c Hc) as [L1 L2]. cbn [static_core sshape ts_index]. rewrite nthr_map. rewrite (nthr_nth _ _ 0) by lia. reflexivity. }
  cbn [bind]. rewrite lastr_map. rewrite (lastr_last cs (Tensor [] []) Hne). cbn [bind static_core sshape ts_last].
  rewrite lastr_map. rewrite last_at.
  assert (Hi : In (nth (length cs - 1) cs (Tensor [] [])) cs) by (apply nth_In; destruct cs; [congruence|cbn; lia]).
  destruct (Hl _ Hi) as [_ L2].
  rewrite (lastr_last _ 0) by (intros E; rewrite E in L2; cbn in L2; lia). cbn [bind]. rewrite map_app, map_map. reflexivity.
Qed.

(** With fully known shapes the constructors are those of Base.v. *)
Lemma TensorTrain_static cs sh ranks :
  sTensorTrain (map static_core cs) (AKnown sh) (option_map (map Some) ranks) =
  (do t <- TensorTrain cs sh ranks; Ok (static_tt t)).
Proof.
  unfold sTensorTrain, TensorTrain. cbn [s_clean_raw_shape]. destruct (clean_raw_shape sh) as [clean|]; cbn [bind]; auto.
  rewrite valid_static. destruct (cores_valid 0 cs clean ranks None) as [[|]|] eqn:V; cbn [bind negb]; auto.
  destruct clean as [ss|]; cbn [option_map bind]; [|rewrite (infer_raw_static _ _ _ _ _ V); cbn [bind]];
    (destruct ranks as [rs|]; cbn [option_map bind]; [|rewrite (infer_ranks_static _ _ _ _ _ V); cbn [bind]]); reflexivity.
Qed.

Lemma TensorTrainBatch_static cs sh ranks bs :
  sTensorTrainBatch (map static_core cs) (AKnown sh) (option_map (map Some) ranks) bs =
  (do t <- TensorTrainBatch cs sh ranks bs; Ok (static_tt t)).
Proof.
  unfold sTensorTrainBatch, TensorTrainBatch. cbn [s_clean_raw_shape]. destruct (clean_raw_shape sh) as [clean|]; cbn [bind]; auto.
  rewrite valid_static. destruct (cores_valid 1 cs clean ranks bs) as [[|]|] eqn:V; cbn [bind negb]; auto.
  assert (Eb : match bs with Some b => Ok (Some b) | None => do c <- nthr (map static_core cs) 0; do l <- as_list (sshape c); nthr l 0 end =
    (do b <- match bs with Some b => Ok b | None => do c <- nthr cs 0; nthr (shape c) 0 end; Ok (Some b))).
  { destruct bs as [b|]; auto. rewrite nthr_map. destruct (nthr cs 0) as [c|]; cbn [bind]; auto. cbn [static_core sshape as_list bind]. apply nthr_map. }
  rewrite Eb. clear Eb. destruct (match bs with Some b => _ | None => _ end) as [b|]; cbn [bind]; auto.
  destruct clean as [ss|]; cbn [option_map bind]; [|rewrite (infer_raw_static _ _ _ _ _ V); cbn [bind]];
    (destruct ranks as [rs|]; cbn [option_map bind]; [|rewrite (infer_ranks_static _ _ _ _ _ V); cbn [bind]]); reflexivity.
Qed.

(** ... and the lazy functions return the stored values, at any run time. *)
Lemma lazy_static (t : Base.tt K) rt : wf t ->
  s_lazy_tt_ranks (static_tt t) rt = Ok (lazy_tt_ranks t) /\
  s_lazy_shape (static_tt t) rt = Ok (lazy_shape t) /\
  s_lazy_raw_shape (static_tt t) rt = Ok (lazy_raw_shape t) /\
  s_lazy_batch_size (static_tt t) rt = lazy_batch_size t.
Proof.
  intros W.
  assert (G : s_get_shape (static_tt t) = Ok (map Some (get_shape t))).
  { unfold s_get_shape, get_shape, s_is_tt_matrix, is_tt_matrix. cbn [static_tt srshape sbsz]. rewrite map_length.
    destruct (wf_kind W) as [Hk|Hk]; rewrite Hk; cbn [Nat.eqb].
    - rewrite nthr_map. rewrite (nthr_nth _ 0 []) by lia. cbn [bind]. destruct (bsz t); reflexivity.
    - pose proof (wf_rlen W) as Hl. rewrite Forall_forall in Hl. pose proof (wf_d W) as Hd.
      rewrite !nthr_map, !(nthr_nth _ _ []) by lia. cbn [bind].
      assert (N : forall i, i < 2 -> nth i (rshape t) [] <> []).
      { intros i Hi E. assert (Hin : In (nth i (rshape t) []) (rshape t)) by (apply nth_In; lia). apply Hl in Hin. rewrite E in Hin. cbn in Hin. lia. }
      rewrite !dim_prod_known by (apply N; lia). cbn [bind]. destruct (bsz t); reflexivity. }
  unfold s_lazy_tt_ranks, s_lazy_shape, s_lazy_raw_shape, s_lazy_batch_size. rewrite G. cbn [bind]. rewrite fully_map.
  split; [cbn [static_tt srks]; now rewrite fully_map|]. split; [reflexivity|]. split.
  - cbn [static_tt srshape]. unfold all_defined, lazy_raw_shape. induction (rshape t) as [|s ss IH]; cbn [map mapM]; auto.
    rewrite fully_map. cbn [bind]. rewrite IH. reflexivity.
  - cbn [static_tt sbsz]. unfold lazy_batch_size. destruct (bsz t); reflexivity.
Qed.

Lemma broadcasting_static (a b : Base.tt K) :
  s_is_batch_broadcasting_possible (static_tt a) (static_tt b) = is_batch_broadcasting_possible a b.
Proof.
  unfold s_is_batch_broadcasting_possible, is_batch_broadcasting_possible. cbn [static_tt sbsz].
  destruct (bsz a) as [x|], (bsz b) as [y|]; cbn [option_map]; auto. cbn [deqb]. now rewrite orb_assoc.
Qed.
End Known.

(** ** Broadcasting with unknown batch sizes *)

(** is_batch_broadcasting_possible says yes exactly when every possible pair of run time batch
    sizes can be broadcast. *)
Lemma broadcasting_iff a b : s_is_batch_broadcasting_possible a b = true <->
  forall x y, bsz_allows (sbsz a) x -> bsz_allows (sbsz b) y -> can_broadcast x y.
Proof.
  unfold s_is_batch_broadcasting_possible, bsz_allows, can_broadcast.
  assert (K : forall n, allows (Some n) n) by (intros n m H; congruence).
  assert (N : forall n, allows None n) by (intros n m H; discriminate).
  destruct (sbsz a) as [[n|]|], (sbsz b) as [[m|]|].
  - cbn [deqb]. rewrite !orb_true_iff, !Nat.eqb_eq. split.
    + intros H [n'|] [m'|] Hn Hm; auto. specialize (Hn n eq_refl). specialize (Hm m eq_refl). subst. tauto.
    + intros H. specialize (H (Some n) (Some m) (K n) (K m)). cbn in H. tauto.
  - cbn [deqb]. rewrite !orb_true_iff, Nat.eqb_eq. split.
    + intros H [n'|] [m'|] Hn Hm; auto. specialize (Hn n eq_refl). subst. destruct H as [H|[H|H]]; try discriminate. auto.
    + intros H. specialize (H (Some n) (Some (n + 2)) (K n) (N _)). cbn in H. lia.
  - split; auto. intros _ [n'|] [m'|]; tauto.
  - cbn [deqb]. rewrite !orb_true_iff, Nat.eqb_eq. split.
    + intros H [n'|] [m'|] Hn Hm; auto. specialize (Hm m eq_refl). subst. destruct H as [H|[H|H]]; try discriminate. auto.
    + intros H. specialize (H (Some (m + 2)) (Some m) (N _) (K m)). cbn in H. lia.
  - split; [discriminate|]. intros H. specialize (H (Some 2) (Some 3) (N _) (N _)). cbn in H. lia.
  - split; auto. intros _ [n'|] [m'|]; tauto.
  - split; auto. intros _ [n'|] [m'|]; tauto.
  - split; auto. intros _ [n'|] [m'|]; tauto.
  - split; auto. intros _ [n'|] [m'|]; tauto.
Qed.

(** ** expand_batch_dim *)

Lemma check_core_more off cs sh ranks bs i cur : s_check_core off cs sh ranks bs i = Ok true -> sshape (nth i cs snocore) = Some cur ->
  (exists first, sshape (nth 0 cs snocore) = Some first /\ length cur = length first) /\
  (0 < i -> exists d, nthr cur off = Ok d /\ ts_last (sshape (nth (i - 1) cs snocore)) = Ok d).
Proof.
  intros E Ec. unfold s_check_core in E. rewrite Ec in E. cbn [as_list bind] in E.
  destruct (sshape (nth 0 cs snocore)) as [first|]; [|discriminate]. cbn [as_list bind] in E.
  destruct (Nat.eqb_spec (length cur) (length first)) as [El|]; [|discriminate]. cbn [negb] in E. split; [eauto|].
  destruct (match bs with Some b => _ | None => _ end) as [[|]|]; try discriminate. cbn [bind negb] in E.
  destruct (match sh with Some ss => _ | None => _ end) as [[|]|]; try discriminate. cbn [bind negb] in E.
  destruct i as [|i]; [lia|]. intros _. cbn [Nat.sub]. rewrite Nat.sub_0_r.
  destruct (nthr cur off) as [d|]; [|discriminate]. cbn [bind] in E.
  destruct (ts_last (sshape (nth i cs snocore))) as [p|]; [|discriminate]. cbn [bind] in E.
  destruct (deqb d p) eqn:Ed; [|discriminate]. apply deqb_eq in Ed. subst p. eauto.
Qed.

Lemma valid_ends off cs sh ranks bs : s_cores_valid off cs sh ranks bs = Ok true -> all_ranked cs -> cs <> [] /\
  ts_index (sshape (nth 0 cs snocore)) off = Ok (Some 1) /\ ts_last (sshape (nth (length cs - 1) cs snocore)) = Ok (Some 1) /\ same_dtypes cs = true.
Proof.
  unfold s_cores_valid. destruct (same_dtypes cs); [|discriminate]. cbn [negb]. intros E H.
  pose proof (check_all_ranked off cs sh ranks bs H) as Hv.
  destruct (s_check_all off cs sh ranks bs) as [b|e] eqn:Ea; [|destruct e; try discriminate; congruence].
  injection E as ->. unfold s_check_all in Ea. destruct (s_check_cores _ _ _ _ _ _) as [[|]|] eqn:Ec; cbn [bind negb] in Ea; try discriminate.
  assert (Hne : cs <> []) by (intros ->; discriminate). split; auto.
  rewrite (nthr_nth cs 0 snocore) in Ea by (destruct cs; [congruence|cbn; lia]). cbn [bind] in Ea.
  rewrite (lastr_last cs snocore Hne), last_at in Ea. cbn [bind] in Ea.
  destruct (ts_index _ off) as [f|]; [|discriminate]. cbn [bind] in Ea.
  destruct (deqb f (Some 1)) eqn:Ef; [|discriminate]. apply deqb_eq in Ef. subst f. cbn [negb] in Ea.
  destruct (ts_last _) as [l|]; [|discriminate]. cbn [bind] in Ea. injection Ea as Ea. apply deqb_eq in Ea. subst l. auto.
Qed.

(** What a constructed TensorTrain stores is what its cores say. *)
Lemma TensorTrain_stored cs sh ranks o : sTensorTrain cs sh ranks = Ok o -> all_ranked cs ->
  cs <> [] /\ scores o = cs /\ sbsz o = None /\
  forall i, i < length cs -> exists cur, sshape (nth i cs snocore) = Some cur /\
    (exists first, sshape (nth 0 cs snocore) = Some first /\ length cur = length first) /\
    (0 < i -> exists d, nthr cur 0 = Ok d /\ ts_last (sshape (nth (i - 1) cs snocore)) = Ok d) /\
    (forall ax, ax < length (srshape o) -> exists s d, nthr (srshape o) ax = Ok s /\ nthr s i = Ok d /\ nthr cur (ax + 1) = Ok d) /\
    (exists r r', nthr cur 0 = Ok r /\ nthr (srks o) i = Ok r /\ lastr cur = Ok r' /\ nthr (srks o) (S i) = Ok r').
Proof.
  intros E K. destruct (sTensorTrain_inv _ _ _ _ E) as (clean & _ & V & Es & Eb & Er & Ek).
  pose proof (valid_inv _ _ _ _ _ V K) as Hc. destruct (valid_ends _ _ _ _ _ V K) as (Hne & H0 & H1 & _).
  split; auto. split; auto. split; auto. intros i Hi.
  destruct (check_core_inv _ _ _ _ _ _ (Hc i Hi)) as (cur & Ecur & Hs & Hr).
  destruct (check_core_more _ _ _ _ _ _ _ (Hc i Hi) Ecur) as [Hlen Hprev].
  assert (NT : forall A (l : list A) k x, nth_error l k = Some x -> nthr l k = Ok x) by (intros A l k x Hx; unfold nthr; now rewrite Hx).
  exists cur. split; auto. split; auto. split; auto. split.
  - intros ax Hax. destruct clean as [ss|].
    + rewrite Er in *. destruct (Hs ss ax eq_refl Hax) as (d & s & m & E1 & E2 & E3 & E4). cbn [Nat.eqb dim_ok] in E4. apply deqb_eq in E4. subst m.
      exists s, d. rewrite Nat.add_0_r in E1. auto.
    + unfold s_infer_raw_shape in Er. rewrite (nthr_nth cs 0 snocore) in Er by lia. cbn [bind] in Er.
      destruct (sshape (nth 0 cs snocore)) as [l|]; [|discriminate]. cbn [as_list bind] in Er.
      pose proof (mapM_length _ _ _ Er) as Lr. rewrite seq_length in Lr.
      pose proof (mapM_nth _ _ _ Er ax 0 [] ltac:(rewrite seq_length; lia)) as Ea. rewrite seq_nth in Ea by lia. cbn [Nat.add] in Ea.
      pose proof (mapM_length _ _ _ Ea) as La. pose proof (mapM_nth _ _ _ Ea i snocore None Hi) as Ei. cbv beta in Ei. rewrite Ecur in Ei. cbn [ts_index] in Ei.
      rewrite Nat.add_0_r in Ei. exists (nth ax (srshape o) []), (nth i (nth ax (srshape o) []) None).
      split; [now apply nthr_nth|]. split; [apply nthr_nth; lia|exact Ei].
  - destruct ranks as [rs|].
    + rewrite Ek. destruct (Hr rs eq_refl) as (r & r' & E1 & E2 & E3 & E4). exists r, r'. auto.
    + unfold s_infer_tt_ranks in Ek. destruct (mapM _ cs) as [l|] eqn:El; [|discriminate]. cbn [bind] in Ek.
      rewrite (lastr_last cs snocore Hne), last_at in Ek. cbn [bind] in Ek. rewrite H1 in Ek. cbn [bind] in Ek. injection Ek as <-.
      pose proof (mapM_length _ _ _ El) as Ll. pose proof (mapM_nth _ _ _ El i snocore None Hi) as Ei. cbv beta in Ei. rewrite Ecur in Ei. cbn [ts_index] in Ei.
      assert (Hl : exists r', lastr cur = Ok r').
      { destruct (lastr_cases cur) as [?|Ex]; auto. destruct cur; [discriminate Ei|]. rewrite (lastr_last _ None) in Ex by discriminate. discriminate. }
      destruct Hl as (r' & Hl). exists (nth i l None), r'. split; auto. split; [rewrite (nthr_nth _ _ None) by (rewrite app_length; lia); now rewrite app_nth1 by lia|].
      split; auto. rewrite (nthr_nth _ _ None) by (rewrite app_length; cbn; lia). f_equal. destruct (Nat.eq_dec (S i) (length l)) as [EL|NL].
      * rewrite app_nth2, EL, Nat.sub_diag by lia. cbn [nth]. replace (length cs - 1) with i in H1 by lia. rewrite Ecur in H1. cbn [ts_last] in H1. congruence.
      * rewrite app_nth1 by lia. destruct (check_core_inv _ _ _ _ _ _ (Hc (S i) ltac:(lia))) as (cur' & Ecur' & _).
        destruct (check_core_more _ _ _ _ _ _ _ (Hc (S i) ltac:(lia)) Ecur') as [_ Hp]. destruct (Hp ltac:(lia)) as (d & P1 & P2).
        cbn [Nat.sub] in P2. rewrite Nat.sub_0_r, Ecur in P2. cbn [ts_last] in P2.
        pose proof (mapM_nth _ _ _ El (S i) snocore None ltac:(lia)) as Ei'. cbv beta in Ei'. rewrite Ecur' in Ei'. cbn [ts_index] in Ei'. congruence.
Qed.

Lemma nth_expand cs i : i < length cs -> nth i (map expand_core cs) snocore = expand_core (nth i cs snocore).
Proof. intros H. now rewrite (nth_map' _ _ _ snocore). Qed.

Lemma nthr_cons {A} (x : A) l i : nthr (x :: l) (S i) = nthr l i. Proof. reflexivity. Qed.
Lemma lastr_cons {A} (x : A) l y : lastr l = Ok y -> lastr (x :: l) = Ok y.
Proof. unfold lastr. cbn [rev]. destruct (rev l); [discriminate|]. auto. Qed.

Lemma all_axes_ok f : forall n i, (forall a m, i <= a < i + n -> f a m = Ok true) -> all_axes f i n = Ok true.
Proof. induction n as [|n IH]; intros i H; cbn; auto. rewrite H by lia. cbn. apply IH. intros. apply H. lia. Qed.

Lemma deqb_refl d : deqb d d = true.
Proof. destruct d; cbn; auto. apply Nat.eqb_refl. Qed.

Lemma expand_ok cs sh ranks o : sTensorTrain cs sh ranks = Ok o -> all_ranked cs -> srshape o <> [] ->
  s_expand_batch_dim o = Ok (SObj (map expand_core (scores o)) (srshape o) (srks o) (Some (Some 1))).
Proof.
  intros E K Hraw. destruct (TensorTrain_stored _ _ _ _ E K) as (Hne & Es & Eb & Hi).
  destruct (sTensorTrain_inv _ _ _ _ E) as (clean & _ & V & _). destruct (valid_ends _ _ _ _ _ V K) as (_ & H0 & H1 & Hdt).
  unfold s_expand_batch_dim. rewrite Eb, Es. unfold sTensorTrainBatch.
  replace (s_clean_raw_shape (ATuple (srshape o))) with (Ok (Some (srshape o))) by (cbn; destruct (srshape o); [congruence|reflexivity]).
  cbn [bind]. fold expand_core. change (map (fun c => SCore (sdt c) (option_map (cons (Some 1)) (sshape c))) cs) with (map expand_core cs).
  assert (Hl : 0 < length cs) by (destruct cs; [congruence|cbn; lia]).
  assert (HV : s_cores_valid 1 (map expand_core cs) (Some (srshape o)) (Some (srks o)) (Some 1) = Ok true).
  { unfold s_cores_valid. replace (same_dtypes (map expand_core cs)) with true.
    2:{ symmetry. unfold same_dtypes in *. rewrite map_length. rewrite forallb_forall in *. intros i Hx. pose proof Hx as Hx'. apply in_seq in Hx'.
        rewrite !nth_expand by lia. exact (Hdt i Hx). }
    cbn [negb]. unfold s_check_all. rewrite map_length.
    assert (HC : forall i, i < length cs -> s_check_core 1 (map expand_core cs) (Some (srshape o)) (Some (srks o)) (Some 1) i = Ok true).
    { intros i Hx. destruct (Hi i Hx) as (cur & Ec & (first & Ef & Elen) & Hp & Hm & (r & r' & R1 & R2 & R3 & R4)).
      unfold s_check_core. rewrite !nth_expand by lia. cbn [expand_core sshape]. rewrite Ec, Ef. cbn [option_map as_list bind length]. rewrite Elen, Nat.eqb_refl. cbn [negb].
      change (nthr (Some 1 :: cur) 0) with (Ok (Some 1)). cbn [bind dim_ok Nat.eqb negb].
      rewrite all_axes_ok.
      2:{ intros a m Ha. destruct (Hm a ltac:(lia)) as (s & d & M1 & M2 & M3). rewrite M1. replace (a + 1 + 1) with (S (a + 1)) by lia.
          rewrite nthr_cons, M3. cbn [bind]. rewrite M2. cbn [bind]. destruct d; [now rewrite Nat.eqb_refl|reflexivity]. }
      cbn [bind negb].
      assert (B2 : match i with O => Ok true | S i' => do l <- nthr (Some 1 :: cur) 1; do p <- ts_last (sshape (nth i' (map expand_core cs) snocore)); Ok (deqb l p) end = Ok true).
      { destruct i as [|i']; auto. destruct (Hp ltac:(lia)) as (d & P1 & P2). cbn [Nat.sub] in P2. rewrite Nat.sub_0_r in P2.
        rewrite nthr_cons, P1. cbn [bind]. rewrite nth_expand by lia. cbn [expand_core sshape].
        destruct (Hi i' ltac:(lia)) as (cur' & Ec' & _). rewrite Ec' in *. cbn [option_map ts_last] in *. rewrite (lastr_cons _ _ _ P2). cbn [bind]. now rewrite deqb_refl. }
      rewrite B2. cbn [bind negb]. rewrite nthr_cons, R1, R2. cbn [bind]. rewrite deqb_refl. cbn [negb]. rewrite (lastr_cons _ _ _ R3), R4. cbn [bind]. now rewrite deqb_refl. }
    assert (HCs : forall is, (forall i, In i is -> i < length cs) -> s_check_cores 1 (map expand_core cs) (Some (srshape o)) (Some (srks o)) (Some 1) is = Ok true).
    { induction is as [|i is IH]; intros H; cbn [s_check_cores]; auto. rewrite HC by (apply H; cbn; auto). cbn [bind]. apply IH. intros j Hj. apply H. now right. }
    rewrite HCs by (intros i Hx; apply in_seq in Hx; lia). cbn [bind negb].
    rewrite (nthr_nth _ 0 snocore) by (rewrite map_length; lia). cbn [bind].
    rewrite (lastr_last _ snocore) by (destruct cs; [congruence|discriminate]). rewrite last_at, map_length. cbn [bind]. rewrite !nth_expand by lia.
    cbn [expand_core sshape]. destruct (Hi 0 Hl) as (c0 & E0 & _). destruct (Hi (length cs - 1) ltac:(lia)) as (cl & E1 & _).
    rewrite E0 in *. rewrite E1 in *. cbn [option_map ts_index ts_last] in *. rewrite nthr_cons, H0. cbn [bind deqb Nat.eqb negb].
    rewrite (lastr_cons _ _ _ H1). reflexivity. }
  rewrite HV. reflexivity.
Qed.
