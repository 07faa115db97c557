(** squeeze_batch_dim with unknown shapes: lemmas. *)
From Coq Require Import List Arith Lia Bool.
From Verif Require Import Scalar Tensor TensorLemmas Base BaseLemmas Spec ConstructProofs InitProofs Static StaticSpec StaticProofs StaticThms.
Import ListNotations.

Section Squeeze.
Variables (cs : list score) (sh : sarg) (ranks : option (list dim)) (bs : option nat) (o : sobj) (rt : list (list nat)) (rsh : list (list nat)) (rks : list nat).
Hypothesis E : sTensorTrainBatch cs sh ranks bs = Ok o.
Hypothesis HK : all_ranked cs.
Hypothesis HA : cores_allow cs rt.
Hypothesis HR : runs rt (Some 1) rsh rks.
Hypothesis HL : length (srshape o) = length rsh.

Lemma batch_stored : cs <> [] /\ scores o = cs /\ same_dtypes cs = true /\
  forall i, i < length cs -> exists cur, sshape (nth i cs snocore) = Some cur /\ length cur = length rsh + 3 /\ allows (nth 0 cur None) 1 /\
    (0 < i -> exists prev, sshape (nth (i - 1) cs snocore) = Some prev /\ last prev None = nth 1 cur None) /\
    (i = 0 -> nth 1 cur None = Some 1) /\ (S i = length cs -> last cur None = Some 1) /\
    (forall ax, ax < length (srshape o) -> exists s m, nthr (srshape o) ax = Ok s /\ nthr s i = Ok m) /\
    nthr (srks o) i = Ok (nth 1 cur None) /\ nthr (srks o) (S i) = Ok (last cur None).
Proof.
  destruct (sTensorTrainBatch_inv _ _ _ _ _ E) as (clean & d & _ & V & Es & Eb & _ & Er & Ek).
  pose proof (valid_inv _ _ _ _ _ V HK) as Hc. destruct (valid_ends _ _ _ _ _ V HK) as (Hne & H0 & H1 & Hdt).
  split; auto. split; auto. split; auto.
  assert (LRT : length cs = length rt) by (eapply Forall2_len; exact HA).
  assert (SH : forall i, i < length cs -> exists cur, sshape (nth i cs snocore) = Some cur /\ length cur = length rsh + 3 /\ allows (nth 0 cur None) 1).
  { intros i Hi. destruct (ranked_at cs i HK Hi) as (cur & Ec). exists cur. split; auto. pose proof (Forall2_at HA i snocore [] Hi) as A. cbv beta in A. specialize (A cur Ec). rewrite (runs_core _ _ _ _ HR) in A by lia.
    split; [apply Forall2_len in A; rewrite A; unfold run_core; rewrite !app_length, map_length; cbn; lia|].
    destruct cur as [|d0 cur]; [inversion A|]. cbn [nth]. cbn in A. inversion A; auto. }
  assert (NL : forall (l : list dim), l <> [] -> lastr l = Ok (last l None)) by (intros l Hl; now rewrite (lastr_last l None Hl)).
  intros i Hi. destruct (SH i Hi) as (cur & Ecur & Lcur & A0). exists cur. split; auto. split; auto. split; auto.
  destruct (check_core_inv _ _ _ _ _ _ (Hc i Hi)) as (cur0 & Ecur0 & Hs & Hr). rewrite Ecur in Ecur0. injection Ecur0 as <-.
  destruct (check_core_more _ _ _ _ _ _ _ (Hc i Hi) Ecur) as [_ Hprev].
  assert (N1 : nthr cur 1 = Ok (nth 1 cur None)) by (apply nthr_nth; lia).
  assert (NC : cur <> []) by (intros ->; cbn in Lcur; lia).
  split. { intros Hi0. destruct (Hprev Hi0) as (d1 & P1 & P2). destruct (SH (i - 1) ltac:(lia)) as (prev & Ep & Lp & _). exists prev. split; auto. rewrite Ep in P2. cbn [ts_last] in P2. rewrite NL in P2 by (intros ->; cbn in Lp; lia). congruence. }
  split. { intros ->. rewrite Ecur in H0. cbn [ts_index] in H0. congruence. }
  split. { intros Hi1. replace (length cs - 1) with i in H1 by lia. rewrite Ecur in H1. cbn [ts_last] in H1. rewrite NL in H1 by auto. congruence. }
  assert (NT : forall A (l : list A) k x, nth_error l k = Some x -> nthr l k = Ok x) by (intros A l k x Hx; unfold nthr; now rewrite Hx).
  split.
  { intros ax Hax. destruct clean as [ss|].
    + rewrite Er in *. destruct (Hs ss ax eq_refl Hax) as (d1 & s & m & E1 & E2 & E3 & _). exists s, m. auto.
    + unfold s_infer_raw_shape in Er. rewrite (nthr_nth cs 0 snocore) in Er by lia. cbn [bind] in Er.
      destruct (sshape (nth 0 cs snocore)) as [l|]; [|discriminate]. cbn [as_list bind] in Er.
      pose proof (mapM_length _ _ _ Er) as Lr. rewrite seq_length in Lr.
      pose proof (mapM_nth _ _ _ Er ax 0 [] ltac:(rewrite seq_length; lia)) as Ea. rewrite seq_nth in Ea by lia. cbn [Nat.add] in Ea.
      pose proof (mapM_length _ _ _ Ea) as La. exists (nth ax (srshape o) []), (nth i (nth ax (srshape o) []) None). split; [now apply nthr_nth|]. apply nthr_nth; lia. }
  destruct ranks as [rs|].
  - rewrite Ek. destruct (Hr rs eq_refl) as (r & r' & E1 & E2 & E3 & E4). apply NT in E1. rewrite N1 in E1. injection E1 as <-. rewrite NL in E3 by auto. injection E3 as <-. auto.
  - unfold s_infer_tt_ranks in Ek. destruct (mapM _ cs) as [l|] eqn:El; [|discriminate]. cbn [bind] in Ek.
    rewrite (lastr_last cs snocore Hne), last_at in Ek. cbn [bind] in Ek. rewrite H1 in Ek. cbn [bind] in Ek. injection Ek as <-.
    pose proof (mapM_length _ _ _ El) as Ll. pose proof (mapM_nth _ _ _ El i snocore None Hi) as Ei. cbv beta in Ei. rewrite Ecur in Ei. cbn [ts_index] in Ei.
    split; [rewrite (nthr_nth _ _ None) by (rewrite app_length; lia); rewrite app_nth1 by lia; congruence|].
    rewrite (nthr_nth _ _ None) by (rewrite app_length; cbn; lia). f_equal. destruct (Nat.eq_dec (S i) (length l)) as [EL|NL'].
    + rewrite app_nth2, EL, Nat.sub_diag by lia. cbn [nth]. replace (length cs - 1) with i in H1 by lia. rewrite Ecur in H1. cbn [ts_last] in H1. rewrite NL in H1 by auto. congruence.
    + rewrite app_nth1 by lia. destruct (SH (S i) ltac:(lia)) as (cur' & Ecur' & Lcur' & _).
      destruct (check_core_more _ _ _ _ _ _ _ (Hc (S i) ltac:(lia)) Ecur') as [_ Hp]. destruct (Hp ltac:(lia)) as (d1 & P1 & P2).
      cbn [Nat.sub] in P2. rewrite Nat.sub_0_r, Ecur in P2. cbn [ts_last] in P2. rewrite NL in P2 by auto.
      pose proof (mapM_nth _ _ _ El (S i) snocore None ltac:(lia)) as Ei'. cbv beta in Ei'. rewrite Ecur' in Ei'. cbn [ts_index] in Ei'. congruence.
Qed.

Lemma nth_squeeze i : i < length cs -> nth i (map squeeze_core cs) snocore = squeeze_core (nth i cs snocore).
Proof. intros H. now rewrite (nth_map' _ _ _ snocore). Qed.

Lemma firsts : mapM (s_first (if s_is_tt_matrix o then 5 else 4)) (scores o) = Ok (map squeeze_core cs).
Proof.
  destruct batch_stored as (Hne & Es & _ & Hi). rewrite Es.
  assert (NX : (if s_is_tt_matrix o then 5 else 4) = length rsh + 3). { unfold s_is_tt_matrix. rewrite HL. destruct (runs_ax _ _ _ _ HR) as [L|L]; rewrite L; reflexivity. }
  rewrite NX. assert (F : forall c, In c cs -> s_first (length rsh + 3) c = Ok (squeeze_core c)).
  { intros c Hc. apply (In_nth _ _ snocore) in Hc as (i & Hl & <-). destruct (Hi i Hl) as (cur & Ec & Lc & A & _). unfold s_first, squeeze_core. rewrite Ec, Lc, Nat.ltb_irrefl. cbn [option_map].
    destruct cur as [|[[|n]|] cur]; cbn [length] in Lc; try lia; auto. exfalso. specialize (A 0 eq_refl). discriminate. }
  clear -F. induction cs as [|c l IH]; cbn; auto. rewrite F by (now left). cbn. now rewrite IH by (intros; apply F; now right).
Qed.

(** One pass of the check of the result: only the modes can disagree. *)
Definition mode_ok (i : nat) : bool :=
  forallb (fun ax => deqb (nth (ax + 2) (match sshape (nth i cs snocore) with Some l => l | None => [] end) None) (nth i (nth ax (srshape o) []) None)) (seq 0 (length (srshape o))).
Lemma all_axes_forallb f g : forall n i, (forall a m, i <= a < i + n -> f a m = Ok (g a)) -> all_axes f i n = Ok (forallb g (seq i n)).
Proof. induction n as [|n IH]; intros i H; cbn; auto. rewrite H by lia. cbn. destruct (g i); cbn; auto. apply IH. intros. apply H. lia. Qed.
Lemma check_squeezed i : i < length cs -> s_check_core 0 (map squeeze_core cs) (Some (srshape o)) (Some (srks o)) None i = Ok (mode_ok i).
Proof.
  intros Hx. destruct batch_stored as (Hne & Es & _ & Hi). destruct (Hi i Hx) as (cur & Ec & Lc & _ & Hp & _ & _ & Hm & R1 & R2). destruct (Hi 0 ltac:(lia)) as (first & Ef & Lf & _).
  unfold s_check_core. rewrite !nth_squeeze by lia. cbn [squeeze_core sshape]. rewrite Ec, Ef. cbn [option_map as_list bind].
  destruct cur as [|d0 cur]; [cbn in Lc; lia|]. destruct first as [|f0 first]; [cbn in Lf; lia|]. cbn [tl length] in *. replace (length cur) with (length first) by lia. rewrite Nat.eqb_refl. cbn [negb bind].
  rewrite (all_axes_forallb _ (fun ax => deqb (nth (ax + 2) (d0 :: cur) None) (nth i (nth ax (srshape o) []) None))).
  2:{ intros a m Ha. destruct (Hm a ltac:(lia)) as (s & mm & M1 & M2). rewrite (nthr_nth cur (a + 0 + 1) None) by lia. cbn [bind]. rewrite M1. cbn [bind]. rewrite M2. cbn [bind]. cbn [Nat.eqb dim_ok].
      f_equal. rewrite (nthr_nth (srshape o) a []) in M1 by lia. injection M1 as <-. unfold nthr in M2. destruct (nth_error _ i) as [x|] eqn:Ex; [|discriminate]. injection M2 as ->. apply (nth_error_nth _ _ None) in Ex. rewrite Ex. replace (a + 2) with (S (a + 0 + 1)) by lia. reflexivity. }
  cbn [bind]. unfold mode_ok. rewrite Ec. destruct (forallb _ _); cbn [negb]; auto.
  assert (B2 : match i with O => Ok true | S i' => do l <- nthr cur 0; do p <- ts_last (sshape (nth i' (map squeeze_core cs) snocore)); Ok (deqb l p) end = Ok true).
  { destruct i as [|i']; auto. destruct (Hp ltac:(lia)) as (prev & Ep & P2). cbn [Nat.sub] in Ep. rewrite Nat.sub_0_r in Ep. rewrite nth_squeeze by lia. cbn [squeeze_core sshape]. rewrite Ep. cbn [option_map].
    destruct (Hi i' ltac:(lia)) as (prev' & Ep' & Lp & _). rewrite Ep in Ep'. injection Ep' as <-. destruct prev as [|p0 prev]; [cbn in Lp; lia|]. cbn [tl length] in *. rewrite (nthr_nth cur 0 None) by lia. cbn [bind ts_last].
    rewrite (lastr_last _ None) by (intros ->; cbn in Lp; lia). cbn [bind]. destruct prev as [|p1 prev]; [cbn in Lp; lia|]. change (last (p0 :: p1 :: prev) None) with (last (p1 :: prev) None) in P2. rewrite P2. cbn [nth]. now rewrite deqb_refl. }
  rewrite B2. cbn [bind negb]. rewrite (nthr_nth cur 0 None) by lia. cbn [bind]. rewrite R1. cbn [bind nth]. rewrite deqb_refl. cbn [negb]. rewrite (lastr_last cur None) by (intros ->; cbn in Lc; lia). cbn [bind]. rewrite R2. cbn [bind].
  destruct cur as [|c1 cur]; [cbn in Lc; lia|]. change (last (d0 :: c1 :: cur) None) with (last (c1 :: cur) None). now rewrite deqb_refl.
Qed.
Lemma check_all_squeezed : s_cores_valid 0 (map squeeze_core cs) (Some (srshape o)) (Some (srks o)) None = Ok (forallb mode_ok (seq 0 (length cs))).
Proof.
  destruct batch_stored as (Hne & Es & Hdt & Hi). assert (Hl : 0 < length cs) by (destruct cs; [congruence|cbn; lia]). unfold s_cores_valid. replace (same_dtypes (map squeeze_core cs)) with true.
  2:{ symmetry. unfold same_dtypes in *. rewrite map_length. rewrite forallb_forall in *. intros i Hx. pose proof Hx as Hx'. apply in_seq in Hx'. rewrite !nth_squeeze by lia. exact (Hdt i Hx). }
  cbn [negb]. unfold s_check_all. rewrite map_length.
  assert (HCs : forall is, (forall i, In i is -> i < length cs) -> s_check_cores 0 (map squeeze_core cs) (Some (srshape o)) (Some (srks o)) None is = Ok (forallb mode_ok is)).
  { induction is as [|i is IH]; intros H; cbn [s_check_cores]; auto. rewrite check_squeezed by (apply H; cbn; auto). cbn [bind forallb]. destruct (mode_ok i); auto. apply IH. intros j Hj. apply H. now right. }
  rewrite HCs by (intros i Hx; apply in_seq in Hx; lia). cbn [bind]. destruct (forallb _ _); cbn [negb]; auto.
  rewrite (nthr_nth _ 0 snocore) by (rewrite map_length; lia). cbn [bind].
  rewrite (lastr_last _ snocore) by (destruct cs; [congruence|discriminate]). rewrite last_at, map_length. cbn [bind]. rewrite !nth_squeeze by lia.
  destruct (Hi 0 Hl) as (c0 & E0 & L0 & _ & _ & F0 & _). destruct (Hi (length cs - 1) ltac:(lia)) as (cl & E1 & L1 & _ & _ & _ & F1 & _). cbn [squeeze_core sshape]. rewrite E0, E1. cbn [option_map].
  destruct c0 as [|d0 c0]; [cbn in L0; lia|]. destruct cl as [|d1 cl]; [cbn in L1; lia|]. cbn [tl length] in *. cbn [ts_index]. rewrite (nthr_nth c0 0 None) by lia. cbn [bind]. specialize (F0 eq_refl). cbn [nth] in F0. rewrite F0. cbn [deqb Nat.eqb negb ts_last].
  rewrite (lastr_last cl None) by (intros ->; cbn in L1; lia). cbn [bind]. specialize (F1 ltac:(lia)). destruct cl as [|c1 cl]; [cbn in L1; lia|]. change (last (d1 :: c1 :: cl) None) with (last (c1 :: cl) None) in F1. now rewrite F1.
Qed.
Lemma modes_iff : modes_of_cores o <-> forallb mode_ok (seq 0 (length cs)) = true.
Proof.
  destruct batch_stored as (Hne & Es & _ & Hi). unfold modes_of_cores. rewrite Es. rewrite forallb_forall. split.
  - intros H i Hx. apply in_seq in Hx. destruct (Hi i ltac:(lia)) as (cur & Ec & _). unfold mode_ok. rewrite Ec. apply forallb_forall. intros ax Ha. apply in_seq in Ha. rewrite (H ax i cur) by (auto; lia). apply deqb_refl.
  - intros H ax i l Ha Hx Ec. specialize (H i ltac:(apply in_seq; lia)). unfold mode_ok in H. rewrite Ec, forallb_forall in H. specialize (H ax ltac:(apply in_seq; lia)). apply deqb_eq in H. auto.
Qed.
Lemma squeeze_ok : sbsz o = Some (Some 1) ->
  (modes_of_cores o -> s_squeeze_batch_dim o = Ok (SObj (map squeeze_core cs) (srshape o) (srks o) None)) /\
  (~ modes_of_cores o -> s_squeeze_batch_dim o = Err ValueError).
Proof.
  intros EB. rewrite modes_iff. unfold s_squeeze_batch_dim. rewrite EB. unfold s_element0. rewrite firsts. cbn [bind]. unfold sTensorTrain.
  replace (s_clean_raw_shape (ATuple (srshape o))) with (Ok (Some (srshape o))). 2:{ destruct (runs_ax _ _ _ _ HR); destruct (srshape o); cbn in *; auto; lia. }
  cbn [bind]. rewrite check_all_squeezed. cbn [bind]. destruct (forallb _ _); cbn [negb bind]; split; auto; [|discriminate]. intros H. exfalso. now apply H.
Qed.
Lemma squeezed_allow : cores_allow (map squeeze_core cs) (map (@tl nat) rt).
Proof.
  unfold cores_allow in *. clear -HA. induction HA; cbn; constructor; auto. intros ds Hd. unfold squeeze_core in Hd. cbn in Hd. destruct (sshape x) as [l0|] eqn:Ex; [|discriminate]. injection Hd as <-. specialize (H l0 eq_refl). destruct H; cbn; auto.
Qed.
Lemma squeezed_runs : runs (map (@tl nat) rt) None rsh rks.
Proof.
  destruct HR as [D A S Q C]. split; rewrite ?map_length; auto. intros i Hi. rewrite (nth_map' _ _ _ []) by auto. rewrite C by auto. reflexivity.
Qed.
End Squeeze.

Lemma stored_sized cs sh ranks bs o rt n rsh rks : sTensorTrainBatch cs sh ranks bs = Ok o -> all_ranked cs -> cores_allow cs rt -> runs rt (Some n) rsh rks -> sized_hints sh ranks rsh rks ->
  Forall2 (fun s r => length s = length r) (srshape o) rsh /\ length (srks o) = length rks.
Proof.
  intros E HK HA HR [H1 H2]. destruct (sTensorTrainBatch_inv _ _ _ _ _ E) as (clean & d & C & V & Es & Eb & _ & Er & Ek).
  assert (LRT : length cs = length rt) by (eapply Forall2_len; exact HA). pose proof (runs_d _ _ _ _ HR) as D. split.
  - destruct clean as [ss|]; [rewrite Er; now apply H1|]. unfold s_infer_raw_shape in Er. rewrite (nthr_nth cs 0 snocore) in Er by lia. cbn [bind] in Er.
    destruct (ranked_at cs 0 HK ltac:(lia)) as (l & El). rewrite El in Er. cbn [as_list bind] in Er. pose proof (cores_allow_at cs rt _ rsh rks 0 HA HR D l El) as A. apply Forall2_len in A. rewrite run_core_length in A.
    pose proof (mapM_length _ _ _ Er) as Lr. rewrite seq_length in Lr. assert (LS : length (srshape o) = length rsh) by lia.
    apply (Forall2_of_nth [] []); [exact LS|]. intros ax Hax. pose proof (mapM_nth _ _ _ Er ax 0 [] ltac:(rewrite seq_length; lia)) as Ea. rewrite (mapM_length _ _ _ Ea). rewrite LRT. symmetry. apply (runs_sh _ _ _ _ HR). apply nth_In. lia.
  - rewrite (runs_rks _ _ _ _ HR). destruct ranks as [rs|]; [rewrite Ek, <- (runs_rks _ _ _ _ HR); now apply H2|]. unfold s_infer_tt_ranks in Ek. destruct (mapM _ cs) as [l|] eqn:El; [|discriminate]. cbn [bind] in Ek. destruct (lastr cs); [|discriminate]. cbn [bind] in Ek. destruct (ts_last _); [|discriminate]. cbn [bind] in Ek. injection Ek as <-. rewrite app_length. cbn. rewrite (mapM_length _ _ _ El). lia.
Qed.

(** Without a shape argument the modes are those of the cores. *)
Lemma inferred_modes cs ranks bs o : sTensorTrainBatch cs (AKnown SNone) ranks bs = Ok o -> modes_of_cores o.
Proof.
  intros E. destruct (sTensorTrainBatch_inv _ _ _ _ _ E) as (clean & d & C & V & Es & Eb & _ & Er & Ek). injection C as <-. intros ax i l Hax Hi El. rewrite Es in *.
  unfold s_infer_raw_shape in Er. destruct (nthr cs 0) as [c0|]; [|discriminate]. cbn [bind] in Er. destruct (as_list (sshape c0)) as [l0|]; [|discriminate]. cbn [bind] in Er.
  pose proof (mapM_length _ _ _ Er) as Lr. rewrite seq_length in Lr. pose proof (mapM_nth _ _ _ Er ax 0 [] ltac:(rewrite seq_length; lia)) as Ea. rewrite seq_nth in Ea by lia. cbn [Nat.add] in Ea.
  pose proof (mapM_nth _ _ _ Ea i snocore None Hi) as Ei. cbv beta in Ei. rewrite El in Ei. cbn [ts_index] in Ei. unfold nthr in Ei. destruct (nth_error l (ax + 1 + 1)) as [x|] eqn:Ex; [|discriminate]. injection Ei as <-. apply (nth_error_nth _ _ None) in Ex. replace (ax + 2) with (ax + 1 + 1) by lia. now rewrite Ex.
Qed.

Lemma squeeze_expand cs sh ranks o rt rsh rks : sTensorTrain cs sh ranks = Ok o -> all_ranked cs -> cores_allow cs rt -> runs rt None rsh rks -> sized_hints sh ranks rsh rks ->
  exists b, s_expand_batch_dim o = Ok b /\ s_squeeze_batch_dim b = Ok o.
Proof.
  intros E HK HA HR HS. destruct (TensorTrain_stored _ _ _ _ E HK) as (Hne & Es & Eb & Hi). pose proof (TensorTrain_checked _ _ _ _ _ _ _ E HK HA HR HS) as T.
  assert (L : length (srshape o) = length rsh) by (eapply Forall2_len; apply T). assert (NE : srshape o <> []) by (destruct (runs_ax _ _ _ _ HR); intros X; rewrite X in L; cbn in L; lia).
  pose proof (expand_ok _ _ _ _ E HK NE) as X. eexists. split; [exact X|]. unfold s_expand_batch_dim in X. rewrite Eb in X. change (fun c => SCore (sdt c) (option_map (cons (Some 1)) (sshape c))) with expand_core in X.
  rewrite Es in *. set (b := SObj (map expand_core cs) (srshape o) (srks o) (Some (Some 1))) in *.
  assert (K' : all_ranked (map expand_core cs)). { intros c Hc. apply in_map_iff in Hc as (c0 & <- & Hc). specialize (HK c0 Hc). unfold expand_core. cbn. destruct (sshape c0); [discriminate|congruence]. }
  assert (A' : cores_allow (map expand_core cs) (map (cons 1) rt)).
  { unfold cores_allow in *. clear -HA. induction HA; cbn; constructor; auto. intros ds Hd. unfold expand_core in Hd. cbn in Hd. destruct (sshape x) as [l0|] eqn:Ex; [|discriminate]. injection Hd as <-. constructor; [intros m [= <-]; auto|apply H; auto]. }
  assert (R' : runs (map (cons 1) rt) (Some 1) rsh rks).
  { destruct HR as [D A S Q C]. split; rewrite ?map_length; auto. intros i Hl. rewrite (nth_map' _ _ _ []) by auto. rewrite C by auto. reflexivity. }
  assert (M : modes_of_cores b).
  { intros ax i l Ha Hl El. cbn [b srshape scores] in *. rewrite map_length in Hl. rewrite nth_expand in El by auto. destruct (Hi i Hl) as (cur & Ec & _ & _ & Hm & _). unfold expand_core in El. cbn [sshape] in El. rewrite Ec in El. cbn in El. injection El as <-.
    destruct (Hm ax Ha) as (s & d & M1 & M2 & M3). rewrite (nthr_nth _ ax []) in M1 by auto. injection M1 as M1. rewrite M1. unfold nthr in M2, M3. destruct (nth_error s i) as [x|] eqn:E1; [|discriminate]. injection M2 as ->. destruct (nth_error cur (ax + 1)) as [x|] eqn:E2; [|discriminate]. injection M3 as ->.
    rewrite (nth_error_nth _ _ None E1). replace (ax + 2) with (S (ax + 1)) by lia. cbn [nth]. now rewrite (nth_error_nth _ _ None E2). }
  destruct (squeeze_ok _ _ _ _ b _ rsh rks X K' A' R' L eq_refl) as [S _]. rewrite (S M). f_equal. rewrite map_map. destruct o as [c1 s1 r1 b1]. cbn in *. subst. f_equal. rewrite <- (map_id cs) at 2. apply map_ext. intros [dt [l|]]; reflexivity.
Qed.
