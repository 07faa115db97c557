(** C52: static and dynamic shape functions agree, whatever part of the static shapes is known.
    Model: Static.v; vocabulary: StaticSpec.v. *)
From Coq Require Import List Arith Lia Bool.
From Verif Require Import Scalar Tensor TensorLemmas Base Spec BaseLemmas OpsR Kron Samples Static StaticSpec StaticProofs StaticThms StaticSqueeze.
Import ListNotations.

(** *** A concrete TT-tensor 2 x 3 with rank 4; the first mode and the rank are unknown. *)
Definition ex_cores : list score :=
  [SCore 0 (Some [Some 1; None; None]); SCore 0 (Some [None; Some 3; Some 1])].
Definition ex_rt : list (list nat) := [[1; 2; 4]; [4; 3; 1]].
Definition ex_obj : sobj := SObj ex_cores [[None; Some 3]] [Some 1; None; Some 1] None.

Example ex_made : sTensorTrain ex_cores (ATensorShape [None; Some 3]) None = Ok ex_obj.
Proof. reflexivity. Qed.
Example ex_ranked : all_ranked ex_cores.
Proof. intros c [<-|[<-|[]]]; discriminate. Qed.
Ltac allow := repeat constructor; intros ? [=]; auto.
Example ex_allow : cores_allow ex_cores ex_rt.
Proof. repeat constructor; intros ds [= <-]; allow. Qed.
Example ex_runs : runs ex_rt None [[2; 3]] [1; 4; 1].
Proof.
  split; cbn; auto; try lia.
  - intros s [<-|[]]. reflexivity.
  - intros [|[|i]] Hi; cbn in *; auto. lia.
Qed.
Example ex_sized : sized_hints (ATensorShape [None; Some 3]) None [[2; 3]] [1; 4; 1].
Proof. split; [|discriminate]. intros ss [= <-]. repeat constructor. Qed.

(** *** TensorTrain

    Every TensorTrain made from cores with a known number of axes, whatever dimensions are
    unknown and whatever shape and ranks are given (of the right length): the lazy functions
    and the dynamic ones return the values of the running cores. *)
Theorem C52_TensorTrain cs sh ranks o rt rsh rks :
  sTensorTrain cs sh ranks = Ok o -> all_ranked cs -> cores_allow cs rt -> runs rt None rsh rks ->
  sized_hints sh ranks rsh rks ->
  (s_lazy_tt_ranks o rt = Ok rks /\ tt_ranks o rt = Ok rks) /\
  (s_lazy_batch_size o rt = Err ValueError /\ batch_size o rt = Err ValueError) /\
  (raw_shape o rt = Ok rsh /\ shape_dyn o rt = Ok (run_shape None rsh)) /\
  (length rsh = 1 \/ length rt = 1 \/ known_modes o ->
     s_lazy_raw_shape o rt = Ok rsh /\ s_lazy_shape o rt = Ok (run_shape None rsh)).
Proof.
  intros E K A R H. pose proof (TensorTrain_checked _ _ _ _ _ _ _ E K A R H) as T.
  pose proof (truthful_bsz _ _ _ _ T) as Hb. assert (Hn : sbsz o = None) by (now apply Hb).
  assert (Hl : length (srshape o) = length rsh) by (eapply Forall2_len; apply T).
  split; [split; [eapply lazy_tt_ranks_ok; eauto|eapply tt_ranks_runs; eauto]|].
  split; [unfold s_lazy_batch_size, batch_size; now rewrite Hn|].
  split; [split; [eapply raw_shape_runs; eauto|eapply shape_runs; eauto]|].
  intros Hk. apply and_comm. eapply lazy_shape_ok; eauto.
Qed.
Print Assumptions C52_TensorTrain.

Example ex_values : s_lazy_tt_ranks ex_obj ex_rt = Ok [1; 4; 1] /\ s_lazy_raw_shape ex_obj ex_rt = Ok [[2; 3]] /\
  s_lazy_shape ex_obj ex_rt = Ok [2; 3].
Proof.
  destruct (C52_TensorTrain _ _ _ _ _ _ _ ex_made ex_ranked ex_allow ex_runs ex_sized) as ((H1 & _) & _ & _ & H2).
  destruct (H2 ltac:(cbn; auto)). auto.
Qed.

(** *** TensorTrainBatch: the ranks are compared, the modes and the batch size have to be
    right where the cores do not say. *)
Theorem C52_TensorTrainBatch cs sh ranks bs o rt n rsh rks :
  sTensorTrainBatch cs sh ranks bs = Ok o -> all_ranked cs -> cores_allow cs rt -> runs rt (Some n) rsh rks ->
  (forall ss, s_clean_raw_shape sh = Ok (Some ss) -> Forall2 (Forall2 allows) ss rsh) ->
  (forall rs, ranks = Some rs -> length rs = length rks) ->
  (forall m, bs = Some m -> m = n) ->
  (s_lazy_tt_ranks o rt = Ok rks /\ tt_ranks o rt = Ok rks) /\
  (s_lazy_batch_size o rt = Ok n /\ batch_size o rt = Ok n) /\
  (raw_shape o rt = Ok rsh /\ shape_dyn o rt = Ok (run_shape (Some n) rsh)) /\
  (length rsh = 1 \/ length rt = 1 \/ known_modes o ->
     s_lazy_raw_shape o rt = Ok rsh /\ s_lazy_shape o rt = Ok (run_shape (Some n) rsh)).
Proof.
  intros E K A R H1 H2 H3. pose proof (TensorTrainBatch_checked _ _ _ _ _ _ _ _ _ E K A R H1 H2 H3) as T.
  pose proof (truthful_bsz _ _ _ _ T) as Hb. assert (Hn : sbsz o <> None) by (intros Hx; apply Hb in Hx; discriminate).
  assert (Hl : length (srshape o) = length rsh) by (eapply Forall2_len; apply T).
  split; [split; [eapply lazy_tt_ranks_ok; eauto|eapply tt_ranks_runs; eauto]|].
  split; [split; [eapply lazy_batch_size_ok; eauto|eapply batch_size_runs; eauto]|].
  split; [split; [eapply raw_shape_runs; eauto|eapply shape_runs; eauto]|].
  intros Hk. apply and_comm. eapply lazy_shape_ok; eauto.
Qed.
Print Assumptions C52_TensorTrainBatch.

(** A batch of 5 TT-matrices 2 x 3 (one core): unknown batch size and row mode. *)
Definition exb_cores : list score := [SCore 0 (Some [None; Some 1; None; Some 3; Some 1])].
Definition exb_obj : sobj := SObj exb_cores [[None]; [Some 3]] [Some 1; Some 1] (Some None).
Example exb_made : sTensorTrainBatch exb_cores (AKnown SNone) (Some [Some 1; Some 1]) None = Ok exb_obj.
Proof. reflexivity. Qed.
Example exb_values : s_lazy_shape exb_obj [[5; 1; 2; 3; 1]] = Ok [5; 2; 3] /\ s_lazy_batch_size exb_obj [[5; 1; 2; 3; 1]] = Ok 5.
Proof.
  assert (R : runs [[5; 1; 2; 3; 1]] (Some 5) [[2]; [3]] [1; 1]).
  { split; cbn; auto; try lia.
    - intros s [<-|[<-|[]]]; reflexivity.
    - intros [|i] Hi; cbn in *; auto; lia. }
  assert (A : cores_allow exb_cores [[5; 1; 2; 3; 1]]) by (repeat constructor; intros ds [= <-]; allow).
  assert (K : all_ranked exb_cores) by (intros c [<-|[]]; discriminate).
  destruct (C52_TensorTrainBatch _ _ _ _ _ _ _ _ _ exb_made K A R) as (_ & (H1 & _) & _ & H2).
  - intros ss [=].
  - intros rs [= <-]. reflexivity.
  - intros m [=].
  - destruct (H2 ltac:(cbn; auto)). auto.
Qed.

(** *** Cores of which nothing is known (not even the number of axes): the same when the
    arguments say nothing wrong. *)
Theorem C52_any_knowledge cs sh ranks o rt rsh rks :
  sTensorTrain cs sh ranks = Ok o -> cores_allow cs rt -> runs rt None rsh rks ->
  true_hints sh ranks None None rsh rks ->
  (s_lazy_tt_ranks o rt = Ok rks /\ tt_ranks o rt = Ok rks) /\
  (raw_shape o rt = Ok rsh /\ shape_dyn o rt = Ok (run_shape None rsh)) /\
  (length rsh = 1 \/ length rt = 1 \/ known_modes o ->
     s_lazy_raw_shape o rt = Ok rsh /\ s_lazy_shape o rt = Ok (run_shape None rsh)).
Proof.
  intros E A R H. pose proof (TensorTrain_truthful _ _ _ _ _ _ _ E A R H) as T.
  pose proof (truthful_bsz _ _ _ _ T) as Hb.
  assert (Hl : length (srshape o) = length rsh) by (eapply Forall2_len; apply T).
  split; [split; [eapply lazy_tt_ranks_ok; eauto|eapply tt_ranks_runs; eauto]|].
  split; [split; [eapply raw_shape_runs; eauto|eapply shape_runs; eauto]|].
  intros Hk. apply and_comm. eapply lazy_shape_ok; eauto.
Qed.
Print Assumptions C52_any_knowledge.

Theorem C52_any_knowledge_batch cs sh ranks bs o rt n rsh rks :
  sTensorTrainBatch cs sh ranks bs = Ok o -> cores_allow cs rt -> runs rt (Some n) rsh rks ->
  true_hints sh ranks bs (Some n) rsh rks ->
  (s_lazy_tt_ranks o rt = Ok rks /\ tt_ranks o rt = Ok rks) /\
  (s_lazy_batch_size o rt = Ok n /\ batch_size o rt = Ok n) /\
  (raw_shape o rt = Ok rsh /\ shape_dyn o rt = Ok (run_shape (Some n) rsh)) /\
  (length rsh = 1 \/ length rt = 1 \/ known_modes o ->
     s_lazy_raw_shape o rt = Ok rsh /\ s_lazy_shape o rt = Ok (run_shape (Some n) rsh)).
Proof.
  intros E A R H. pose proof (TensorTrainBatch_truthful _ _ _ _ _ _ _ _ _ E A R H) as T.
  pose proof (truthful_bsz _ _ _ _ T) as Hb. assert (Hn : sbsz o <> None) by (intros Hx; apply Hb in Hx; discriminate).
  assert (Hl : length (srshape o) = length rsh) by (eapply Forall2_len; apply T).
  split; [split; [eapply lazy_tt_ranks_ok; eauto|eapply tt_ranks_runs; eauto]|].
  split; [split; [eapply lazy_batch_size_ok; eauto|eapply batch_size_runs; eauto]|].
  split; [split; [eapply raw_shape_runs; eauto|eapply shape_runs; eauto]|].
  intros Hk. apply and_comm. eapply lazy_shape_ok; eauto.
Qed.
Print Assumptions C52_any_knowledge_batch.

Definition exu_cores : list score := [SCore 0 None; SCore 0 None].
Example exu_values : exists o,
  sTensorTrain exu_cores (AKnown (SList [2; 3])) (Some [Some 1; None; Some 1]) = Ok o /\
  s_lazy_tt_ranks o ex_rt = Ok [1; 4; 1] /\ s_lazy_shape o ex_rt = Ok [2; 3].
Proof.
  eexists. split; [reflexivity|].
  destruct (C52_any_knowledge exu_cores (AKnown (SList [2; 3])) (Some [Some 1; None; Some 1]) _ ex_rt [[2; 3]] [1; 4; 1] eq_refl) as ((H1 & _) & _ & H2).
  - repeat constructor; intros ds [=].
  - exact ex_runs.
  - split; [intros ss [= <-]; allow|]. split; [intros rs [= <-]; allow|discriminate].
  - destruct (H2 ltac:(cbn; auto)). auto.
Qed.

(** *** A TT-matrix of several cores with an unknown mode: lazy_shape and lazy_raw_shape raise
    (TypeError: None in a product, [tensor_train_base.py:35-38]), whatever runs. *)
Theorem C52_matrix_unknown_mode_raises cs sh ranks o rt rsh rks :
  sTensorTrain cs sh ranks = Ok o -> cores_allow cs rt -> runs rt None rsh rks ->
  true_hints sh ranks None None rsh rks ->
  length rsh = 2 -> 2 <= length rt -> ~ known_modes o ->
  s_lazy_shape o rt = Err TypeError /\ s_lazy_raw_shape o rt = Err TypeError.
Proof.
  intros E A R H H1 H2 H3. pose proof (TensorTrain_truthful _ _ _ _ _ _ _ E A R H) as T.
  eapply lazy_shape_raises; eauto.
Qed.
Print Assumptions C52_matrix_unknown_mode_raises.

Definition exm_cores : list score :=
  [SCore 0 (Some [Some 1; None; Some 3; Some 2]); SCore 0 (Some [Some 2; Some 2; Some 2; Some 1])].
Definition exm_rt : list (list nat) := [[1; 2; 3; 2]; [2; 2; 2; 1]].
Definition exm_obj : sobj := SObj exm_cores [[None; Some 2]; [Some 3; Some 2]] [Some 1; Some 2; Some 1] None.

(** The property is false for such matrices: the dynamic functions know the shape. *)
Theorem C52_lazy_shape_matrix_refuted : exists cs o rt rsh rks,
  sTensorTrain cs (AKnown SNone) None = Ok o /\ all_ranked cs /\ cores_allow cs rt /\ runs rt None rsh rks /\
  shape_dyn o rt = Ok [4; 6] /\ s_lazy_shape o rt = Err TypeError /\
  raw_shape o rt = Ok [[2; 2]; [3; 2]] /\ s_lazy_raw_shape o rt = Err TypeError.
Proof.
  exists exm_cores, exm_obj, exm_rt, [[2; 2]; [3; 2]], [1; 2; 1].
  split; [reflexivity|]. split; [intros c [<-|[<-|[]]]; discriminate|].
  split; [repeat constructor; intros ds [= <-]; allow|]. split.
  - split; cbn; auto; try lia.
    + intros s [<-|[<-|[]]]; reflexivity.
    + intros [|[|i]] Hi; cbn in *; auto; lia.
  - repeat split; vm_compute; reflexivity.
Qed.
Print Assumptions C52_lazy_shape_matrix_refuted.

(** A batch size that is given while the cores do not know theirs is believed. *)
Theorem C52_batch_size_refuted : exists cs bs o rt rsh rks,
  sTensorTrainBatch cs (AKnown SNone) None bs = Ok o /\ all_ranked cs /\ cores_allow cs rt /\ runs rt (Some 3) rsh rks /\
  batch_size o rt = Ok 3 /\ s_lazy_batch_size o rt = Ok 5.
Proof.
  exists [SCore 0 (Some [None; Some 1; Some 2; Some 1])], (Some 5),
    (SObj [SCore 0 (Some [None; Some 1; Some 2; Some 1])] [[Some 2]] [Some 1; Some 1] (Some (Some 5))), [[3; 1; 2; 1]], [[2]], [1; 1].
  split; [reflexivity|]. split; [intros c [<-|[]]; discriminate|].
  split; [repeat constructor; intros ds [= <-]; allow|]. split.
  - split; cbn; auto; try lia.
    + intros s [<-|[]]; reflexivity.
    + intros [|i] Hi; cbn in *; auto; lia.
  - split; reflexivity.
Qed.
Print Assumptions C52_batch_size_refuted.

(** So is a mode of a batch. *)
Theorem C52_batch_mode_refuted : exists cs sh o rt rsh rks,
  sTensorTrainBatch cs sh None None = Ok o /\ all_ranked cs /\ cores_allow cs rt /\ runs rt (Some 3) rsh rks /\
  shape_dyn o rt = Ok [3; 2] /\ s_lazy_shape o rt = Ok [3; 7].
Proof.
  exists [SCore 0 (Some [Some 3; Some 1; None; Some 1])], (ATensorShape [Some 7]),
    (SObj [SCore 0 (Some [Some 3; Some 1; None; Some 1])] [[Some 7]] [Some 1; Some 1] (Some (Some 3))), [[3; 1; 2; 1]], [[2]], [1; 1].
  split; [reflexivity|]. split; [intros c [<-|[]]; discriminate|].
  split; [repeat constructor; intros ds [= <-]; allow|]. split.
  - split; cbn; auto; try lia.
    + intros s [<-|[]]; reflexivity.
    + intros [|i] Hi; cbn in *; auto; lia.
  - split; reflexivity.
Qed.
Print Assumptions C52_batch_mode_refuted.

(** One core without a known number of axes switches the check off for all of them: here the
    given ranks contradict a core that is fully known. *)
Theorem C52_unknown_rank_refuted : exists cs sh ranks o rt rsh rks,
  sTensorTrain cs sh ranks = Ok o /\ cores_allow cs rt /\ runs rt None rsh rks /\
  sshape (nth 1 cs snocore) = Some [Some 4; Some 3; Some 1] /\
  tt_ranks o rt = Ok [1; 4; 1] /\ s_lazy_tt_ranks o rt = Ok [1; 9; 1].
Proof.
  exists [SCore 0 None; SCore 0 (Some [Some 4; Some 3; Some 1])], (AKnown (SList [2; 3])), (Some [Some 1; Some 9; Some 1]),
    (SObj [SCore 0 None; SCore 0 (Some [Some 4; Some 3; Some 1])] [[Some 2; Some 3]] [Some 1; Some 9; Some 1] None), ex_rt, [[2; 3]], [1; 4; 1].
  split; [reflexivity|]. split; [repeat constructor; intros ds [= <-]; allow|]. split; [exact ex_runs|]. repeat split.
Qed.
Print Assumptions C52_unknown_rank_refuted.

(** *** Fully known shapes: the graph model is the model of Base.v, on which the other
    properties are stated (whatever the common dtype is). *)
Theorem C52_known_shapes_constructors (K : cring) (dt : nat) (cs : list (tensor K)) sh ranks bs :
  sTensorTrain (map (static_core dt) cs) (AKnown sh) (option_map (map Some) ranks) =
    (do t <- TensorTrain cs sh ranks; Ok (static_tt dt t)) /\
  sTensorTrainBatch (map (static_core dt) cs) (AKnown sh) (option_map (map Some) ranks) bs =
    (do t <- TensorTrainBatch cs sh ranks bs; Ok (static_tt dt t)).
Proof. split; [apply TensorTrain_static|apply TensorTrainBatch_static]. Qed.
Print Assumptions C52_known_shapes_constructors.

Theorem C52_known_shapes_lazy (K : cring) (dt : nat) (t : Base.tt K) rt : wf t ->
  s_lazy_tt_ranks (static_tt dt t) rt = Ok (lazy_tt_ranks t) /\
  s_lazy_shape (static_tt dt t) rt = Ok (lazy_shape t) /\
  s_lazy_raw_shape (static_tt dt t) rt = Ok (lazy_raw_shape t) /\
  s_lazy_batch_size (static_tt dt t) rt = lazy_batch_size t.
Proof. apply lazy_static. Qed.
Print Assumptions C52_known_shapes_lazy.

(** *** Dtypes: both constructors refuse cores of different dtypes, even when nothing is known
    of the shapes. *)
Lemma same_dtypes_all cs : same_dtypes cs = true -> forall c c', In c cs -> In c' cs -> sdt c = sdt c'.
Proof.
  intros H.
  assert (G : forall c, In c cs -> sdt c = sdt (nth 0 cs snocore)).
  { intros c Hc. destruct (In_nth _ _ snocore Hc) as (i & Hi & <-). destruct i as [|i]; auto.
    unfold same_dtypes in H. rewrite forallb_forall in H. specialize (H (S i)). apply Nat.eqb_eq, H, in_seq. lia. }
  intros c c' Hc Hc'. rewrite (G c Hc), (G c' Hc'). reflexivity.
Qed.

Theorem C52_mixed_dtypes_refused cs sh ranks bs clean : s_clean_raw_shape sh = Ok clean ->
  (exists c c', In c cs /\ In c' cs /\ sdt c <> sdt c') ->
  sTensorTrain cs sh ranks = Err ValueError /\ sTensorTrainBatch cs sh ranks bs = Err ValueError.
Proof.
  intros Ec (c & c' & Hc & Hc' & Hn).
  assert (Hs : same_dtypes cs = false).
  { destruct (same_dtypes cs) eqn:E; auto. exfalso. apply Hn. now apply (same_dtypes_all cs). }
  unfold sTensorTrain, sTensorTrainBatch. rewrite Ec. cbn [bind]. unfold s_cores_valid. rewrite Hs. cbn. auto.
Qed.
Print Assumptions C52_mixed_dtypes_refused.

Example ex_mixed : sTensorTrain [SCore 0 None; SCore 1 None] (AKnown SNone) None = Err ValueError.
Proof.
  apply (C52_mixed_dtypes_refused [SCore 0 None; SCore 1 None] (AKnown SNone) None None None eq_refl).
  exists (SCore 0 None), (SCore 1 None). cbn. repeat split; auto; discriminate.
Qed.

(** *** is_batch_broadcasting_possible says yes exactly when all the batch sizes that may come
    at run time can be broadcast. *)
Theorem C52_broadcasting a b : s_is_batch_broadcasting_possible a b = true <->
  forall x y, bsz_allows (sbsz a) x -> bsz_allows (sbsz b) y -> can_broadcast x y.
Proof. apply broadcasting_iff. Qed.
Print Assumptions C52_broadcasting.

(** *** expand_batch_dim of any TensorTrain whose cores have a known number of axes: succeeds,
    keeps shape and ranks as far as they are known, and the batch size is 1. *)
Theorem C52_expand_batch_dim cs sh ranks o :
  sTensorTrain cs sh ranks = Ok o -> all_ranked cs -> srshape o <> [] ->
  s_expand_batch_dim o = Ok (SObj (map expand_core (scores o)) (srshape o) (srks o) (Some (Some 1))).
Proof. apply expand_ok. Qed.
Print Assumptions C52_expand_batch_dim.

Example ex_expand : exists o, s_expand_batch_dim ex_obj = Ok o /\ s_lazy_shape o [[1; 1; 2; 4]; [1; 4; 3; 1]] = Ok [1; 2; 3].
Proof.
  rewrite (C52_expand_batch_dim _ _ _ _ ex_made ex_ranked) by discriminate. eexists. split; reflexivity.
Qed.

(** *** squeeze_batch_dim of a batch whose batch size is known to be 1: the TensorTrain without the batch axis (its lazy functions
    return what runs), if the stored shape says of the modes what the cores say; ValueError otherwise.  Other batches stay. *)
Theorem C52_squeeze_batch_dim cs sh ranks bs o rt rsh rks :
  sTensorTrainBatch cs sh ranks bs = Ok o -> all_ranked cs -> cores_allow cs rt -> runs rt (Some 1) rsh rks -> sized_hints sh ranks rsh rks ->
  (sbsz o <> Some (Some 1) -> s_squeeze_batch_dim o = Ok o) /\
  (sbsz o = Some (Some 1) -> ~ modes_of_cores o -> s_squeeze_batch_dim o = Err ValueError) /\
  (sbsz o = Some (Some 1) -> modes_of_cores o ->
    let o' := SObj (map squeeze_core cs) (srshape o) (srks o) None in let rt' := map (@tl nat) rt in
    s_squeeze_batch_dim o = Ok o' /\ s_lazy_tt_ranks o' rt' = Ok rks /\ raw_shape o' rt' = Ok rsh /\ shape_dyn o' rt' = Ok (run_shape None rsh) /\
    (length rsh = 1 \/ length rt = 1 \/ known_modes o -> s_lazy_raw_shape o' rt' = Ok rsh /\ s_lazy_shape o' rt' = Ok (run_shape None rsh))).
Proof.
  intros E K A R H. destruct (stored_sized _ _ _ _ _ _ _ _ _ E K A R H) as [S1 S2]. pose proof (Forall2_len S1) as L. split; [|split].
  - intros N. unfold s_squeeze_batch_dim. destruct (sbsz o) as [[[|[|n]]|]|]; auto. now elim N.
  - intros B. apply (squeeze_ok cs sh ranks bs o rt rsh rks E K A R L B).
  - intros B M o' rt'. destruct (squeeze_ok cs sh ranks bs o rt rsh rks E K A R L B) as [S _]. specialize (S M). split; [exact S|].
    pose proof (squeezed_allow cs rt A) as A'. pose proof (squeezed_runs rt rsh rks R) as R'. unfold s_squeeze_batch_dim in S. rewrite B in S. unfold s_element0 in S. rewrite (firsts cs sh ranks bs o rt rsh rks E K A R L) in S. cbn [bind] in S.
    assert (K' : all_ranked (map squeeze_core cs)). { intros c Hc. apply in_map_iff in Hc as (c0 & <- & Hc). specialize (K c0 Hc). unfold squeeze_core. cbn. destruct (sshape c0); [discriminate|congruence]. }
    assert (SZ : sized_hints (ATuple (srshape o)) (Some (srks o)) rsh rks).
    { split; [|intros rs [= <-]; exact S2]. intros ss Hs. assert (ss = srshape o) as -> by (cbn in Hs; destruct (srshape o); [discriminate|now injection Hs]). exact S1. }
    destruct (C52_TensorTrain _ _ _ _ _ _ _ S K' A' R' SZ) as ((T1 & _) & _ & (T2 & T3) & T4). split; [exact T1|]. split; [exact T2|]. split; [exact T3|]. rewrite map_length in T4. exact T4.
Qed.
Print Assumptions C52_squeeze_batch_dim.

(** Without a shape argument squeezing works. *)
Theorem C52_squeeze_inferred cs ranks bs o : sTensorTrainBatch cs (AKnown SNone) ranks bs = Ok o -> modes_of_cores o.
Proof. apply inferred_modes. Qed.
Print Assumptions C52_squeeze_inferred.

(** squeeze_batch_dim undoes expand_batch_dim. *)
Theorem C52_squeeze_expand cs sh ranks o rt rsh rks : sTensorTrain cs sh ranks = Ok o -> all_ranked cs -> cores_allow cs rt -> runs rt None rsh rks -> sized_hints sh ranks rsh rks ->
  exists b, s_expand_batch_dim o = Ok b /\ s_squeeze_batch_dim b = Ok o.
Proof. apply squeeze_expand. Qed.
Print Assumptions C52_squeeze_expand.

(** A batch of one element with a mode that is known from the argument only: at run time all is well, but squeeze_batch_dim
    (and [tt[0]], matmul, multiply, which call it) raises ValueError. *)
Theorem C52_squeeze_refuted : exists cs sh o rt rsh rks,
  sTensorTrainBatch cs sh None (Some 1) = Ok o /\ all_ranked cs /\ cores_allow cs rt /\ runs rt (Some 1) rsh rks /\ sized_hints sh None rsh rks /\
  truthful o (Some 1) rsh rks /\ s_squeeze_batch_dim o = Err ValueError.
Proof.
  exists [SCore 0 (Some [Some 1; Some 1; None; Some 1])], (ATensorShape [Some 2]),
    (SObj [SCore 0 (Some [Some 1; Some 1; None; Some 1])] [[Some 2]] [Some 1; Some 1] (Some (Some 1))), [[1; 1; 2; 1]], [[2]], [1; 1].
  split; [reflexivity|]. split; [intros c [<-|[]]; discriminate|].
  split; [repeat constructor; intros ds [= <-]; allow|]. split; [|split; [|split]].
  - split; cbn; auto; try lia.
    + intros s [<-|[]]; reflexivity.
    + intros [|i] Hi; cbn in *; auto; lia.
  - split; [|discriminate]. intros ss [= <-]. repeat constructor.
  - split; cbn; allow.
  - vm_compute. reflexivity.
Qed.
Print Assumptions C52_squeeze_refuted.

Example ex_squeeze : exists b, s_expand_batch_dim ex_obj = Ok b /\ s_squeeze_batch_dim b = Ok ex_obj.
Proof. exact (C52_squeeze_expand _ _ _ _ _ _ _ ex_made ex_ranked ex_allow ex_runs ex_sized). Qed.

(** *** The Kronecker functions need everything to be known: nothing unknown passes their checks, and what is known is judged as in
    Kron.v (C39-C41). *)
Theorem C52_kronecker_checks : forall o, s_check_kron o = Ok Datatypes.tt ->
  exists m rs, srshape o = [map Some m; map Some m] /\ srks o = map Some rs /\ fold_right Nat.max 0 rs = 1 /\ sbsz o <> Some None.
Proof.
  intros o H. unfold s_check_kron in H. destruct (s_is_tt_matrix o) eqn:T; [|discriminate]. cbn [negb] in H. destruct (fully_defined (srks o)) as [rs|] eqn:R; [|discriminate].
  destruct (Nat.eqb_spec (fold_right Nat.max 0 rs) 1) as [M|]; [|discriminate]. cbn [negb] in H. destruct (s_get_shape o) as [sh|] eqn:G; [|discriminate]. cbn [bind] in H. destruct (fully_defined sh) as [sn|] eqn:F; [|discriminate].
  unfold s_is_tt_matrix in T. destruct (srshape o) as [|a [|b [|]]] eqn:S; try discriminate T. unfold nthr in H. cbn [nth_error bind] in H. destruct (fully_defined a) as [a'|] eqn:FA; [|discriminate]. destruct (fully_defined b) as [b'|] eqn:FB; [|discriminate].
  destruct (list_eqb a' b') eqn:E; [|discriminate]. apply list_eqb_eq in E. subst b'. exists a', rs. apply fully_inv in FA, FB, R. subst a b. split; auto. split; auto. split; auto.
  intros B. unfold s_get_shape in G. destruct (if s_is_tt_matrix o then _ else _) as [s|]; [|discriminate]. cbn [bind] in G. rewrite B in G. injection G as <-. discriminate F.
Qed.
Print Assumptions C52_kronecker_checks.
Theorem C52_kronecker_known : forall (dt : nat) (t : Base.tt Rring), wf t -> s_check_kron (static_tt dt t) = check_kron t.
Proof.
  intros dt t Hw. unfold s_check_kron, check_kron, is_kron. unfold s_is_tt_matrix, is_tt_matrix. cbn [static_tt srshape srks]. rewrite map_length, fully_map.
  destruct (Nat.eqb_spec (length (rshape t)) 2) as [L|]; [|reflexivity]. cbn [negb]. destruct (Nat.eqb _ 1); [|reflexivity]. cbn [negb].
  destruct (C52_known_shapes_lazy Rring dt t [] Hw) as (_ & LS & _ & _). unfold s_lazy_shape in LS. destruct (s_get_shape (static_tt dt t)) as [sh|] eqn:G; [|discriminate]. cbn [bind] in LS |- *.
  assert (F : exists n, fully_defined sh = Some n).
  { unfold s_get_shape in G. unfold s_is_tt_matrix in G. cbn [static_tt srshape sbsz] in G. rewrite map_length, L in G. cbn [Nat.eqb] in G. destruct (rshape t) as [|a [|b [|]]] eqn:S; try discriminate L. unfold nthr in G. cbn [map nth_error bind] in G.
    assert (NA : forall s, In s (rshape t) -> s <> []). { intros s Hs ->. pose proof (proj1 (Forall_forall _ _) (wf_rlen Hw) _ Hs) as X. pose proof (wf_d Hw). cbn in X. lia. }
    rewrite S in NA. rewrite !dim_prod_known in G by (apply NA; cbn; auto). cbn [bind] in G. destruct (bsz t); injection G as <-; cbn; eauto. }
  destruct F as (n & F). rewrite F. destruct (rshape t) as [|a [|b [|]]]; try discriminate L. unfold nthr. cbn [map nth_error bind nth]. rewrite !fully_map. destruct (list_eqb a b); reflexivity.
Qed.
Print Assumptions C52_kronecker_known.
(** A batch of Kronecker products whose batch size is not known statically is refused, though nothing else is unknown. *)
Theorem C52_kronecker_batch_refuted : exists cs o rt rsh rks,
  sTensorTrainBatch cs (AKnown SNone) None None = Ok o /\ all_ranked cs /\ cores_allow cs rt /\ runs rt (Some 3) rsh rks /\ known_modes o /\ shape_dyn o rt = Ok [3; 2; 2] /\
  s_check_kron o = Err AttributeError.
Proof.
  exists [SCore 0 (Some [None; Some 1; Some 2; Some 2; Some 1])], (SObj [SCore 0 (Some [None; Some 1; Some 2; Some 2; Some 1])] [[Some 2]; [Some 2]] [Some 1; Some 1] (Some None)), [[3; 1; 2; 2; 1]], [[2]; [2]], [1; 1].
  split; [reflexivity|]. split; [intros c [<-|[]]; discriminate|]. split; [repeat constructor; intros ds [= <-]; allow|]. split; [|split; [|split]].
  - split; cbn; auto; try lia.
    + intros s [<-|[<-|[]]]; reflexivity.
    + intros [|i] Hi; cbn in *; auto; lia.
  - intros s [<-|[<-|[]]] [H|[]]; discriminate.
  - reflexivity.
  - reflexivity.
Qed.
Print Assumptions C52_kronecker_batch_refuted.
Example ex_kron : s_check_kron (SObj [SCore 0 (Some [Some 1; Some 2; Some 2; Some 1])] [[Some 2]; [Some 2]] [Some 1; Some 1] None) = Ok Datatypes.tt.
Proof. reflexivity. Qed.

(** An empty tuple of TensorShapes as shape. *)
Theorem C52_no_shapes_raises : forall cs ranks bs,
  sTensorTrain cs (ATuple []) ranks = Err IndexError /\ sTensorTrainBatch cs (ATuple []) ranks bs = Err IndexError.
Proof. split; reflexivity. Qed.
Print Assumptions C52_no_shapes_raises.
(** Cores of unknown rank: everything comes from the arguments; squeezing and expanding work, and keep them. *)
Theorem C52_unranked_cores : forall cs ss ranks, cs <> [] -> (forall c c', In c cs -> In c' cs -> sdt c = sdt c') -> (forall c, In c cs -> sshape c = None) -> ss <> [] ->
  let single := SObj cs ss ranks None in let batch := SObj cs ss ranks (Some (Some 1)) in
  sTensorTrain cs (ATuple ss) (Some ranks) = Ok single /\ sTensorTrainBatch cs (ATuple ss) (Some ranks) (Some 1) = Ok batch /\
  s_squeeze_batch_dim batch = Ok single /\ s_expand_batch_dim single = Ok batch.
Proof.
  intros cs ss ranks Hc Hd Hs Hss single batch.
  assert (V : forall off bs, s_cores_valid off cs (Some ss) (Some ranks) bs = Ok true).
  { intros off bs. unfold s_cores_valid. replace (same_dtypes cs) with true.
    - cbn [negb]. unfold s_check_all. destruct cs as [|c cs']; [contradiction|]. cbn [length seq s_check_cores]. unfold s_check_core at 1. cbn [nth]. rewrite (Hs c) by now left. reflexivity.
    - symmetry. unfold same_dtypes. apply forallb_forall. intros i Hi. apply in_seq in Hi. apply Nat.eqb_eq, Hd; apply nth_In; lia. }
  assert (C : s_clean_raw_shape (ATuple ss) = Ok (Some ss)) by (destruct ss; [contradiction|reflexivity]).
  assert (S1 : sTensorTrain cs (ATuple ss) (Some ranks) = Ok single) by (unfold sTensorTrain; rewrite C; cbn [bind]; rewrite V; reflexivity).
  assert (S2 : sTensorTrainBatch cs (ATuple ss) (Some ranks) (Some 1) = Ok batch) by (unfold sTensorTrainBatch; rewrite C; cbn [bind]; rewrite V; reflexivity).
  split; [exact S1|]. split; [exact S2|]. split.
  - unfold s_squeeze_batch_dim, s_element0. cbn [batch sbsz scores srshape srks]. generalize (if s_is_tt_matrix batch then 5 else 4). intros n.
    replace (mapM (s_first n) cs) with (Ok cs); [exact S1|]. symmetry. clear -Hs. induction cs as [|c cs IH]; auto. cbn [mapM]. unfold s_first at 1. destruct c as [d s]. pose proof (Hs (SCore d s) (or_introl eq_refl)) as X. cbn in X. subst s. cbn [bind]. rewrite IH by (intros; apply Hs; now right). reflexivity.
  - unfold s_expand_batch_dim. cbn [single sbsz scores srshape srks]. replace (map _ cs) with cs; [exact S2|]. clear -Hs. induction cs as [|[d s] cs IH]; auto. cbn [map sdt sshape]. pose proof (Hs (SCore d s) (or_introl eq_refl)) as X. cbn in X. subst s. cbn [option_map]. f_equal. apply IH. intros; apply Hs; now right.
Qed.
Print Assumptions C52_unranked_cores.
(** What the Kronecker functions answer to what they do not know. *)
Theorem C52_kronecker_errors : forall cs m n ranks b,
  (In None ranks -> s_check_kron (SObj cs [m; n] ranks b) = Err TypeError) /\
  (forall a, s_check_kron (SObj cs [a] ranks b) = Err ValueError) /\
  (forall rs, ranks = map Some rs -> 1 < fold_right Nat.max 0 rs -> s_check_kron (SObj cs [m; n] ranks b) = Err ValueError) /\
  (forall rs, ranks = map Some rs -> fold_right Nat.max 0 rs = 1 -> 1 < length m -> In None m -> s_check_kron (SObj cs [m; n] ranks b) = Err TypeError) /\
  (forall rs m' n', ranks = map Some rs -> fold_right Nat.max 0 rs = 1 -> m = map Some m' -> n = map Some n' -> m <> [] -> n <> [] -> 
    s_check_kron (SObj cs [m; n] ranks b) = match b with Some None => Err AttributeError | _ => if list_eqb m' n' then Ok Datatypes.tt else Err ValueError end).
Proof.
  intros cs m n ranks b. split; [|split; [|split; [|split]]].
  - intros H. unfold s_check_kron. cbn. replace (fully_defined ranks) with (@None (list nat)); auto. induction ranks as [|[x|] l IH]; cbn; auto; [contradiction|]. destruct H as [H|H]; [discriminate|]. now rewrite <- IH.
  - reflexivity.
  - intros rs -> H. unfold s_check_kron. cbn -[Nat.eqb]. rewrite fully_map. destruct (Nat.eqb_spec (fold_right Nat.max 0 rs) 1); [lia|reflexivity].
  - intros rs -> H L N. unfold s_check_kron. cbn -[Nat.eqb s_get_shape]. rewrite fully_map, H. cbn -[s_get_shape]. unfold s_get_shape, nthr. cbn -[dim_prod]. replace (dim_prod m) with (@Err dim TypeError); [reflexivity|].
    destruct m as [|x m]; [contradiction|]. cbn [dim_prod]. assert (Q : forall l a, In None l \/ (a = None /\ l <> []) -> foldM (fun d acc => dim_mul acc d) l a = Err TypeError).
    { induction l as [|y l IH]; intros a [Hl|[Ha Hn]]; [destruct Hl|now destruct Hn| |].
      - cbn [foldM]. destruct a as [a|]; [|reflexivity]. destruct y as [y|]; [|reflexivity]. cbn. apply IH. left. destruct Hl as [X|X]; [discriminate|exact X].
      - subst a. reflexivity. }
    symmetry. apply Q. destruct N as [->|N]; [right; split; auto; intros ->; cbn in L; lia|now left].
  - intros rs m' n' -> H -> -> Hm Hn. unfold s_check_kron. cbn -[Nat.eqb s_get_shape]. rewrite fully_map, H. cbn -[s_get_shape]. unfold s_get_shape, nthr. cbn -[dim_prod].
    rewrite !dim_prod_known by (intros ->; now apply Hm || now apply Hn). cbn. destruct b as [[b|]|]; cbn; rewrite ?fully_map; destruct (list_eqb m' n'); reflexivity.
Qed.
Print Assumptions C52_kronecker_errors.

Example ex_unranked : exists o, sTensorTrainBatch [SCore 0 None; SCore 0 None] (ATuple [[Some 2; None]]) (Some [Some 1; None; Some 1]) (Some 1) = Ok o /\ s_lazy_tt_ranks o [[1; 1; 2; 4]; [1; 4; 3; 1]] = Ok [1; 4; 1].
Proof.
  destruct (C52_unranked_cores [SCore 0 None; SCore 0 None] [[Some 2; None]] [Some 1; None; Some 1]) as (_ & -> & _); [discriminate|intros c c' [<-|[<-|[]]] [<-|[<-|[]]]; reflexivity|intros c [<-|[<-|[]]]; reflexivity|discriminate|].
  eexists. split; reflexivity.
Qed.
Example ex_kron_errors : s_check_kron (SObj [] [[Some 2; None]; [Some 2; None]] [Some 1; Some 1; Some 1] None) = Err TypeError.
Proof. apply (C52_kronecker_errors [] [Some 2; None] [Some 2; None] [Some 1; Some 1; Some 1] None) with (rs := [1; 1; 1]); cbn; auto. Qed.
