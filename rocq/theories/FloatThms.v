(** Rounding errors of the functions of Float.v. *)
From Coq Require Import String Ascii List Arith ZArith Lia Lra Bool Reals.
From Verif Require Import Scalar Tensor TensorLemmas TensorLemmas2 Base Spec Chain BaseLemmas Ops OpsR FullProofs ResultLemmas Dense MatmulProofs FlatProofs ValidProofs Float FloatSpec FloatProofs.
Import ListNotations.
Local Open Scope nat_scope.
Local Notation get := (@get Rring).

Lemma foldM_rel {S} (I : nat -> S -> S -> S -> Prop) f g h n : forall k a b c, I k a b c ->
  (forall i a b c, k <= i < k + n -> I i a b c -> rel3 (I (Datatypes.S i)) (f i a) (g i b) (h i c)) ->
  rel3 (I (k + n)) (foldM f (seq k n) a) (foldM g (seq k n) b) (foldM h (seq k n) c).
Proof.
  induction n as [|n IH]; intros k a b c H0 H; cbn [seq foldM].
  - cbn [rel3]. now rewrite Nat.add_0_r.
  - eapply rel3_bind; [apply H; [lia|exact H0]|]. intros a' b' c' H1. replace (k + Datatypes.S n) with (Datatypes.S k + n) by lia.
    apply IH; [exact H1|]. intros. apply H; [lia|assumption].
Qed.

(** Lists of results of the same length. *)
Definition all3 {A} (P : nat -> A -> A -> A -> Prop) (d : A) (l m n : list A) : Prop :=
  length l = length m /\ length n = length m /\ forall k, k < length m -> P k (nth k l d) (nth k m d) (nth k n d).

Lemma mapM_rel {A} (P : nat -> A -> A -> A -> Prop) d f g h n : forall k,
  (forall i, i < n -> rel3 (P i) (f (k + i)) (g (k + i)) (h (k + i))) ->
  rel3 (fun l m r => all3 P d l m r /\ length m = n) (mapM f (seq k n)) (mapM g (seq k n)) (mapM h (seq k n)).
Proof.
  revert P. induction n as [|n IH]; intros P k H; cbn [seq mapM].
  - cbn [rel3]. split; [split; [reflexivity|split; [reflexivity|]]|reflexivity]. intros i Hi. cbn in Hi. lia.
  - pose proof (H 0 ltac:(lia)) as H0. rewrite Nat.add_0_r in H0. eapply rel3_bind; [exact H0|]. intros a b c Habc.
    eapply rel3_bind; [apply (IH (fun i => P (S i)) (S k))|].
    { intros i Hi. specialize (H (S i) ltac:(lia)). now rewrite Nat.add_succ_r in H. }
    intros l m r ((L1 & L2 & HP) & Lm). cbn [rel3 length]. split; [|lia]. split; [cbn; lia|]. split; [cbn; lia|].
    intros [|i] Hi; cbn [nth]; [exact Habc|]. apply HP. cbn in Hi. lia.
Qed.

Section U.
Variable u : R.
Hypothesis Hu : (0 <= u)%R.
Local Notation near := (near u).
Local Notation tnear := (tnear u).

(** The three runs: core k of the first object carries at most [w k] roundings. *)
Definition ttnear (w : nat -> nat) (z x X : rtt) : Prop :=
  rshape z = rshape x /\ rks z = rks x /\ bsz z = bsz x /\ rshape X = rshape x /\ rks X = rks x /\ bsz X = bsz x /\
  all3 (fun k => tnear (w k)) (Tensor [] []) (cores z) (cores x) (cores X).

Lemma ttnear_core w z x X k : ttnear w z x X -> k < ndims x -> tnear (w k) (core z k) (core x k) (core X k).
Proof. intros (_ & _ & _ & _ & _ & _ & _ & _ & H). apply H. Qed.

Lemma ttnear_same w z x X : ttnear w z x X ->
  (ndims z = ndims x /\ (forall k, rk z k = rk x k) /\ (forall k i, mode z k i = mode x k i) /\ is_tt_matrix z = is_tt_matrix x /\ get_shape z = get_shape x /\ is_batch z = is_batch x) /\
  (ndims X = ndims x /\ (forall k, rk X k = rk x k) /\ (forall k i, mode X k i = mode x k i) /\ is_tt_matrix X = is_tt_matrix x /\ get_shape X = get_shape x /\ is_batch X = is_batch x).
Proof.
  intros (A & B & C & A' & B' & C' & L & L' & _). unfold ndims, rk, mode, is_tt_matrix, get_shape, is_tt_matrix, is_batch. rewrite A, B, C, A', B', C'. auto 12.
Qed.

Lemma ttnear_self t w : wf t -> ttnear w t t (tt_abs t).
Proof.
  intros W. unfold ttnear, tt_abs. cbn [rshape rks bsz cores]. do 6 (split; [reflexivity|]). split; [reflexivity|]. split; [apply map_length|].
  intros k Hk. replace (nth k (map tabs (cores t)) (Tensor [] [])) with (tabs (core t k)).
  - apply tnear_self; [exact Hu|]. now apply core_wft.
  - unfold core. rewrite <- (map_nth tabs). reflexivity.
Qed.

Lemma tt_abs_wf t : wf t -> wf (tt_abs t).
Proof.
  intros [H1 H2 H3 H4 H5 H6 H7 H8 H9 H10].
  assert (N : ndims (tt_abs t) = ndims t) by (unfold ndims; cbn; apply map_length).
  assert (M : forall k, modes (tt_abs t) k = modes t k) by reflexivity.
  constructor; rewrite ?N; try assumption.
  intros k Hk. specialize (H10 k Hk) as [Wk Sk]. unfold core in *. change (cores (tt_abs t)) with (map tabs (cores t)).
  rewrite (nth_indep _ _ (tabs (Tensor [] []))) by (rewrite map_length; exact Hk). rewrite map_nth. split; [now apply tabs_wft|exact Sk].
Qed.

Lemma nthr_shapes (cs cs' : list rtensor) i : map shape cs = map shape cs' ->
  (exists c c', nthr cs i = Ok c /\ nthr cs' i = Ok c' /\ shape c = shape c') \/ (exists e, nthr cs i = Err e /\ nthr cs' i = Err e).
Proof.
  intros H. pose proof (f_equal (fun l => nth_error l i) H) as E. cbn in E. rewrite !nth_error_map in E. unfold nthr.
  destruct (nth_error cs i), (nth_error cs' i); cbn in E; try discriminate; [left|right]; [|eauto]. injection E as E. eauto.
Qed.
Lemma lastr_shapes (cs cs' : list rtensor) : map shape cs = map shape cs' ->
  (exists c c', lastr cs = Ok c /\ lastr cs' = Ok c' /\ shape c = shape c') \/ (exists e, lastr cs = Err e /\ lastr cs' = Err e).
Proof.
  intros H. apply (f_equal (@rev _)) in H. rewrite <- !map_rev in H. unfold lastr.
  destruct (rev cs), (rev cs'); cbn in H; try discriminate; [right|left]; [eauto|]. injection H as E _. eauto 6.
Qed.

(** The constructors look at shapes only. *)
Lemma cores_valid_shapes off (cs cs' : list rtensor) sh ranks bs : map shape cs = map shape cs' -> cores_valid off cs sh ranks bs = cores_valid off cs' sh ranks bs.
Proof.
  intros H. assert (L : length cs = length cs') by (rewrite <- (map_length shape cs), H; apply map_length).
  assert (N : forall i, shape (nth i cs (Tensor [] [])) = shape (nth i cs' (Tensor [] []))).
  { intros i. rewrite <- (map_nth shape cs), H. apply (map_nth shape cs'). }
  assert (CC : forall i, check_core off cs sh ranks bs i = check_core off cs' sh ranks bs i).
  { intros i. unfold check_core. rewrite (N i), (N 0). destruct i; [reflexivity|]. now rewrite (N i). }
  unfold cores_valid. rewrite L. assert (CS : forall l, check_cores off cs sh ranks bs l = check_cores off cs' sh ranks bs l).
  { induction l as [|i l IH]; cbn [check_cores]; [reflexivity|]. rewrite CC. destruct (check_core off cs' sh ranks bs i) as [[|]|]; cbn [bind]; auto. }
  rewrite CS. destruct (check_cores off cs' sh ranks bs (seq 0 (length cs'))) as [[|]|]; cbn [bind negb]; auto.
  destruct (nthr_shapes cs cs' 0 H) as [(c & c' & -> & -> & Sc)|(er & -> & ->)]; [|reflexivity]. cbn [bind].
  destruct (lastr_shapes cs cs' H) as [(l & l' & -> & -> & Sl)|(er & -> & ->)]; [|reflexivity]. cbn [bind]. now rewrite Sc, Sl.
Qed.

Lemma infer_shapes off (cs cs' : list rtensor) : map shape cs = map shape cs' ->
  infer_raw_shape off cs = infer_raw_shape off cs' /\ infer_tt_ranks off cs = infer_tt_ranks off cs'.
Proof.
  intros H. assert (L : length cs = length cs') by (rewrite <- (map_length shape cs), H; apply map_length).
  assert (N : forall i, shape (nth i cs (Tensor [] [])) = shape (nth i cs' (Tensor [] []))).
  { intros i. rewrite <- (map_nth shape cs), H. apply (map_nth shape cs'). }
  unfold infer_raw_shape, infer_tt_ranks. rewrite !N, L. split.
  - apply map_ext. intros ax. rewrite <- (map_map shape (fun s => nth (ax + 1 + off) s 0)), H. apply map_map.
  - f_equal. rewrite <- (map_map shape (fun s => nth off s 0)), H. apply map_map.
Qed.

Lemma all3_shapes w cs' cs CS : all3 (fun k => tnear (w k)) (Tensor [] []) cs' cs CS -> map shape cs' = map shape cs /\ map shape CS = map shape cs.
Proof.
  intros (L & L' & H). split; apply (nth_ext _ _ (shape (Tensor (K := Rring) [] [])) (shape (Tensor (K := Rring) [] []))); rewrite ?map_length; auto;
    intros k Hk; rewrite !map_nth; apply H; congruence.
Qed.

Lemma TensorTrain_rel w cs' cs CS sh rs : all3 (fun k => tnear (w k)) (Tensor [] []) cs' cs CS ->
  rel3 (ttnear w) (TensorTrain cs' sh rs) (TensorTrain cs sh rs) (TensorTrain CS sh rs).
Proof.
  intros H. destruct (all3_shapes _ _ _ _ H) as [S1 S2]. unfold TensorTrain. destruct (clean_raw_shape sh) as [cl|e]; cbn [bind rel3]; [|auto].
  rewrite (cores_valid_shapes _ cs' cs), (cores_valid_shapes _ CS cs) by auto. destruct (cores_valid 0 cs cl rs None) as [[|]|]; cbn [bind negb rel3]; auto.
  destruct (infer_shapes 0 cs' cs S1) as [-> ->], (infer_shapes 0 CS cs S2) as [-> ->]. do 6 (split; [reflexivity|]). exact H.
Qed.

Lemma TensorTrainBatch_rel w cs' cs CS sh rs b : all3 (fun k => tnear (w k)) (Tensor [] []) cs' cs CS ->
  rel3 (ttnear w) (TensorTrainBatch cs' sh rs b) (TensorTrainBatch cs sh rs b) (TensorTrainBatch CS sh rs b).
Proof.
  intros H. destruct (all3_shapes _ _ _ _ H) as [S1 S2]. unfold TensorTrainBatch. destruct (clean_raw_shape sh) as [cl|e]; cbn [bind rel3]; [|auto].
  rewrite (cores_valid_shapes _ cs' cs), (cores_valid_shapes _ CS cs) by auto. destruct (cores_valid 1 cs cl rs b) as [[|]|]; cbn [bind negb rel3]; auto.
  destruct (infer_shapes 1 cs' cs S1) as [-> ->], (infer_shapes 1 CS cs S2) as [-> ->].
  destruct b as [b|]; cbn [bind rel3]; [do 6 (split; [reflexivity|]); exact H|].
  destruct cs' as [|c' cs'], cs as [|c cs], CS as [|C CS]; try discriminate; [unfold nthr; cbn [nth_error bind rel3]; auto|].
  cbn [map] in S1, S2. assert (E1 := f_equal (hd []) S1). assert (E2 := f_equal (hd []) S2). cbn [hd] in E1, E2. unfold nthr. cbn [nth_error bind]. rewrite E1, E2.
  destruct (shape c) as [|n ?]; cbn [nth_error bind rel3]; [auto|]. do 6 (split; [reflexivity|]). exact H.
Qed.

Lemma getitem_rel m z x X spec : tnear m z x X -> rel3 (tnear m) (getitem z spec) (getitem x spec) (getitem X spec).
Proof.
  intros H. pose proof H as (_ & _ & _ & D & E & _). unfold getitem. rewrite D, E. destruct (resolve spec (shape x)); cbn [bind rel3]; [|auto].
  apply tnear_mk. intros i _. now apply tnear_get.
Qed.

Lemma squeeze_batch_rel w z x X : ttnear w z x X -> rel3 (ttnear w) (squeeze_batch_dim z) (squeeze_batch_dim x) (squeeze_batch_dim X).
Proof.
  intros H. pose proof (ttnear_same _ _ _ _ H) as ((N1 & _ & _ & M1 & _) & (N2 & _ & _ & M2 & _)). pose proof H as (R1 & K1 & B1 & R2 & K2 & B2 & _).
  unfold squeeze_batch_dim. rewrite B1, B2. destruct (bsz x) as [[|[|b]]|]; try exact H.
  unfold batch_dim_getitem. rewrite N1, N2, M1, M2, R1, R2, K1, K2. cbn [is_slice].
  eapply rel3_bind.
  - apply (mapM_rel (fun k => tnear (w k)) (Tensor [] [])). intros i Hi. cbn [Nat.add].
    destruct (is_tt_matrix x); apply getitem_rel; now apply ttnear_core.
  - intros l m n (Q & _). now apply TensorTrain_rel.
Qed.

(** ** full *)
Lemma reshape_rel' m z x X spec : tnear m z x X ->
  rel3 (fun z x X => tnear m z x X /\ exists n, shape x = map (fun d => match d with Some k => k | None => n end) spec) (reshape z spec) (reshape x spec) (reshape X spec).
Proof.
  intros H. pose proof (reshape_rel u m z x X spec H) as Q. destruct (reshape z spec), (reshape x spec) as [y|] eqn:E, (reshape X spec); cbn in Q |- *; try tauto.
  split; [exact Q|]. unfold reshape in E. destruct (length (filter _ spec)) as [|[|?]]; try discriminate.
  - destruct (Nat.eqb _ _); [|discriminate]. okinv E. exists 0. reflexivity.
  - destruct (Nat.eqb _ 0); [discriminate|]. destruct (Nat.eqb _ 0); [|discriminate]. okinv E. eexists. reflexivity.
Qed.

Variable ar : arith.
Hypothesis Har : arith_ok u ar.

Definition csum (w : nat -> nat) (n : nat) : nat := list_sum (map w (seq 0 n)).
Definition inner_ranks (t : rtt) (n : nat) : nat := list_sum (map (rk t) (seq 1 (n - 1))).

Lemma csum_S w n : csum w (S n) = csum w n + w n.
Proof. unfold csum. rewrite seq_S, map_app, list_sum_app. cbn. lia. Qed.
Lemma inner_ranks_S t n : 0 < n -> inner_ranks t (S n) = inner_ranks t n + rk t n.
Proof. intros H. unfold inner_ranks. destruct n as [|n]; [lia|]. cbn [Nat.sub]. rewrite Nat.sub_0_r, seq_S, map_app, list_sum_app. cbn. lia. Qed.

Lemma lnear2 m n a' a A b' b B : tnear m a' a A -> tnear n b' b B -> lnear u [m; n] [a'; b'] [a; b] [A; B].
Proof. intros H1 H2. constructor; [exact H1|]. constructor; [exact H2|]. constructor. Qed.
Lemma lnear3 m n p a' a A b' b B c' c C : tnear m a' a A -> tnear n b' b B -> tnear p c' c C -> lnear u [m; n; p] [a'; b'; c'] [a; b; c] [A; B; C].
Proof. intros H1 H2 H3. constructor; [exact H1|]. now apply lnear2. Qed.

Lemma full_rel w z x X : ttnear w z x X -> 0 < ndims x -> rel3 (tnear (csum w (ndims x) + inner_ranks x (ndims x))) (full_fl ar z) (full x) (full X).
Proof.
  intros H Hd. pose proof (ttnear_same _ _ _ _ H) as ((N1 & K1 & Q1 & M1 & G1 & _) & (N2 & K2 & Q2 & M2 & G2 & _)). pose proof H as (R1 & _ & B1 & R2 & _ & B2 & _).
  unfold full_fl, full. rewrite B1, B2.
  assert (F0 : tnear (csum w 1 + inner_ranks x 1) (core z 0) (core x 0) (core X 0)).
  { unfold csum, inner_ranks. cbn. rewrite !Nat.add_0_r. now apply ttnear_core. }
  destruct (bsz x) as [b|] eqn:Bx.
  - unfold full_tt_batch_fl, full_tt_batch, lazy_batch_size. rewrite B1, B2, Bx. cbn [bind].
    rewrite N1, N2, M1, M2. unfold lazy_shape. rewrite G1, G2.
    eapply rel3_bind.
    + apply (foldM_rel (fun i => tnear (csum w i + inner_ranks x i))); [exact F0|]. intros i a b' c Hi HI. rewrite K1, K2.
      eapply rel3_bind; [apply reshape_rel'; exact HI|]. intros a1 b1 c1 (HI1 & n1 & S1).
      eapply rel3_bind; [apply reshape_rel'; apply ttnear_core; [exact H|lia]|]. intros a2 b2 c2 (HI2 & n2 & S2). cbn [map] in S1, S2.
      pose proof (einsum_rel u Hu ar Har "oqb,obw->oqw" _ _ _ _ (lnear2 _ _ _ _ _ _ _ _ HI1 HI2) ltac:(cbn; lia)) as E.
      eapply rel3_mono; [exact E|]. intros ? ? ? T. eapply tnear_more; [exact Hu|exact T|].
      assert (ET : einsum_terms "oqb,obw->oqw" [b1; b2] = rk x i).
      { unfold einsum_terms. einsum_step. apply Nat.mul_1_r. }
      rewrite ET, csum_S, inner_ranks_S by lia. cbn [list_sum fold_right length]. lia.
    + intros a b' c HI. replace (1 + (ndims x - 1)) with (ndims x) in HI by lia. destruct (is_tt_matrix x).
      * assert (FM : forall y : rtt, (forall k i, mode y k i = mode x k i) -> flat_map (fun i => [mode y 0 i; mode y 1 i]) (seq 0 (ndims x)) = flat_map (fun i => [mode x 0 i; mode x 1 i]) (seq 0 (ndims x))).
        { intros y Hy. apply flat_map_ext. intros i. now rewrite !Hy. }
        rewrite (FM z Q1), (FM X Q2). eapply rel3_bind; [apply reshape_rel; exact HI|]. intros. eapply rel3_bind; [apply transpose_rel; eassumption|]. intros. now apply reshape_rel.
      * now apply reshape_rel.
  - unfold full_tt_fl, full_tt.
    rewrite N1, N2, M1, M2. unfold lazy_shape. rewrite G1, G2.
    eapply rel3_bind.
    + apply (foldM_rel (fun i => tnear (csum w i + inner_ranks x i))); [exact F0|]. intros i a b' c Hi HI. rewrite K1, K2.
      eapply rel3_bind; [apply reshape_rel'; exact HI|]. intros a1 b1 c1 (HI1 & n1 & S1).
      eapply rel3_bind; [apply reshape_rel'; apply ttnear_core; [exact H|lia]|]. intros a2 b2 c2 (HI2 & n2 & S2). cbn [map] in S1, S2.
      pose proof (matmul_rel u Hu ar Har _ _ _ _ _ _ _ _ HI1 HI2) as E.
      eapply rel3_mono; [exact E|]. intros ? ? ? T. eapply tnear_more; [exact Hu|exact T|].
      rewrite S1, csum_S, inner_ranks_S by lia. cbn [last]. lia.
    + intros a b' c HI. replace (1 + (ndims x - 1)) with (ndims x) in HI by lia. destruct (is_tt_matrix x).
      * assert (FM : forall y : rtt, (forall k i, mode y k i = mode x k i) -> flat_map (fun i => [mode y 0 i; mode y 1 i]) (seq 0 (ndims x)) = flat_map (fun i => [mode x 0 i; mode x 1 i]) (seq 0 (ndims x))).
        { intros y Hy. apply flat_map_ext. intros i. now rewrite !Hy. }
        rewrite (FM z Q1), (FM X Q2). eapply rel3_bind; [apply reshape_rel; exact HI|]. intros. eapply rel3_bind; [apply transpose_rel; eassumption|]. intros. now apply reshape_rel.
      * now apply reshape_rel.
Qed.
End U.
