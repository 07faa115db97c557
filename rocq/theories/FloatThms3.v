(** Rounding errors: addition and transposition (data movement), matrix products, lookups, the Frobenius norm. *)
From Coq Require Import String Ascii List Arith ZArith Lia Lra Bool Reals.
From Verif Require Import Scalar Tensor TensorLemmas TensorLemmas2 Base Spec Chain BaseLemmas Ops OpsR FullProofs ResultLemmas Dense AddProofs MulProofs MatmulProofs DenseMatmul FlatProofs NormProofs GatherProofs ValidProofs Float FloatSpec FloatProofs FloatThms FloatThms2.
Import ListNotations.
Local Open Scope nat_scope.
Local Notation get := (@get Rring).

Section U.
Variable u : R.
Hypothesis Hu : (0 <= u)%R.
Local Notation near := (near u).
Local Notation tnear := (tnear u).
Local Notation ttnear := (ttnear u).

Lemma tnear_zeros m sh : tnear m (zeros sh) (zeros sh) (zeros sh).
Proof. apply tnear_mk. intros i _. apply near_0. Qed.
Lemma tnear_ones m sh : tnear m (ones sh) (ones sh) (ones sh).
Proof. apply tnear_mk. intros i _. apply near_1. exact Hu. Qed.

Lemma concat2_rel m z1 x1 X1 z2 x2 X2 ax : tnear m z1 x1 X1 -> tnear m z2 x2 X2 ->
  rel3 (tnear m) (concat [z1; z2] ax) (concat [x1; x2] ax) (concat [X1; X2] ax).
Proof.
  intros H1 H2. pose proof H1 as (_ & _ & _ & A & B & _). pose proof H2 as (_ & _ & _ & C & D & _). unfold concat, rank. cbn [map forallb concat_get fold_right].
  rewrite A, B, C, D. destruct (_ && _); cbn [rel3]; [|auto]. apply tnear_mk. intros i _.
  destruct (_ <? _); [now apply tnear_get|]. destruct (_ <? _); [now apply tnear_get|]. now apply near_0.
Qed.

Lemma tile_rel m z x X l : tnear m z x X -> rel3 (tnear m) (tile z l) (tile x l) (tile X l).
Proof.
  intros H. pose proof H as (_ & _ & _ & A & B & _). unfold tile, rank. rewrite A, B. destruct (Nat.eqb _ _); cbn [rel3]; [|auto]. apply tnear_mk. intros i _. now apply tnear_get.
Qed.

Lemma expand_dims_rel m z x X ax : tnear m z x X -> tnear m (expand_dims z ax) (expand_dims x ax) (expand_dims X ax).
Proof.
  intros H. pose proof H as (_ & _ & _ & A & B & _). unfold expand_dims. rewrite A, B. apply tnear_reshaped; [exact H|].
  rewrite <- (firstn_skipn ax (shape x)) at 3. rewrite !prodn_app. cbn. unfold prodn. cbn [fold_right]. lia.
Qed.

Lemma all3_map (P : nat -> rtensor -> rtensor -> rtensor -> Prop) d (f g h : nat -> rtensor) n :
  (forall i, i < n -> P i (f i) (g i) (h i)) -> all3 P d (map f (seq 0 n)) (map g (seq 0 n)) (map h (seq 0 n)).
Proof.
  intros H. split; [now rewrite !map_length|]. split; [now rewrite !map_length|]. rewrite map_length, seq_length. intros k Hk.
  rewrite !nth_seq_map. destruct (Nat.ltb_spec k n); [auto|lia].
Qed.

Lemma expand_batch_rel w z x X : ttnear w z x X -> rel3 (ttnear w) (expand_batch_dim z) (expand_batch_dim x) (expand_batch_dim X).
Proof.
  intros H. pose proof (ttnear_same _ _ _ _ _ H) as ((N1 & _) & (N2 & _)). pose proof H as (R1 & K1 & B1 & R2 & K2 & B2 & _).
  unfold expand_batch_dim. rewrite B1, B2. destruct (bsz x); [exact H|]. rewrite N1, N2, R1, R2, K1, K2. apply TensorTrainBatch_rel.
  apply all3_map. intros i Hi. apply expand_dims_rel. now apply ttnear_core.
Qed.

Lemma ttnear_more w v z x X : ttnear w z x X -> (forall k, w k <= v k) -> ttnear v z x X.
Proof.
  intros (A & B & C & D & E & F & L1 & L2 & H) L. do 6 (split; [assumption|]). do 2 (split; [assumption|]). intros k Hk. eapply tnear_more; [exact Hu|now apply H|apply L].
Qed.

Ltac eqns := repeat match goal with H : forall _, rk _ _ = rk _ _ |- _ => rewrite !H; clear H | H : forall _ _, mode _ _ _ = mode _ _ _ |- _ => rewrite !H; clear H end.

Lemma expand_ndims (t e : rtt) : expand_batch_dim t = Ok e -> ndims e = ndims t.
Proof.
  unfold expand_batch_dim. destruct (bsz t); intros H; [now okinv H|]. unfold TensorTrainBatch in H.
  destruct (clean_raw_shape _); cbn [bind] in H; [|discriminate]. destruct (cores_valid _ _ _ _ _) as [[|]|]; cbn [bind negb] in H; try discriminate.
  okinv H. unfold ndims. cbn [cores]. now rewrite map_length, seq_length.
Qed.

Lemma add_core_rel m i n z1 x1 X1 z2 x2 X2 ax ax' s s' : tnear m z1 x1 X1 -> tnear m z2 x2 X2 ->
  rel3 (tnear m)
   (if i =? 0 then concat [z1; z2] ax else if i =? n then concat [z1; z2] ax' else
      do upper <- concat [z1; zeros s] ax; do lower <- concat [zeros s'; z2] ax; concat [upper; lower] ax')
   (if i =? 0 then concat [x1; x2] ax else if i =? n then concat [x1; x2] ax' else
      do upper <- concat [x1; zeros s] ax; do lower <- concat [zeros s'; x2] ax; concat [upper; lower] ax')
   (if i =? 0 then concat [X1; X2] ax else if i =? n then concat [X1; X2] ax' else
      do upper <- concat [X1; zeros s] ax; do lower <- concat [zeros s'; X2] ax; concat [upper; lower] ax').
Proof.
  intros T1 T2. destruct (i =? 0); [now apply concat2_rel|]. destruct (i =? n); [now apply concat2_rel|].
  eapply rel3_bind; [apply concat2_rel; [exact T1|apply tnear_zeros]|]. intros ? ? ? T3.
  eapply rel3_bind; [apply concat2_rel; [apply tnear_zeros|exact T2]|]. intros ? ? ? T4. now apply concat2_rel.
Qed.

Lemma add_rel wa wb a' a A b' b B : ttnear wa a' a A -> ttnear wb b' b B -> ndims a = ndims b ->
  rel3 (ttnear (fun k => Nat.max (wa k) (wb k))) (add a' b') (add a b) (add A B).
Proof.
  intros Ta0 Tb0 Hd. assert (Ta : ttnear (fun k => Nat.max (wa k) (wb k)) a' a A) by (eapply ttnear_more; [exact Ta0|intros; lia]).
  assert (Tb : ttnear (fun k => Nat.max (wa k) (wb k)) b' b B) by (eapply ttnear_more; [exact Tb0|intros; lia]). clear Ta0 Tb0.
  generalize dependent (fun k => Nat.max (wa k) (wb k)). clear wa wb. intros w Ta Tb.
  pose proof (ttnear_same _ _ _ _ _ Ta) as ((N1 & K1 & O1 & M1 & _ & Q1) & (N2 & K2 & O2 & M2 & _ & Q2)). pose proof Ta as (R1 & L1 & B1 & R2 & L2 & B2 & _).
  pose proof (ttnear_same _ _ _ _ _ Tb) as ((N3 & K3 & O3 & M3 & _ & Q3) & (N4 & K4 & O4 & M4 & _ & Q4)). pose proof Tb as (R3 & L3 & B3 & R4 & L4 & B4 & _).
  assert (P1 : is_batch_broadcasting_possible a' b' = is_batch_broadcasting_possible a b) by (unfold is_batch_broadcasting_possible; now rewrite B1, B3).
  assert (P2 : is_batch_broadcasting_possible A B = is_batch_broadcasting_possible a b) by (unfold is_batch_broadcasting_possible; now rewrite B2, B4).
  assert (S1 : add_batch_size a' b' = add_batch_size a b) by (unfold add_batch_size, lazy_batch_size; now rewrite B1, B3).
  assert (S2 : add_batch_size A B = add_batch_size a b) by (unfold add_batch_size, lazy_batch_size; now rewrite B2, B4).
  assert (OR : forall x y : rtt, (forall k, rk x k = rk a k) -> (forall k, rk y k = rk b k) -> map (fun i => rk x i + rk y i) (seq 1 (ndims a - 1)) = map (fun i => rk a i + rk b i) (seq 1 (ndims a - 1))).
  { intros x y Hx Hy. apply map_ext. intros i. now rewrite Hx, Hy. }
  unfold add. rewrite P1, P2, M1, M2, M3, M4, R1, R2, R3, R4, N1, N2, Q1, Q2, Q3, Q4, (OR a' b' K1 K3), (OR A B K2 K4). clear OR.
  destruct (Bool.eqb _ _); cbn [negb]; [|cbn; auto]. destruct (llist_eqb (rshape a) (rshape b)) eqn:Er; cbn [negb]; [|cbn; auto].
  destruct (is_batch_broadcasting_possible a b); cbn [negb]; [|cbn; auto].
  destruct (is_batch a || is_batch b).
  - eapply rel3_bind with (P := fun p q r => all3 (fun k => tnear (w k)) (Tensor [] []) (fst p) (fst q) (fst r) /\ snd p = snd q /\ snd r = snd q).
    + destruct (is_tt_matrix a).
      * unfold add_batch_matrix_cores. rewrite S1, S2. destruct (add_batch_size a b) as [bs|]; cbn [bind]; [|cbn; auto].
        eapply rel3_bind; [apply rel3_eqn; apply expand_batch_rel; exact Ta|]. intros ea' ea eA (Tea & Na). apply expand_ndims in Na.
        eapply rel3_bind; [apply rel3_eqn; apply expand_batch_rel; exact Tb|]. intros eb' eb eB (Teb & Nb). apply expand_ndims in Nb.
        rewrite N1, N2.
        pose proof Tea as (_ & _ & E1 & _ & _ & E2 & _). pose proof Teb as (_ & _ & E3 & _ & _ & E4 & _).
        eapply rel3_bind; [apply (mapM_rel (fun k => tnear (w k)) (Tensor [] []))|intros ? ? ? (T & _); cbn; auto].
        intros i Hi. cbn [Nat.add]. rewrite E1, E2, E3, E4. eqns.
        pose proof (ttnear_core _ _ _ _ _ i Tea ltac:(lia)) as Ca. pose proof (ttnear_core _ _ _ _ _ i Teb ltac:(lia)) as Cb.
        eapply rel3_bind with (P := tnear (w i)); [destruct (bsz ea) as [[|[|?]]|]; try exact Ca; now apply tile_rel|]. intros ? ? ? T1.
        eapply rel3_bind with (P := tnear (w i)); [destruct (bsz eb) as [[|[|?]]|]; try exact Cb; now apply tile_rel|]. intros ? ? ? T2.
        now apply add_core_rel.
      * unfold add_batch_tensor_cores. rewrite S1, S2. destruct (add_batch_size a b) as [bs|]; cbn [bind]; [|cbn; auto].
        eapply rel3_bind; [apply rel3_eqn; apply expand_batch_rel; exact Ta|]. intros ea' ea eA (Tea & Na). apply expand_ndims in Na.
        eapply rel3_bind; [apply rel3_eqn; apply expand_batch_rel; exact Tb|]. intros eb' eb eB (Teb & Nb). apply expand_ndims in Nb.
        rewrite N1, N2.
        pose proof Tea as (_ & _ & E1 & _ & _ & E2 & _). pose proof Teb as (_ & _ & E3 & _ & _ & E4 & _).
        eapply rel3_bind; [apply (mapM_rel (fun k => tnear (w k)) (Tensor [] []))|intros ? ? ? (T & _); cbn; auto].
        intros i Hi. cbn [Nat.add]. rewrite E1, E2, E3, E4. eqns.
        pose proof (ttnear_core _ _ _ _ _ i Tea ltac:(lia)) as Ca. pose proof (ttnear_core _ _ _ _ _ i Teb ltac:(lia)) as Cb.
        eapply rel3_bind with (P := tnear (w i)); [destruct (bsz ea) as [[|[|?]]|]; try exact Ca; now apply tile_rel|]. intros ? ? ? T1.
        eapply rel3_bind with (P := tnear (w i)); [destruct (bsz eb) as [[|[|?]]|]; try exact Cb; now apply tile_rel|]. intros ? ? ? T2.
        now apply add_core_rel.
    + intros [? ?] [? ?] [? ?] (T & E1 & E2). cbn [fst snd] in *. subst. now apply TensorTrainBatch_rel.
  - eapply rel3_bind with (P := all3 (fun k => tnear (w k)) (Tensor [] [])); [|intros l m n T; apply TensorTrain_rel; exact T].
    destruct (is_tt_matrix a); [unfold add_matrix_cores|unfold add_tensor_cores]; rewrite N1, N2;
      (eapply rel3_mono; [apply (mapM_rel (fun k => tnear (w k)) (Tensor [] []))|intros ? ? ? (T & _); exact T]);
      intros i Hi; cbn [Nat.add]; eqns; apply add_core_rel; apply ttnear_core; auto; lia.
Qed.

Lemma transpose_tt_rel w z x X : ttnear w z x X -> rel3 (ttnear w) (tt_transpose z) (tt_transpose x) (tt_transpose X).
Proof.
  intros H. pose proof (ttnear_same _ _ _ _ _ H) as ((N1 & _ & _ & M1 & _ & Q1) & (N2 & _ & _ & M2 & _ & Q2)). pose proof H as (R1 & K1 & B1 & R2 & K2 & B2 & _).
  unfold tt_transpose. rewrite M1, M2, N1, N2, Q1, Q2, R1, R2, K1, K2, B1, B2. destruct (is_tt_matrix x); cbn [negb]; [|cbn; auto].
  eapply rel3_bind; [apply (mapM_rel (fun k => tnear (w k)) (Tensor [] [])); intros i Hi; apply transpose_rel; now apply ttnear_core|].
  intros ? ? ? (T & _). destruct (bsz x); [now apply TensorTrainBatch_rel|now apply TensorTrain_rel].
Qed.

(** ** Lookups *)
Lemma gather_rel m z x X ix : tnear m z x X -> rel3 (tnear m) (gather z ix) (gather x ix) (gather X ix).
Proof.
  intros H. pose proof H as (_ & _ & _ & A & B & _). unfold gather. rewrite A, B. destruct (shape x); [cbn; auto|].
  destruct (forallb _ _); cbn [rel3]; [|auto]. apply tnear_mk. intros i _. now apply tnear_get.
Qed.
Lemma gather_nd2_rel m z x X ix : tnear m z x X -> rel3 (tnear m) (gather_nd2 z ix) (gather_nd2 x ix) (gather_nd2 X ix).
Proof.
  intros H. pose proof H as (_ & _ & _ & A & B & _). unfold gather_nd2. rewrite A, B. destruct (shape x) as [|n [|n' rest]]; [cbn; auto..|].
  destruct (rev (shape ix)) as [|[|[|[|k]]] l]; try (cbn; auto; fail). cbv zeta.
  destruct (forallb _ _); cbn [rel3]; [|auto]. apply tnear_mk. intros i _. now apply tnear_get.
Qed.

Variable ar : arith.
Hypothesis Har : arith_ok u ar.

Definition rank_sum (t : rtt) (n : nat) : nat := csum (rk t) n.

Lemma gather_nd_rel w z x X ix M : ttnear w z x X -> wf x -> is_tt_matrix x = false -> shape ix = [M; off Rring x + ndims x] ->
  (forall m, m < M ->
    (match bsz x with Some B => (0 <= Tensor.get (K := Zring) ix [m; 0%nat] < Z.of_nat B)%Z | None => True end) /\
    forall k, k < ndims x -> (0 <= Tensor.get (K := Zring) ix [m; (off Rring x + k)%nat] < Z.of_nat (mode x 0 k))%Z) ->
  rel3 (tnear (csum w (ndims x) + rank_sum x (ndims x))) (gather_nd_fl ar z ix) (gather_nd x ix) (gather_nd X ix).
Proof.
  intros H Hw Hm Si Hv. pose proof (ttnear_same _ _ _ _ _ H) as ((N1 & _ & _ & M1 & _ & Q1) & (N2 & _ & _ & M2 & _ & Q2)).
  unfold gather_nd_fl, gather_nd. rewrite M1, M2, Hm, N1, N2, Q1, Q2. destruct (lastr (shape ix)) as [ld|]; cbn [bind]; [|cbn; auto].
  destruct (Nat.eqb ld _); cbn [negb]; [|cbn; auto].
  eapply rel3_bind; [apply reshape_rel', (tnear_ones 0)|]. intros e' e E (T0 & n & S0). cbn [map] in S0.
  eapply rel3_bind; [|intros; apply reshape_rel; eassumption].
  change (csum w (ndims x)) with (csum w (0 + ndims x)) at 1.
  eapply rel3_mono; [apply (foldM_rel (fun i z y Y => tnear (csum w i + rank_sum x i) z y Y /\ last (shape y) 0 = rk x i))|cbn beta; intros ? ? ? (T & _); exact T].
  - split; [exact T0|]. rewrite S0, (wf_first Hw). reflexivity.
  - intros i a b c Hi (T & Sb). destruct (gnd_slices Rring x ix M Hw Hm Si Hv i ltac:(lia)) as (sl & Esl & Ssl & _).
    eapply rel3_bind with (P := fun p q r => tnear (w i) p q r /\ shape q = [M; rk x i; rk x (S i)]).
    + eapply rel3_mono; [apply rel3_eqn with (P := tnear (w i))|].
      * destruct (is_batch x); (eapply rel3_bind; [apply transpose_rel; apply ttnear_core; [exact H|lia]|]; intros ? ? ? Tc).
        -- destruct (column ix 0); cbn [bind]; [|cbn; auto]. destruct (column ix (S i)); cbn [bind]; [|cbn; auto].
           destruct (stack2 _ _); cbn [bind]; [|cbn; auto]. now apply gather_nd2_rel.
        -- destruct (column ix i); cbn [bind]; [|cbn; auto]. now apply gather_rel.
      * cbn beta. intros p q r (Tp & Eq). split; [exact Tp|]. rewrite Esl in Eq. apply Ok_inj in Eq. now subst q.
    + intros p q r (Tp & Sq). eapply rel3_mono; [apply rel3_eqn; apply (matmul_rel u Hu ar Har _ _ _ _ _ _ _ _ T Tp)|]. cbn beta. intros p1 q1 r1 (T1 & E1). split.
      * eapply tnear_more; [exact Hu|exact T1|]. rewrite Sb. unfold rank_sum. rewrite !csum_S. lia.
      * unfold matmul in E1. unfold rank in E1. rewrite Sq in E1. cbn [length Nat.sub skipn firstn] in E1.
        destruct (skipn _ (shape b)) as [|? [|? [|? ?]]]; try discriminate. destruct (Nat.eqb _ _); [|discriminate].
        destruct (bcast _ _); [|discriminate]. okinv E1. rewrite shape_mk. rewrite (app_assoc _ [_] [_] : _ ++ [_; _] = _). apply last_last.
Qed.
End U.
