(** Successful operations of Init.v, Riem.v and Autodiff.v return valid objects. *)
From Coq Require Import String Ascii List Arith ZArith Lia Bool Reals.
From Verif Require Import Scalar Tensor TensorLemmas Base BaseLemmas Spec Ops OpsR ConstructProofs BatchOps Decomp Riem Autodiff Init
  ValidSpec ValidProofs ValidOps ValidReal.
Import ListNotations.
Local Open Scope nat_scope.
Local Open Scope list_scope.

(** *** initializers.py *)
Section Init.
Variable K : cring.

Lemma nth_map_seq {B} (f : nat -> B) n d : 0 < n -> nth 0 (map f (seq 0 n)) d = f 0.
Proof. destruct n; [lia|]. reflexivity. Qed.

Lemma list_made cs sh ranks (t : tt K) : TensorTrain cs (SList sh) (Some ranks) = Ok t -> length cs = length sh -> length ranks = S (length sh) ->
  (0 < length sh -> rank (nth 0 cs (core0 K)) = 3) -> valid t.
Proof.
  intros H L Lr R. assert (C : clean_raw_shape (SList sh) = Ok (Some [sh])).
  { unfold TensorTrain in H. destruct sh as [|n [|m sh]]; [discriminate H|discriminate H|reflexivity]. }
  assert (Hp : 0 < length sh) by (destruct sh; [discriminate C|cbn; lia]).
  apply (made K cs (SList sh) (Some [sh]) (Some ranks) t 1 H); auto.
  - intros ss E. injection E as <-. split; auto. intros s [<-|[]]. auto.
  - intros rs E. injection E as <-. lia.
Qed.

Lemma list_made_batch cs sh ranks b (t : tt K) : TensorTrainBatch cs (SList sh) (Some ranks) (Some b) = Ok t -> length cs = length sh -> length ranks = S (length sh) ->
  (0 < length sh -> rank (nth 0 cs (core0 K)) = 4) -> valid t.
Proof.
  intros H L Lr R. assert (C : clean_raw_shape (SList sh) = Ok (Some [sh])).
  { unfold TensorTrainBatch in H. destruct sh as [|n [|m sh]]; [discriminate H|discriminate H|reflexivity]. }
  assert (Hp : 0 < length sh) by (destruct sh; [discriminate C|cbn; lia]).
  apply (made_batch K cs (SList sh) (Some [sh]) (Some ranks) (Some b) t 1 H); auto.
  - intros ss E. injection E as <-. split; auto. intros s [<-|[]]. auto.
  - intros rs E. injection E as <-. lia.
  - discriminate.
Qed.

Lemma clean2 (r c : list nat) : length c = length r -> length r <> 1 -> clean_raw_shape (SList2 [r; c]) = Ok (Some [r; c]).
Proof.
  intros L N. unfold clean_raw_shape, np_squeeze. cbn [forallb]. rewrite L, Nat.eqb_refl. cbn [andb]. destruct (length r) as [|[|]]; [reflexivity|lia|reflexivity].
Qed.

Lemma rows_made cs (r c : list nat) ranks (t : tt K) : TensorTrain cs (SList2 [r; c]) (Some ranks) = Ok t -> length c = length r -> length r <> 1 ->
  length cs = length r -> length ranks = S (length r) -> (0 < length r -> rank (nth 0 cs (core0 K)) = 4) -> valid t.
Proof.
  intros H Lc N L Lr R. pose proof (clean2 r c Lc N) as C.
  assert (Hp : 0 < length r).
  { destruct r; [|cbn; lia]. destruct cs; [|discriminate]. unfold TensorTrain in H. rewrite C in H. discriminate. }
  apply (made K cs _ _ (Some ranks) t 2 H C); auto.
  - intros ss E. injection E as <-. split; auto. intros s [<-|[<-|[]]]; lia.
  - intros rs E. injection E as <-. lia.
Qed.

Lemma rows_made_batch cs (r c : list nat) ranks b (t : tt K) : TensorTrainBatch cs (SList2 [r; c]) (Some ranks) (Some b) = Ok t -> length c = length r -> length r <> 1 ->
  length cs = length r -> length ranks = S (length r) -> (0 < length r -> rank (nth 0 cs (core0 K)) = 5) -> valid t.
Proof.
  intros H Lc N L Lr R. pose proof (clean2 r c Lc N) as C.
  assert (Hp : 0 < length r).
  { destruct r; [|cbn; lia]. destruct cs; [|discriminate]. unfold TensorTrainBatch in H. rewrite C in H. discriminate. }
  apply (made_batch K cs _ _ (Some ranks) (Some b) t 2 H C); auto.
  - intros ss E. injection E as <-. split; auto. intros s [<-|[<-|[]]]; lia.
  - intros rs E. injection E as <-. lia.
  - discriminate.
Qed.

Lemma tensor_const_valid (v : K) s t : tensor_const v s = Ok t -> valid t.
Proof.
  unfold tensor_const. intros H. bdesn H E. apply list_made in H; auto.
  - now rewrite map_length, seq_length.
  - apply repeat_length.
  - intros Hp. now rewrite nth_map_seq.
Qed.

(** A shape of exactly two rows, which are not of one number each. *)
Definition two_rows (s : shape2) : Prop :=
  exists r c, s = S2Rows [r; c] /\ forall row, r = Some row \/ c = Some row -> length row <> 1.

Lemma validate_matrix_inv rows l : validate_matrix rows = Ok l -> map (@length nat) l = map (@length num) rows /\ forall r, In r rows -> length r = length (nth 0 rows []).
Proof.
  unfold validate_matrix. destruct (rectangular rows) eqn:R; cbn [negb]; [|discriminate]. destruct (forallb _ rows); [|discriminate]. intros H. injection H as <-.
  split; [rewrite map_map; apply map_ext; intros; apply map_length|]. unfold rectangular in R. rewrite forallb_forall in R. intros r Hr. now apply Nat.eqb_eq, R.
Qed.

Lemma matrix_rows_two s rows : matrix_rows s = Ok rows -> two_rows s ->
  exists r c, rows = [r; c] /\ length c = length r /\ length r <> 1.
Proof.
  intros H (r & c & -> & N). cbn [matrix_rows] in H.
  assert (X : forall x y : list num, validate_matrix [x; y] = Ok rows -> length x <> 1 -> exists r c, rows = [r; c] /\ length c = length r /\ length r <> 1).
  { intros x y HV Hx. apply validate_matrix_inv in HV as [L S']. destruct rows as [|r' [|c' [|]]]; try discriminate. cbn [map] in L. injection L as L1 L2.
    exists r', c'. split; auto. rewrite L1, L2. split; auto. apply (S' y). cbn. auto. }
  destruct r as [r|], c as [c|]; cbn [all_some] in H; try discriminate.
  - apply (X _ _ H), N. auto.
  - apply (X _ _ H), N. auto.
  - apply (X _ _ H). unfold ones_row. rewrite repeat_length. apply N. auto.
Qed.

Lemma eye_valid s (t : tt K) : (forall n, s <> S1Vec [n]) -> eye s = Ok t -> valid t.
Proof.
  intros N H. unfold eye in H. bdesn H E. rename a into sh. bdesn H E1. rename a into cs. destruct (mapM0 _ _ _ (core0 K) E1) as (L & Hn).
  assert (N1 : length sh <> 1).
  { destruct s as [l|]; [|discriminate]. cbn [validate_tensor] in E. destruct (forallb _ l); [|discriminate]. injection E as <-. rewrite map_length.
    destruct l as [|x [|]]; cbn; try lia. now destruct (N x). }
  apply rows_made in H; auto.
  - apply repeat_length.
  - intros Hp. specialize (Hn 0 Hp). now apply reshape_rank in Hn.
Qed.

Lemma matrix_const_valid (v : K) s t : two_rows s -> matrix_const v s = Ok t -> valid t.
Proof.
  intros N H. unfold matrix_const in H. bdesn H E. destruct (matrix_rows_two _ _ E N) as (r & c & -> & Lc & N1). cbn [nth] in H. apply rows_made in H; auto.
  - now rewrite map_length, seq_length.
  - apply repeat_length.
  - intros Hp. now rewrite nth_map_seq.
Qed.

Lemma const_like_valid (v : K) (u t : tt K) : valid u -> is_tt_matrix u = false \/ ndims u <> 1 -> const_like v u = Ok t -> valid t.
Proof.
  intros V N H. unfold const_like in H. destruct (is_tt_matrix u) eqn:EM; [|now apply tensor_const_valid in H].
  destruct N as [N|N]; [discriminate|]. apply matrix_const_valid in H; auto. pose proof (valid_matrix _ u V) as L. rewrite EM in L.
  unfold lazy_raw_shape. pose proof (v_rlen _ _ V) as VL. destruct (rshape u) as [|r [|c [|]]]; try discriminate. exists (Some (map (fun n => NI (Z.of_nat n)) r)), (Some (map (fun n => NI (Z.of_nat n)) c)).
  split; [reflexivity|]. intros row [E|E]; injection E as <-; rewrite map_length, VL; cbn; auto.
Qed.
End Init.

Lemma expand_rank_length d r rk : validate_rank d r = Ok Datatypes.tt -> expand_rank d r = Ok rk -> length rk = S d.
Proof.
  intros V E. destruct r as [x|l]; cbn [expand_rank validate_rank] in *.
  - destruct (Nat.eqb_spec d 0); [discriminate|]. injection E as <-. cbn [length]. rewrite app_length, repeat_length. cbn. lia.
  - injection E as <-. rewrite map_length. destruct l as [|x [|y l]]; [|discriminate|].
    + cbn [forallb negb] in V. destruct (Nat.eqb_spec (length (@nil num)) (S d)) as [E|]; [exact E|discriminate].
    + destruct (negb _); [discriminate|]. destruct (Nat.eqb_spec (length (x :: y :: l)) (S d)) as [E|]; [exact E|discriminate].
Qed.

Section Random.
Variable xi : nat -> list nat -> R.

Lemma random_cores_length bs rows rk mean sd : length (random_cores xi bs rows rk mean sd) = length (nth 0 rows []).
Proof. unfold random_cores. now rewrite map_length, seq_length. Qed.
Lemma random_cores_rank bs rows rk mean sd : 0 < length (nth 0 rows []) ->
  rank (nth 0 (random_cores xi bs rows rk mean sd) rc0) = (match bs with Some _ => 3 | None => 2 end) + length rows.
Proof.
  intros Hp. unfold random_cores. rewrite nth_map_seq by auto. unfold normal, rank. rewrite shape_mk, app_length. cbn [length]. rewrite app_length, map_length.
  destruct bs; cbn; lia.
Qed.

Lemma tensor_with_random_cores_valid s r mean sd t : tensor_with_random_cores xi s r mean sd = Ok t -> valid t.
Proof.
  unfold tensor_with_random_cores. intros H. bdesn H E. bdesn H E1. bdesn H E2. destruct a0. apply expand_rank_length in E2; auto.
  apply list_made in H; auto; [apply random_cores_length|]. intros Hp. now rewrite random_cores_rank.
Qed.
Lemma tensor_batch_with_random_cores_valid s r b mean sd t : tensor_batch_with_random_cores xi s r b mean sd = Ok t -> valid t.
Proof.
  unfold tensor_batch_with_random_cores. intros H. bdesn H E. bdesn H E0. bdesn H E1. bdesn H E2. destruct a1. apply expand_rank_length in E2; auto.
  apply list_made_batch in H; auto; [apply random_cores_length|]. intros Hp. now rewrite random_cores_rank.
Qed.
Lemma matrix_with_random_cores_valid s r mean sd t : two_rows s -> matrix_with_random_cores xi s r mean sd = Ok t -> valid t.
Proof.
  unfold matrix_with_random_cores. intros N H. bdesn H E. destruct (matrix_rows_two _ _ E N) as (x & y & -> & Lc & N1). cbv zeta in H. cbn [nth firstn] in H.
  bdesn H E1. bdesn H E2. destruct a. apply expand_rank_length in E2; auto.
  apply rows_made in H; auto; [apply random_cores_length|]. intros Hp. now rewrite random_cores_rank.
Qed.
Lemma matrix_batch_with_random_cores_valid s r b mean sd t : two_rows s -> matrix_batch_with_random_cores xi s r b mean sd = Ok t -> valid t.
Proof.
  unfold matrix_batch_with_random_cores. intros N H. bdesn H E. destruct (matrix_rows_two _ _ E N) as (x & y & -> & Lc & N1). cbv zeta in H. bdesn H E0. cbn [nth firstn] in H.
  bdesn H E1. bdesn H E2. destruct a0. apply expand_rank_length in E2; auto.
  apply rows_made_batch in H; auto; [apply random_cores_length|]. intros Hp. now rewrite random_cores_rank.
Qed.

Lemma check_mean_inv mean t r : check_mean mean t = Ok r -> r = t.
Proof. unfold check_mean. destruct (Rlt_dec _ _); [|discriminate]. intros H. now injection H. Qed.
Lemma two_rows_nints s rows : matrix_rows s = Ok rows -> two_rows s -> two_rows (S2Rows (map (fun r => Some (nints r)) rows)).
Proof.
  intros H N. destruct (matrix_rows_two _ _ H N) as (x & y & -> & Lc & N1). exists (Some (nints x)), (Some (nints y)). split; [reflexivity|].
  unfold nints. intros row [E|E]; injection E as <-; rewrite map_length; lia.
Qed.

Lemma random_tensor_valid s r mean sd t : random_tensor xi s r mean sd = Ok t -> valid t.
Proof.
  unfold random_tensor. intros H. bdesn H E. bdesn H E1. bdesn H E2. bdesn H E3. apply check_mean_inv in H as ->. now apply tensor_with_random_cores_valid in E3.
Qed.
Lemma random_tensor_batch_valid s r b mean sd t : random_tensor_batch xi s r b mean sd = Ok t -> valid t.
Proof.
  unfold random_tensor_batch. intros H. bdesn H E. bdesn H E1. bdesn H E2. bdesn H E3. bdesn H E4. apply check_mean_inv in H as ->. now apply tensor_batch_with_random_cores_valid in E4.
Qed.
Lemma random_matrix_valid s r mean sd t : two_rows s -> random_matrix xi s r mean sd = Ok t -> valid t.
Proof.
  unfold random_matrix. intros N H. bdesn H E. cbv zeta in H. bdesn H E1. bdesn H E2. bdesn H E3. apply check_mean_inv in H as ->.
  apply matrix_with_random_cores_valid in E3; auto. now apply (two_rows_nints s).
Qed.
Lemma random_matrix_batch_valid s r b mean sd t : two_rows s -> random_matrix_batch xi s r b mean sd = Ok t -> valid t.
Proof.
  unfold random_matrix_batch. intros N H. bdesn H E. bdesn H E0. cbv zeta in H. bdesn H E1. bdesn H E2. bdesn H E3. apply check_mean_inv in H as ->.
  apply matrix_batch_with_random_cores_valid in E3; auto. now apply (two_rows_nints s).
Qed.
Lemma variance_valid lamb s r t : two_rows s -> variance_initializer xi lamb s r = Ok t -> valid t.
Proof.
  unfold variance_initializer. intros N H. bdesn H E. bdesn H E1. apply random_matrix_valid in H; auto. now apply (two_rows_nints s).
Qed.
End Random.

(** *** riemannian.py, autodiff.py *)
Section Tangent.
Variable qr : rtensor -> rtensor * rtensor.

Lemma frame_valid (w l r : rtt) : valid w -> frame qr w = Ok (l, r) ->
  valid l /\ rshape l = rshape w /\ ndims l = ndims w /\ is_batch l = is_batch w.
Proof.
  intros V H. unfold frame in H. bdesn H E. bdesn H E1. injection H as -> ->. now apply orthogonalize_valid in E.
Qed.
(** [orthogonalize_tt_cores] of a batch from right to left is not implemented. *)
Lemma frame_not_batch (w l r : rtt) : valid w -> frame qr w = Ok (l, r) -> is_batch w = false.
Proof.
  intros V H. unfold frame in H. bdesn H E. bdesn H E1. apply orthogonalize_valid in E as (_ & _ & _ & <-); auto.
  unfold orthogonalize_tt_cores, is_batch in *. destruct (bsz a); [discriminate|reflexivity].
Qed.

Lemma extend_core_rank ob (c e : rtensor) : extend_core ob c = Ok e -> rank e = rank c + left_dim ob.
Proof.
  unfold extend_core, left_dim. destruct ob as [b|]; intros H; [|injection H as <-; lia]. apply tile_rank in H. rewrite H, expand_dims_rank; lia.
Qed.

Lemma tangent_core_rank ob (w : rtt) zl zr (p l r c : rtensor) : tangent_core ob w 0 zl zr p l r = Ok c -> rank c = rank l.
Proof. unfold tangent_core. cbn [Nat.eqb]. intros H. apply (concat_rank _ _ _ _ _ H). cbn. auto. Qed.

Lemma result_cores_rank ob (w l r : rtt) proj cs : result_cores ob w l r proj = Ok cs -> valid w -> valid l -> ndims l = ndims w -> is_batch l = false ->
  length cs = ndims w /\ rank (nth 0 cs rc0) = 2 + length (rshape l) + left_dim ob.
Proof.
  intros H V Vl Ln HB. unfold result_cores in H. destruct (mapM0 _ _ _ rc0 H) as (L & Hn). split; [exact L|]. pose proof (v_d _ _ V) as Hd. specialize (Hn 0 Hd). cbv beta in Hn.
  bdesn Hn E. bdesn Hn E1. bdesn Hn E2. bdesn Hn E3. bdesn Hn E4. bdesn Hn E5. bdesn Hn E6. apply tangent_core_rank in Hn. rewrite Hn, (extend_core_rank _ _ _ E3).
  f_equal. apply nthr_inv in E1. assert (C : a0 = core l 0) by (symmetry; now apply nth_error_nth). rewrite C, (valid_rank _ l 0 Vl), HB; lia.
Qed.

Lemma finish_valid ob addr (w : rtt) cs r : valid w -> length cs = ndims w -> rank (nth 0 cs rc0) = 2 + length (rshape w) + left_dim ob ->
  finish ob addr w cs = Ok r -> valid (p_tt r).
Proof.
  intros V L R H. unfold finish in H. bdesn H E. injection H as <-. cbn [p_tt]. destruct ob as [b|]; cbn [left_dim] in R.
  - apply (made_batch_like _ _ _ w _ _ E); auto; [lia|apply opt_len_none|discriminate].
  - apply (made_like _ _ _ w _ E); auto; [lia|apply opt_len_none].
Qed.

Lemma tangent_valid ob addr (w l r : rtt) proj cs x : valid w -> is_batch w = false -> frame qr w = Ok (l, r) ->
  result_cores ob w l r proj = Ok cs -> finish ob addr w cs = Ok x -> valid (p_tt x).
Proof.
  intros V HB F H1 H2. destruct (frame_valid _ _ _ V F) as (Vl & Sl & Ln & Bl). rewrite HB in Bl. destruct (result_cores_rank _ _ _ _ _ _ H1 V Vl Ln Bl) as [L R].
  rewrite Sl in R. now apply (finish_valid ob addr w cs).
Qed.

Lemma project_valid (what : rtt) addr (w : rtt) r : valid w -> project qr what addr w = Ok r -> valid (p_tt r).
Proof.
  intros V H. unfold project in H. destruct (is_batch w) eqn:HB; [discriminate|]. destruct (negb _); [discriminate|]. bdesn H E. destruct a as [l r']. cbv zeta in H.
  bdesn H E1. bdesn H E2. bdesn H E3. bdesn H E4. bdesn H E5. exact (tangent_valid _ _ _ _ _ _ _ _ V HB E E5 H).
Qed.

Lemma project_sum_valid (what : rtt) addr (w : rtt) weights r : valid w -> project_sum qr what addr w weights = Ok r -> valid (p_tt r).
Proof.
  intros V H. unfold project_sum in H. bdesn H E0. destruct (is_batch w) eqn:HB; [discriminate|]. destruct (negb _); [discriminate|]. bdesn H E. destruct a0 as [l r']. cbv zeta in H.
  bdesn H E1. bdesn H E2. bdesn H E3. bdesn H E5. exact (tangent_valid _ _ _ _ _ _ _ _ V HB E E5 H).
Qed.

Lemma project_matmul_valid (what : rtt) addr (w m : rtt) r : valid w -> project_matmul qr what addr w m = Ok r -> valid (p_tt r).
Proof.
  intros V H. unfold project_matmul in H. destruct (is_batch w) eqn:HB; [discriminate|]. destruct (negb _); [discriminate|]. bdesn H E. destruct a as [l r']. cbv zeta in H.
  bdesn H E1. bdesn H E2. bdesn H E3. bdesn H E4. bdesn H E5. exact (tangent_valid _ _ _ _ _ _ _ _ V HB E E5 H).
Qed.

Lemma deltas_to_tangent_space_valid deltas addr (t : rtt) left right r : valid t ->
  (forall l, left = Some l -> valid l /\ is_batch l = false) -> (left = None -> right = None \/ is_batch t = false) ->
  deltas_to_tangent_space qr deltas addr t left right = Ok r -> valid (p_tt r).
Proof.
  intros V Vl HB H. unfold deltas_to_tangent_space in H. bdesn H E. rename a into l.
  assert (X : valid l /\ is_batch l = false).
  { destruct left as [l'|]; [injection E as <-; auto|]. pose proof E as F. apply orthogonalize_valid in F as (V' & _ & _ & B'); auto. split; auto. rewrite B'.
    destruct (HB eq_refl) as [-> | HB']; [|exact HB']. bdesn H E0. apply (frame_not_batch t l a V). unfold frame. rewrite E. cbn [bind]. now rewrite E0. }
  destruct X as [V' B']. bdesn H E0. bdesn H E1. bdesn H E2. bdesn H E3. rename a2 into ob. bdesn H E4. rename a2 into cs. bdesn H E5. injection H as <-. cbn [p_tt].
  destruct (mapM0 _ _ _ rc0 E4) as (L & Hn). pose proof (v_d _ _ V) as Hd. specialize (Hn 0 Hd). cbv beta in Hn. clear E4.
  bdesn Hn F1. bdesn Hn F2. bdesn Hn F3. bdesn Hn F4. bdesn Hn F5. bdesn Hn F6. bdesn Hn F7. apply tangent_core_rank in Hn.
  rewrite (extend_core_rank _ _ _ F3) in Hn. apply nthr_inv in F1. assert (C : a3 = core l 0) by (symmetry; now apply nth_error_nth).
  assert (Hl : 0 < ndims l) by now apply v_d.
  rewrite C, (valid_rank _ l 0 V' Hl), B' in Hn. destruct ob as [b|]; cbn [left_dim] in Hn.
  - apply (made_batch _ cs SNone None None (Some b) a2 (length (rshape l)) E5); auto; try discriminate; [now apply v_kind|lia].
  - apply (made _ cs SNone None None a2 (length (rshape l)) E5); auto; try discriminate; [now apply v_kind|lia].
Qed.

Lemma gradients_valid grad func addr (x : rtt) rc r : valid x -> gradients qr grad func addr x rc = Ok r -> valid (p_tt r).
Proof.
  intros V H. unfold gradients in H. bdesn H E. destruct a as [l r']. pose proof (frame_not_batch _ _ _ V E) as HB. destruct (frame_valid _ _ _ V E) as (Vl & _ & _ & Bl). bdesn H E1. destruct a as [v g]. bdesn H E2. bdesn H E3.
  apply deltas_to_tangent_space_valid in H; auto. intros l0 E0. injection E0 as <-. split; congruence.
Qed.
Lemma hessian_vector_product_valid grad func addr (x vec : rtt) rc r : valid x ->
  hessian_vector_product qr grad func addr x vec rc = Ok r -> valid (p_tt r).
Proof.
  intros V H. unfold hessian_vector_product in H. bdesn H E. destruct a as [l r']. pose proof (frame_not_batch _ _ _ V E) as HB. destruct (frame_valid _ _ _ V E) as (Vl & _ & _ & Bl). bdesn H E1. destruct a as [v g]. bdesn H E2.
  apply deltas_to_tangent_space_valid in H; auto. intros l0 E0. injection E0 as <-. split; congruence.
Qed.
End Tangent.

(** Ranks that are given cover all cores. *)
Lemma check_core_ranks {K : cring} off (cs : list (tensor K)) sh rs bs i : check_core off cs sh (Some rs) bs i = Ok true -> S i < length rs.
Proof.
  unfold check_core. cbv zeta. destruct (negb _); [discriminate|]. intros H. bdesn H E. destruct (negb a); [discriminate|]. bdesn H E1. destruct (negb a0); [discriminate|].
  bdesn H E2. destruct (negb a1); [discriminate|]. bdesn H E3. bdesn H E4. destruct (negb _); [discriminate|]. bdesn H E5. bdesn H E6.
  apply nthr_inv in E6. apply nth_error_Some. now rewrite E6.
Qed.
Lemma check_cores_all {K : cring} off (cs : list (tensor K)) sh ranks bs l i : check_cores off cs sh ranks bs l = Ok true -> In i l -> check_core off cs sh ranks bs i = Ok true.
Proof.
  induction l as [|j l IH]; cbn [check_cores]; intros H Hi; [contradiction|]. bdesn H E. destruct a; [|discriminate]. destruct Hi as [->|Hi]; auto.
Qed.
Lemma cores_valid_ranks {K : cring} off (cs : list (tensor K)) sh rs bs : cores_valid off cs sh (Some rs) bs = Ok true -> length cs < length rs.
Proof.
  unfold cores_valid. intros H. bdesn H E. destruct a; [|discriminate]. cbn [negb] in H. bdesn H E1. apply nthr_inv in E1.
  assert (0 < length cs) by (apply nth_error_Some; rewrite E1; discriminate).
  apply (check_cores_all _ _ _ _ _ _ (length cs - 1)) in E; [|apply in_seq; lia]. apply check_core_ranks in E. lia.
Qed.

Lemma slices_kept n i j (a b : pyindex) : is_slice a = true -> is_slice b = true -> kept (upd i a (upd j b (repeat full_slice n))) = n.
Proof.
  intros Ha Hb. assert (A : forall l, Forall (fun x => is_slice x = true) l -> kept l = length l).
  { induction l as [|x l IH]; intros F; [reflexivity|]. inversion F; subst. unfold kept in *. cbn [filter]. rewrite H1. cbn [length]. now rewrite IH. }
  assert (U : forall (l : list pyindex) k x, is_slice x = true -> Forall (fun x => is_slice x = true) l -> Forall (fun x => is_slice x = true) (upd k x l)).
  { intros l k x Hx F. rewrite Forall_forall in *. intros y Hy. destruct (In_nth _ _ full_slice Hy) as (m & Hm & <-). rewrite length_upd in Hm.
    destruct (Nat.eq_dec m k) as [->|]; [now rewrite nth_upd_same|]. rewrite nth_upd_other by auto. apply F. now apply nth_In. }
  rewrite A; [now rewrite !length_upd, repeat_length|]. apply U; auto. apply U; auto. apply Forall_forall. intros x Hx. apply repeat_spec in Hx. now subst.
Qed.

Lemma slice_core_rank (t : rtt) c li ri x : is_slice li = true -> is_slice ri = true -> slice_core t c li ri = Ok x -> rank x = rank c.
Proof. intros Hl Hr H. unfold slice_core in H. apply getitem_rank in H as [H _]. rewrite H. now apply slices_kept. Qed.

Lemma add_n_projected_valid l coef r : Forall (fun p => valid (p_tt p)) l -> add_n_projected l coef = Ok r -> valid (p_tt r).
Proof.
  intros F H. unfold add_n_projected in H. destruct (negb _); [discriminate|]. bdesn H E. rename a into p0. destruct (negb _); [discriminate|]. cbv zeta in H.
  assert (V : valid (p_tt p0)) by (apply nthr_inv, nth_error_In in E; rewrite Forall_forall in F; now apply F).
  bdesn H E1. rename a into c00. bdesn H E2. bdesn H E3. bdesn H E4. rename a1 into lp. bdesn H E5. rename a1 into rp. bdesn H E6. rename a1 into first. bdesn H E7. rename a1 into mid.
  bdesn H E8. bdesn H E9. bdesn H E10. bdesn H E11. bdesn H E12. rename a5 into final. bdesn H E13. injection H as <-. cbn [p_tt].
  set (t0 := p_tt p0) in *. apply mapM_length in E7. rewrite seq_length in E7. apply slice_core_rank in E5; [|reflexivity|reflexivity].
  assert (R : rank first = rank c00) by (rewrite <- E5; apply (concat_rank _ _ _ _ _ E6); cbn; auto).
  apply nthr_inv in E1. assert (C : c00 = core t0 0) by (symmetry; now apply nth_error_nth). pose proof (v_d _ _ V) as Hd. rewrite C, (valid_rank _ t0 0 V Hd) in R.
  assert (LL : length (first :: mid ++ [final]) = 2 + (ndims t0 - 2)) by (cbn [length]; rewrite app_length, E7; cbn; lia).
  pose proof (v_klen _ _ V) as VK.
  assert (Ln : length (first :: mid ++ [final]) = ndims t0).
  { enough (length (first :: mid ++ [final]) < S (ndims t0)) by lia. rewrite <- VK.
    destruct (bsz t0) as [b|]; [unfold TensorTrainBatch in E13|unfold TensorTrain in E13]; bdesn E13 F1; bdesn E13 F2; match type of F2 with _ = Ok ?bb => destruct bb end; try discriminate; now apply cores_valid_ranks in F2. }
  unfold is_batch in R. destruct (bsz t0) as [b|] eqn:EB.
  - apply (made_batch_like _ _ _ t0 _ _ E13); auto; [now apply opt_len_some|discriminate].
  - apply (made_like _ _ _ t0 _ E13); auto. now apply opt_len_some.
Qed.
