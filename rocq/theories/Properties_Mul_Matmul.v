(** C06, C08-C12: elementwise product, matrix products, transposition. *)
From Coq Require Import String List Arith ZArith Lia Bool.
From Verif Require Import Scalar Tensor TensorLemmas Base Spec BaseLemmas Ops ResultLemmas Dense AddFull MulProofs
  MatmulProofs DenseMatmul Samples.
Import ListNotations.

(** C06 *)
Theorem C06_multiply : forall (K : cring) (a b : tt K), wf a -> wf b -> rshape a = rshape b ->
  bsz a = None -> bsz b = None ->
  exists c, tt_multiply a b = Ok c /\ wf c /\ rshape c = rshape a /\ bsz c = None /\
    rks c = map2 Nat.mul (rks a) (rks b) /\ elementwise2 cmul a b c.
Proof.
  intros K a b Ha Hb R Ba Bb. destruct (multiply_full K a b Ha Hb R) as (c & H1 & H2 & H3 & H4 & H5 & H6).
  { apply bc_ok_possible. now rewrite Ba. }
  exists c. unfold mul_bs in H5. rewrite Ba, Bb in H5. auto 8.
Qed.
Print Assumptions C06_multiply.

Example C06_ex : wf s_a /\ wf s_b /\ rshape s_a = rshape s_b /\
  exists c d, tt_multiply s_a s_b = Ok c /\ rks c = [1;2;4;1]%nat /\ full c = Ok d.
Proof.
  split; [exact s_a_wf|]. split; [exact s_b_wf|]. split; [reflexivity|].
  do 2 eexists. split; [vm_compute; reflexivity|]. split; [reflexivity|]. vm_compute; reflexivity.
Qed.

Theorem C06_multiply_rejects_shapes : forall (K : cring) (a b : tt K), rshape a <> rshape b ->
  tt_multiply a b = Err ValueError.
Proof. intros. apply multiply_err. auto. Qed.
Print Assumptions C06_multiply_rejects_shapes.

(** C08: every combination of TensorTrains and batches of compatible sizes. *)
Theorem C08_multiply_batch : forall (K : cring) (a b : tt K), wf a -> wf b -> rshape a = rshape b ->
  bc_ok (bsz a) (bsz b) ->
  exists c, tt_multiply a b = Ok c /\ wf c /\ rshape c = rshape a /\ bsz c = bc_size (bsz a) (bsz b) /\
    rks c = map2 Nat.mul (rks a) (rks b) /\ elementwise2 cmul a b c.
Proof.
  intros K a b Ha Hb R Hc. destruct (multiply_full K a b Ha Hb R) as (c & H1 & H2 & H3 & H4 & H5 & H6).
  { now apply bc_ok_possible. }
  exists c. repeat (split; [assumption|]). split; [|auto]. rewrite H5. unfold mul_bs, bc_size, bc_ok in *.
  pose proof (wf_bpos Ha) as P1. pose proof (wf_bpos Hb) as P2. unfold bpre in P1, P2.
  destruct (bsz a) as [x|], (bsz b) as [y|]; auto.
  apply Forall_cons_iff in P1 as [P1 _]. apply Forall_cons_iff in P2 as [P2 _].
  destruct (Nat.eqb_spec x y); f_equal; [lia|]. destruct (Nat.ltb_spec 1 x); lia.
Qed.
Print Assumptions C08_multiply_batch.

Example C08_ex : wf s_b3 /\ wf s_b1 /\ wf s_t2 /\ rshape s_b3 = rshape s_b1 /\ rshape s_b3 = rshape s_t2 /\
  bc_ok (bsz s_b3) (bsz s_b1) /\ bc_ok (bsz s_t2) (bsz s_b3).
Proof.
  split; [exact s_b3_wf|]. split; [exact s_b1_wf|]. split; [exact s_t2_wf|]. cbn. repeat split; auto.
Qed.

Theorem C08_multiply_rejects_batch_sizes : forall (K : cring) (a b : tt K),
  ~ bc_ok (bsz a) (bsz b) -> tt_multiply a b = Err ValueError.
Proof.
  intros K a b H. apply multiply_err. right. destruct (is_batch_broadcasting_possible a b) eqn:E; auto.
  now apply bc_ok_possible in E.
Qed.
Print Assumptions C08_multiply_rejects_batch_sizes.

(** C09.  Batch size of the result: the combined batch size, except that two operands with
    at most one element each always give a TensorTrain (see below). *)
Theorem C09_matmul : forall (K : cring) (a b : tt K), wf a -> wf b -> is_tt_matrix a = true -> is_tt_matrix b = true ->
  nth 1 (rshape a) [] = nth 0 (rshape b) [] -> bc_ok (bsz a) (bsz b) ->
  exists c, matmul_any (ATT a) (ATT b) = Ok (MTT c) /\ wf c /\
    rshape c = [nth 0 (rshape a) []; nth 1 (rshape b) []] /\ rks c = map2 Nat.mul (rks a) (rks b) /\
    bsz c = (match bc_size (bsz a) (bsz b) with Some 1 => None | B => B end) /\
    matrix_product a b c (prodn (nth 0 (rshape a) [])) (prodn (nth 1 (rshape a) [])) (prodn (nth 1 (rshape b) [])).
Proof.
  intros K a b Ha Hb Ma Mb Hin Hc. destruct (matmul_full K a b Ha Hb Ma Mb Hin) as (c & H1 & H2 & H3 & H4 & H5 & H6).
  { now apply bc_ok_possible. }
  exists c. split; [cbn [matmul_any]; now rewrite H1|]. repeat (split; [assumption|]). split; [|auto]. rewrite H5.
  unfold mm_bs, sqb, bc_size, bc_ok in *.
  pose proof (wf_bpos Ha) as P1. pose proof (wf_bpos Hb) as P2. unfold bpre in P1, P2.
  destruct (bsz a) as [x|], (bsz b) as [y|]; auto.
  - apply Forall_cons_iff in P1 as [P1 _]. apply Forall_cons_iff in P2 as [P2 _].
    destruct x as [|[|x]], y as [|[|y]]; try lia; cbn [Nat.max]; try reflexivity. f_equal. lia.
  - destruct x as [|[|x]]; reflexivity.
  - destruct y as [|[|y]]; reflexivity.
Qed.
Print Assumptions C09_matmul.

Example C09_ex : wf s_m /\ wf s_n /\ is_tt_matrix s_m = true /\ is_tt_matrix s_n = true /\
  nth 1 (rshape s_m) [] = nth 0 (rshape s_n) [] /\ exists c d, tt_tt_matmul s_m s_n = Ok c /\ full c = Ok d.
Proof.
  split; [exact s_m_wf|]. split; [exact s_n_wf|]. repeat (split; [reflexivity|]).
  do 2 eexists. split; vm_compute; reflexivity.
Qed.

Theorem C09_matmul_rejects : forall (K : cring) (a b : tt K), wf a -> wf b ->
  (is_tt_matrix a = false \/ is_tt_matrix b = false \/ ndims a <> ndims b \/ ~ bc_ok (bsz a) (bsz b) ->
   matmul_any (ATT a) (ATT b) = Err ValueError) /\
  (is_tt_matrix a = true -> is_tt_matrix b = true -> nth 1 (rshape a) [] <> nth 0 (rshape b) [] ->
   exists er, matmul_any (ATT a) (ATT b) = Err er).
Proof.
  intros K a b Ha Hb. cbn [matmul_any]. split.
  - intros H. enough (E : tt_tt_matmul a b = Err ValueError) by now rewrite E.
    destruct H as [H|[H|[H|H]]]; [apply matmul_kind_err; auto|apply matmul_kind_err; auto|apply matmul_batch_err; auto|].
    apply matmul_batch_err. left. destruct (is_batch_broadcasting_possible a b) eqn:E; auto.
    now apply bc_ok_possible in E.
  - intros Ma Mb H. destruct (matmul_inner_err K a b Ha Hb Ma Mb H) as [er E]. exists er. now rewrite E.
Qed.
Print Assumptions C09_matmul_rejects.

(** The documentation promises a TensorTrainBatch as soon as an argument is one; for
    batches of one element the result is a TensorTrain. *)
Definition s_n1 : tt Zring := match expand_batch_dim s_n with Ok t => t | Err _ => s_n end.
Theorem C09_matmul_batch1_refuted : exists (a b c : tt Zring), wf a /\ wf b /\ bsz b = Some 1%nat /\
  matmul_any (ATT a) (ATT b) = Ok (MTT c) /\ bsz c = None.
Proof.
  exists s_m, s_n1. eexists. split; [exact s_m_wf|]. split; [apply wfb_wf; vm_compute; reflexivity|].
  split; [reflexivity|]. split; [vm_compute; reflexivity|]. reflexivity.
Qed.
Print Assumptions C09_matmul_batch1_refuted.

(** C10 *)
Theorem C10_tt_dense_matmul : forall (K : cring) (a : tt K) (b : tensor K) P,
  wf a -> is_tt_matrix a = true -> bsz a = None -> wft b ->
  shape b = [prodn (nth 1 (rshape a) []); P] ->
  exists da r, full a = Ok da /\ matmul_any (ATT a) (ADense b) = Ok (MDense r) /\ wft r /\ dense_product da b r.
Proof.
  intros K a b P Ha Ma Ba Wb Sb. destruct (tt_dense_full K a b P Ha Ma Ba Wb Sb) as (da & r & H1 & H2 & H3 & H4).
  exists da, r. split; [auto|]. split; [|auto]. cbn [matmul_any]. unfold is_batch. now rewrite Ba, H2.
Qed.
Print Assumptions C10_tt_dense_matmul.

(** A dense matrix of the wrong height is rejected, with a TypeError: formatting the
    message of the intended ValueError fails. *)
Theorem C10_tt_dense_rejects : forall (K : cring) (a : tt K) (b : tensor K) n l,
  (bsz a = None -> is_tt_matrix a = true -> shape b = n :: l -> n <> prodn (nth 1 (rshape a) []) ->
     matmul_any (ATT a) (ADense b) = Err TypeError) /\
  (is_batch a = true \/ is_tt_matrix a = false -> matmul_any (ATT a) (ADense b) = Err ValueError).
Proof.
  intros K a b n l. cbn [matmul_any]. split.
  - intros Ba Ma Sb Hn. unfold is_batch. rewrite Ba, (tt_dense_mis K a b n l); auto.
  - intros H. destruct (is_batch a) eqn:E; auto. rewrite tt_dense_kind_err; auto. destruct H; auto. congruence.
Qed.
Print Assumptions C10_tt_dense_rejects.

Example C10_ex : wf s_m /\ is_tt_matrix s_m = true /\ bsz s_m = None /\
  exists r, tt_dense_matmul s_m (zt [4;2]%nat [1;2;3;4;5;6;-7;8]%Z) = Ok r /\ shape r = [6;2]%nat.
Proof. split; [exact s_m_wf|]. repeat (split; [reflexivity|]). eexists. split; vm_compute; reflexivity. Qed.

(** C11 *)
Theorem C11_dense_tt_matmul : forall (K : cring) (a : tensor K) (b : tt K) M,
  wf b -> is_tt_matrix b = true -> bsz b = None -> wft a ->
  shape a = [M; prodn (nth 0 (rshape b) [])] ->
  exists db r, full b = Ok db /\ matmul_any (ADense a) (ATT b) = Ok (MDense r) /\ wft r /\ dense_product a db r.
Proof.
  intros K a b M Hb Mb Bb Wa Sa. destruct (dense_tt_full K a b M Hb Mb Bb Wa Sa) as (da & r & H1 & H2 & H3 & H4).
  exists da, r. split; [auto|]. split; [|auto]. cbn [matmul_any]. unfold is_batch. now rewrite Bb, H2.
Qed.
Print Assumptions C11_dense_tt_matmul.

Theorem C11_dense_tt_rejects : forall (K : cring) (a : tensor K) (b : tt K) M n,
  wf b -> is_tt_matrix b = true -> bsz b = None -> wft a ->
  shape a = [M; n] -> n <> prodn (nth 0 (rshape b) []) -> matmul_any (ADense a) (ATT b) = Err TypeError.
Proof.
  intros K a b M n Hb Mb Bb Wa Sa Hn. cbn [matmul_any]. unfold is_batch. rewrite Bb.
  now rewrite (dense_tt_mis K a b M n).
Qed.
Print Assumptions C11_dense_tt_rejects.

Example C11_ex : wf s_m /\ is_tt_matrix s_m = true /\ bsz s_m = None /\
  exists r, dense_tt_matmul (zt [1;6]%nat [1;2;3;4;5;6]%Z) s_m = Ok r /\ shape r = [1;4]%nat.
Proof. split; [exact s_m_wf|]. repeat (split; [reflexivity|]). eexists. split; vm_compute; reflexivity. Qed.

(** C12 *)
Theorem C12_transpose : forall (K : cring) (a : tt K), wf a -> is_tt_matrix a = true ->
  exists c da dc, tt_transpose a = Ok c /\ wf c /\ rshape c = [nth 1 (rshape a) []; nth 0 (rshape a) []] /\ bsz c = bsz a /\ rks c = rks a /\
    full a = Ok da /\ full c = Ok dc /\
    shape da = bpre a ++ [prodn (nth 0 (rshape a) []); prodn (nth 1 (rshape a) [])] /\
    shape dc = bpre a ++ [prodn (nth 1 (rshape a) []); prodn (nth 0 (rshape a) [])] /\
    forall pre i j, vidx (bpre a) pre -> i < prodn (nth 0 (rshape a) []) -> j < prodn (nth 1 (rshape a) []) ->
      get dc (pre ++ [j; i]) = get da (pre ++ [i; j]).
Proof. exact transpose_full. Qed.
Print Assumptions C12_transpose.

Theorem C12_transpose_twice : forall (K : cring) (a c : tt K), wf a -> is_tt_matrix a = true ->
  tt_transpose a = Ok c -> tt_transpose c = Ok a.
Proof. exact transpose_involutive. Qed.
Print Assumptions C12_transpose_twice.

Theorem C12_transpose_rejects_tensor : forall (K : cring) (a : tt K), is_tt_matrix a = false ->
  tt_transpose a = Err ValueError.
Proof. exact transpose_kind_err. Qed.
Print Assumptions C12_transpose_rejects_tensor.

Example C12_ex : wf s_m /\ is_tt_matrix s_m = true /\
  exists c d, tt_transpose s_m = Ok c /\ full c = Ok d /\ shape d = [4;6]%nat.
Proof. split; [exact s_m_wf|]. split; [reflexivity|]. do 2 eexists. repeat split; vm_compute; reflexivity. Qed.
