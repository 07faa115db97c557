(** C01-C04: [full] and [add].  Statements; the proofs are in the files imported below. *)
From Coq Require Import String List Arith ZArith Lia Bool.
From Verif Require Import Scalar Tensor TensorLemmas Base Spec Ops FullThms ResultLemmas Dense AddFull Samples.
Import ListNotations.

(** C01.  [path_prod G 0 0 J r] is G_1[1,J_1,r_1] * G_2[r_1,J_2,r_2] * ..., and the sum runs
    over all rank indices r_1 .. r_d (r_d has one value). *)
Theorem C01_full_is_tt_format : forall (K : cring) (t : tt K), wf t -> bsz t = None ->
  exists d, full t = Ok d /\ wft d /\ shape d = get_shape t /\
    forall idx, vidx (shape d) idx ->
      get d idx = isum (tl (rks t)) (path_prod (coreG t []) 0 0 (split_idx t idx)).
Proof. exact full_sum. Qed.
Print Assumptions C01_full_is_tt_format.

Example C01_ex : exists d, full s_m = Ok d /\ shape d = [6; 4]%nat /\ get d [4; 3]%nat =
  isum [2;1]%nat (path_prod (coreG s_m []) 0 0 [[1;1];[1;1]]%nat).
Proof. eexists. split; [vm_compute; reflexivity|]. split; vm_compute; reflexivity. Qed.

(** C02.  [batch_dim_getitem t (IInt o)] is the model of [t[o]]. *)
Theorem C02_full_batch : forall (K : cring) (t : tt K) B, wf t -> bsz t = Some B ->
  exists d, full t = Ok d /\ wft d /\ shape d = get_shape t /\
  forall o, o < B -> exists e de, batch_dim_getitem t (IInt (Z.of_nat o)) = Ok e /\ wf e /\ bsz e = None /\
    full e = Ok de /\ shape d = B :: shape de /\
    forall idx, vidx (shape de) idx -> get d (o :: idx) = get de idx.
Proof. exact full_batch. Qed.
Print Assumptions C02_full_batch.

Example C02_ex : wf s_b3 /\ bsz s_b3 = Some 3%nat. Proof. split; [exact s_b3_wf|reflexivity]. Qed.

(** C03 *)
Theorem C03_add : forall (K : cring) (a b : tt K), wf a -> wf b -> rshape a = rshape b -> 2 <= ndims a ->
  bsz a = None -> bsz b = None ->
  exists c, add a b = Ok c /\ wf c /\ rshape c = rshape a /\ bsz c = None /\
    rks c = (1 :: map (fun i => rk a i + rk b i) (seq 1 (ndims a - 1)) ++ [1])%nat /\
    elementwise2 cadd a b c.
Proof. exact add_full. Qed.
Print Assumptions C03_add.

Theorem C03_add_rejects_shapes : forall (K : cring) (a b : tt K), rshape a <> rshape b -> add a b = Err ValueError.
Proof. exact add_shape_err. Qed.
Print Assumptions C03_add_rejects_shapes.

Theorem C03_add_rejects_batch_sizes : forall (K : cring) (a b : tt K) x y,
  bsz a = Some x -> bsz b = Some y -> x <> y -> x <> 1 -> y <> 1 -> add a b = Err ValueError.
Proof.
  intros K a b x y Ha Hb H1 H2 H3. apply add_batch_err. unfold is_batch_broadcasting_possible. rewrite Ha, Hb.
  apply Nat.eqb_neq in H1, H2, H3. now rewrite H1, H2, H3.
Qed.
Print Assumptions C03_add_rejects_batch_sizes.

Example C03_ex : wf s_a /\ wf s_b /\ rshape s_a = rshape s_b /\ 2 <= ndims s_a /\
  exists c d, add s_a s_b = Ok c /\ rks c = [1;3;4;1]%nat /\ full c = Ok d.
Proof.
  split; [exact s_a_wf|]. split; [exact s_b_wf|]. split; [reflexivity|]. split; [cbn; lia|].
  eexists. eexists. split; [vm_compute; reflexivity|]. split; [reflexivity|]. vm_compute; reflexivity.
Qed.

(** The hypothesis [2 <= ndims a] is needed: [add] of two one-core objects always raises. *)
Theorem C03_add_one_core_raises : forall (K : cring) (a b : tt K), wf a -> wf b -> ndims a = 1 -> rshape a = rshape b ->
  bsz a = None -> bsz b = None -> add a b = Err ValueError.
Proof. exact add_one_core_err. Qed.
Print Assumptions C03_add_one_core_raises.

Theorem C03_add_one_core_refuted : exists a b : tt Zring, wf a /\ wf b /\ rshape a = rshape b /\
  bsz a = None /\ bsz b = None /\ add a b = Err ValueError.
Proof.
  exists s_one, s_one. split; [exact s_one_wf|]. split; [exact s_one_wf|]. repeat split; vm_compute; reflexivity.
Qed.
Print Assumptions C03_add_one_core_refuted.

(** C04, the argument combinations that work: two batches of equal size, one of them of
    size 1, or a batch of more than one element plus a TensorTrain. *)
Theorem C04_add_batches : forall (K : cring) (a b : tt K) x y, wf a -> wf b -> rshape a = rshape b -> 2 <= ndims a ->
  bsz a = Some x -> bsz b = Some y -> (x = y \/ x = 1 \/ y = 1) ->
  exists c, add a b = Ok c /\ wf c /\ rshape c = rshape a /\ bsz c = Some (Nat.max x y) /\
    rks c = (1 :: map (fun i => rk a i + rk b i) (seq 1 (ndims a - 1)) ++ [1])%nat /\
    elementwise2 cadd a b c.
Proof. 
  intros K a b x y Wa Wb R D Ha Hb H. apply add_batch_full; auto.
  - unfold is_batch_broadcasting_possible. rewrite Ha, Hb.
    destruct H as [->|[-> | ->]]; rewrite ?Nat.eqb_refl, ?orb_true_r; auto.
  - pose proof (wf_bpos Wa) as P1. pose proof (wf_bpos Wb) as P2. unfold bpre in P1, P2.
    rewrite Ha in P1. rewrite Hb in P2. inversion P1; inversion P2; subst.
    unfold add_batch_size, lazy_batch_size. rewrite Ha, Hb.
    destruct x as [|[|x]]; try lia; f_equal; lia.
  - unfold is_batch. now rewrite Ha.
Qed.
Print Assumptions C04_add_batches.

Theorem C04_add_batch_tt : forall (K : cring) (a b : tt K) x, wf a -> wf b -> rshape a = rshape b -> 2 <= ndims a ->
  bsz a = Some x -> x <> 1 -> bsz b = None ->
  exists c, add a b = Ok c /\ wf c /\ rshape c = rshape a /\ bsz c = Some x /\
    rks c = (1 :: map (fun i => rk a i + rk b i) (seq 1 (ndims a - 1)) ++ [1])%nat /\
    elementwise2 cadd a b c.
Proof.
  intros K a b x Wa Wb R D Ha Hx Hb. apply add_batch_full; auto.
  - unfold is_batch_broadcasting_possible. now rewrite Ha, Hb.
  - unfold add_batch_size, lazy_batch_size. rewrite Ha. destruct x as [|[|x]]; auto. congruence.
  - unfold is_batch. now rewrite Ha.
Qed.
Print Assumptions C04_add_batch_tt.

Example C04_ex : wf s_b3 /\ wf s_b1 /\ wf s_t2 /\ rshape s_b3 = rshape s_b1 /\ rshape s_b3 = rshape s_t2 /\ 2 <= ndims s_b3 /\
  exists c c', add s_b1 s_b3 = Ok c /\ bsz c = Some 3%nat /\ add s_b3 s_t2 = Ok c' /\ bsz c' = Some 3%nat.
Proof.
  split; [exact s_b3_wf|]. split; [exact s_b1_wf|]. split; [exact s_t2_wf|]. split; [reflexivity|].
  split; [reflexivity|]. split; [cbn; lia|].
  do 2 eexists. split; [vm_compute; reflexivity|]. split; [reflexivity|]. split; [vm_compute; reflexivity|]. reflexivity.
Qed.

(** The remaining orders raise although broadcasting "is possible". *)
Theorem C04_add_tt_batch_raises : forall (K : cring) (a b : tt K) x,
  bsz a = None -> bsz b = Some x -> add a b = Err ValueError.
Proof. intros. eapply add_asks_tt_err. left. eauto. Qed.
Print Assumptions C04_add_tt_batch_raises.

Theorem C04_add_batch1_tt_raises : forall (K : cring) (a b : tt K),
  bsz a = Some 1 -> bsz b = None -> add a b = Err ValueError.
Proof. intros. eapply (add_asks_tt_err _ _ _ 0). right. eauto. Qed.
Print Assumptions C04_add_batch1_tt_raises.

Theorem C04_add_tt_batch_refuted : exists (a b : tt Zring) x, wf a /\ wf b /\ rshape a = rshape b /\ 2 <= ndims a /\
  bsz a = None /\ bsz b = Some x /\ is_batch_broadcasting_possible a b = true /\ add a b = Err ValueError.
Proof.
  exists s_t2, s_b3, 3%nat. split; [exact s_t2_wf|]. split; [exact s_b3_wf|].
  repeat split; vm_compute; reflexivity || (repeat constructor).
Qed.
Print Assumptions C04_add_tt_batch_refuted.
