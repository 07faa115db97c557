(** C05, C07, C25, C42: subtraction, negation, multiplication by numbers and weights,
    renormalization.  Floating point numbers are modelled as real numbers. *)
From Coq Require Import String List Arith ZArith Lia Lra Bool Ring Reals.
From Verif Require Import Scalar Tensor TensorLemmas TensorLemmas2 Base Spec BaseLemmas Ops ResultLemmas Dense
  AddProofs AddFull OpsR BatchOps ScaleProofs Samples.
Import ListNotations.
Local Open Scope R_scope.

(** C07.  Every real number, every TensorTrain and batch. *)
Theorem C07_multiply_number : forall (t : rtt) (c : R), wf t ->
  exists r, multiply t (FNum c) = Ok r /\ wf r /\ rshape r = rshape t /\ rks r = rks t /\ bsz r = bsz t /\
    elementwise1 (K := Rring) (L := Rring) (fun x => c * x) t r.
Proof. exact multiply_num_full. Qed.
Print Assumptions C07_multiply_number.

Example C07_ex : wf (toR s_a) /\ ndims (toR s_a) = 3%nat /\ wf (toR s_b3) /\ wf (toR s_m).
Proof. samples. Qed.

(** C05. *)
Theorem C05_neg : forall t : rtt, wf t ->
  exists r, tt_neg t = Ok r /\ wf r /\ rshape r = rshape t /\ rks r = rks t /\ bsz r = bsz t /\
    elementwise1 (K := Rring) (L := Rring) Ropp t r.
Proof. exact tt_neg_full. Qed.
Print Assumptions C05_neg.

Theorem C05_sub : forall a b : rtt, wf a -> wf b -> rshape a = rshape b -> (2 <= ndims a)%nat ->
  bsz a = None -> bsz b = None ->
  exists c, tt_sub a b = Ok c /\ wf c /\ rshape c = rshape a /\ bsz c = None /\
    rks c = (1 :: map (fun i => rk a i + rk b i) (seq 1 (ndims a - 1)) ++ [1])%nat /\ elementwise2 (K := Rring) Rminus a b c.
Proof. exact tt_sub_full. Qed.
Print Assumptions C05_sub.

Theorem C05_sub_batches : forall (a b : rtt) x y, wf a -> wf b -> rshape a = rshape b -> (2 <= ndims a)%nat ->
  bsz a = Some x -> bsz b = Some y -> (x = y \/ x = 1 \/ y = 1)%nat ->
  exists c, tt_sub a b = Ok c /\ wf c /\ rshape c = rshape a /\ bsz c = Some (Nat.max x y) /\
    rks c = (1 :: map (fun i => rk a i + rk b i) (seq 1 (ndims a - 1)) ++ [1])%nat /\ elementwise2 (K := Rring) Rminus a b c.
Proof.
  intros a b x y Wa Wb R D Ha Hb H. apply tt_sub_batch_full; auto.
  - unfold bc_ok. now rewrite Ha, Hb.
  - pose proof (wf_bpos Wa) as P1. pose proof (wf_bpos Wb) as P2. unfold bpre in P1, P2.
    rewrite Ha in P1. rewrite Hb in P2. inversion P1; inversion P2; subst.
    unfold add_batch_size, lazy_batch_size. rewrite Ha, Hb.
    destruct x as [|[|x]]; try lia; f_equal; lia.
  - unfold is_batch. now rewrite Ha.
Qed.
Print Assumptions C05_sub_batches.

Theorem C05_sub_batch_tt : forall (a b : rtt) x, wf a -> wf b -> rshape a = rshape b -> (2 <= ndims a)%nat ->
  bsz a = Some x -> x <> 1%nat -> bsz b = None ->
  exists c, tt_sub a b = Ok c /\ wf c /\ rshape c = rshape a /\ bsz c = Some x /\
    rks c = (1 :: map (fun i => rk a i + rk b i) (seq 1 (ndims a - 1)) ++ [1])%nat /\ elementwise2 (K := Rring) Rminus a b c.
Proof.
  intros a b x Wa Wb R D Ha Hx Hb. apply tt_sub_batch_full; auto.
  - unfold bc_ok. now rewrite Ha, Hb.
  - unfold add_batch_size, lazy_batch_size. rewrite Ha. destruct x as [|[|x]]; auto. congruence.
  - unfold is_batch. now rewrite Ha.
Qed.
Print Assumptions C05_sub_batch_tt.

Example C05_ex : wf (toR s_a) /\ wf (toR s_b) /\ rshape (toR s_a) = rshape (toR s_b) /\ (2 <= ndims (toR s_a))%nat /\
  wf (toR s_b3) /\ wf (toR s_b1) /\ wf (toR s_t2) /\ rshape (toR s_b3) = rshape (toR s_b1) /\
  rshape (toR s_b3) = rshape (toR s_t2) /\ bsz (toR s_b3) = Some 3%nat /\ bsz (toR s_b1) = Some 1%nat.
Proof. samples. Qed.

(** What does not work, inherited from [add]: one core, a TensorTrain minus a batch, and a
    batch of one element minus a TensorTrain. *)
Theorem C05_sub_raises : forall a b : rtt, wf a -> wf b -> rshape a = rshape b ->
  (bsz a = None /\ bsz b = None /\ ndims a = 1%nat) \/
  (bsz a = None /\ is_batch b = true) \/ (bsz a = Some 1%nat /\ bsz b = None) ->
  tt_sub a b = Err ValueError.
Proof.
  intros a b Wa Wb R H. unfold tt_sub, multiply.
  destruct (multiply_num_full b (-1) Wb) as (nb & -> & Wn & Rn & Kn & Bn & _). cbn [bind].
  destruct H as [(A & B & D)|[(A & B)|(A & B)]].
  - apply add_one_core_err; auto; congruence.
  - unfold is_batch in B. rewrite <- Bn in B. destruct (bsz nb) as [x|] eqn:E; [|discriminate].
    apply (add_asks_tt_err _ _ _ x). left. auto.
  - apply (add_asks_tt_err _ _ _ 0). right. split; auto. congruence.
Qed.
Print Assumptions C05_sub_raises.

Theorem C05_sub_refuted : exists a b : rtt, wf a /\ wf b /\ rshape a = rshape b /\ tt_sub a b = Err ValueError.
Proof.
  exists (toR s_one), (toR s_one). split; [exact r_one_wf|]. split; [exact r_one_wf|]. split; [reflexivity|].
  apply C05_sub_raises; try exact r_one_wf; auto. 
Qed.
Print Assumptions C05_sub_refuted.

(** C25. *)
Theorem C25_multiply_along_batch_dim : forall (K : cring) (t : tt K) b w, wf t -> bsz t = Some b -> wft w -> shape w = [b] ->
  exists c, multiply_along_batch_dim t w = Ok c /\ wf c /\ rshape c = rshape t /\ rks c = rks t /\ bsz c = bsz t /\
    exists d dc, full t = Ok d /\ full c = Ok dc /\ shape dc = shape d /\
      forall o i, vidx (shape d) (o :: i) -> get dc (o :: i) = (get w [o] * get d (o :: i))%K.
Proof. exact multiply_along_full. Qed.
Print Assumptions C25_multiply_along_batch_dim.

Example C25_ex : wf s_b3 /\ bsz s_b3 = Some 3%nat /\ wft (zt [3]%nat [2;0;-5]%Z) /\ shape (zt [3]%nat [2;0;-5]%Z) = [3]%nat /\
  exists c d, multiply_along_batch_dim s_b3 (zt [3]%nat [2;0;-5]%Z) = Ok c /\ full c = Ok d /\
    data d = [10;14;22;30; 0;0;0;0; 10;5;-80;-10]%Z.
Proof. split; [exact s_b3_wf|]. split; [reflexivity|]. split; [reflexivity|]. split; [reflexivity|].
  do 2 eexists. split; [vm_compute; reflexivity|]. split; vm_compute; reflexivity. Qed.

Theorem C25_wrong_length_raises : forall (K : cring) (t : tt K) b m w, wf t -> bsz t = Some b ->
  shape w = [m] -> m <> b -> m <> 1%nat -> b <> 1%nat -> multiply_along_batch_dim t w = Err TFError.
Proof. exact multiply_along_err. Qed.
Print Assumptions C25_wrong_length_raises.

(** C42.  [core_sumsq t pre k] is the sum of the squares of the elements of core k (of batch
    element [pre]).  A positive epsilon always works; a non-positive one if no core is zero. *)
Theorem C42_renormalize : forall (t : rtt) eps, wf t -> 0 < eps ->
  exists r, renormalize_tt_cores t eps = Ok r /\ wf r /\ rshape r = rshape t /\ rks r = rks t /\ bsz r = bsz t /\
    elementwise1 (K := Rring) (L := Rring) (fun x => x) t r /\
    ((forall pre k, vidx (bpre t) pre -> (k < ndims t)%nat -> eps <= core_sumsq t pre k) ->
     forall pre k k', vidx (bpre t) pre -> (k < ndims t)%nat -> (k' < ndims t)%nat ->
       core_sumsq r pre k = core_sumsq r pre k').
Proof.
  intros t eps Wt He. apply renormalize_full; auto. intros pre k _ _. eapply Rlt_le_trans; [exact He|apply Rmax_r].
Qed.
Print Assumptions C42_renormalize.

Theorem C42_renormalize_nonzero : forall (t : rtt) eps, wf t ->
  (forall pre k, vidx (bpre t) pre -> (k < ndims t)%nat -> 0 < core_sumsq t pre k) ->
  exists r, renormalize_tt_cores t eps = Ok r /\ wf r /\ rshape r = rshape t /\ rks r = rks t /\ bsz r = bsz t /\
    elementwise1 (K := Rring) (L := Rring) (fun x => x) t r /\
    ((forall pre k, vidx (bpre t) pre -> (k < ndims t)%nat -> eps <= core_sumsq t pre k) ->
     forall pre k k', vidx (bpre t) pre -> (k < ndims t)%nat -> (k' < ndims t)%nat ->
       core_sumsq r pre k = core_sumsq r pre k').
Proof.
  intros t eps Wt He. apply renormalize_full; auto. intros pre k Hp Hk. eapply Rlt_le_trans; [exact (He pre k Hp Hk)|apply Rmax_l].
Qed.
Print Assumptions C42_renormalize_nonzero.

Example C42_ex : wf (toR s_t2) /\ wf (toR s_b3) /\ 0 < 1 /\
  forall pre k, vidx (bpre (toR s_t2)) pre -> (k < ndims (toR s_t2))%nat -> 1 <= core_sumsq (toR s_t2) pre k.
Proof.
  split; [exact r_t2_wf|]. split; [exact r_b3_wf|]. split; [lra|].
  intros pre k Hp Hk. inversion Hp; subst. cbn in Hk.
  destruct k as [|[|k]]; [| |lia]; cbv -[Rplus Rmult IZR Rle]; cbn; lra.
Qed.
