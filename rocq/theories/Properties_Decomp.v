(** C16, C27, C28: norms and orthogonalization.  [qr] is any routine satisfying the contract
    [qr_ok] (DecompSpec.v); such routines exist ([C27_qr_exists]). *)
From Coq Require Import String List Arith ZArith Lia Lra Bool Reals.
From Verif Require Import Scalar Tensor TensorLemmas Base Spec BaseLemmas Ops ResultLemmas Dense FlatProofs NormProofs OpsR
  Decomp DecompSpec OrthProofs OrthNorm QRExists Samples.
Import ListNotations.
Local Open Scope nat_scope.

Theorem C27_qr_exists : exists qr, qr_ok qr.
Proof. exists gram_schmidt. exact gram_schmidt_ok. Qed.
Print Assumptions C27_qr_exists.

(** C27.  Orthogonalization keeps the tensor: left to right for tensors, matrices and batches,
    right to left for tensors and matrices. *)
Theorem C27_orthogonalize_keeps_tensor : forall qr (t : rtt) left_to_right, qr_ok qr -> wf t ->
  (left_to_right = false -> bsz t = None) ->
  exists o, orthogonalize_tt_cores qr t left_to_right = Ok o /\ wf o /\ rshape o = rshape t /\ bsz o = bsz t /\
    same_full t o.
Proof.
  intros qr t lr Hq Hw Hb. destruct (orth_ok qr t lr Hq Hw Hb) as (o & Eo & Wo & Ro & Bo & Do & Ent & _).
  exists o. repeat (split; [assumption|]).
  destruct (elementwise1_intro Rring Rring (fun x => x) t o Hw Wo Ro Bo Ent) as (da & dc & F1 & F2 & S1 & G).
  exists da, dc. repeat (split; [assumption|]). intros i Hi. rewrite S1 in Hi. now rewrite G.
Qed.
Print Assumptions C27_orthogonalize_keeps_tensor.

(** "in either direction, for tensors, matrices, batches" is false: right to left a batch is
    refused. *)
Theorem C27_batch_right_to_left_raises : forall qr (t : rtt) b, bsz t = Some b ->
  orthogonalize_tt_cores qr t false = Err NotImplementedError.
Proof. intros qr t b H. unfold orthogonalize_tt_cores. now rewrite H. Qed.
Print Assumptions C27_batch_right_to_left_raises.

Theorem C27_right_to_left_refuted : exists (t : rtt), wf t /\ forall qr, orthogonalize_tt_cores qr t false = Err NotImplementedError.
Proof. exists (toR s_b3). split; [exact r_b3_wf|]. reflexivity. Qed.
Print Assumptions C27_right_to_left_refuted.

(** C28.  Orthonormal unfoldings, and the resulting ranks. *)
Theorem C28_left_orthogonal : forall qr (t : rtt), qr_ok qr -> wf t ->
  exists o, orthogonalize_tt_cores qr t true = Ok o /\
    (forall pre k, vidx (bpre t) pre -> k < ndims t - 1 -> left_orthonormal o pre k) /\
    (forall k, k < ndims t - 1 -> rk o (S k) = Nat.min (rk o k * prodn (modes t k)) (rk t (S k))) /\
    (forall k, rk o k <= rk t k).
Proof.
  intros qr t Hq Hw. destruct (orth_ok qr t true Hq Hw ltac:(discriminate)) as (o & Eo & Wo & Ro & Bo & Do & _ & H & _).
  destruct (H eq_refl) as [H1 H2]. exists o. split; auto. split; auto. split; auto.
  intros [|k].
  - now rewrite (wf_first Hw), (wf_first Wo).
  - pose proof (wf_d Hw). destruct (Nat.lt_ge_cases k (ndims t - 1)); [rewrite H1 by auto; lia|].
    destruct (Nat.eq_dec (S k) (ndims t)) as [E|].
    + rewrite E at 1 2. rewrite (wf_last Hw), <- Do, (wf_last Wo). auto.
    + unfold rk. rewrite !nth_overflow; auto; rewrite wf_klen; auto; lia.
Qed.
Print Assumptions C28_left_orthogonal.

Theorem C28_right_orthogonal : forall qr (t : rtt), qr_ok qr -> wf t -> bsz t = None ->
  exists o, orthogonalize_tt_cores qr t false = Ok o /\
    (forall k, 0 < k < ndims t -> right_orthonormal o [] k) /\
    (forall k, 0 < k < ndims t -> rk o k = Nat.min (rk t k) (prodn (modes t k) * rk o (S k))) /\
    (forall k, rk o k <= rk t k).
Proof.
  intros qr t Hq Hw Hb. destruct (orth_ok qr t false Hq Hw ltac:(auto)) as (o & Eo & Wo & Ro & Bo & Do & _ & _ & H).
  destruct (H eq_refl) as [H1 H2]. exists o. split; auto. split; auto. split; auto.
  intros k. destruct (Nat.eq_dec k 0) as [->|]; [now rewrite (wf_first Hw), (wf_first Wo)|].
  destruct (Nat.lt_ge_cases k (ndims t)); [rewrite H1 by lia; lia|].
  destruct (Nat.eq_dec k (ndims t)) as [E|].
  - rewrite E at 1 2. rewrite (wf_last Hw), <- Do, (wf_last Wo). auto.
  - unfold rk. rewrite !nth_overflow; auto; rewrite wf_klen; auto; lia.
Qed.
Print Assumptions C28_right_orthogonal.

(** C16.  [sum_squares t d o]: the sum of the squares of the elements of [d] (of element [o] of
    the batch); [bo (bsz t) o] is [] for a TensorTrain and [[o]] for a batch. *)
Theorem C16_frobenius_norm_squared : forall qr (t : rtt) differentiable, qr_ok qr -> wf t ->
  exists r d, frobenius_norm_squared qr t differentiable = Ok r /\ wft r /\ shape r = bpre t /\ full t = Ok d /\
    forall o, inrange (bsz t) o -> get r (bo (bsz t) o) = sum_squares t d o.
Proof.
  intros qr t [|] Hq Hw; unfold frobenius_norm_squared; [now apply frobenius_diff_full|now apply frobenius_qr_full].
Qed.
Print Assumptions C16_frobenius_norm_squared.

Theorem C16_frobenius_norm : forall qr (t : rtt) eps differentiable, qr_ok qr -> wf t ->
  exists r d, frobenius_norm qr t eps differentiable = Ok r /\ wft r /\ shape r = bpre t /\ full t = Ok d /\
    forall o, inrange (bsz t) o -> get r (bo (bsz t) o) = sqrt (sum_squares t d o + eps)%R.
Proof.
  intros qr t eps df Hq Hw. destruct (C16_frobenius_norm_squared qr t df Hq Hw) as (r & d & E & W & Sr & F & G).
  unfold frobenius_norm. rewrite E. cbn [bind]. eexists _, d. split; [reflexivity|]. split; [now apply wft_tmap|].
  split; [exact Sr|]. split; [exact F|]. intros o Ho. rewrite get_tmap; auto; [now rewrite G|].
  rewrite Sr. unfold bpre, bo, inrange in *. destruct (bsz t); [vsolve|apply vidx_nil].
Qed.
Print Assumptions C16_frobenius_norm.

(** Any commutative ring for the differentiable branch (no square roots are taken). *)
Theorem C16_differentiable_exact : forall (K : cring) (t : tt K), wf t ->
  exists r d, frobenius_norm_squared_diff t = Ok r /\ wft r /\ shape r = bpre t /\ full t = Ok d /\
    forall o, inrange (bsz t) o -> get r (bo (bsz t) o) = sum_squares t d o.
Proof. exact frobenius_diff_full. Qed.
Print Assumptions C16_differentiable_exact.

Example C16_C27_C28_ex : qr_ok gram_schmidt /\ wf (toR s_a) /\ ndims (toR s_a) = 3 /\ wf (toR s_b3) /\ wf (toR s_m) /\
  bsz (toR s_m) = None /\
  (exists r d, frobenius_norm_squared_diff s_a = Ok r /\ full s_a = Ok d /\ data r = [13230%Z] /\
    get r [] = sum_squares s_a d 0).
Proof.
  split; [exact gram_schmidt_ok|]. split; [exact r_a_wf|]. split; [reflexivity|]. split; [exact r_b3_wf|].
  split; [exact r_m_wf|]. split; [reflexivity|].
  do 2 eexists. split; [vm_compute; reflexivity|]. split; [vm_compute; reflexivity|]. split; vm_compute; reflexivity.
Qed.
