(** C42 for every epsilon: renormalize_tt_cores with log 0 = -inf and 0 / 0 = nan ([renormalize_x], XReal.v).
    [core_sumsq t pre k] is the sum of the squares of the elements of core k (of batch element [pre]);
    [xentry (rk t) cs pre J] is an element of the tensor with the cores [cs]. *)
From Coq Require Import String List Arith Lia Lra Bool Reals.
From Verif Require Import Scalar Tensor TensorLemmas Base Spec Chain BaseLemmas Ops FullProofs ResultLemmas Dense FlatProofs NormProofs OpsR ScaleProofs
  Samples TangentSpace XReal XRealProofs.
Import ListNotations.
Local Open Scope R_scope.
Local Notation get := (@get Rring).
Local Notation xc0 := (XCore [] (fun _ => NaN)).

(** Wherever no norm is zero, this model and the one over the real numbers are the same: the theorems about
    the latter hold of the former. *)
Theorem C42_extended_model_agrees : forall (t : rtt) eps, wf t ->
  exists r, renormalize_tt_cores t eps = Ok r /\ length (renormalize_x t eps) = length (cores r) /\
    (forall k, (k < ndims t)%nat -> xshape (nth k (renormalize_x t eps) xc0) = shape (core r k)) /\
    forall pre, vidx (bpre t) pre -> (forall m, (m < ndims t)%nat -> 0 < Rmax (core_sumsq t pre m) eps) ->
    forall k i, (k < ndims t)%nat -> vidx (rk t k :: modes t k ++ [rk t (S k)]) i ->
      xget (nth k (renormalize_x t eps) xc0) (pre ++ i) = Fin (get (core r k) (pre ++ i)).
Proof.
  intros t eps Hw.
  assert (exists r, renormalize_tt_cores t eps = Ok r /\ wf r /\ rshape r = rshape t /\ rks r = rks t /\ bsz r = bsz t /\
    forall pre k I, vidx (bpre t) pre -> (k < ndims t)%nat -> vidx (rk t k :: modes t k ++ [rk t (S k)]) I ->
      get (core r k) (pre ++ I) = rfact t eps pre / rnorm t eps pre k * get (core t k) (pre ++ I)) as (r & Er & Wr & Rr & Kr & Br & G).
  { destruct (bsz t) as [b|] eqn:E; [destruct (renorm_batch t eps b Hw E) as (r & H)|destruct (renorm_single t eps Hw E) as (r & H)];
      rewrite E in H; exists r; exact H. }
  assert (Dr : ndims r = ndims t).
  { pose proof (wf_klen Wr) as A. pose proof (wf_klen Hw) as B. rewrite Kr in A. lia. }
  exists r. split; [exact Er|]. split; [|split].
  - change (length (cores r)) with (ndims r). rewrite Dr. unfold renormalize_x, ndims. destruct (bsz t); [now rewrite map_length|].
    rewrite length_map2, map_length. apply Nat.min_id.
  - intros k Hk.
    assert (Hp : vidx (bpre t) (repeat 0%nat (length (bpre t)))).
    { pose proof (wf_bpos Hw) as Hb. clear -Hb. induction Hb; [apply vidx_nil|cbn; apply vidx_cons; auto]. }
    destruct (renorm_x_core t eps _ k [] Hw Hp Hk) as [E _]. rewrite E, (core_shape _ t k Hw Hk), (core_shape _ r k Wr) by lia.
    unfold bpre, rk, modes. now rewrite Br, Kr, Rr.
  - intros pre Hp Hpos k i Hk Hi. rewrite renorm_x_finite by auto. now rewrite G.
Qed.
Print Assumptions C42_extended_model_agrees.

Lemma chain_zero_core G r (ms : nat -> list nat) m J w : (forall a j b, (a < r m)%nat -> vidx (ms m) j -> (b < r (S m))%nat -> G m a j b = 0) ->
  forall k a, (k <= m < k + length J)%nat -> vchain ms k J -> (a < r k)%nat -> chain (K := Rring) G r k J w a = 0.
Proof.
  intros Hz. induction J as [|j J IH]; intros k a Hk HJ Ha; cbn [chain length vchain] in *; [lia|]. destruct HJ as [Hj HJ].
  apply (sumn_zero Rring). intros b Hb. destruct (Nat.eq_dec k m) as [->|Hne].
  - rewrite Hz by auto. apply Rmult_0_l.
  - rewrite IH by (auto; lia). apply Rmult_0_r.
Qed.
Lemma zero_core_entry (t : rtt) pre J k : wf t -> vchain (modes t) 0 J -> length J = ndims t -> (k < ndims t)%nat -> core_sumsq t pre k = 0 -> tt_entry t pre J = 0.
Proof.
  intros Hw HJ HL Hk Hz. unfold tt_entry. apply (chain_zero_core _ _ (modes t) k); auto; try lia; [|rewrite (wf_first Hw); lia].
  intros a j b Ha Hj Hb. unfold coreG. unfold core_sumsq in Hz.
  destruct (TangentSpace.isum_zero_each (rk t k :: modes t k ++ [rk t (S k)]) (fun I => get (core t k) (pre ++ I) * get (core t k) (pre ++ I))) as [_ Q]; [intros; apply Rle_0_sqr|].
  apply Rsqr_0_uniq. apply (Q Hz). apply vidx_cons; auto. apply vidx_app; auto. vsolve.
Qed.

(** Every epsilon, every batch element: if epsilon is positive or no core of the element is zero, the tensor
    is the same; otherwise it was 0 everywhere and is nan everywhere. *)
Theorem C42_every_epsilon : forall (t : rtt) d eps, wf t -> full t = Ok d -> forall pre i, vidx (bpre t) pre -> vidx (ishape t) i ->
  (0 < eps \/ (forall k, (k < ndims t)%nat -> 0 < core_sumsq t pre k) ->
     xentry (rk t) (renormalize_x t eps) pre (split_idx t i) = Fin (get d (pre ++ i))) /\
  (eps <= 0 -> (exists k, (k < ndims t)%nat /\ core_sumsq t pre k = 0) ->
     xentry (rk t) (renormalize_x t eps) pre (split_idx t i) = NaN /\ get d (pre ++ i) = 0).
Proof.
  intros t d eps Hw Fd pre i Hp Hi. destruct (full_correct Rring t Hw) as (d' & Fd' & _ & _ & Ea). assert (d' = d) by congruence. subst d'.
  assert (E : get d (pre ++ i) = tt_entry t pre (split_idx t i)).
  { rewrite Ea by (rewrite get_shape_ishape; now apply vidx_app). now rewrite (tt_at_entry Rring). }
  destruct (split_idx_valid Rring t i Hw Hi) as [HC HL].
  rewrite E. split.
  - intros H. apply xentry_fin; auto. intros m Hm. destruct H as [H|H]; [eapply Rlt_le_trans; [exact H|apply Rmax_r]|eapply Rlt_le_trans; [exact (H m Hm)|apply Rmax_l]].
  - intros He (k & Hk & Hz). split; [now apply (xentry_nan t eps pre _ k)|now apply (zero_core_entry t pre _ k)].
Qed.
Print Assumptions C42_every_epsilon.

(** So "for every epsilon" is false: a 2 x 2 tensor whose first core is zero, epsilon = 0. *)
Definition zero_core : rtt := TT [Tensor (K := Rring) [1; 2; 1]%nat [0; 0]; Tensor (K := Rring) [1; 2; 1]%nat [1; 1]] [[2; 2]]%nat [1; 1; 1]%nat None.
Theorem C42_zero_core_refuted : exists (t : rtt) d eps, wf t /\ full t = Ok d /\ eps = 0 /\
  forall i, vidx (ishape t) i -> get d i = 0 /\ xentry (rk t) (renormalize_x t eps) [] (split_idx t i) = NaN.
Proof.
  assert (W : wf zero_core) by (apply wfb_wf; vm_compute; reflexivity).
  destruct (full_correct Rring zero_core W) as (d & Fd & _). exists zero_core, d, 0. split; [exact W|]. split; [exact Fd|]. split; [reflexivity|].
  intros i Hi. destruct (C42_every_epsilon zero_core d 0 W Fd [] i ltac:(constructor) Hi) as [_ H].
  destruct H as [H1 H2]; [lra|exists O; split; [cbn; lia|lazy -[IZR Rplus Rmult Rminus Ropp]; lra]|]. auto.
Qed.
Print Assumptions C42_zero_core_refuted.

(** The same tensor with the default epsilon, and a tensor without a zero core with a negative one. *)
Example C42_every_epsilon_ex : wf zero_core /\ (exists k, (k < ndims zero_core)%nat /\ core_sumsq zero_core [] k = 0) /\
  xentry (rk zero_core) (renormalize_x zero_core (/ 100000000)) [] [[1]; [0]]%nat = Fin 0 /\
  wf (toR s_t2) /\ xentry (rk (toR s_t2)) (renormalize_x (toR s_t2) (-1)) [] [[1]; [1]]%nat = Fin (tt_entry (toR s_t2) [] [[1]; [1]]%nat).
Proof.
  assert (W : wf zero_core) by (apply wfb_wf; vm_compute; reflexivity).
  split; [exact W|]. split; [exists O; split; [cbn; lia|lazy -[IZR Rplus Rmult Rminus Ropp]; lra]|]. split; [|split; [exact r_t2_wf|]].
  - rewrite xentry_fin; auto; [|constructor|cbn; repeat split; repeat constructor|intros; eapply Rlt_le_trans; [|apply Rmax_r]; lra].
    f_equal. lazy -[IZR Rplus Rmult Rminus Ropp]. ring.
  - apply xentry_fin; [exact r_t2_wf|constructor|cbn; repeat split; repeat constructor|reflexivity|].
    intros m Hm. eapply Rlt_le_trans; [|apply Rmax_l]. cbn in Hm. destruct m as [|[|m]]; [| |lia]; cbv -[Rplus Rmult IZR Rlt]; cbn; lra.
Qed.
