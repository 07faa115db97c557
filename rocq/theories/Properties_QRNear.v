(** C71: orthogonalization and the Frobenius norm with an inexact QR decomposition.  [qr] is any routine
    that is backward stable with relative error [delta] ([qr_near], QRNearSpec.v); the rest of the
    arithmetic is exact.  [cores_norm t p] is the product of the Frobenius norms of the cores, the scale
    of the error. *)
From Coq Require Import String List Arith ZArith Lia Lra Bool Reals.
From Verif Require Import Scalar Tensor TensorLemmas Base Spec BaseLemmas Ops FullProofs ResultLemmas Dense FlatProofs NormProofs OpsR
  Decomp DecompSpec OrthProofs OrthNorm QRExists SvdSpec Samples FMat NearChain NearTrain NearSpec QRNearSpec QRNear QRNearRL Properties_Decomp.
Import ListNotations.
Local Open Scope nat_scope.
Local Notation get := (@get Rring).

(** * Routines meeting the contract *)
Lemma mnorm_0 a b f : (forall i j, i < a -> j < b -> f i j = 0%R) -> mnorm a b f = 0%R.
Proof.
  intros Hf. unfold mnorm. rewrite <- sqrt_0. f_equal. apply (sumn_zero Rring). intros i Hi. apply (sumn_zero Rring). intros j Hj. rewrite Hf by auto. change (@eq R (0 * 0)%R 0%R). ring.
Qed.

(** An exact routine meets the contract for every [delta] >= 0 ... *)
Theorem C71_exact_qr_is_near : forall delta qr, (0 <= delta)%R -> qr_ok qr -> qr_near delta qr.
Proof.
  intros de qr Hde H pre m n x Wx Sx Px. specialize (H pre m n x Wx Sx Px). destruct (qr x) as [q r]. cbn [fst snd] in H.
  destruct H as (H1 & H2 & H3 & H4 & H). do 4 (split; [assumption|]). intros p Hp. destruct (H p Hp) as (E1 & E2).
  exists (fun i j => get x (p ++ [i; j])), (fun i l => get q (p ++ [i; l])).
  do 2 (split; [assumption|]). split; rewrite mnorm_0; try assumption; try (intros; ring). apply Rmult_le_pos; [exact Hde|apply sqrt_pos].
Qed.
Print Assumptions C71_exact_qr_is_near.

(** ... and so does one that gets an element of a 1 x 2 matrix wrong by the factor 1 + [delta]. *)
Definition bent_qr (delta : R) (qr0 : rtensor -> rtensor * rtensor) (x : rtensor) : rtensor * rtensor :=
  match shape x with
  | [1; 2] => (Tensor (K := Rring) [1; 1] [1%R], Tensor (K := Rring) [1; 2] [((1 + delta) * nth 0 (data x) 0)%R; nth 1 (data x) 0%R])
  | _ => qr0 x
  end.

Lemma bent_near de qr0 : (0 <= de)%R -> qr_ok qr0 -> qr_near de (bent_qr de qr0).
Proof.
  intros Hde H0 pre m n x Wx Sx Px. pose proof (C71_exact_qr_is_near de qr0 Hde H0 pre m n x Wx Sx Px) as N0.
  destruct (list_eq_dec Nat.eq_dec (shape x) [1; 2]) as [E|E].
  - assert (pre = [] /\ m = 1 /\ n = 2) as (-> & -> & ->).
    { rewrite E in Sx. destruct pre as [|a [|b [|c pre]]]; cbn in Sx; injection Sx; intros; subst; auto; discriminate. }
    destruct x as [sh D]. cbn [shape] in E. subst sh. unfold bent_qr. cbn [shape data].
    assert (L : length D = 2) by exact Wx. destruct D as [|u [|v [|? ?]]]; try discriminate L. cbn [nth Nat.min].
    split; [reflexivity|]. split; [reflexivity|]. split; [reflexivity|]. split; [reflexivity|]. intros p Hp. inversion Hp; subst. cbn [app].
    exists (fun i j => if Nat.eqb j 0 then ((1 + de) * u)%R else v), (fun _ _ => 1%R). repeat split.
    + intros i j Hi Hj. rewrite (sumn_1 Rring). assert (i = 0) by lia. subst. destruct j as [|[|j]]; [| |lia]; symmetry; apply Rmult_1_l.
    + intros a b Ha Hb. rewrite (sumn_1 Rring). assert (a = 0) by lia. assert (b = 0) by lia. subst. apply Rmult_1_l.
    + unfold mnorm. rewrite !(sumn_1 Rring). cbn [sumn Nat.eqb].
      replace (get (Tensor (K := Rring) [1; 2] [u; v]) [0; 0]) with u by reflexivity. replace (get (Tensor (K := Rring) [1; 2] [u; v]) [0; 1]) with v by reflexivity.
      replace de with (sqrt (de * de)) at 3 by (apply sqrt_square; lra). rewrite <- sqrt_mult_alt by nra. apply sqrt_le_1_alt. cbn.
      assert (0 <= de * de * (v * v))%R by (apply Rmult_le_pos; nra). nra.
    + rewrite mnorm_0; [exact Hde|]. intros i j Hi Hj. assert (i = 0) by lia. assert (j = 0) by lia. subst. apply Rminus_diag_eq. reflexivity.
  - assert (EQ : bent_qr de qr0 x = qr0 x).
    { unfold bent_qr. destruct (shape x) as [|[|[|?]] [|[|[|[|?]]] [|? ?]]]; try reflexivity. now destruct E. }
    rewrite EQ. exact N0.
Qed.

Theorem C71_near_qr_exists : forall delta, (0 < delta)%R -> exists qr, qr_near delta qr /\ ~ qr_ok qr.
Proof.
  intros de Hde. destruct C27_qr_exists as [qr0 H0]. exists (bent_qr de qr0). split; [apply bent_near; [lra|exact H0]|].
  intros H. set (x := @Tensor Rring [1; 2] [1%R; 0%R]).
  specialize (H [] 1 2 x eq_refl eq_refl ltac:(repeat constructor)). destruct H as (_ & _ & _ & _ & H). destruct (H [] ltac:(constructor)) as (E & _).
  specialize (E 0 0 ltac:(lia) ltac:(lia)). cbn [Nat.min] in E. rewrite (sumn_1 Rring) in E. change (1 = 1 * ((1 + de) * 1))%R in E. lra.
Qed.
Print Assumptions C71_near_qr_exists.

(** * The scale of the error *)
(** At least the norm of the tensor. *)
Theorem C71_cores_norm : forall (t : rtt) dt p, wf t -> full t = Ok dt -> vidx (bpre t) p -> (norm_at (ishape t) dt p <= cores_norm t p)%R.
Proof.
  intros t dt p Hw Fd Hp. rewrite (norm_at_entries t dt p) by auto. rewrite cores_norm_rprod. apply nrm_prod_le; [apply (wf_first Hw)|apply (wf_last Hw)].
Qed.
Print Assumptions C71_cores_norm.

(** The factors (1 + [delta])^n - 1 of the bounds are of first order in [delta]. *)
Theorem C71_first_order : forall delta n, (0 <= delta)%R -> (INR n * delta <= 1)%R -> (0 <= (1 + delta) ^ n - 1 <= 2 * INR n * delta)%R.
Proof.
  intros de n Hde HB. split; [pose proof (pow_R1_Rle (1 + de) n ltac:(lra)); lra|].
  assert (P : ((1 + de) ^ n <= 1 + INR n * de + (INR n * de) * (INR n * de))%R).
  { revert HB. induction n as [|n IH]; intros H; [cbn; lra|]. rewrite S_INR in *. pose proof (pos_INR n) as Pn.
    assert (H' : (INR n * de <= 1)%R) by nra. specialize (IH H'). cbn [pow].
    apply Rle_trans with ((1 + de) * (1 + INR n * de + INR n * de * (INR n * de)))%R; [apply Rmult_le_compat_l; lra|].
    assert ((0 <= INR n * de)%R) by nra. assert ((INR n * de * (INR n * de) * de <= (INR n * de) * de)%R); [|nra].
    apply Rmult_le_compat_r; [lra|]. nra. }
  pose proof (pos_INR n). assert ((0 <= INR n * de)%R) by nra. nra.
Qed.
Print Assumptions C71_first_order.

(** * orthogonalize_tt_cores *)
(** The shapes and the TT-ranks do not depend on the quality of the routine; the tensor moves by at most
    ((1 + delta)^(2(d-1)) - 1) [cores_norm]; every core but the last (the first, in the other direction)
    is within [delta] of one with orthonormal columns (rows). *)
Theorem C71_left_to_right : forall delta qr (t : rtt), (0 <= delta)%R -> qr_near delta qr -> wf t ->
  exists o dt d, orthogonalize_tt_cores qr t true = Ok o /\ wf o /\ rshape o = rshape t /\ bsz o = bsz t /\
    (forall k, k < ndims t - 1 -> rk o (S k) = Nat.min (rk o k * prodn (modes t k)) (rk t (S k))) /\
    full t = Ok dt /\ full o = Ok d /\
    forall p, vidx (bpre t) p ->
      (dist_at (ishape t) dt d p <= ((1 + delta) ^ (2 * (ndims t - 1)) - 1) * cores_norm t p)%R /\
      forall k, k < ndims t - 1 -> exists f, orthonormal_core o k f /\ (core_dist o p k f <= delta)%R.
Proof.
  intros de qr t Hde Hq Hw. destruct (near_orthogonalize de Hde qr Hq t Hw) as (o & dt & dd & E & W & R & B & D & K & F & Fo & H).
  exists o, dt, dd. do 7 (split; [assumption|]). intros p Hp. destruct (H p Hp) as (H1 & _ & H2). now split.
Qed.
Print Assumptions C71_left_to_right.

Theorem C71_right_to_left : forall delta qr (t : rtt), (0 <= delta)%R -> qr_near delta qr -> wf t -> bsz t = None ->
  exists o dt d, orthogonalize_tt_cores qr t false = Ok o /\ wf o /\ rshape o = rshape t /\ bsz o = None /\
    (forall k, 0 < k < ndims t -> rk o k = Nat.min (rk t k) (prodn (modes t k) * rk o (S k))) /\
    full t = Ok dt /\ full o = Ok d /\
    (dist_at (ishape t) dt d [] <= ((1 + delta) ^ (2 * (ndims t - 1)) - 1) * cores_norm t [])%R /\
    forall k, 0 < k < ndims t -> exists f, orthonormal_core_right o k f /\ (core_dist o [] k f <= delta)%R.
Proof.
  intros de qr t Hde Hq Hw Hb. destruct (near_orthogonalize_rl de Hde qr Hq t Hw Hb) as (o & dt & dd & E & W & R & B & D & K & F & Fo & H1 & _ & H2).
  exists o, dt, dd. rewrite Hb in B. now repeat (split; [assumption|]).
Qed.
Print Assumptions C71_right_to_left.

(** * frobenius_norm_squared and frobenius_norm, default branch *)
(** The result is the square of a number within ((1 + delta)^(d-1) - 1) [cores_norm] of the norm. *)
Theorem C71_frobenius_norm_squared : forall delta qr (t : rtt), (0 <= delta)%R -> qr_near delta qr -> wf t ->
  exists r dt, frobenius_norm_squared qr t false = Ok r /\ wft r /\ shape r = bpre t /\ full t = Ok dt /\
    forall p, vidx (bpre t) p -> (0 <= get r p)%R /\
      (Rabs (sqrt (get r p) - norm_at (ishape t) dt p) <= ((1 + delta) ^ (ndims t - 1) - 1) * cores_norm t p)%R.
Proof.
  intros de qr t Hde Hq Hw. destruct (near_norm_squared de Hde qr Hq t Hw) as (r & dt & E & W & S & F & H).
  exists r, dt. do 4 (split; [assumption|]). intros p Hp. destruct (H p Hp) as (v & V & G & B). rewrite G. split; [nra|]. now rewrite sqrt_square.
Qed.
Print Assumptions C71_frobenius_norm_squared.

Lemma sqrt_shift v n e b : (0 <= v)%R -> (0 <= n)%R -> (0 <= e)%R -> (Rabs (v - n) <= b)%R -> (Rabs (sqrt (v * v + e) - sqrt (n * n + e)) <= b)%R.
Proof.
  intros Hv Hn He HB. eapply Rle_trans; [|exact HB]. clear HB b. revert v n Hv Hn.
  assert (H : forall v n, (0 <= n)%R -> (n <= v)%R -> (Rabs (sqrt (v * v + e) - sqrt (n * n + e)) <= Rabs (v - n))%R).
  { intros v n Hn Hv. assert (A : (sqrt (n * n + e) <= sqrt (v * v + e))%R) by (apply sqrt_le_1_alt; nra).
    rewrite !Rabs_right by lra. assert (X := sqrt_sqrt (v * v + e) ltac:(nra)). assert (Y := sqrt_sqrt (n * n + e) ltac:(nra)).
    assert (Z : (n <= sqrt (n * n + e))%R) by (rewrite <- (sqrt_square n) at 1 by lra; apply sqrt_le_1_alt; lra).
    set (a := sqrt (v * v + e)) in *. set (c := sqrt (n * n + e)) in *. assert (W : (v <= a)%R) by (unfold a; rewrite <- (sqrt_square v) at 1 by lra; apply sqrt_le_1_alt; lra).
    destruct (Rle_lt_dec (a - c) (v - n)); [assumption|]. exfalso.
    assert (((a - c) * (a + c) = (v - n) * (v + n))%R) by lra. nra. }
  intros v n Hv Hn. destruct (Rle_lt_dec n v); [now apply H|]. rewrite (Rabs_minus_sym (sqrt _)), (Rabs_minus_sym v). apply H; lra.
Qed.

Theorem C71_frobenius_norm : forall delta qr (t : rtt) eps, (0 <= delta)%R -> (0 <= eps)%R -> qr_near delta qr -> wf t ->
  exists r dt, frobenius_norm qr t eps false = Ok r /\ wft r /\ shape r = bpre t /\ full t = Ok dt /\
    forall p, vidx (bpre t) p ->
      (Rabs (get r p - sqrt (norm_at (ishape t) dt p * norm_at (ishape t) dt p + eps)) <= ((1 + delta) ^ (ndims t - 1) - 1) * cores_norm t p)%R.
Proof.
  intros de qr t eps Hde Heps Hq Hw. destruct (C71_frobenius_norm_squared de qr t Hde Hq Hw) as (r & dt & E & W & S & F & H).
  unfold frobenius_norm. rewrite E. cbn [bind]. eexists _, dt. split; [reflexivity|]. split; [now apply wft_tmap|]. split; [exact S|]. split; [exact F|].
  intros p Hp. destruct (H p Hp) as [P B]. rewrite get_tmap by (auto; now rewrite S).
  rewrite <- (sqrt_sqrt (get r p)) at 1 by exact P. apply sqrt_shift; auto; apply sqrt_pos.
Qed.
Print Assumptions C71_frobenius_norm.

(** There is no bound relative to the norm itself: the sum 1 * 1 + 1 * (-1) written as a TT-tensor with one
    element, TT-rank 2, is 0, and the norm computed with a routine whose only fault is one factor
    1 + [delta] is [delta]. *)
Definition zero_sum : rtt := TT [Tensor (K := Rring) [1; 1; 2] [1%R; 1%R]; Tensor (K := Rring) [2; 1; 1] [1%R; (-1)%R]] [[1; 1]] [1; 2; 1] None.

Theorem C71_relative_error_refuted : forall delta, (0 < delta)%R -> exists qr t r dt, qr_near delta qr /\ wf t /\ frobenius_norm_squared qr t false = Ok r /\ full t = Ok dt /\
  norm_at (ishape t) dt [] = 0%R /\ sqrt (get r []) = delta.
Proof.
  intros de Hde. destruct C27_qr_exists as [qr0 H0]. exists (bent_qr de qr0), zero_sum. do 2 eexists. split; [apply bent_near; [lra|exact H0]|].
  split; [apply wfb_wf; vm_compute; reflexivity|]. split; [lazy -[sqrt IZR Rplus Rmult Rminus Ropp]; reflexivity|]. split; [lazy -[sqrt IZR Rplus Rmult Rminus Ropp]; reflexivity|].
  split; lazy -[sqrt IZR Rplus Rmult Rminus Ropp].
  - replace (0 + (0 + (0 + 1 * 1 + 1 * -1) * (0 + 1 * 1 + 1 * -1)))%R with 0%R by ring. apply sqrt_0.
  - rewrite sqrt_sqrt by nra. replace ((0 + (1 + de) * 1 * 1 + 1 * -1) * (0 + (1 + de) * 1 * 1 + 1 * -1) + 0)%R with (de * de)%R by ring. apply sqrt_square. lra.
Qed.
Print Assumptions C71_relative_error_refuted.

(** With an exact routine, the bounds are those of C16, C27 and C28: nothing is lost. *)
Theorem C71_no_loss : forall n, ((1 + 0) ^ n - 1 = 0)%R.
Proof. intros n. rewrite Rplus_0_r, pow1. ring. Qed.
Print Assumptions C71_no_loss.

(** Float32 rounding level, a routine that is not exact, a 2 x 3 x 2 tensor and a batch. *)
Example C71_ex : exists qr o d r rb, qr_near (/ 1000000) qr /\ ~ qr_ok qr /\ orthogonalize_tt_cores qr (toR s_a) true = Ok o /\ full o = Ok d /\
  frobenius_norm_squared qr (toR s_a) false = Ok r /\ frobenius_norm_squared qr (toR s_b3) false = Ok rb /\ shape rb = [3] /\
  exists dt, full (toR s_a) = Ok dt /\ ndims (toR s_a) = 3 /\
  (dist_at [2; 3; 2]%nat dt d [] <= 8 / 1000000 * cores_norm (toR s_a) [])%R /\
  (Rabs (sqrt (get r []) - norm_at [2; 3; 2]%nat dt []) <= 4 / 1000000 * cores_norm (toR s_a) [])%R.
Proof.
  destruct (C71_near_qr_exists (/ 1000000) ltac:(lra)) as (qr & Hq & Hn).
  destruct (C71_left_to_right (/ 1000000) qr (toR s_a) ltac:(lra) Hq r_a_wf) as (o & dt & d & Eo & _ & _ & _ & _ & Ft & Fo & H).
  destruct (C71_frobenius_norm_squared (/ 1000000) qr (toR s_a) ltac:(lra) Hq r_a_wf) as (r & dt' & Er & _ & _ & Ft' & H').
  assert (dt' = dt) by congruence. subst dt'.
  destruct (C71_frobenius_norm_squared (/ 1000000) qr (toR s_b3) ltac:(lra) Hq r_b3_wf) as (rb & _ & Erb & _ & Sb & _).
  exists qr, o, d, r, rb. do 6 (split; [assumption|]). split; [exact Sb|]. exists dt. split; [exact Ft|]. split; [reflexivity|].
  assert (P : (0 <= cores_norm (toR s_a) [])%R) by (rewrite cores_norm_rprod; apply rprod_nonneg; intros; apply gnorm_nonneg).
  destruct (H [] ltac:(constructor)) as [B _]. destruct (H' [] ltac:(constructor)) as [_ B'].
  change (ishape (toR s_a)) with [2; 3; 2] in B, B'. change (ndims (toR s_a)) with 3 in B, B'.
  split; [eapply Rle_trans; [exact B|]|eapply Rle_trans; [exact B'|]]; apply Rmult_le_compat_r; try exact P; cbn; lra.
Qed.
