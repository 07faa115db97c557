(** [to_tt_matrix] with an inexact singular value decomposition. *)
From Coq Require Import String Ascii List Arith ZArith Lia Lra Bool Ring Reals.
From Verif Require Import Scalar Tensor TensorLemmas TensorLemmas2 Base Spec Chain BaseLemmas Ops
  FullProofs ResultLemmas Dense MulProofs MatmulProofs DenseMatmul Sweep FlatProofs NormProofs OpsR ScaleProofs
  Decomp DecompSpec GaugeProofs OrthProofs OrthNorm QRExists Trunc TruncChain RoundProofs SvdSpec RoundThms TTSvdStep TTSvdProofs TTSvdThms UnfoldExists TTMatProofs RankArgs TTMatThms NearSpec TTSvdNear.
Import ListNotations.
Local Open Scope nat_scope.
Local Notation get := (@get Rring).
Local Notation mm := TTMatProofs.mm.

Section Thms.
Variable de : R.
Hypothesis Hde : (0 <= de)%R.
Variable svd : rtensor -> rtensor * rtensor * rtensor.
Hypothesis Hsvd : svd_near de svd.
Variables (mat : rtensor) (s0 s1 : list nat) (a : rank_arg) (eps : option R) (m : nat -> nat).
Hypothesis Sm : shape mat = [prodn s0; prodn s1].
Hypothesis L01 : length s0 = length s1.
Hypothesis Hd : 2 <= length s0.
Hypothesis P0 : Forall (fun n => 0 < n) s0.
Hypothesis P1 : Forall (fun n => 0 < n) s1.
Hypothesis Hm : rank_limits false a eps (length s0) m.
Let d := length s0.

Lemma near_mat_cuts (q : nat -> nat) P Z : (forall k, 0 < k < d -> q k <= m k) ->
  exists z dz, to_tt_matrix svd mat (Some s0) (Some s1) a eps = Ok z /\ wf z /\ rshape z = [s0; s1] /\ bsz z = None /\ full z = Ok dz /\
    (ddist mat dz <= sqrt (sum_cuts d (fun k => gcut (mm s0 s1) d (mA mat s0 s1) k (q k) (P k) (Z k))) + near_loss de d * dnorm mat)%R.
Proof.
  intros Hq. destruct (limits_parse _ _ _ _ _ Hm ltac:(lia)) as (mr & Hp & Hn).
  destruct (matrix_of_tensor svd mat s0 s1 a eps Sm L01 Hd P0 P1) as (x3 & W3 & S3 & Pos3 & L3 & G3 & TR & HZ). fold d in L3, G3, TR, HZ.
  destruct (to_tt_tensor_near de Hde svd Hsvd x3 a eps mr W3 ltac:(now rewrite L3) Pos3 ltac:(now rewrite L3)) as (t & Et & Wt & Rt & Bt & Dt & Kt & (e & HE & HB)).
  rewrite L3 in *. destruct (HZ t Et Wt Rt Bt Dt) as (z & CO & Wz & Rz & Bz & Dz & Kz & Ent).
  destruct (full_correct Rring z Wz) as (dz & Fz & _). exists z, dz. do 5 (split; [assumption|]).
  assert (I : ishape z = [prodn s0; prodn s1]) by (unfold ishape, is_tt_matrix; now rewrite Rz).
  assert (AM : all_modes z = map (mm s0 s1) (seq 0 d)).
  { unfold all_modes. rewrite Dz. apply map_ext. intros k. unfold modes. now rewrite Rz. }
  assert (ND : dnorm mat = xN x3).
  { unfold dnorm, xN. f_equal. rewrite L3, TR by lia. rewrite Sm, <- I, <- AM. unfold rj.
    rewrite <- (isum_split Rring) by auto. apply (isum_ext Rring). intros i Hi.
    destruct (split_idx_valid _ z i Wz Hi) as [V1 V2]. assert (VJ : vjdx (all_modes z) (split_idx z i)) by (unfold all_modes; now apply vjdx_chain).
    rewrite G3 by now rewrite <- AM. unfold mA. rewrite <- Rz, glue_split by auto. reflexivity. }
  rewrite ND. unfold ddist. rewrite Sm, <- I.
  rewrite (sq_dist_glue mat z dz (mA mat s0 s1)) by (auto; intros J _; unfold mA; now rewrite Rz). rewrite AM.
  rewrite TR in HE by lia.
  rewrite (rj_ext _ _ (fun J => (mA mat s0 s1 J - tt_entry z [] J) * (mA mat s0 s1 J - tt_entry z [] J))%R) in HE by (intros J VJ; rewrite Ent, G3 by auto; reflexivity).
  eapply Rle_trans; [exact HE|].
  apply (cut_sum de Hde d e (fun k => gcut (mm s0 s1) d (mA mat s0 s1) k (q k) (P k) (Z k)) (xN x3)); [apply sqrt_pos|].
  intros k Hk. destruct (HB k Hk) as [B1 B2]. split; [exact B1|]. split; [apply rj_nonneg; intros; apply rj_nonneg; intros; apply Rle_0_sqr|].
  specialize (B2 (q k) (fun J => P k (umrg s1 0 J)) (fun J => Z k (umrg s1 k J))). rewrite Hn in B2 by lia. specialize (B2 (Hq k Hk)).
  eapply Rle_trans; [exact B2|]. apply Rplus_le_compat_r, Req_le. f_equal.
  unfold xcut_dist, gcut. rewrite L3. rewrite TR by lia. apply rj_ext. intros J1 V1. rewrite TR by lia. apply rj_ext. intros J2 V2.
  rewrite (umrg_mrg s0 s1 0 k), (umrg_mrg s0 s1 k (d - k)) by auto.
  assert (LJ1 : length J1 = k) by (apply vjdx_length in V1; now rewrite map_length, seq_length in V1).
  replace (mrg s1 0 J1 ++ mrg s1 k J2) with (mrg s1 0 (J1 ++ J2)) by (rewrite mrg_app; now rewrite LJ1).
  rewrite G3; [reflexivity|]. rewrite (seq_cut k d) by lia. rewrite map_app. now apply Forall2_app.
Qed.

Lemma near_mat_best (b : rtt) db : wf b -> rshape b = [s0; s1] -> bsz b = None -> full b = Ok db ->
  (forall k, 0 < k < d -> rk b k <= m k) ->
  exists z dz, to_tt_matrix svd mat (Some s0) (Some s1) a eps = Ok z /\ wf z /\ rshape z = [s0; s1] /\ bsz z = None /\ full z = Ok dz /\
    (ddist mat dz <= sqrt (INR (d - 1)) * ddist mat db + near_loss de d * dnorm mat)%R.
Proof.
  intros Wb Rb Bb Fb Kb.
  destruct (near_mat_cuts (rk b) (fun _ => lvec (coreG b []) (rk b)) (fun k => rvec (coreG b []) (rk b) k) Kb) as (z & dz & H1 & H2 & H3 & H4 & H5 & H6).
  exists z, dz. do 5 (split; [assumption|]). eapply Rle_trans; [exact H6|]. apply Rplus_le_compat_r, Req_le.
  unfold sum_cuts. etransitivity; [|unfold ddist; apply sqrt_mult_alt; apply pos_INR]. f_equal. rewrite Sm.
  rewrite (rep_facts mat s0 s1 b db) by auto. fold d.
  etransitivity; [apply (rsum_ext (d - 1) _ (fun _ => rj (map (mm s0 s1) (seq 0 d)) (fun J => (mA mat s0 s1 J - tt_entry b [] J) * (mA mat s0 s1 J - tt_entry b [] J)) * 1)%R)|].
  - intros i Hi. rewrite (gcut_best _ _ _ b []) by (auto; lia). ring.
  - rewrite rsum_mul_l, rsum_1s. apply Rmult_comm.
Qed.

Lemma near_mat_bound (n : nat -> nat) U s V :
  (forall k, 0 < k < d -> unfolding_svd [s0; s1] (fun i => [nth i s0 0; nth i s1 0]) d mat [] k (n k) (U k) (s k) (V k)) ->
  exists z dz, to_tt_matrix svd mat (Some s0) (Some s1) a eps = Ok z /\ wf z /\ rshape z = [s0; s1] /\ bsz z = None /\ full z = Ok dz /\
    (ddist mat dz <= sqrt (sum_cuts d (fun k => discarded (n k) (m k) (s k))) + near_loss de d * dnorm mat)%R.
Proof.
  intros HU. destruct (near_mat_cuts (fun k => Nat.min (m k) (n k)) (fun k J l => U k J l * s k l)%R V ltac:(intros; cbv beta; lia)) as (z & dz & H1 & H2 & H3 & H4 & H5 & H6).
  exists z, dz. do 5 (split; [assumption|]). eapply Rle_trans; [exact H6|]. apply Rplus_le_compat_r, Req_le. f_equal.
  apply rsum_ext. intros i Hi. rewrite <- discarded_min.
  change (discarded (n (S i)) (Nat.min (m (S i)) (n (S i))) (s (S i))) with (tail (n (S i)) (Nat.min (m (S i)) (n (S i))) (s (S i))).
  apply (gcut_svd [s0; s1] (mm s0 s1) d mat []); [lia|reflexivity|apply HU; lia|lia].
Qed.
End Thms.
