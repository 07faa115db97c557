(** Consequences for the dense matrix. *)
From Coq Require Import String Ascii List Arith ZArith Lia Lra Bool Ring Reals.
From Verif Require Import Scalar Tensor TensorLemmas TensorLemmas2 Base Spec Chain BaseLemmas Ops
  FullProofs ResultLemmas Dense MulProofs MatmulProofs DenseMatmul Sweep FlatProofs NormProofs OpsR ScaleProofs
  Decomp DecompSpec GaugeProofs OrthProofs OrthNorm QRExists Trunc TruncChain RoundProofs SvdSpec RoundThms TTSvdStep TTSvdProofs TTSvdThms UnfoldExists TTMatProofs RankArgs.
Import ListNotations.
Local Open Scope nat_scope.
Local Notation get := (@get Rring).

Lemma map2_fst_snd (a b : list nat) : length a = length b ->
  map (fun j => nth 0 j 0) (map2 (fun i j => [i; j]) a b) = a /\ map (fun j => nth 1 j 0) (map2 (fun i j => [i; j]) a b) = b.
Proof. revert b; induction a as [|x a IH]; intros [|y b] L; cbn in *; try lia; auto. destruct (IH b ltac:(lia)) as [-> ->]. auto. Qed.

Lemma glue_split (t : rtt) i : wf t -> vidx (ishape t) i -> glue (rshape t) (split_idx t i) = i.
Proof.
  intros Hw V. unfold ishape, split_idx, glue in *. destruct (wf_kind_cases _ t Hw) as [(E & Hl & _)|(E & Hl & _)]; rewrite E in *.
  - destruct (rshape t) as [|s0 [|]]; try discriminate. rewrite map_map. cbn [nth]. apply map_id.
  - destruct (matrix_rows_len Rring t Hw E) as [L0 L1]. destruct (rshape t) as [|s0 [|s1 [|]]]; try discriminate. cbn [nth map] in *.
    inversion V as [|r ? V' ? Hr V2]; subst. inversion V2 as [|c ? V'' ? Hc V3]; subst. inversion V3; subst. cbn [nth].
    destruct (map2_fst_snd (unravel s0 r) (unravel s1 c)) as [-> ->].
    + rewrite (vidx_length s0 (unravel s0 r)), (vidx_length s1 (unravel s1 c)) by now apply unravel_valid. lia.
    + now rewrite !ravel_unravel.
Qed.

Lemma sq_dist_glue (x : rtensor) (z : rtt) dz A : wf z -> bsz z = None -> full z = Ok dz ->
  (forall J, vjdx (all_modes z) J -> A J = get x (glue (rshape z) J)) ->
  sq_dist (ishape z) x dz [] = rj (all_modes z) (fun J => (A J - tt_entry z [] J) * (A J - tt_entry z [] J))%R.
Proof.
  intros Hw B F HA. assert (P : bpre z = []) by (unfold bpre; now rewrite B).
  unfold sq_dist, rj. rewrite <- (isum_split Rring) by auto. apply (isum_ext Rring). intros i Hi.
  destruct (split_idx_valid _ z i Hw Hi) as [V1 V2]. assert (VJ : vjdx (all_modes z) (split_idx z i)) by (unfold all_modes; now apply vjdx_chain).
  rewrite HA by auto. rewrite glue_split by auto. pose proof (glue_get z dz [] (split_idx z i) Hw F ltac:(rewrite P; constructor) VJ) as G.
  rewrite glue_split in G by auto. rewrite G. reflexivity.
Qed.

Lemma jsize_mm s0 s1 k l : jsize (map (mm s0 s1) (seq k l)) = prodn (map (fun i => nth i s0 0 * nth i s1 0) (seq k l)).
Proof. revert k; induction l as [|l IH]; intros k; cbn [seq map jsize]; [reflexivity|]. rewrite IH, prodn_cons. unfold mm, prodn at 1. cbn. lia. Qed.

Section Thms.
Variable svd : rtensor -> rtensor * rtensor * rtensor.
Hypothesis Hsvd : svd_ok svd.
Variables (mat : rtensor) (s0 s1 : list nat) (a : rank_arg) (eps : option R) (m : nat -> nat).
Hypothesis Wm : wft mat.
Hypothesis Sm : shape mat = [prodn s0; prodn s1].
Hypothesis L01 : length s0 = length s1.
Hypothesis Hd : 2 <= length s0.
Hypothesis P0 : Forall (fun n => 0 < n) s0.
Hypothesis P1 : Forall (fun n => 0 < n) s1.
Hypothesis Hm : rank_limits false a eps (length s0) m.
Let d := length s0.

Lemma tt_matrix_facts : exists z dz e, to_tt_matrix svd mat (Some s0) (Some s1) a eps = Ok z /\ wf z /\ rshape z = [s0; s1] /\ bsz z = None /\ full z = Ok dz /\
  ishape z = [prodn s0; prodn s1] /\ shape dz = [prodn s0; prodn s1] /\ all_modes z = map (mm s0 s1) (seq 0 d) /\ ndims z = d /\
  (forall k, 0 < k < d -> rk z k <= m k) /\
  (forall J, vjdx (all_modes z) J -> get dz (glue [s0; s1] J) = tt_entry z [] J) /\
  sq_dist [prodn s0; prodn s1] mat dz [] = rj (map (mm s0 s1) (seq 0 d)) (fun J => (mA mat s0 s1 J - tt_entry z [] J) * (mA mat s0 s1 J - tt_entry z [] J))%R /\
  exists mr, (forall k, k <= d -> nth k mr 0 = m k) /\
      rj (map (mm s0 s1) (seq 0 d)) (fun J => (mA mat s0 s1 J - tt_entry z [] J) * (mA mat s0 s1 J - tt_entry z [] J))%R = rsum (d - 1) (fun y => e (S y)) /\
      forall k, 0 < k < d -> (0 <= e k)%R /\ forall q P Z, q <= nth k mr 0 -> (e k <= gcut (mm s0 s1) d (mA mat s0 s1) k q P Z)%R.
Proof.
  destruct (limits_parse _ _ _ _ _ Hm ltac:(lia)) as (mr & Hp & Hn).
  destruct (to_tt_matrix_ok svd Hsvd mat s0 s1 a eps mr Sm L01 Hd P0 P1 Hp) as (z & Ez & Wz & Rz & Bz & Dz & Kz & e & HE & HB).
  destruct (full_correct Rring z Wz) as (dz & Fz & _ & Sz & Gz). assert (P : bpre z = []) by (unfold bpre; now rewrite Bz).
  assert (I : ishape z = [prodn s0; prodn s1]) by (unfold ishape, is_tt_matrix; now rewrite Rz).
  assert (AM : all_modes z = map (mm s0 s1) (seq 0 d)).
  { unfold all_modes. rewrite Dz. apply map_ext. intros k. unfold modes. now rewrite Rz. }
  exists z, dz, e. do 5 (split; [assumption|]). split; [exact I|]. split; [now rewrite Sz, get_shape_ishape, P, I|]. split; [exact AM|]. split; [exact Dz|].
  split; [intros k Hk; rewrite <- Hn by (unfold d in *; lia); now apply (Kz k)|].
  split. { intros J VJ. rewrite <- Rz. apply (glue_get z dz [] J); auto. rewrite P. constructor. }
  split. { rewrite <- I, <- AM. apply sq_dist_glue; auto. intros J _. unfold mA. now rewrite Rz. }
  exists mr. split; [intros; apply Hn; auto|]. split; auto.
Qed.

Lemma tt_matrix_exact : (forall k, 0 < k < length s0 -> exists q P Z, q <= m k /\ gcut (mm s0 s1) (length s0) (mA mat s0 s1) k q P Z = 0%R) ->
  exists z dz, to_tt_matrix svd mat (Some s0) (Some s1) a eps = Ok z /\ wf z /\ rshape z = [s0; s1] /\ bsz z = None /\
    full z = Ok dz /\ shape dz = shape mat /\ forall i, vidx (shape mat) i -> get dz i = get mat i.
Proof.
  intros HX. destruct tt_matrix_facts as (z & dz & e & Ez & Wz & Rz & Bz & Fz & I & Sz & AM & Dz & Kz & Gz & _ & mr & Hn & HE & HB).
  exists z, dz. do 5 (split; [assumption|]). split; [congruence|]. intros i Hi. rewrite Sm, <- I in Hi.
  destruct (split_idx_valid _ z i Wz Hi) as [V1 V2]. assert (VJ : vjdx (all_modes z) (split_idx z i)) by (unfold all_modes; now apply vjdx_chain).
  rewrite <- (glue_split z i Wz Hi), Rz, Gz by auto.
  rewrite (split_exact (mm s0 s1) d (mA mat s0 s1) (tt_entry z []) mr e HE HB); [reflexivity| |now rewrite <- AM].
  intros k Hk. destruct (HX k Hk) as (q & P & Z & Hq & E). exists q, P, Z. split; [rewrite Hn by lia; auto|exact E].
Qed.

Lemma tt_matrix_exact_large :
  (forall k, 0 < k < length s0 -> Nat.min (prodn (map (fun i => nth i s0 0 * nth i s1 0) (seq 0 k)))
     (prodn (map (fun i => nth i s0 0 * nth i s1 0) (seq k (length s0 - k)))) <= m k) ->
  exists z dz, to_tt_matrix svd mat (Some s0) (Some s1) a eps = Ok z /\ wf z /\ rshape z = [s0; s1] /\ bsz z = None /\
    full z = Ok dz /\ shape dz = shape mat /\ forall i, vidx (shape mat) i -> get dz i = get mat i.
Proof. intros H. apply tt_matrix_exact. intros k Hk. apply gcut_side. rewrite !jsize_mm. auto. Qed.

Lemma rep_facts (b : rtt) db : wf b -> rshape b = [s0; s1] -> bsz b = None -> full b = Ok db ->
  sq_dist [prodn s0; prodn s1] mat db [] = rj (map (mm s0 s1) (seq 0 d)) (fun J => (mA mat s0 s1 J - tt_entry b [] J) * (mA mat s0 s1 J - tt_entry b [] J))%R.
Proof.
  intros Wb Rb Bb Fb. assert (I : ishape b = [prodn s0; prodn s1]) by (unfold ishape, is_tt_matrix; now rewrite Rb).
  assert (Db : ndims b = d). { pose proof (wf_rlen Wb) as H. rewrite Rb in H. inversion H; subst. auto. }
  assert (AM : all_modes b = map (mm s0 s1) (seq 0 d)).
  { unfold all_modes. rewrite Db. apply map_ext. intros k. unfold modes. now rewrite Rb. }
  rewrite <- I, <- AM. apply sq_dist_glue; auto. intros J _. unfold mA. now rewrite Rb.
Qed.

Lemma tt_matrix_best (b : rtt) db : wf b -> rshape b = [s0; s1] -> bsz b = None -> full b = Ok db ->
  (forall k, 0 < k < length s0 -> rk b k <= m k) ->
  exists z dz, to_tt_matrix svd mat (Some s0) (Some s1) a eps = Ok z /\ full z = Ok dz /\
    (sq_dist (shape mat) mat dz [] <= INR (length s0 - 1) * sq_dist (shape mat) mat db [])%R.
Proof.
  intros Wb Rb Bb Fb Kb. destruct tt_matrix_facts as (z & dz & e & Ez & Wz & Rz & Bz & Fz & I & Sz & AM & Dz & Kz & Gz & SD & mr & Hn & HE & HB).
  exists z, dz. do 2 (split; [assumption|]). rewrite Sm, SD, (rep_facts b db) by auto.
  apply (split_best (mm s0 s1) d (mA mat s0 s1) (tt_entry z []) mr e HE HB b []); auto. intros k Hk. rewrite Hn by lia. now apply Kb.
Qed.

Lemma tt_matrix_exact_low_rank (b : rtt) : wf b -> rshape b = [s0; s1] -> bsz b = None -> full b = Ok mat ->
  (forall k, 0 < k < length s0 -> rk b k <= m k) ->
  exists z dz, to_tt_matrix svd mat (Some s0) (Some s1) a eps = Ok z /\ wf z /\ rshape z = [s0; s1] /\ bsz z = None /\
    full z = Ok dz /\ shape dz = shape mat /\ forall i, vidx (shape mat) i -> get dz i = get mat i.
Proof.
  intros Wb Rb Bb Fb Kb. apply tt_matrix_exact. intros k Hk. do 3 eexists. split; [now apply Kb|].
  etransitivity; [apply (gcut_best _ _ _ b []); auto; lia|]. fold d. rewrite <- (rep_facts b mat) by auto. unfold sq_dist. apply (isum_zero Rring). intros i _. cbn [app].
  unfold Rminus. rewrite Rplus_opp_r. apply Rmult_0_l.
Qed.

Lemma tt_matrix_bound (n : nat -> nat) U s V :
  (forall k, 0 < k < length s0 -> unfolding_svd [s0; s1] (fun i => [nth i s0 0; nth i s1 0]) (length s0) mat [] k (n k) (U k) (s k) (V k)) ->
  exists z dz, to_tt_matrix svd mat (Some s0) (Some s1) a eps = Ok z /\ full z = Ok dz /\
    (sq_dist (shape mat) mat dz [] <= sum_cuts (length s0) (fun k => discarded (n k) (m k) (s k)))%R.
Proof.
  intros HU. destruct tt_matrix_facts as (z & dz & e & Ez & Wz & Rz & Bz & Fz & I & Sz & AM & Dz & Kz & Gz & SD & mr & Hn & HE & HB).
  exists z, dz. do 2 (split; [assumption|]). rewrite Sm, SD. eapply Rle_trans.
  - apply (split_svd (mm s0 s1) d (mA mat s0 s1) (tt_entry z []) mr e HE HB [s0; s1] mat [] n U s V); [reflexivity|exact HU].
  - apply Req_le. unfold sum_cuts. apply (rsum_ext (d - 1)). intros i Hi. rewrite Hn by lia. reflexivity.
Qed.
End Thms.

(** A dense tensor with one axis. *)
Lemma to_tt_one_axis svd (x : rtensor) n a eps m : wft x -> shape x = [n] -> rank_limits false a eps 1 m -> to_tt_tensor svd x a eps = Err TypeError.
Proof.
  intros Wx Sx Hm. destruct (limits_parse _ _ _ _ _ Hm (le_n 1)) as (mr & Hp & _). unfold to_tt_tensor. cbv zeta. rewrite Sx. cbn [length]. rewrite Hp. cbn [bind].
  cbn [Nat.sub seq foldM bind lastr repeat nthr nth_error]. change (lastr [n]) with (Ok n). change (nthr [1; 1] 0) with (Ok 1). change (nthr [1; 1] 1) with (Ok 1). cbn [bind]. rewrite (reshape_exact Rring) by (unfold size; rewrite Sx; unfold prodn; cbn; lia). reflexivity.
Qed.
