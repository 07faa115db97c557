(** C70: TT-SVD with an inexact singular value decomposition.  [svd] is any routine that is backward
    stable with relative error [delta] ([svd_near], NearSpec.v); the rest of the arithmetic is exact. *)
From Coq Require Import String List Arith ZArith Lia Lra Bool Reals.
From Verif Require Import Scalar Tensor TensorLemmas Base Spec BaseLemmas Ops FullProofs ResultLemmas Dense FlatProofs NormProofs OpsR
  Decomp DecompSpec OrthProofs OrthNorm QRExists RoundProofs SvdSpec RoundThms TTSvdStep TTSvdProofs TTSvdThms RankArgs SvdExists UnfoldExists TTMatProofs TTMatThms Samples
  FMat NearSpec TTSvdNear TTMatNear Properties_Svd.
Import ListNotations.
Local Open Scope nat_scope.
Local Notation get := (@get Rring).

(** * Routines meeting the contract *)
(** An exact routine meets the contract for every [delta] >= 0 ... *)
Theorem C70_exact_svd_is_near : forall delta svd, (0 <= delta)%R -> svd_ok svd -> svd_near delta svd.
Proof.
  intros de svd Hde H pre m n x Wx Sx Px. specialize (H pre m n x Wx Sx Px). destruct (svd x) as [[s u] v].
  destruct H as (H1 & H2 & H3 & H4 & H5 & H6 & H). do 6 (split; [assumption|]). intros p Hp.
  destruct (H p Hp) as (E1 & E2 & E3 & E4 & E5).
  exists (fun i j => get x (p ++ [i; j])), (fun i l => get u (p ++ [i; l])), (fun j l => get v (p ++ [j; l])).
  assert (Z0 : forall a b f, (forall i j, f i j = 0%R) -> mnorm a b f = 0%R).
  { intros a b f Hf. unfold mnorm. rewrite <- sqrt_0. f_equal. apply (sumn_zero Rring). intros i Hi. apply (sumn_zero Rring). intros j Hj. rewrite Hf. change (@eq R (0 * 0)%R 0%R). ring. }
  do 5 (split; [assumption|]). split; [|split]; rewrite Z0; try assumption; try (intros; ring).
  apply Rmult_le_pos; [exact Hde|apply sqrt_pos].
Qed.
Print Assumptions C70_exact_svd_is_near.

(** ... and so does a routine whose singular values are all too large by the factor 1 + [delta], which is
    not an exact one: the contract is wider than [svd_ok]. *)
Definition scaled_svd (delta : R) (svd : rtensor -> rtensor * rtensor * rtensor) (x : rtensor) : rtensor * rtensor * rtensor :=
  let '(s, u, v) := svd x in (tmap (K := Rring) (fun y => (1 + delta) * y)%R s, u, v).

Theorem C70_near_svd_exists : forall delta, (0 < delta)%R -> exists svd, svd_near delta svd /\ ~ svd_ok svd.
Proof.
  intros de Hde. exists (scaled_svd de some_svd). split.
  - intros pre m n x Wx Sx Px. pose proof (some_svd_ok pre m n x Wx Sx Px) as H. unfold scaled_svd. destruct (some_svd x) as [[s u] v].
    destruct H as (H1 & H2 & H3 & H4 & H5 & H6 & H). split; [now apply wft_tmap|]. do 5 (split; [assumption|]). intros p Hp.
    destruct (H p Hp) as (E1 & E2 & E3 & E4 & E5).
    assert (GS : forall l, l < Nat.min m n -> get (tmap (K := Rring) (fun y => (1 + de) * y)%R s) (p ++ [l]) = ((1 + de) * get s (p ++ [l]))%R).
    { intros l Hl. apply (get_tmap Rring); [exact H1|]. rewrite H2. apply Forall2_app; [exact Hp|]. now repeat constructor. }
    exists (fun i j => (1 + de) * get x (p ++ [i; j]))%R, (fun i l => get u (p ++ [i; l])), (fun j l => get v (p ++ [j; l])).
    assert (Z0 : forall a b f, (forall i j, f i j = 0%R) -> mnorm a b f = 0%R).
    { intros a b f Hf. unfold mnorm. rewrite <- sqrt_0. f_equal. apply (sumn_zero Rring). intros i Hi. apply (sumn_zero Rring). intros j Hj. rewrite Hf. change (@eq R (0 * 0)%R 0%R). ring. }
    split; [|split; [assumption|split; [assumption|split; [|split; [|split; [|split]]]]]].
    + intros i j Hi Hj. rewrite E1 by auto. rewrite <- (rsum_mul_l (Nat.min m n)). apply rsum_ext. intros l Hl. rewrite GS by auto. change (@eq R ((1 + de) * (get u (p ++ [i; l]) * get s (p ++ [l]) * get v (p ++ [j; l]))) (get u (p ++ [i; l]) * ((1 + de) * get s (p ++ [l])) * get v (p ++ [j; l])))%R. ring.
    + intros l Hl. rewrite GS by auto. apply Rmult_le_pos; [lra|auto].
    + intros l l' Hl Hl'. rewrite !GS by lia. apply Rmult_le_compat_l; [lra|auto].
    + apply Req_le. unfold mnorm. replace de with (sqrt (Rsqr de)) at 1 by (apply sqrt_Rsqr; lra). rewrite <- sqrt_mult_alt by apply Rle_0_sqr. f_equal.
      rewrite <- (rsum_mul_l m). apply rsum_ext. intros i Hi. rewrite <- (rsum_mul_l n). apply rsum_ext. intros j Hj. unfold Rsqr. ring.
    + rewrite Z0; [lra|intros; ring].
    + rewrite Z0; [lra|intros; ring].
  - intros H. set (x := @Tensor Rring [1; 1] [1%R]).
    assert (Wx : wft x) by reflexivity. assert (Px : Forall (fun k => 0 < k) ([] ++ [1; 1])) by (repeat constructor).
    specialize (H [] 1 1 x Wx eq_refl Px). pose proof (some_svd_ok [] 1 1 x Wx eq_refl Px) as G. unfold scaled_svd in H.
    destruct (some_svd x) as [[s u] v]. destruct H as (_ & _ & _ & _ & _ & _ & H). destruct G as (W1 & S1 & _ & _ & _ & _ & G).
    destruct (H [] ltac:(constructor)) as (E1 & _). destruct (G [] ltac:(constructor)) as (F1 & _).
    specialize (E1 0 0 ltac:(lia) ltac:(lia)). specialize (F1 0 0 ltac:(lia) ltac:(lia)). 
    change (Nat.min 1 1) with 1 in *. rewrite (sumn_1 Rring) in E1, F1.     cbn [app] in *. rewrite (get_tmap Rring) in E1 by (auto; rewrite S1; repeat constructor).
    change (get x [0; 0]) with 1%R in *.
    remember (get u [0; 0]) as gu. remember (get s [0]) as gs. remember (get v [0; 0]) as gv.
    change (1 = gu * gs * gv)%R in F1. change (1 = gu * ((1 + de) * gs) * gv)%R in E1. nra.
Qed.
Print Assumptions C70_near_svd_exists.

(** * The loss *)
(** Of first order in [delta], with a factor that is polynomial in the number of axes. *)
Theorem C70_loss_first_order : forall delta d, (0 <= delta)%R -> 2 <= d -> (3 * INR d * delta <= 1)%R ->
  (0 <= near_loss delta d <= 14 * INR d * sqrt (INR d) * delta)%R.
Proof.
  intros de d Hde Hd HB.
  assert (P : forall n, (INR n * de <= 1 -> (1 + de) ^ n <= 1 + INR n * de + (INR n * de) * (INR n * de))%R).
  { induction n as [|n IH]; intros H; [cbn; lra|]. rewrite S_INR in *. pose proof (pos_INR n) as Pn. 
    assert (H' : (INR n * de <= 1)%R) by nra. specialize (IH H'). cbn [pow].
    apply Rle_trans with ((1 + de) * (1 + INR n * de + INR n * de * (INR n * de)))%R; [apply Rmult_le_compat_l; lra|].
    assert ((0 <= INR n * de)%R) by nra. assert ((INR n * de * (INR n * de) * de <= (INR n * de) * de)%R); [|nra].
    apply Rmult_le_compat_r; [lra|]. nra. }
  assert (Q : forall n, (INR n * de <= 1 -> 0 <= (1 + de) ^ n - 1 <= 2 * INR n * de)%R).
  { intros n H. split; [pose proof (pow_R1_Rle (1 + de) n ltac:(lra)); lra|]. specialize (P n H). pose proof (pos_INR n). assert ((0 <= INR n * de)%R) by nra. nra. }
  assert (D1 : (2 <= INR d)%R) by (change 2%R with (INR 2); now apply le_INR).
  assert (A1 : (INR (3 * (d - 1)) <= 3 * INR d)%R) by (rewrite mult_INR, minus_INR by lia; cbn; lra).
  assert (A2 : (INR (2 * d - 3) <= 2 * INR d)%R) by (rewrite minus_INR, mult_INR by lia; cbn; lra).
  assert (A3 : (sqrt (INR (d - 1)) <= sqrt (INR d))%R) by (apply sqrt_le_1_alt, le_INR; lia).
  assert (A4 : (1 <= sqrt (INR d))%R) by (rewrite <- sqrt_1; apply sqrt_le_1_alt; lra).
  assert (A5 : (0 <= sqrt (INR (d - 1)))%R) by apply sqrt_pos.
  destruct (Q (3 * (d - 1))) as [Q1 Q2]; [nra|]. destruct (Q (2 * d - 3)) as [Q3 Q4]; [nra|]. unfold near_loss.
  split; [apply Rplus_le_le_0_compat; [exact Q1|apply Rmult_le_pos; [lra|exact Q3]]|].
  assert (B1 : ((1 + de) ^ (3 * (d - 1)) - 1 <= 6 * INR d * de)%R) by nra.
  assert (B2 : ((1 + de) ^ (2 * d - 3) - 1 <= 4 * INR d * de)%R) by nra.
  assert (B3 : (0 <= INR d * de)%R) by nra.
  assert (B4 : (sqrt (INR (d - 1)) * ((1 + de) ^ (2 * d - 3) - 1) <= sqrt (INR d) * (4 * INR d * de))%R) by (apply Rmult_le_compat; lra).
  assert (B5 : (INR d * de * 1 <= INR d * de * sqrt (INR d))%R) by (apply Rmult_le_compat_l; lra). lra.
Qed.
Print Assumptions C70_loss_first_order.

(** With [delta] = 0 nothing is lost. *)
Theorem C70_loss_0 : forall d, near_loss 0 d = 0%R.
Proof. intros d. unfold near_loss. rewrite Rplus_0_r, !pow1. ring. Qed.
Print Assumptions C70_loss_0.

(** * to_tt_tensor *)
(** Nothing depends on the quality of the routine in the shape and in the TT-ranks. *)
Theorem C70_ranks : forall delta svd (x : rtensor) a eps m, (0 <= delta)%R -> svd_near delta svd -> wft x -> 2 <= length (shape x) ->
  Forall (fun n => 0 < n) (shape x) -> rank_limits false a eps (length (shape x)) m ->
  exists z, to_tt_tensor svd x a eps = Ok z /\ wf z /\ rshape z = [shape x] /\ bsz z = None /\
    rk z 0 = 1 /\ rk z (length (shape x)) = 1 /\
    forall k, 0 < k < length (shape x) -> rk z k = Nat.min (m k) (Nat.min (rk z (k - 1) * nth (k - 1) (shape x) 0) (prodn (skipn k (shape x)))).
Proof.
  intros de svd x a eps m Hde Hs Wx Hd Hpos Hm. destruct (limits_parse _ _ _ _ _ Hm ltac:(lia)) as (mr & Hp & Hk).
  destruct (to_tt_tensor_near de Hde svd Hs x a eps mr Wx Hd Hpos Hp) as (z & Ez & Wz & Rz & Bz & Dz & Kz & _).
  exists z. do 4 (split; [assumption|]). split; [apply (wf_first Wz)|]. split; [rewrite <- Dz; apply (wf_last Wz)|].
  intros k H. rewrite <- Hk by lia. apply (Kz k). lia.
Qed.
Print Assumptions C70_ranks.

Theorem C70_error_bound : forall delta svd (x : rtensor) a eps m n U s V, (0 <= delta)%R -> svd_near delta svd -> wft x -> 2 <= length (shape x) ->
  Forall (fun n => 0 < n) (shape x) -> rank_limits false a eps (length (shape x)) m ->
  (forall k, 0 < k < length (shape x) ->
     unfolding_svd [shape x] (fun i => [nth i (shape x) 0]) (length (shape x)) x [] k (n k) (U k) (s k) (V k)) ->
  exists z dz, to_tt_tensor svd x a eps = Ok z /\ full z = Ok dz /\ shape dz = shape x /\
    (ddist x dz <= sqrt (sum_cuts (length (shape x)) (fun k => discarded (n k) (m k) (s k))) + near_loss delta (length (shape x)) * dnorm x)%R.
Proof.
  intros de svd x a eps m n U s V Hde Hs Wx Hd Hpos Hm HU. destruct (limits_parse _ _ _ _ _ Hm ltac:(lia)) as (mr & Hp & Hn).
  destruct (near_bound de Hde svd Hs x a eps mr Wx Hd Hpos Hp n U s V HU) as (z & dz & Ez & Wz & Rz & Bz & Fz & B). exists z, dz. do 2 (split; [assumption|]).
  split; [destruct (full_correct Rring z Wz) as (y & Fy & _ & Sy & _); rewrite Fz in Fy; injection Fy as <-; rewrite Sy, get_shape_ishape; unfold bpre, ishape, is_tt_matrix; rewrite Rz, Bz; reflexivity|].
  replace (sum_cuts _ (fun k => discarded (n k) (m k) (s k))) with (sum_cuts (length (shape x)) (fun k => discarded (n k) (nth k mr 0) (s k))); [exact B|].
  unfold sum_cuts. apply (rsum_ext (length (shape x) - 1)). intros i Hi. rewrite Hn by lia. reflexivity.
Qed.
Print Assumptions C70_error_bound.

Theorem C70_quasi_optimal : forall delta svd (x : rtensor) a eps m (b : rtt) db, (0 <= delta)%R -> svd_near delta svd -> wft x -> 2 <= length (shape x) ->
  Forall (fun n => 0 < n) (shape x) -> rank_limits false a eps (length (shape x)) m ->
  wf b -> rshape b = [shape x] -> bsz b = None -> full b = Ok db -> (forall k, 0 < k < length (shape x) -> rk b k <= m k) ->
  exists z dz, to_tt_tensor svd x a eps = Ok z /\ full z = Ok dz /\
    (ddist x dz <= sqrt (INR (length (shape x) - 1)) * ddist x db + near_loss delta (length (shape x)) * dnorm x)%R.
Proof.
  intros de svd x a eps m b db Hde Hs Wx Hd Hpos Hm Wb Rb Bb Fb Hk. destruct (limits_parse _ _ _ _ _ Hm ltac:(lia)) as (mr & Hp & Hn).
  destruct (near_best de Hde svd Hs x a eps mr Wx Hd Hpos Hp b db) as (z & dz & Ez & _ & _ & _ & Fz & B); auto.
  { intros k H. rewrite Hn by lia. now apply Hk. } now exists z, dz.
Qed.
Print Assumptions C70_quasi_optimal.

Lemma ddist_0 (x y : rtensor) : (forall i, vidx (shape x) i -> get y i = get x i) -> ddist x y = 0%R.
Proof.
  intros H. unfold ddist, sq_dist. rewrite <- sqrt_0. f_equal. apply (isum_zero Rring). intros i Hi.
  cbn [app]. rewrite H by auto. change (@eq R ((get x i - get x i) * (get x i - get x i)) 0)%R. ring.
Qed.

(** Without truncation, only the loss remains ... *)
Theorem C70_exact : forall delta svd (x : rtensor) a eps m, (0 <= delta)%R -> svd_near delta svd -> wft x -> 2 <= length (shape x) ->
  Forall (fun n => 0 < n) (shape x) -> rank_limits false a eps (length (shape x)) m ->
  (forall k, 0 < k < length (shape x) -> Nat.min (prodn (firstn k (shape x))) (prodn (skipn k (shape x))) <= m k) ->
  exists z dz, to_tt_tensor svd x a eps = Ok z /\ full z = Ok dz /\ (ddist x dz <= near_loss delta (length (shape x)) * dnorm x)%R.
Proof.
  intros de svd x a eps m Hde Hs Wx Hd Hpos Hm Hk.
  destruct (C29_exact some_svd x a eps m some_svd_ok Wx Hd Hpos Hm Hk) as (b & db & Eb & Wb & Rb & Bb & Fb & Sb & Gb).
  destruct (C29_ranks some_svd x a eps m some_svd_ok Wx Hd Hpos Hm) as (b' & Eb' & _ & _ & _ & Kb). rewrite Eb in Eb'. injection Eb' as <-.
  destruct (C70_quasi_optimal de svd x a eps m b db Hde Hs Wx Hd Hpos Hm Wb Rb Bb Fb) as (z & dz & Ez & Fz & B); [intros; now apply Kb|].
  exists z, dz. do 2 (split; [assumption|]). rewrite (ddist_0 x db Gb) in B. lra.
Qed.
Print Assumptions C70_exact.

(** ... and for a tensor that has a TT representation within the bounds. *)
Theorem C70_exact_low_rank : forall delta svd (x : rtensor) a eps m (b : rtt), (0 <= delta)%R -> svd_near delta svd -> wft x -> 2 <= length (shape x) ->
  Forall (fun n => 0 < n) (shape x) -> rank_limits false a eps (length (shape x)) m ->
  wf b -> rshape b = [shape x] -> bsz b = None -> full b = Ok x -> (forall k, 0 < k < length (shape x) -> rk b k <= m k) ->
  exists z dz, to_tt_tensor svd x a eps = Ok z /\ full z = Ok dz /\ (ddist x dz <= near_loss delta (length (shape x)) * dnorm x)%R.
Proof.
  intros de svd x a eps m b Hde Hs Wx Hd Hpos Hm Wb Rb Bb Fb Hk.
  destruct (C70_quasi_optimal de svd x a eps m b x Hde Hs Wx Hd Hpos Hm Wb Rb Bb Fb Hk) as (z & dz & Ez & Fz & B).
  exists z, dz. do 2 (split; [assumption|]). rewrite (ddist_0 x x) in B by auto. lra.
Qed.
Print Assumptions C70_exact_low_rank.

(** * to_tt_matrix *)
Theorem C70_matrix_error_bound : forall delta svd (mat : rtensor) s0 s1 a eps m n U s V, (0 <= delta)%R -> svd_near delta svd -> shape mat = [prodn s0; prodn s1] ->
  length s0 = length s1 -> 2 <= length s0 -> Forall (fun n => 0 < n) s0 -> Forall (fun n => 0 < n) s1 ->
  rank_limits false a eps (length s0) m ->
  (forall k, 0 < k < length s0 ->
     unfolding_svd [s0; s1] (fun i => [nth i s0 0; nth i s1 0]) (length s0) mat [] k (n k) (U k) (s k) (V k)) ->
  exists z dz, to_tt_matrix svd mat (Some s0) (Some s1) a eps = Ok z /\ wf z /\ rshape z = [s0; s1] /\ bsz z = None /\ full z = Ok dz /\
    (ddist mat dz <= sqrt (sum_cuts (length s0) (fun k => discarded (n k) (m k) (s k))) + near_loss delta (length s0) * dnorm mat)%R.
Proof. intros. now apply (near_mat_bound delta) with (U := U) (V := V). Qed.
Print Assumptions C70_matrix_error_bound.

Theorem C70_matrix_quasi_optimal : forall delta svd (mat : rtensor) s0 s1 a eps m (b : rtt) db, (0 <= delta)%R -> svd_near delta svd -> shape mat = [prodn s0; prodn s1] ->
  length s0 = length s1 -> 2 <= length s0 -> Forall (fun n => 0 < n) s0 -> Forall (fun n => 0 < n) s1 ->
  rank_limits false a eps (length s0) m ->
  wf b -> rshape b = [s0; s1] -> bsz b = None -> full b = Ok db -> (forall k, 0 < k < length s0 -> rk b k <= m k) ->
  exists z dz, to_tt_matrix svd mat (Some s0) (Some s1) a eps = Ok z /\ full z = Ok dz /\
    (ddist mat dz <= sqrt (INR (length s0 - 1)) * ddist mat db + near_loss delta (length s0) * dnorm mat)%R.
Proof.
  intros. destruct (near_mat_best delta H svd H0 mat s0 s1 a eps m H1 H2 H3 H4 H5 H6 b db) as (z & dz & Ez & _ & _ & _ & Fz & B); auto. now exists z, dz.
Qed.
Print Assumptions C70_matrix_quasi_optimal.

Theorem C70_matrix_exact : forall delta svd (mat : rtensor) s0 s1 a eps m, (0 <= delta)%R -> svd_near delta svd -> shape mat = [prodn s0; prodn s1] ->
  length s0 = length s1 -> 2 <= length s0 -> Forall (fun n => 0 < n) s0 -> Forall (fun n => 0 < n) s1 ->
  rank_limits false a eps (length s0) m ->
  (forall k, 0 < k < length s0 ->
     Nat.min (prodn (map (fun i => nth i s0 0 * nth i s1 0) (seq 0 k)))
             (prodn (map (fun i => nth i s0 0 * nth i s1 0) (seq k (length s0 - k)))) <= m k) ->
  exists z dz, to_tt_matrix svd mat (Some s0) (Some s1) a eps = Ok z /\ full z = Ok dz /\ (ddist mat dz <= near_loss delta (length s0) * dnorm mat)%R.
Proof.
  intros de svd mat s0 s1 a eps m Hde Hs Sm L01 Hd P0 P1 Hm Hk.
  destruct (C30_exact some_svd mat s0 s1 a eps m some_svd_ok Sm L01 Hd P0 P1 Hm Hk) as (b & db & Eb & Wb & Rb & Bb & Fb & Sb & Gb).
  destruct (C30_ranks some_svd mat s0 s1 a eps m some_svd_ok Sm L01 Hd P0 P1 Hm) as (b' & Eb' & _ & _ & _ & Kb). rewrite Eb in Eb'. injection Eb' as <-.
  destruct (C70_matrix_quasi_optimal de svd mat s0 s1 a eps m b db Hde Hs Sm L01 Hd P0 P1 Hm Wb Rb Bb Fb) as (z & dz & Ez & Fz & B); [intros; now apply Kb|].
  exists z, dz. do 2 (split; [assumption|]). rewrite (ddist_0 mat db Gb) in B. lra.
Qed.
Print Assumptions C70_matrix_exact.

(** Float32 rounding level, a routine that is not exact, a 2 x 3 x 2 tensor and TT-rank 1: within
    14 * 3 * sqrt(3) / 10^6 (relative) of sqrt(2) times the error of the exact TT-SVD. *)
Example C70_ex : exists svd x b db z dz, svd_near (/ 1000000) svd /\ ~ svd_ok svd /\ full (toR s_a) = Ok x /\ shape x = [2; 3; 2] /\
  to_tt_tensor some_svd x (RkNum 1) None = Ok b /\ full b = Ok db /\ to_tt_tensor svd x (RkNum 1) None = Ok z /\ full z = Ok dz /\
  (ddist x dz <= sqrt 2 * ddist x db + 42 * sqrt 3 / 1000000 * dnorm x)%R.
Proof.
  destruct (C70_near_svd_exists (/ 1000000) ltac:(lra)) as (svd & Hs & Hn).
  destruct (full_correct Rring (toR s_a) r_a_wf) as (x & F & W & S & _).
  assert (Sx : shape x = [2; 3; 2]) by (rewrite S; reflexivity).
  assert (P : Forall (fun n => 0 < n) (shape x)) by (rewrite Sx; repeat constructor; lia).
  assert (Hm : rank_limits false (RkNum 1) None (length (shape x)) (fun _ => 1)) by (split; [exact I|]; split; [lia|reflexivity]).
  assert (Hd : 2 <= length (shape x)) by (rewrite Sx; cbn; lia).
  destruct (C29_ranks some_svd x _ _ _ some_svd_ok W Hd P Hm) as (b & Eb & Wb & Rb & Bb & Kb).
  destruct (full_correct Rring b Wb) as (db & Fb & _).
  destruct (C70_quasi_optimal (/ 1000000) svd x _ _ _ b db ltac:(lra) Hs W Hd P Hm Wb Rb Bb Fb) as (z & dz & Ez & Fz & B); [intros; now apply Kb|].
  exists svd, x, b, db, z, dz. do 8 (split; [assumption|]). eapply Rle_trans; [exact B|]. rewrite Sx. cbn [length Nat.sub]. 
  change (INR 2) with 2%R. apply Rplus_le_compat_l. apply Rmult_le_compat_r; [apply sqrt_pos|].
  destruct (C70_loss_first_order (/ 1000000) 3 ltac:(lra) ltac:(lia) ltac:(cbn; lra)) as [_ L]. eapply Rle_trans; [exact L|]. apply Req_le. cbn. replace (1 + 1 + 1)%R with 3%R by ring. field.
Qed.
