(** C72: round with inexact QR and singular value decompositions.  [qr] and [svd] are any routines that are
    backward stable with relative error [delta] ([qr_near], QRNearSpec.v, and [svd_near], NearSpec.v); the rest
    of the arithmetic is exact.  [cores_norm t p] is the product of the Frobenius norms of the cores, the
    scale of the error. *)
From Coq Require Import String List Arith ZArith Lia Lra Bool Reals.
From Verif Require Import Scalar Tensor TensorLemmas Base Spec BaseLemmas Ops FullProofs ResultLemmas Dense FlatProofs NormProofs OpsR
  Decomp DecompSpec OrthProofs OrthNorm QRExists RoundProofs SvdSpec RoundThms RankArgs SvdExists Samples FMat NearChain NearTrain NearSpec QRNearSpec QRNear RoundNearSpec RoundNear
  Properties_Decomp Properties_Svd Properties_Near Properties_QRNear.
Import ListNotations.
Local Open Scope nat_scope.
Local Notation get := (@get Rring).

(** * The loss *)
(** Of first order in [delta], with a factor that is polynomial in the number of cores. *)
Theorem C72_loss_first_order : forall delta d, (0 <= delta)%R -> 2 <= d -> (9 * INR d * delta <= 1)%R ->
  (0 <= round_loss delta d <= 56 * INR d * sqrt (INR d) * delta)%R.
Proof.
  intros de d Hde Hd HB. set (e2 := ((1 + de) * (1 + de) - 1)%R).
  assert (D1 : (2 <= INR d)%R) by (change 2%R with (INR 2); now apply le_INR).
  assert (E1 : (de <= 1 / 18)%R) by nra. assert (E2 : (0 <= e2 <= 3 * de)%R) by (unfold e2; split; nra).
  destruct (C70_loss_first_order e2 d ltac:(lra) Hd ltac:(nra)) as [N0 N1].
  assert (DM : (INR (d - 1) <= INR d)%R) by (apply le_INR; lia). pose proof (pos_INR (d - 1)) as DP.
  destruct (C71_first_order de (d - 1) Hde ltac:(nra)) as [P0 P1].
  assert (A3 : (sqrt (INR (d - 1)) <= sqrt (INR d))%R) by (apply sqrt_le_1_alt, le_INR; lia).
  assert (A4 : (1 <= sqrt (INR d))%R) by (rewrite <- sqrt_1; apply sqrt_le_1_alt; lra).
  assert (A5 : (0 <= sqrt (INR (d - 1)))%R) by apply sqrt_pos.
  unfold round_loss. fold e2. set (h := ((1 + de) ^ (d - 1) - 1)%R) in *. replace ((1 + de) ^ (d - 1))%R with (1 + h)%R by (unfold h; ring).
  assert (H1 : (h <= 2 * INR d * de)%R) by nra. assert (H2 : (h <= 2 / 9)%R) by nra.
  assert (N2 : (near_loss e2 d <= 42 * (INR d * sqrt (INR d) * de))%R).
  { eapply Rle_trans; [exact N1|]. replace (42 * (INR d * sqrt (INR d) * de))%R with (14 * INR d * sqrt (INR d) * (3 * de))%R by ring.
    apply Rmult_le_compat_l; [|lra]. apply Rmult_le_pos; lra. }
  set (w := (INR d * sqrt (INR d) * de)%R) in *. assert (W0 : (0 <= w)%R) by (unfold w; apply Rmult_le_pos; [apply Rmult_le_pos; lra|lra]).
  assert (H3 : (sqrt (INR d) * h <= 2 * w)%R) by (unfold w; apply Rle_trans with (sqrt (INR d) * (2 * INR d * de))%R; [apply Rmult_le_compat_l; lra|apply Req_le; ring]).
  assert (H4 : (sqrt (INR (d - 1)) * h <= sqrt (INR d) * h)%R) by (apply Rmult_le_compat_r; lra).
  assert (H5 : (1 * h <= sqrt (INR d) * h)%R) by (apply Rmult_le_compat_r; lra).
  assert (H6 : (near_loss e2 d * (1 + h) <= 42 * w * (1 + 2 / 9))%R) by (apply Rmult_le_compat; lra).
  assert (H7 : (0 <= near_loss e2 d * (1 + h))%R) by (apply Rmult_le_pos; lra).
  assert (H8 : (0 <= sqrt (INR (d - 1)) * h)%R) by (apply Rmult_le_pos; lra).
  replace (56 * INR d * sqrt (INR d) * de)%R with (56 * w)%R by (unfold w; ring). split; lra.
Qed.
Print Assumptions C72_loss_first_order.

(** With [delta] = 0 nothing is lost: the bounds below are those of C31 and C32. *)
Theorem C72_loss_0 : forall d, round_loss 0 d = 0%R.
Proof. intros d. unfold round_loss. replace ((1 + 0) * (1 + 0) - 1)%R with 0%R by ring. rewrite C70_loss_0, Rplus_0_r, pow1. ring. Qed.
Print Assumptions C72_loss_0.

(** * round *)
(** Nothing depends on the quality of the routines in the shape and in the TT-ranks: [q] are the ranks after
    the orthogonalization, left to right; then, right to left, the rank at cut k is the least of the limit,
    [q k] and what is left of the cores to the right. *)
Theorem C72_ranks : forall delta qr svd (t : rtt) a eps m, (0 <= delta)%R -> qr_near delta qr -> svd_near delta svd -> wf t ->
  rank_limits (is_batch t) a eps (ndims t) m ->
  exists z q, round qr svd t a eps = Ok z /\ wf z /\ rshape z = rshape t /\ bsz z = bsz t /\ q 0 = 1 /\
    (forall k, S k < ndims t -> q (S k) = Nat.min (q k * prodn (modes t k)) (rk t (S k))) /\
    (forall k, 0 < k < ndims t -> rk z k = Nat.min (m k) (Nat.min (q k) (prodn (modes t k) * rk z (S k)))) /\ rk z (ndims t) = 1.
Proof.
  intros de qr svd t a eps m Hde Hq Hs Hw Hm. pose proof (wf_d Hw). destruct (limits_parse _ _ _ _ _ Hm ltac:(lia)) as (mr & Hp & Hn).
  destruct (round_near de Hde qr Hq svd Hs t a eps mr Hw Hp) as (z & dt & dz & Ez & Wz & Rz & Bz & Dz & _ & _ & (q & Q0 & Q1 & Q2) & _).
  exists z, q. do 6 (split; [assumption|]). split; [intros k Hk; rewrite <- Hn by lia; now apply Q2|]. pose proof (wf_last Wz). unfold rk. now rewrite <- Dz.
Qed.
Print Assumptions C72_ranks.

(** The error, for every element [p] of a batch: what an exact truncation of the unfoldings discards, and
    the loss. *)
Theorem C72_error_bound : forall delta qr svd (t : rtt) dt a eps m n U s V p, (0 <= delta)%R -> qr_near delta qr -> svd_near delta svd -> wf t ->
  rank_limits (is_batch t) a eps (ndims t) m -> full t = Ok dt -> vidx (bpre t) p ->
  (forall k, 0 < k < ndims t -> unfolding_svd (rshape t) (modes t) (ndims t) dt p k (n k) (U k) (s k) (V k)) ->
  exists z dz, round qr svd t a eps = Ok z /\ full z = Ok dz /\
    (dist_at (ishape t) dt dz p <= sqrt (sum_cuts (ndims t) (fun k => discarded (n k) (m k) (s k))) + round_loss delta (ndims t) * cores_norm t p)%R.
Proof.
  intros de qr svd t dt a eps m n U s V p Hde Hq Hs Hw Hm Fd Vp HU. pose proof (wf_d Hw). destruct (limits_parse _ _ _ _ _ Hm ltac:(lia)) as (mr & Hp & Hn).
  destruct (round_near_svd de Hde qr Hq svd Hs t dt a eps mr n U s V p Hw Hp Fd Vp HU) as (z & dz & Ez & Fz & B). exists z, dz. do 2 (split; [assumption|]).
  replace (sum_cuts _ (fun k => discarded (n k) (m k) (s k))) with (sum_cuts (ndims t) (fun k => discarded (n k) (nth k mr 0) (s k))); [exact B|].
  unfold sum_cuts. apply (rsum_ext (ndims t - 1)). intros i Hi. rewrite Hn by lia. reflexivity.
Qed.
Print Assumptions C72_error_bound.

(** Compared with any TT object [b] within the limits. *)
Theorem C72_quasi_optimal : forall delta qr svd (t b : rtt) dt db a eps m, (0 <= delta)%R -> qr_near delta qr -> svd_near delta svd -> wf t ->
  rank_limits (is_batch t) a eps (ndims t) m -> wf b -> rshape b = rshape t -> bsz b = bsz t ->
  (forall k, 0 < k < ndims t -> rk b k <= m k) -> full t = Ok dt -> full b = Ok db ->
  exists z dz, round qr svd t a eps = Ok z /\ full z = Ok dz /\
    forall p, vidx (bpre t) p ->
    (dist_at (ishape t) dt dz p <= sqrt (INR (ndims t - 1)) * dist_at (ishape t) dt db p + round_loss delta (ndims t) * cores_norm t p)%R.
Proof.
  intros de qr svd t b dt db a eps m Hde Hq Hs Hw Hm Wb Rb Bb Hk Ft Fb. pose proof (wf_d Hw). destruct (limits_parse _ _ _ _ _ Hm ltac:(lia)) as (mr & Hp & Hn).
  destruct (round_near_best de Hde qr Hq svd Hs t b db a eps mr Hw Hp Wb Rb Bb Fb ltac:(intros k Hk'; rewrite Hn by lia; auto)) as (z & dt' & dz & Ez & Ft' & Fz & B).
  assert (dt' = dt) by congruence. subst dt'. now exists z, dz.
Qed.
Print Assumptions C72_quasi_optimal.

Lemma dist_at_0 sh (x y : rtensor) p : (forall i, vidx sh i -> get y (p ++ i) = get x (p ++ i)) -> dist_at sh x y p = 0%R.
Proof.
  intros H. unfold dist_at, sq_dist. rewrite <- sqrt_0. f_equal. apply (isum_zero Rring). intros i Hi.
  rewrite H by auto. change (@eq R ((get x (p ++ i) - get x (p ++ i)) * (get x (p ++ i) - get x (p ++ i))) 0)%R. ring.
Qed.

(** An object whose array has a TT representation [b] within the limits loses only that ... *)
Theorem C72_exact_low_rank : forall delta qr svd (t b : rtt) a eps m, (0 <= delta)%R -> qr_near delta qr -> svd_near delta svd -> wf t ->
  rank_limits (is_batch t) a eps (ndims t) m -> wf b -> rshape b = rshape t -> bsz b = bsz t ->
  (forall k, 0 < k < ndims t -> rk b k <= m k) -> same_full t b ->
  exists z dt dz, round qr svd t a eps = Ok z /\ full t = Ok dt /\ full z = Ok dz /\
    forall p, vidx (bpre t) p -> (dist_at (ishape t) dt dz p <= round_loss delta (ndims t) * cores_norm t p)%R.
Proof.
  intros de qr svd t b a eps m Hde Hq Hs Hw Hm Wb Rb Bb Hk (dt & db & Ft & Fb & Sb & Gb).
  destruct (C72_quasi_optimal de qr svd t b dt db a eps m Hde Hq Hs Hw Hm Wb Rb Bb Hk Ft Fb) as (z & dz & Ez & Fz & B).
  exists z, dt, dz. do 3 (split; [assumption|]). intros p Vp. specialize (B p Vp). rewrite (dist_at_0 (ishape t) dt db p), Rmult_0_r, Rplus_0_l in B; [exact B|].
  destruct (full_correct Rring t Hw) as (dt' & Ft' & _ & St & _). rewrite Ft in Ft'. injection Ft' as <-. rewrite get_shape_ishape in St.
  intros i Hi. symmetry. apply Gb. rewrite St. now apply vidx_app.
Qed.
Print Assumptions C72_exact_low_rank.

(** ... in particular when the limits are those of the object itself. *)
Theorem C72_exact : forall delta qr svd (t : rtt) a eps m, (0 <= delta)%R -> qr_near delta qr -> svd_near delta svd -> wf t ->
  rank_limits (is_batch t) a eps (ndims t) m -> (forall k, 0 < k < ndims t -> rk t k <= m k) ->
  exists z dt dz, round qr svd t a eps = Ok z /\ full t = Ok dt /\ full z = Ok dz /\
    forall p, vidx (bpre t) p -> (dist_at (ishape t) dt dz p <= round_loss delta (ndims t) * cores_norm t p)%R.
Proof.
  intros de qr svd t a eps m Hde Hq Hs Hw Hm Hk. apply (C72_exact_low_rank de qr svd t t a eps m); auto.
  destruct (full_correct Rring t Hw) as (dt & Ft & _). exists dt, dt. auto.
Qed.
Print Assumptions C72_exact.

(** There is no bound relative to the norm of the tensor: the sum 1 * 1 + 1 * (-1) written as a TT-tensor with
    one element, TT-rank 2, is 0; rounded to TT-rank 2, which needs no truncation, with an exact singular
    value decomposition and a QR decomposition whose only fault is one factor 1 + [delta], it is [delta].
    (The singular value decomposition is one that can be computed for 1 x 1 matrices.) *)
Definition sgn1 (v : R) : R := if Rle_dec 0 v then 1%R else (-1)%R.
Definition one_svd (x : rtensor) : rtensor * rtensor * rtensor :=
  match shape x with
  | [1; 1] => (Tensor (K := Rring) [1] [Rabs (nth 0 (data x) 0%R)], Tensor (K := Rring) [1; 1] [sgn1 (nth 0 (data x) 0%R)], Tensor (K := Rring) [1; 1] [1%R])
  | _ => some_svd x
  end.
Lemma one_svd_ok : svd_ok one_svd.
Proof.
  intros pre m n x Wx Sx Px. pose proof (some_svd_ok pre m n x Wx Sx Px) as N0.
  destruct (list_eq_dec Nat.eq_dec (shape x) [1; 1]) as [E|E].
  - assert (pre = [] /\ m = 1 /\ n = 1) as (-> & -> & ->).
    { rewrite E in Sx. destruct pre as [|a [|b [|c pre]]]; cbn in Sx; injection Sx; intros; subst; auto; discriminate. }
    destruct x as [sh D]. cbn in E. subst sh. unfold one_svd. cbn -[Rabs sgn1].
    assert (L : length D = 1) by exact Wx. destruct D as [|u [|v ?]]; try discriminate L. clear N0. cbn [nth].
    do 6 (split; [reflexivity|]). intros p Hp. inversion Hp; subst. cbn [app].
    assert (A : (sgn1 u * Rabs u = u)%R) by (unfold sgn1; destruct (Rle_dec 0 u); [rewrite Rabs_pos_eq by lra; ring|rewrite Rabs_left by lra; ring]).
    assert (B : (sgn1 u * sgn1 u = 1)%R) by (unfold sgn1; destruct (Rle_dec 0 u); ring).
    split; [|split; [|split; [|split]]].
    + intros i j Hi Hj. assert (i = 0) by lia. assert (j = 0) by lia. subst. change (u = 0 + sgn1 u * Rabs u * 1)%R. lra.
    + intros a b Ha Hb. assert (a = 0) by lia. assert (b = 0) by lia. subst. change (0 + sgn1 u * sgn1 u = 1)%R. lra.
    + intros a b Ha Hb. assert (a = 0) by lia. assert (b = 0) by lia. subst. change (0 + 1 * 1 = 1)%R. lra.
    + intros a Ha. assert (a = 0) by lia. subst. apply Rabs_pos.
    + intros a b Hab Hb. assert (a = 0) by lia. assert (b = 0) by lia. subst. apply Rle_refl.
  - assert (EQ : one_svd x = some_svd x).
    { unfold one_svd. destruct (shape x) as [|[|[|?]] [|[|[|?]] [|? ?]]]; try reflexivity. now destruct E. }
    rewrite EQ. exact N0.
Qed.

Theorem C72_relative_error_refuted : forall delta, (0 < delta)%R -> exists qr svd t z dt dz, qr_near delta qr /\ svd_ok svd /\ wf t /\ (forall k, rk t k <= 2) /\
  round qr svd t (RkNum 2) None = Ok z /\ full t = Ok dt /\ full z = Ok dz /\ norm_at (ishape t) dt [] = 0%R /\ norm_at (ishape t) dz [] = delta.
Proof.
  intros de Hde. destruct C27_qr_exists as [qr0 H0].
  exists (bent_qr de qr0), one_svd, zero_sum. do 3 eexists. split; [apply bent_near; [lra|exact H0]|]. split; [exact one_svd_ok|].
  split; [apply wfb_wf; vm_compute; reflexivity|]. split; [intros [|[|[|[|k]]]]; cbn; lia|].
  split; [lazy -[sqrt IZR Rplus Rmult Rminus Ropp Rabs sgn1]; reflexivity|].
  split; [lazy -[sqrt IZR Rplus Rmult Rminus Ropp Rabs sgn1]; reflexivity|].
  split; [lazy -[sqrt IZR Rplus Rmult Rminus Ropp Rabs sgn1]; reflexivity|].
  split; lazy -[sqrt IZR Rplus Rmult Rminus Ropp Rabs sgn1].
  - replace (0 + (0 + (0 + 1 * 1 + 1 * -1) * (0 + 1 * 1 + 1 * -1)))%R with 0%R by ring. apply sqrt_0.
  - replace (0 + (1 + de) * 1 * 1 + 1 * -1)%R with de by ring. rewrite (Rabs_pos_eq de) by lra. unfold sgn1. destruct (Rle_dec 0 de); [|lra].
    match goal with |- sqrt ?x = _ => replace x with (de * de)%R by ring end. apply sqrt_square. lra.
Qed.
Print Assumptions C72_relative_error_refuted.

(** Float32 rounding level, routines that are not exact, a 2 x 3 x 2 tensor and TT-rank 1: within
    56 * 3 * sqrt(3) / 10^6 (relative to the product of the norms of the cores) of sqrt(2) times the error of
    the exact rounding. *)
Example C72_ex : exists qr svd dt b db z dz, qr_near (/ 1000000) qr /\ ~ qr_ok qr /\ svd_near (/ 1000000) svd /\ ~ svd_ok svd /\ full (toR s_a) = Ok dt /\
  round gram_schmidt some_svd (toR s_a) (RkNum 1) None = Ok b /\ full b = Ok db /\ round qr svd (toR s_a) (RkNum 1) None = Ok z /\ full z = Ok dz /\
  (dist_at [2; 3; 2]%nat dt dz [] <= sqrt 2 * dist_at [2; 3; 2]%nat dt db [] + 168 * sqrt 3 / 1000000 * cores_norm (toR s_a) [])%R.
Proof.
  destruct (C70_near_svd_exists (/ 1000000) ltac:(lra)) as (svd & Hs & Hn).
  destruct (C71_near_qr_exists (/ 1000000) ltac:(lra)) as (qr & Hq & Hnq).
  destruct (full_correct Rring (toR s_a) r_a_wf) as (dt & F & W & S & _).
  assert (Hm : rank_limits (is_batch (toR s_a)) (RkNum 1) None (ndims (toR s_a)) (fun _ => 1)) by (split; [exact I|]; split; [lia|reflexivity]).
  destruct (C31_round_ranks gram_schmidt some_svd (toR s_a) _ _ _ gram_schmidt_ok some_svd_ok r_a_wf Hm) as (b & Eb & Wb & Rb & Bb & _ & Kb).
  destruct (full_correct Rring b Wb) as (db & Fb & _).
  destruct (C72_quasi_optimal (/ 1000000) qr svd (toR s_a) b dt db _ _ _ ltac:(lra) Hq Hs r_a_wf Hm Wb Rb Bb) as (z & dz & Ez & Fz & B); auto; [intros; now apply Kb|].
  exists qr, svd, dt, b, db, z, dz. do 9 (split; [assumption|]). specialize (B [] ltac:(constructor)).
  change (ishape (toR s_a)) with [2; 3; 2] in B. change (ndims (toR s_a)) with 3 in B. cbn [Nat.sub] in B. change (INR 2) with 2%R in B.
  eapply Rle_trans; [exact B|]. apply Rplus_le_compat_l.
  apply Rmult_le_compat_r; [rewrite cores_norm_rprod; apply rprod_nonneg; intros; apply gnorm_nonneg|].
  destruct (C72_loss_first_order (/ 1000000) 3 ltac:(lra) ltac:(lia) ltac:(cbn; lra)) as [_ L]. eapply Rle_trans; [exact L|]. apply Req_le. cbn. replace (1 + 1 + 1)%R with 3%R by ring. field.
Qed.
