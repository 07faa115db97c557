(** Proofs for C56: projections on tangent spaces, as functions of dense arrays. *)
From Coq Require Import String List Arith ZArith Lia Lra Bool Reals.
From Verif Require Import Scalar Tensor TensorLemmas Base Spec BaseLemmas Chain Ops FullProofs ResultLemmas Dense OpsR Decomp DecompSpec
  BatchOps Riem RiemSpec RiemBlock RiemProofs RiemThms RiemMatmul RiemFull RiemInner RiemMade TangentIntrinsic IntrinsicThms ValidProofs SliceProofs History ProgSpec.
Import ListNotations.
Local Open Scope nat_scope.
Local Notation get := (@get Rring).
Ltac req := match goal with |- @eq _ ?u ?v => change (@eq R u v) end.

Lemma shape_of (t : rtt) d : wf t -> full t = Ok d -> wft d /\ shape d = d_shape (rshape t) (bsz t).
Proof.
  intros Hw Fd. destruct (full_correct Rring t Hw) as (d' & F & W & S & _). rewrite Fd in F. apply Ok_inj in F. subst d'. split; [exact W|].
  rewrite S, get_shape_ishape. unfold bpre, ishape, d_shape, is_tt_matrix. f_equal.
  destruct (wf_kind Hw) as [E|E]; destruct (rshape t) as [|r [|c [|? ?]]]; try discriminate; reflexivity.
Qed.

Lemma axes_ndims t v : denotes t v -> axes v = ndims t.
Proof. intros (Hw & R & _). unfold axes. rewrite <- R. now apply rshape0_len. Qed.

Lemma d_shape_ishape (t : rtt) : wf t -> d_shape (rshape t) None = ishape t.
Proof.
  intros Hw. unfold ishape, d_shape, is_tt_matrix. destruct (wf_kind Hw) as [E|E]; destruct (rshape t) as [|r [|c [|? ?]]]; try discriminate; reflexivity.
Qed.
Lemma d_shape_pre ms B : d_shape ms B = pre_of B ++ d_shape ms None.
Proof. destruct B; reflexivity. Qed.

Lemma denotes_same t u x : denotes t x -> denotes u x -> same_full t u.
Proof. intros (_ & _ & _ & F & _) (_ & _ & _ & F' & _). exists (d_x x), (d_x x). auto. Qed.

Lemma exact_full t x : denotes t x -> d_batch x = None -> exact_ranks x -> full_tt_ranks t.
Proof.
  intros Dt Bx (u & Du & Fu & Ku). pose proof Dt as (Wt & Rt & Bt & _ & Kt). pose proof Du as (Wu & Ru & Bu & _).
  assert (RR : rshape t = rshape u) by congruence. assert (B1 : bsz t = None) by congruence. assert (B2 : bsz u = None) by congruence.
  pose proof (denotes_same u t x Du Dt) as HS. pose proof (nd_xy u t Wu Wt RR) as Ed.
  apply (full_of_ranks u t); auto. apply nth_ext with (d := 0) (d' := 0); [rewrite (wf_klen Wt), (wf_klen Wu); lia|].
  intros k Hk. rewrite (wf_klen Wt) in Hk. change (rk t k = rk u k).
  pose proof (rank_least u t Wu Wt RR B2 B1 HS Fu k ltac:(lia)). pose proof (Kt k ltac:(lia)). rewrite Ku in H0 by lia. lia.
Qed.

Lemma tangent_at_iff t x T : denotes t x -> d_batch x = None -> full_tt_ranks t -> (tangent_at x T <-> tangent t T).
Proof.
  intros Dt Bx Ft. split; [|intros H; exists t; auto]. intros (u & Du & Fu & H). pose proof Dt as (Wt & Rt & Bt & _). pose proof Du as (Wu & Ru & Bu & _).
  apply (tangent_iff u t T); auto; try congruence. exact (denotes_same u t x Du Dt).
Qed.

Lemma projections_denote t x p v B F dp : denotes t x -> projections v x B F -> wf p -> rshape p = rshape t -> bsz p = B -> full p = Ok dp ->
  (admissible t -> forall k, 0 < k < ndims t -> rk p k <= 2 * rk t k) ->
  (full_tt_ranks t -> forall o, vidx (pre_of B) o -> tangent t (fun i => get dp (o ++ i)) /\
     forall T, tangent t T -> isum (K := Rring) (ishape t) (fun i => get dp (o ++ i) * T i)%R = isum (K := Rring) (ishape t) (fun i => F o i * T i)%R) ->
  denotes p v.
Proof.
  intros Dt (Bx & Hd & HX & Mv & Bv & Kv & Wv & Sv & HP) Wp Rp Bp Fp Kp HT. pose proof (exact_full t x Dt Bx HX) as Ft. specialize (HT Ft).
  rewrite (axes_ndims t x Dt) in Hd. pose proof Dt as (Wt & Rt & Bt & _ & Kt). specialize (Kp (full_admissible t Wt Ft)).
  assert (Np : ndims p = ndims t) by (rewrite <- (rshape0_len Rring p Wp), <- (rshape0_len Rring t Wt); now rewrite Rp).
  split; [exact Wp|]. split; [congruence|]. split; [congruence|]. split.
  - rewrite Fp. f_equal. destruct (shape_of p dp Wp Fp) as [Wd Sd]. rewrite Rp, Rt, Bp in Sd. apply tensor_ext; [exact Wd|exact Wv|congruence|].
    intros i Hi. rewrite Sd, d_shape_pre in Hi. apply vidx_app_inv in Hi as (o & j & -> & Ho & Hj). destruct (HT o Ho) as [T1 T2]. destruct (HP o Ho) as [P1 P2].
    rewrite <- Rt, (d_shape_ishape t Wt) in Hj, P2.
    apply (proj_unique t (fun i => get dp (o ++ i)) (fun i => get (d_x v) (o ++ i))); auto.
    + apply (tangent_at_iff t x); auto.
    + intros T H. rewrite T2 by auto. symmetry. apply P2. apply (tangent_at_iff t x); auto.
  - intros k Hk. rewrite Kv. rewrite Np in Hk. pose proof (Kt k Hk). destruct (Nat.eq_dec k 0) as [->|]; [rewrite (wf_first Wp); rewrite (wf_first Wt) in H; lia|].
    destruct (Nat.eq_dec k (ndims t)) as [->|]; [rewrite <- Np, (wf_last Wp), Np; rewrite (wf_last Wt) in H; lia|]. specialize (Kp k ltac:(lia)). lia.
Qed.

Lemma project_means qr (t z : rtt) addr x y v : qr_ok qr -> denotes t x -> denotes z y -> d_modes y = d_modes x ->
  projections v x (d_batch y) (fun o i => get (d_x y) (o ++ i)) -> exists p, project qr z addr t = Ok (Proj p (Some addr)) /\ denotes p v.
Proof.
  intros Hq Dt Dz M HV. pose proof HV as (Bx & Hd & HX & _). pose proof (axes_ndims t x Dt) as Na. rewrite Na in Hd.
  pose proof Dt as (Wt & Rt & Bt & _ & Kt). pose proof Dz as (Wz & Rz & Bz & Fz & _). rewrite Bx in Bt. assert (Rzt : rshape z = rshape t) by congruence.
  destruct (project_dense qr z t addr Hq Wt Bt Hd Wz Rzt) as (l & r & p & dp & dz & Ef & HF & Ep & Wp & Rp & Bp & Kp & Fp & Fz' & _).
  exists p. split; [exact Ep|]. apply (projections_denote t x p v (d_batch y) _ dp Dt HV); auto; [congruence| |].
  - intros HA k Hk. rewrite Kp by auto. rewrite (adm_l t l r Wt HF Hd HA), (adm_r t l r Wt HF Hd HA) by lia. lia.
  - intros Ft o Ho. destruct (c43_tangent qr t addr Hq Wt Bt Hd z Ft Wz Rzt) as (p' & dp' & dz' & Ep' & Fp' & Fz2 & H).
    assert (p' = p) by congruence. subst p'. assert (dp' = dp) by congruence. assert (dz' = d_x y) by congruence. subst dp' dz'. rewrite Bz in H. now apply H.
Qed.

Lemma tangent_sum (t : rtt) n (T : nat -> list nat -> R) : wf t -> 2 <= ndims t -> (forall s, s < n -> tangent t (T s)) -> forall c : nat -> R,
  tangent t (fun i => sumn (K := Rring) n (fun s => c s * T s i)%R).
Proof.
  intros Ht Hd. induction n as [|n IH]; intros H c.
  - set (T0 := fun i => sumn (K := Rring) (ndims t) (fun m => chain (K := Rring) (fun k => if Nat.eqb k m then fun _ _ _ => 0%R else coreG t [] k) (rk t) 0 (split_idx t i) (fun _ => 1%R) 0)).
    assert (H0 : tangent t T0) by (exists (fun _ _ _ _ => 0%R); reflexivity).
    pose proof (tangent_lin t Ht Hd _ _ 0%R 0%R H0 H0) as (D & HD). exists D. intros i Hi. rewrite <- HD by auto. cbn [sumn c0 Rring]. req. ring.
  - pose proof (tangent_lin t Ht Hd _ _ 1%R (c n) (IH ltac:(intros; apply H; lia) c) (H n ltac:(lia))) as (D & HD). exists D. intros i Hi.
    rewrite <- HD by auto. cbn [sumn]. change (@cadd Rring) with Rplus. now rewrite Rmult_1_l.
Qed.

Lemma isum_weighted sh n (c : nat -> R) (f : nat -> list nat -> R) T : isum (K := Rring) sh (fun i => sumn (K := Rring) n (fun s => c s * f s i) * T i)%R =
  sumn (K := Rring) n (fun s => c s * isum (K := Rring) sh (fun i => f s i * T i))%R.
Proof.
  induction n as [|n IH].
  - cbn [sumn]. apply (isum_zero Rring). intros i Hi. apply Rmult_0_l.
  - cbn [sumn]. etransitivity; [|apply f_equal2; [exact IH|apply (isum_mul_l Rring)]]. etransitivity; [|apply (isum_add Rring)].
    apply (isum_ext Rring). intros i Hi. cbn [cadd cmul Rring]. req. ring.
Qed.

Lemma project_sum_means qr (t z : rtt) addr x y v N ws : qr_ok qr -> denotes t x -> denotes z y -> d_modes y = d_modes x ->
  match ws with
  | None => N = None
  | Some w => (shape w = [count y] /\ N = None) \/ (exists n, 1 < n /\ shape w = [count y; n] /\ N = Some n)
  end ->
  projections v x N (fun o i => sumn (K := Rring) (count y) (fun s => match ws with Some w => get w (s :: o) | None => 1 end * array y s i)%R) ->
  exists p, project_sum qr z addr t ws = Ok (Proj p (Some addr)) /\ denotes p v.
Proof.
  intros Hq Dt Dz M HN HV. pose proof HV as (Bx & Hd & HX & _). pose proof (axes_ndims t x Dt) as Na. rewrite Na in Hd.
  pose proof Dt as (Wt & Rt & Bt & _ & Kt). pose proof Dz as (Wz & Rz & Bz & Fz & _). rewrite Bx in Bt. assert (Rzt : rshape z = rshape t) by congruence.
  assert (Hw : good_weights (match bsz z with Some b => b | None => 1 end) ws).
  { unfold good_weights. rewrite Bz. fold (count y). destruct ws as [w|]; [|exact I]. destruct HN as [[H _]|(n & Hn & H & _)]; eauto. }
  assert (EN : wsize ws = N).
  { unfold wsize. destruct ws as [w|]; [|auto]. destruct HN as [[H ->]|(n & Hn & H & ->)]; rewrite H; [reflexivity|]. destruct (Nat.ltb_spec 1 n); [reflexivity|lia]. }
  destruct (project_dense qr z t addr Hq Wt Bt Hd Wz Rzt) as (l & r & p & dp & dz & Ef & HF & Ep & Wp & Rp & Bp & Kp & Fp & Fz' & _).
  destruct (c44_sum qr z t addr ws Hq Wt Bt Hd Wz Rzt Hw) as (p' & q & dp' & dq & Ep' & Eq & Wq & Rq & Bq & Kq & Fp' & Fq & V).
  assert (p' = p) by congruence. subst p'. assert (dp' = dp) by congruence. subst dp'. rewrite EN in Bq, V. rewrite Bz in V. fold (count y) in V.
  exists q. split; [exact Eq|]. apply (projections_denote t x q v N _ dq Dt HV); auto.
  - intros HA k Hk. unfold rk at 1. rewrite Kq. change (rk p k <= 2 * rk t k). rewrite Kp by auto. rewrite (adm_l t l r Wt HF Hd HA), (adm_r t l r Wt HF Hd HA) by lia. lia.
  - intros Ft o Ho. destruct (c43_tangent qr t addr Hq Wt Bt Hd z Ft Wz Rzt) as (p' & dp' & dz' & Ep2 & Fp2 & Fz2 & H).
    assert (p' = p) by congruence. subst p'. assert (dp' = dp) by congruence. assert (dz' = d_x y) by congruence. subst dp' dz'. rewrite Bz in H.
    set (el := fun s : nat => match d_batch y with Some _ => [s] | None => [] end) in *.
    assert (Hel : forall s, s < count y -> vidx (pre_of (d_batch y)) (el s)).
    { intros s Hs. unfold el, count in *. destruct (d_batch y); cbn; [constructor; [exact Hs|constructor]|constructor]. }
    split.
    + destruct (tangent_sum t (count y) (fun s i => get dp (el s ++ i)) Wt Hd) with (c := fun s => wcoef ws s o) as (D & HD); [intros s Hs; now apply H, Hel|].
      exists D. intros i Hi. rewrite V by auto. now apply HD.
    + intros T HT. transitivity (isum (K := Rring) (ishape t) (fun i => sumn (K := Rring) (count y) (fun s => wcoef ws s o * get dp (el s ++ i)) * T i)%R).
      * apply (isum_ext Rring). intros i Hi. now rewrite V by auto.
      * etransitivity; [apply (isum_weighted (ishape t) (count y) (fun s => wcoef ws s o) (fun s i => get dp (el s ++ i)))|].
        etransitivity; [|symmetry; apply (isum_weighted (ishape t) (count y) (fun s => match ws with Some w => get w (s :: o) | None => 1%R end) (array y))].
        apply (sumn_ext Rring). intros s Hs. apply f_equal2; [unfold wcoef; destruct ws; reflexivity|]. exact (proj2 (H (el s) (Hel s Hs)) T HT).
Qed.

Lemma project_matmul_means qr (t z m : rtt) addr x y w v B rows cols : qr_ok qr -> denotes t x -> denotes z y -> denotes m w ->
  d_modes x = [rows; cols] -> d_modes y = [rows; cols] -> d_batch y = Some B -> d_modes w = [rows; rows] -> d_batch w = None ->
  projections v x (Some B) (fun o i => sumn (K := Rring) (prodn rows) (fun k => get (d_x w) [hd 0%nat i; k] * get (d_x y) (o ++ k :: tl i))%R) ->
  exists p, project_matmul qr z addr t m = Ok (Proj p (Some addr)) /\ denotes p v.
Proof.
  intros Hq Dt Dz Dm Mx My By Mw Bw HV. pose proof HV as (Bx & Hd & HX & _). pose proof (axes_ndims t x Dt) as Na. rewrite Na in Hd.
  pose proof Dt as (Wt & Rt & Bt & _ & Kt). pose proof Dz as (Wz & Rz & Bz & Fz & _). pose proof Dm as (Wm & Rm & Bm & Fm & _).
  rewrite Bx in Bt. rewrite By in Bz. rewrite Bw in Bm. assert (Rzt : rshape z = rshape t) by congruence.
  assert (Kx : is_tt_matrix t = true) by (unfold is_tt_matrix; rewrite Rt, Mx; reflexivity).
  assert (E0 : nth 0 (rshape t) [] = rows) by (rewrite Rt, Mx; reflexivity).
  assert (Rmt : rshape m = [nth 0 (rshape t) []; nth 0 (rshape t) []]) by (rewrite E0; congruence).
  destruct (project_matmul_ok qr z t m addr B Hq Wt Bt Hd Kx Wz Bz Rzt Wm Bm Rmt) as (l & r & p & Ef & HF & Ep & HP).
  pose proof HP as (F1 & (Wp & Rp & Bp & Np & Kp & _) & _). destruct (dense p Wp) as (dp & Fp & Sp & Vp). rewrite (same_ishape p t Rp), Bp in *.
  exists p. split; [exact Ep|]. apply (projections_denote t x p v (Some B) _ dp Dt HV); auto.
  - intros HA k Hk. rewrite Kp by lia. unfold brank. destruct (Nat.eqb_spec k 0); [lia|]. destruct (Nat.eqb_spec k (ndims t)); [lia|].
    rewrite (adm_l t l r Wt HF Hd HA), (adm_r t l r Wt HF Hd HA) by lia. lia.
  - intros Ft o Ho.
    assert (V : forall i, vidx (ishape t) i -> get dp (o ++ i) = fproj t l r (mm_entry m z o) (split_idx t i)).
    { intros i Hi. rewrite Vp by auto. rewrite (same_split p t i Rp). apply (projection_entry t l r HF Hd (Some B) _ p o (split_idx t i) HP); auto. now apply split_vJ. }
    split.
    + destruct (fp_tangent t l r Wt HF Hd (mm_entry m z o) Ft Bt) as (D & HD). exists D. intros i Hi. rewrite V by auto. now apply HD.
    + intros T HT. etransitivity; [apply (isum_ext Rring); intros i Hi; rewrite V by auto; reflexivity|].
      etransitivity; [apply (fp_inner t l r Wt HF Hd (mm_entry m z o) T Ft Bt HT)|].
      apply (isum_ext Rring). intros i Hi. pose proof Hi as Hi'. unfold ishape in Hi'. rewrite Kx in Hi'. apply vidx_2_inv in Hi' as (a & b & -> & Ha & Hb).
      rewrite (mm_dense m z t (d_x w) (d_x y)) by (auto; now rewrite Bz). rewrite E0. reflexivity.
Qed.
