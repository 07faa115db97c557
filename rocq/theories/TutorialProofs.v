From Coq Require Import String List Arith ZArith Lia Lra Bool Reals.
From Verif Require Import Scalar Tensor TensorLemmas TensorLemmas2 Base Spec Chain BaseLemmas Ops FullProofs ResultLemmas Dense
  OpsR ScaleProofs Decomp DecompSpec RoundProofs RoundThms SvdSpec Riem RiemSpec RiemProofs TangentSpace RiemFull Vars VarSpec VarProofs Tutorial TutorialSpec.
Import ListNotations.
Local Open Scope nat_scope.
Local Notation get := (@get Rring).

Lemma dense_at (t : rtt) : wf t -> bsz t = None -> exists d, full t = Ok d /\ shape d = ishape t /\ forall i, vidx (ishape t) i -> get d i = tt_at t i.
Proof.
  intros W B. destruct (dense t W) as (d & F & Sd & V). exists d. rewrite B in *. split; [exact F|]. split; [exact Sd|].
  intros i Hi. specialize (V [] i ltac:(apply vidx_nil) Hi). unfold tt_at. now rewrite B.
Qed.
Local Ltac req := match goal with |- @eq _ ?u ?v => change (@eq R u v) end.

(** ** Ranks of a rounded object *)
Lemma round_reaches qr svd (t : rtt) a eps mr (r : nat -> nat) : qr_ok qr -> svd_ok svd -> wf t ->
  parse_ranks (is_batch t) a eps (ndims t) = Ok mr -> r 0 = 1 -> r (ndims t) = 1 ->
  (forall k, 0 < k < ndims t -> nth k mr 0 = r k /\ r k <= rk t k /\ r k <= r (k - 1) * prodn (modes t (k - 1)) /\ r k <= prodn (modes t k) * r (S k)) ->
  exists z, round qr svd t a eps = Ok z /\ wf z /\ rshape z = rshape t /\ bsz z = bsz t /\ ndims z = ndims t /\ forall k, k <= ndims t -> rk z k = r k.
Proof.
  intros Hq Hs Hw Hp R0 Rd Hr. destruct (round_ok_ranks qr svd t a eps mr Hq Hs Hw Hp) as (z & Ez & Wz & Rz & Bz & Dz & (q & Q0 & Q1 & Q2) & _).
  exists z. do 5 (split; [assumption|]).
  assert (HQ : forall k, k < ndims t -> r k <= q k).
  { induction k as [|k IH]; intros Hk; [lia|]. rewrite Q1 by auto. destruct (Hr (S k) ltac:(lia)) as (_ & H1 & H2 & _).
    rewrite Nat.sub_succ, Nat.sub_0_r in H2. specialize (IH ltac:(lia)). nia. }
  assert (HD : forall n, n <= ndims t -> rk z (ndims t - n) = r (ndims t - n)).
  { induction n as [|n IH]; intros Hn.
    - rewrite Nat.sub_0_r, Rd, <- Dz. apply (wf_last Wz).
    - destruct (Nat.eq_dec (S n) (ndims t)) as [E|Hne]; [rewrite E, Nat.sub_diag, R0; apply (wf_first Wz)|].
      specialize (IH ltac:(lia)). rewrite Q2 by lia. replace (S (ndims t - S n)) with (ndims t - n) by lia. rewrite IH.
      destruct (Hr (ndims t - S n) ltac:(lia)) as (H1 & _ & _ & H2). replace (S (ndims t - S n)) with (ndims t - n) in H2 by lia.
      specialize (HQ (ndims t - S n) ltac:(lia)). rewrite H1. lia. }
  intros k Hk. replace k with (ndims t - (ndims t - k)) by lia. apply HD. lia.
Qed.

(** No more than the sizes to the left and to the right allow. *)
Lemma round_small qr svd (t : rtt) a eps mr : qr_ok qr -> svd_ok svd -> wf t ->
  parse_ranks (is_batch t) a eps (ndims t) = Ok mr ->
  exists z, round qr svd t a eps = Ok z /\ wf z /\ rshape z = rshape t /\ bsz z = bsz t /\ ndims z = ndims t /\
    forall k, 0 < k < ndims t -> rk z k <= prodn (map (fun j => prodn (modes t j)) (seq 0 k)) /\ rk z k <= prodn (map (fun j => prodn (modes t j)) (seq k (ndims t - k))).
Proof.
  intros Hq Hs Hw Hp. destruct (round_ok_ranks qr svd t a eps mr Hq Hs Hw Hp) as (z & Ez & Wz & Rz & Bz & Dz & (q & Q0 & Q1 & Q2) & _).
  exists z. do 5 (split; [assumption|]).
  assert (HQ : forall k, k < ndims t -> q k <= prodn (map (fun j => prodn (modes t j)) (seq 0 k))).
  { induction k as [|k IH]; intros Hk; [rewrite Q0; apply Nat.le_refl|]. rewrite Q1 by auto. rewrite seq_S, map_app, prodn_app. cbn [map Nat.add]. specialize (IH ltac:(lia)).
    change (prodn [prodn (modes t k)]) with (prodn (modes t k) * 1). rewrite Nat.mul_1_r. etransitivity; [apply Nat.le_min_l|]. now apply Nat.mul_le_mono_r. }
  assert (HD : forall n, n < ndims t -> rk z (ndims t - n) <= prodn (map (fun j => prodn (modes t j)) (seq (ndims t - n) n))).
  { induction n as [|n IH]; intros Hn.
    - rewrite Nat.sub_0_r, <- Dz, (wf_last Wz). apply Nat.le_refl.
    - specialize (IH ltac:(lia)). rewrite Q2 by lia. cbn [seq map]. replace (S (ndims t - S n)) with (ndims t - n) by lia.
      match goal with |- _ <= prodn (?u :: ?v) => change (prodn (u :: v)) with (u * prodn v) end. etransitivity; [apply Nat.le_min_r|]. etransitivity; [apply Nat.le_min_r|]. now apply Nat.mul_le_mono_l. }
  intros k Hk. split.
  - rewrite Q2 by auto. specialize (HQ k ltac:(lia)). lia.
  - specialize (HD (ndims t - k) ltac:(lia)). now replace (ndims t - (ndims t - k)) with k in HD by lia.
Qed.

(** ** The point before rounding *)
Lemma update_point qr svd (x a : rtt) addr alpha r : qr_ok qr -> wf x -> bsz x = None -> 2 <= ndims x -> wf a -> rshape a = rshape x -> bsz a = None ->
  exists p y : rtt, wf y /\ rshape y = rshape x /\ bsz y = None /\ ndims y = ndims x /\
    (forall k, 0 < k < ndims x -> rk x k <= rk y k) /\
    descent_update qr svd x a addr alpha r = round qr svd y r None /\
    (forall i, vidx (ishape x) i -> tt_at y i = (tt_at x i - alpha * tt_at p i)%R) /\
    (full_tt_ranks x -> riemannian_gradient x a (tt_at p)).
Proof.
  intros Hq Hx Bx Hd Ha Ra Ba. unfold descent_update.
  destruct (tt_sub_full x a Hx Ha ltac:(congruence) Hd Bx Ba) as (g & Eg & Wg & Rg & Bg & Kg & (dx & da & dg & Fx & Fa & Fg & Sg & Vg)).
  rewrite Eg. cbn [bind].
  destruct (project_dense qr g x addr Hq Hx Bx Hd Wg ltac:(congruence)) as (l & rr & p & dp & dg' & Ef & HF & Ep & Wp & Rp & Bp & Kp & Fp & Fg' & Sp & Sg' & Vg' & Vp).
  rewrite Ep. cbn [bind p_tt].
  destruct (multiply_num_full p alpha Wp) as (s & Es & Ws & Rs & Ks & Bs & (dp' & ds & Fp' & Fs & Sps & Vs)).
  unfold multiply. rewrite Es. cbn [bind].
  assert (Ds : ndims s = ndims x). { pose proof (wf_klen Ws) as L1. pose proof (wf_klen Wp) as L2. rewrite Ks in L1. assert (ndims p = ndims x). { pose proof (wf_klen Wp). pose proof (wf_rlen Wp) as F1. pose proof (wf_rlen Hx) as F2. rewrite Rp in F1. destruct (rshape x) as [|s0 ss] eqn:E; [pose proof (wf_kind Hx) as [K|K]; rewrite E in K; discriminate|]. inversion F1; inversion F2; congruence. } lia. }
  destruct (tt_sub_full x s Hx Ws ltac:(congruence) Hd Bx ltac:(congruence)) as (y & Ey & Wy & Ry & By & Ky & (dx' & ds' & dy & Fx' & Fs' & Fy & Sy & Vy)).
  rewrite Ey. cbn [bind].
  assert (Hy : ndims y = ndims x). { pose proof (wf_klen Wy) as L. rewrite Ky in L. cbn [length] in L. rewrite app_length, map_length, seq_length in L. cbn [length] in L. lia. }
  rewrite Bg in *. rewrite By in *.
  assert (dx' = dx) by congruence. assert (ds' = ds) by congruence. assert (dp' = dp) by congruence. assert (dg' = dg) by congruence. subst.
  assert (A : forall t dt, wf t -> bsz t = None -> rshape t = rshape x -> full t = Ok dt -> shape dt = ishape x /\ forall i, vidx (ishape x) i -> get dt i = tt_at t i).
  { intros t dt W B R F. destruct (dense_at t W B) as (d & F' & Sd & V). assert (d = dt) by congruence. subst. rewrite (same_ishape t x R) in *. auto. }
  destruct (A x dx) as [Sx Ax]; auto. destruct (A a da) as [Sa Aa]; auto. destruct (A g dg) as [Sg2 Ag]; auto. destruct (A p dp) as [Sp2 Ap]; auto.
  destruct (A s ds) as [Ss Asn]; auto; [congruence|congruence|]. destruct (A y dy) as [Sy2 Ay]; auto.
  exists p, y. do 4 (split; [assumption|]). split.
  { intros k Hk. unfold rk at 2. rewrite Ky. destruct k as [|k]; [lia|]. cbn [nth]. rewrite app_nth1 by (rewrite map_length, seq_length; lia).
    rewrite (nth_map_default _ _ _ 0) by (rewrite seq_length; lia). rewrite seq_nth by lia. cbn [Nat.add]. lia. }
  split; [reflexivity|]. split.
  { intros i Hi. rewrite <- Ay, <- Ax, <- Ap by auto. rewrite Vy by (rewrite Sy2; auto). rewrite Vs by (rewrite Ss; auto). reflexivity. }
  intros HR. destruct (c43_tangent qr x addr Hq Hx Bx Hd g HR Wg ltac:(congruence)) as (p' & dp' & dg' & Ep' & Fp2 & Fg2 & H).
  rewrite Ep in Ep'. injection Ep' as <-. assert (dp' = dp) by congruence. assert (dg' = dg) by congruence. subst. rewrite Bg in H. destruct (H [] ltac:(apply vidx_nil)) as [[D HD] H2]. split.
  - exists D. intros i Hi. rewrite <- HD by auto. symmetry. now apply Ap.
  - intros T HT. unfold dot. etransitivity; [|etransitivity; [apply (H2 T HT)|]]; apply (isum_ext Rring); intros i Hi; cbn [app]; [now rewrite Ap|].
    rewrite Vg by (rewrite Sg2; auto). unfold minus. now rewrite Ax, Aa.
Qed.
