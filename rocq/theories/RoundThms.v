(** Consequences of the error analysis of [round]. *)
From Coq Require Import String Ascii List Arith ZArith Lia Lra Bool Ring Reals.
From Verif Require Import Scalar Tensor TensorLemmas TensorLemmas2 Base Spec Chain BaseLemmas Ops
  FullProofs ResultLemmas Dense AddProofs MulProofs MatmulProofs DenseMatmul Sweep FlatProofs NormProofs OpsR ScaleProofs
  Decomp DecompSpec GaugeProofs OrthProofs OrthNorm QRExists Trunc TruncChain RoundProofs SvdSpec.
Import ListNotations.
Local Open Scope nat_scope.
Local Notation get := (@get Rring).

Lemma glue_ok (t : rtt) J : wf t -> vjdx (all_modes t) J -> vidx (ishape t) (glue (rshape t) J) /\ split_idx t (glue (rshape t) J) = J.
Proof.
  intros Hw. rewrite (all_modes_eq Rring) by auto. unfold ishape, split_idx, glue.
  destruct (wf_kind_cases _ t Hw) as [(E & Hl & _)|(E & Hl & _)]; rewrite E.
  - destruct (rshape t) as [|s0 [|]]; try discriminate. cbn [nth]. clear.
    revert J; induction s0 as [|n s IH]; intros J HJ; inversion HJ as [|? j ? J' H1 H2]; subst; cbn [map]; [split; constructor|].
    inversion H1 as [|i ? ? ? Hi H3]; subst. inversion H3; subst. destruct (IH _ H2) as [A B]. cbn [nth]. split; [constructor; auto|]. now rewrite B.
  - destruct (matrix_rows_len Rring t Hw E) as [L0 L1]. destruct (rshape t) as [|s0 [|s1 [|]]]; try discriminate. cbn [nth] in *.
    assert (G : forall s0 s1 J, length s0 = length s1 -> vjdx (map2 (fun m n => [m; n]) s0 s1) J ->
      vidx s0 (map (fun j => nth 0 j 0) J) /\ vidx s1 (map (fun j => nth 1 j 0) J) /\
      map2 (fun i j => [i; j]) (map (fun j => nth 0 j 0) J) (map (fun j => nth 1 j 0) J) = J).
    { clear. induction s0 as [|m s0 IH]; intros [|n s1] J HL HJ; cbn in HL; try lia; inversion HJ as [|? j ? J' H1 H2]; subst; cbn [map map2].
      - split; [constructor|]. split; [constructor|reflexivity].
      - inversion H1 as [|i ? ? ? Hi H3]; subst. inversion H3 as [|i2 ? ? ? Hi2 H4]; subst. inversion H4; subst.
        destruct (IH s1 J' ltac:(lia) H2) as (A & B & C). cbn [nth]. split; [constructor; auto|]. split; [constructor; auto|]. now rewrite C. }
    intros HJ. destruct (G s0 s1 J ltac:(lia) HJ) as (A & B & C). split.
    + constructor; [now apply ravel_lt|]. constructor; [now apply ravel_lt|constructor].
    + cbn [nth]. now rewrite !unravel_ravel.
Qed.

Lemma glue_get (t : rtt) dt p J : wf t -> full t = Ok dt -> vidx (bpre t) p -> vjdx (all_modes t) J ->
  get dt (p ++ glue (rshape t) J) = tt_entry t p J.
Proof.
  intros Hw Fd Hp HJ. destruct (full_correct Rring t Hw) as (d' & Fd' & _ & _ & Ed). assert (d' = dt) by congruence. subst d'.
  destruct (glue_ok t J Hw HJ) as [V E]. rewrite Ed by (rewrite get_shape_ishape; now apply vidx_app).
  rewrite tt_at_entry by auto. now rewrite E.
Qed.

Lemma sq_dist_entries (a b : rtt) da db p : wf a -> wf b -> rshape b = rshape a -> bsz b = bsz a -> full a = Ok da -> full b = Ok db ->
  vidx (bpre a) p ->
  sq_dist (ishape a) da db p = rj (all_modes a) (fun J => (tt_entry a p J - tt_entry b p J) * (tt_entry a p J - tt_entry b p J))%R.
Proof.
  intros Ha Hb R B Fa Fb Hp. unfold sq_dist, rj. rewrite <- (isum_split Rring) by auto. apply (isum_ext Rring). intros i Hi.
  destruct (full_correct Rring a Ha) as (d' & Fd' & _ & _ & Ea). assert (d' = da) by congruence. subst d'.
  destruct (full_correct Rring b Hb) as (d' & Fd2 & _ & _ & Eb). assert (d' = db) by congruence. subst d'.
  assert (Ei : ishape b = ishape a) by (unfold ishape, is_tt_matrix; now rewrite R).
  assert (Ep : bpre b = bpre a) by (unfold bpre; now rewrite B).
  rewrite Ea by (rewrite get_shape_ishape; now apply vidx_app).
  rewrite Eb by (rewrite get_shape_ishape, Ei, Ep; now apply vidx_app).
  rewrite !tt_at_entry by (auto; now rewrite Ep). now rewrite (split_idx_ext _ b a) by auto.
Qed.

(** Any TT object is a sum of [rk] products at every cut. *)
Lemma entry_cut (b : rtt) p k J1 J2 : wf b -> length J1 = k ->
  tt_entry b p (J1 ++ J2) = rsum (rk b k) (fun c => lvec (coreG b p) (rk b) J1 c * rvec (coreG b p) (rk b) k J2 c)%R.
Proof. intros Hw <-. apply cut. rewrite (wf_first Hw). lia. Qed.

Lemma cut_sum (t : rtt) k (f : list (list nat) -> R) : k <= ndims t ->
  rj (map (modes t) (seq 0 k)) (fun J1 => rj (map (modes t) (seq k (ndims t - k))) (fun J2 => f (J1 ++ J2))) = rj (all_modes t) f.
Proof. intros Hk. rewrite <- rj_app, <- map_app. unfold all_modes. now rewrite (seq_cut k (ndims t)) by auto. Qed.

Lemma cut_dist_best (t b : rtt) p k : wf b -> k <= ndims t ->
  cut_dist t (tt_entry t p) k (rk b k) (lvec (coreG b p) (rk b)) (rvec (coreG b p) (rk b) k) =
  rj (all_modes t) (fun J => (tt_entry t p J - tt_entry b p J) * (tt_entry t p J - tt_entry b p J))%R.
Proof.
  intros Hb Hk. rewrite <- (cut_sum t k) by auto. unfold cut_dist. apply rj_ext. intros J1 H1. apply rj_ext. intros J2 _.
  apply vjdx_length in H1. rewrite map_length, seq_length in H1. now rewrite (entry_cut b p k) by auto.
Qed.

Lemma rsum_le_const n f c : (forall i, i < n -> (f i <= c)%R) -> (rsum n f <= INR n * c)%R.
Proof.
  induction n; intros H; [unfold rsum; cbn; lra|]. rewrite rsum_S, S_INR.
  pose proof (IHn ltac:(intros; apply H; lia)). pose proof (H n ltac:(lia)). lra.
Qed.

Section Thms.
Variable qr : rtensor -> rtensor * rtensor.
Variable svd : rtensor -> rtensor * rtensor * rtensor.
Hypothesis Hqr : qr_ok qr.
Hypothesis Hsvd : svd_ok svd.

Lemma round_exact (t : rtt) a eps mr : wf t -> parse_ranks (is_batch t) a eps (ndims t) = Ok mr ->
  (forall k, 0 < k < ndims t -> rk t k <= nth k mr 0) ->
  exists z, round qr svd t a eps = Ok z /\ wf z /\ rshape z = rshape t /\ bsz z = bsz t /\
    (forall k, 0 < k < ndims t -> rk z k <= nth k mr 0 /\ rk z k <= rk t k) /\
    forall p J, vidx (bpre t) p -> vchain (modes t) 0 J -> length J = ndims t -> tt_entry z p J = tt_entry t p J.
Proof.
  intros Hw Hp Hbig. destruct (round_ok qr svd t a eps mr Hqr Hsvd Hw Hp) as (z & Ez & Wz & Rz & Bz & Dz & Kz & H).
  exists z. do 5 (split; [assumption|]). intros p J Vp VJ LJ. destruct (H p Vp) as (e & HE & HB).
  assert (E0 : rsum (ndims t - 1) (fun x => e (S x)) = 0%R).
  { transitivity (rsum (ndims t - 1) (fun _ => 0%R)); [|now apply rsum_0]. apply rsum_ext. intros i Hi. destruct (HB (S i) ltac:(lia)) as [B1 B2].
    specialize (B2 (rk t (S i)) (lvec (coreG t p) (rk t)) (rvec (coreG t p) (rk t) (S i)) (Hbig (S i) ltac:(lia))).
    rewrite cut_dist_best in B2 by (auto; lia).
    rewrite rj_zero in B2; [lra|]. intros J' _. ring. }
  rewrite E0 in HE. pose proof (rj_zero_each _ _ (fun J _ => Rle_0_sqr _) HE J (vjdx_chain _ _ _ VJ LJ)) as Z. cbv beta in Z.
  apply Rmult_integral in Z. destruct Z; lra.
Qed.

Lemma round_best (t b : rtt) a eps mr : wf t -> parse_ranks (is_batch t) a eps (ndims t) = Ok mr ->
  wf b -> (forall k, 0 < k < ndims t -> rk b k <= nth k mr 0) ->
  exists z, round qr svd t a eps = Ok z /\ wf z /\ rshape z = rshape t /\ bsz z = bsz t /\
    forall p, vidx (bpre t) p ->
    (rj (all_modes t) (fun J => (tt_entry t p J - tt_entry z p J) * (tt_entry t p J - tt_entry z p J)) <=
     INR (ndims t - 1) * rj (all_modes t) (fun J => (tt_entry t p J - tt_entry b p J) * (tt_entry t p J - tt_entry b p J)))%R.
Proof.
  intros Hw Hp Wb Hb. destruct (round_ok qr svd t a eps mr Hqr Hsvd Hw Hp) as (z & Ez & Wz & Rz & Bz & Dz & Kz & H).
  exists z. do 4 (split; [assumption|]). intros p Vp. destruct (H p Vp) as (e & HE & HB). unfold all_modes at 1. rewrite HE.
  apply rsum_le_const. intros i Hi. destruct (HB (S i) ltac:(lia)) as [_ B2]. rewrite <- (cut_dist_best t b p (S i)) by (auto; lia).
  apply B2. apply Hb. lia.
Qed.

(** Truncating a decomposition of an unfolding leaves its discarded part. *)
Lemma cut_dist_svd (t : rtt) dt p k n U s V r : wf t -> full t = Ok dt -> vidx (bpre t) p -> k <= ndims t ->
  unfolding_svd (rshape t) (modes t) (ndims t) dt p k n U s V -> r <= n ->
  cut_dist t (tt_entry t p) k r (fun J l => U J l * s l)%R V = tail n r s.
Proof.
  intros Hw Fd Hp Hk [H1 H2 H3 _ _] Hr.
  set (X := map (modes t) (seq 0 k)). set (Y := map (modes t) (seq k (ndims t - k))). fold X Y in H1, H2, H3.
  set (U' := fun x l => U (jun X x) l). set (V' := fun y l => V (jun Y y) l).
  assert (OU : ortho (jsize X) n U') by (intros a b Ha Hb; unfold U'; rewrite <- (rj_rsum_all X (fun J => U J a * U J b)%R); now apply H2).
  assert (OV : ortho (jsize Y) n V') by (intros a b Ha Hb; unfold V'; rewrite <- (rj_rsum_all Y (fun J => V J a * V J b)%R); now apply H3).
  transitivity (sum2 (jsize X) (jsize Y) (fun x y => (expan n U' s V' x y - expan r U' s V' x y) * (expan n U' s V' x y - expan r U' s V' x y))%R).
  - unfold cut_dist. fold X Y. rewrite rj_rsum_all. unfold sum2. apply rsum_ext. intros x Hx. rewrite rj_rsum_all. apply rsum_ext. intros y Hy.
    pose proof (jun_valid X x Hx) as Vx. pose proof (jun_valid Y y Hy) as Vy.
    rewrite <- (glue_get t dt p) by (auto; unfold all_modes; rewrite (seq_cut k (ndims t)) by auto; rewrite map_app; now apply Forall2_app).
    rewrite H1 by auto. reflexivity.
  - rewrite (trunc_error (jsize X) (jsize Y) n r (expan n U' s V') U' V' s); auto.
    + replace (sum2 _ _ _) with 0%R; [lra|]. symmetry. unfold sum2. transitivity (rsum (jsize X) (fun _ => 0%R)); [|now apply rsum_0].
      apply rsum_ext. intros. transitivity (rsum (jsize Y) (fun _ => 0%R)); [|now apply rsum_0]. apply rsum_ext. intros. ring.
    + intros. transitivity (rsum (jsize Y) (fun _ => 0%R)); [|now apply rsum_0]. apply rsum_ext. intros. ring.
Qed.

Lemma discarded_min n r s : discarded n (Nat.min r n) s = discarded n r s.
Proof.
  unfold discarded. destruct (Nat.le_gt_cases r n); [now rewrite Nat.min_l|].
  rewrite Nat.min_r by lia. rewrite Nat.sub_diag. replace (n - r) with 0 by lia. reflexivity.
Qed.

Lemma round_svd_bound (t : rtt) dt a eps mr (n : nat -> nat) U s V p : wf t -> parse_ranks (is_batch t) a eps (ndims t) = Ok mr ->
  full t = Ok dt -> vidx (bpre t) p ->
  (forall k, 0 < k < ndims t -> unfolding_svd (rshape t) (modes t) (ndims t) dt p k (n k) (U k) (s k) (V k)) ->
  exists z dz, round qr svd t a eps = Ok z /\ full z = Ok dz /\
    (sq_dist (ishape t) dt dz p <= sum_cuts (ndims t) (fun k => discarded (n k) (nth k mr 0%nat) (s k)))%R.
Proof.
  intros Hw Hp Fd Vp HU. destruct (round_ok qr svd t a eps mr Hqr Hsvd Hw Hp) as (z & Ez & Wz & Rz & Bz & Dz & Kz & H).
  destruct (full_correct Rring z Wz) as (dz & Fz & _). exists z, dz. split; [exact Ez|]. split; [exact Fz|].
  rewrite (sq_dist_entries t z dt dz) by auto. destruct (H p Vp) as (e & HE & HB). unfold all_modes. rewrite HE.
  apply rsum_le. intros i Hi. destruct (HB (S i) ltac:(lia)) as [_ B2]. rewrite <- discarded_min.
  change (discarded (n (S i)) (Nat.min (nth (S i) mr 0) (n (S i))) (s (S i))) with (tail (n (S i)) (Nat.min (nth (S i) mr 0) (n (S i))) (s (S i))).
  rewrite <- (cut_dist_svd t dt p (S i) (n (S i)) (U (S i)) (s (S i)) (V (S i))); auto; try lia; [|apply HU; lia].
  apply B2. lia.
Qed.
End Thms.
