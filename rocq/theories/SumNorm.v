(** The norm of a sum computed by [reduce_sum_batch], whatever the roundings cut off. *)
From Coq Require Import String Ascii List Arith ZArith Lia Lra Bool Ring Reals.
From Verif Require Import Scalar Tensor TensorLemmas TensorLemmas2 Base Spec Chain BaseLemmas Ops
  FullProofs ResultLemmas Dense AddProofs AddFull MulProofs MatmulProofs DenseMatmul Sweep FlatProofs GatherProofs SliceProofs NormProofs OpsR BatchOps ScaleProofs
  Decomp DecompSpec GaugeProofs OrthProofs OrthNorm QRExists Trunc TruncChain RoundProofs SvdSpec RoundThms RankArgs Approx AddNProofs ReduceSumProofs ApproxThms
  TutorialSpec DescentThms RoundPyth.
Import ListNotations.
Local Open Scope nat_scope.
Local Notation get := (@get Rring).

(** Norm of element [p] of a batch. *)
Definition pnorm (t : rtt) (p : list nat) : R :=
  sqrt (dot (ishape t) (fun i => tt_entry t p (split_idx t i)) (fun i => tt_entry t p (split_idx t i))).

Lemma pnorm_pos t p : (0 <= pnorm t p)%R.
Proof. apply sqrt_pos. Qed.

Lemma rsumn_le n (f g : nat -> R) : (forall o, o < n -> (f o <= g o)%R) -> (sumn (K := Rring) n f <= sumn (K := Rring) n g)%R.
Proof. induction n; intros H; cbn; [lra|]. pose proof (H n ltac:(lia)). specialize (IHn ltac:(auto)). cbn in IHn. lra. Qed.

Lemma pnorm_dense (t : rtt) dt p : wf t -> full t = Ok dt -> vidx (bpre t) p ->
  pnorm t p = sqrt (isum (K := Rring) (ishape t) (fun i => (get dt (p ++ i) * get dt (p ++ i))%R)).
Proof.
  intros W F Vp. destruct (dense_of t W) as (dt' & F' & _ & _ & G). rewrite F in F'. injection F' as <-.
  unfold pnorm. f_equal. apply (isum_ext Rring). intros i Hi. destruct (G p i Vp Hi) as [E _]. now rewrite E.
Qed.

Section Thms.
Variable qr : rtensor -> rtensor * rtensor.
Variable svd : rtensor -> rtensor * rtensor * rtensor.
Hypothesis Hqr : qr_ok qr.
Hypothesis Hsvd : svd_ok svd.

Lemma round_pnorm (s : rtt) a eps mr : wf s -> parse_ranks (is_batch s) a eps (ndims s) = Ok mr ->
  exists z, round qr svd s a eps = Ok z /\ wf z /\ rshape z = rshape s /\ bsz z = bsz s /\ ndims z = ndims s /\ forall p, vidx (bpre s) p -> (pnorm z p <= pnorm s p)%R.
Proof.
  intros Ws Hp. destruct (round_orth qr svd s a eps mr Hqr Hsvd Ws Hp) as (z & Ez & Wz & Rz & Bz & Dz & HO).
  exists z. do 5 (split; [assumption|]). intros p Hv. unfold pnorm. rewrite (ishape_ext z s) by auto.
  pose proof (HO p Hv) as H. unfold rj in H. rewrite <- (isum_split Rring) in H by auto.
  set (f := fun i => tt_entry s p (split_idx s i)). set (g := fun i => tt_entry z p (split_idx z i)).
  assert (P : dot (ishape s) f f = (dot (ishape s) g g + dot (ishape s) (fun i => f i - g i) (fun i => f i - g i))%R).
  { apply isum_pyth. rewrite <- H. apply (isum_ext Rring). intros i _. unfold f, g. rewrite (split_idx_same z s) by auto. reflexivity. }
  apply sqrt_le_1_alt. rewrite P. pose proof (dot_pos (ishape s) (fun i => f i - g i)%R). lra.
Qed.

Lemma sum_levels_norm nout N a mr d fuel : nout_ok nout N -> 2 <= d -> parse_ranks true a None d = Ok mr ->
  forall h (t : rtt), h <= fuel -> 1 <= h -> wf t -> ndims t = d -> bsz t = Some (h * N) ->
  exists z, sum_levels qr svd fuel nout a t = Ok z /\ wf z /\ rshape z = rshape t /\ bsz z = Some N /\ ndims z = d /\
    forall j, j < N -> (pnorm z [j] <= sumn (K := Rring) h (fun o => pnorm t [o * N + j]%nat))%R.
Proof.
  intros Hn Hd Hp. assert (HN : 0 < N) by (destruct nout; cbn in Hn; lia).
  assert (EN : (match nout with Some n => n | None => 1 end) = N) by (destruct nout; cbn in Hn; lia).
  induction fuel as [|f IH]; intros h t Hf Hh Hw Dt Bt; [lia|].
  cbn [sum_levels]. rewrite Bt, EN. destruct (Nat.ltb_spec N (h * N)) as [Hlt|Hlt].
  2:{ assert (h = 1) by nia. subst h. rewrite Nat.mul_1_l in *. exists t. do 4 (split; [assumption || reflexivity|]). split; [exact Dt|].
      intros j Hj. cbn. lra. }
  assert (H2 : 2 <= h) by nia. set (H := (h + 1) / 2).
  assert (HH : H < h /\ 1 <= H). { unfold H. destruct (half_cases h) as [(m & E & E1 & _)|(m & E & E1 & _)]; rewrite E1; lia. }
  destruct (sum_level_ok nout N h t Hn Hw ltac:(lia) Bt Hh) as (s & Es & Ws & Rs & Bs & Ds & Ent). fold H in Bs, Ent. rewrite Es. cbn [bind].
  destruct (round_pnorm s a None mr Ws) as (z & Ez & Wz & Rz & Bz & Dz & Nz).
  { unfold is_batch. rewrite Bs, Ds, Dt. exact Hp. }
  rewrite Ez. cbn [bind]. destruct (IH H z ltac:(lia) ltac:(lia) Wz ltac:(lia) ltac:(congruence)) as (y & Ey & Wy & Ry & By & Dy & Ny).
  exists y. split; [exact Ey|]. split; [exact Wy|]. split; [congruence|]. do 2 (split; [assumption|]).
  intros j Hj. eapply Rle_trans; [now apply Ny|].
  rewrite <- (sumn_pairs Rring h). fold H. apply rsumn_le. intros o Ho.
  eapply Rle_trans; [apply Nz; unfold bpre; rewrite Bs; apply vidx_cons; [now apply mul_lt_lt|constructor]|].
  unfold pnorm. rewrite (ishape_ext t s) by auto. change (@cadd Rring) with Rplus. change (@c0 Rring) with 0%R.
  assert (X : forall i, vidx (ishape s) i -> tt_entry s [o * N + j] (split_idx s i) =
    (tt_entry t [2 * o * N + j]%nat (split_idx t i) + (if Nat.ltb (2 * o + 1) h then tt_entry t [(2 * o + 1) * N + j]%nat (split_idx t i) else 0))%R).
  { intros i Hi. rewrite (split_idx_same t s) by auto. destruct (split_idx_valid _ s i Ws Hi) as [V1 V2]. apply Ent; auto; try congruence.
    replace (modes t) with (modes s); [exact V1|]. unfold modes. now rewrite Rs. }
  destruct (Nat.ltb (2 * o + 1) h).
  - eapply Rle_trans; [|apply dot_triangle]. apply sqrt_le_1_alt. apply Req_le. apply dot_ext. intros i Hi. split; exact (X i Hi).
  - rewrite Rplus_0_r. apply sqrt_le_1_alt. apply Req_le. apply dot_ext. intros i Hi. split; rewrite (X i Hi); apply Rplus_0_r.
Qed.

Lemma sum_norm (t : rtt) b a m dt : wf t -> bsz t = Some b -> 2 <= ndims t -> rank_limits true a None (ndims t) m -> full t = Ok dt ->
  exists z dz, reduce_sum_batch qr svd t a None = Ok z /\ bsz z = None /\ full z = Ok dz /\ shape dt = b :: shape dz /\
    (sqrt (isum (K := Rring) (shape dz) (fun i => get dz i * get dz i)) <=
     sumn (K := Rring) b (fun o => sqrt (isum (K := Rring) (shape dz) (fun i => get dt (o :: i) * get dt (o :: i)))))%R.
Proof.
  intros Hw HB Hd Hm Ft. assert (Hb : 0 < b). { pose proof (wf_bpos Hw) as P. unfold bpre in P. rewrite HB in P. inversion P; auto. }
  destruct (limits_parse _ _ _ _ _ Hm ltac:(lia)) as (mr & Hp & _).
  destruct (sum_levels_norm None 1 a mr (ndims t) b eq_refl Hd Hp b t (le_n b) Hb Hw eq_refl ltac:(rewrite HB; f_equal; lia)) as (z & Ez & Wz & Rz & Bz & Dz & Nz).
  destruct (dense_of z Wz) as (dz & Fz & _). destruct (first_dense z 1 dz Wz Bz Fz) as (e & de & Ee & We & Re & Be & Ke & Fe & Se & Ge).
  destruct (dense_of t Hw) as (dt' & Ft' & _ & St & _). rewrite Ft in Ft'. injection Ft' as <-. unfold bpre in St. rewrite HB in St. cbn [app] in St.
  rewrite (ishape_ext z t) in * by auto.
  exists e, de. unfold reduce_sum_batch. rewrite HB, Ez. cbn [bind]. split; [exact Ee|]. split; [exact Be|]. split; [exact Fe|]. split; [congruence|].
  rewrite Se. specialize (Nz 0 ltac:(lia)). rewrite (pnorm_dense z dz [0] Wz Fz) in Nz by (unfold bpre; rewrite Bz; vsolve). rewrite (ishape_ext z t) in Nz by auto.
  rewrite (isum_ext Rring (ishape t) _ (fun i => (get dz (0%nat :: i) * get dz (0%nat :: i))%R)) by (intros i Hi; now rewrite Ge).
  eapply Rle_trans; [exact Nz|]. apply rsumn_le. intros o Ho. rewrite Nat.mul_1_r, Nat.add_0_r.
  rewrite (pnorm_dense t dt [o] Hw Ft) by (unfold bpre; rewrite HB; vsolve). apply Rle_refl.
Qed.

Lemma scaled_norm sh (f : list nat -> R) c g : (forall i, vidx sh i -> g i = (c * f i)%R) -> sqrt (dot sh g g) = (Rabs c * sqrt (dot sh f f))%R.
Proof.
  intros H. rewrite <- sqrt_Rsqr_abs, <- sqrt_mult_alt by apply Rle_0_sqr. f_equal. unfold dot, Rsqr.
  rewrite <- (isum_mul_l Rring). apply (isum_ext Rring). intros i Hi. rewrite H by auto. cbn. ring.
Qed.

Lemma sum_vec_norm (t : rtt) b w a m dt : wf t -> bsz t = Some b -> wft w -> shape w = [b] -> 2 <= ndims t -> rank_limits true a None (ndims t) m -> full t = Ok dt ->
  exists z dz, reduce_sum_batch qr svd t a (Some w) = Ok z /\ bsz z = None /\ full z = Ok dz /\ shape dt = b :: shape dz /\
    (sqrt (isum (K := Rring) (shape dz) (fun i => get dz i * get dz i)) <=
     sumn (K := Rring) b (fun o => Rabs (get w [o]) * sqrt (isum (K := Rring) (shape dz) (fun i => get dt (o :: i) * get dt (o :: i)))))%R.
Proof.
  intros Hw HB Ww Sw Hd Hm Ft.
  destruct (multiply_along_full Rring t b w Hw HB Ww Sw) as (c & Ec & Wc & Rc & Kc & Bc & d & dc & Fd & Fc & Sd & G).
  assert (d = dt) by congruence. subst d.
  rewrite HB in Bc. pose proof (same_ndims Rring c t Wc Hw Rc) as Dc.
  destruct (sum_norm c b a m dc Wc Bc ltac:(lia) ltac:(now rewrite Dc) Fc) as (z & dz & Ez & Bz & Fz & Sz & Nz).
  exists z, dz. unfold reduce_sum_batch in *. rewrite Sw, Ec. cbn [bind]. split; [exact Ez|]. split; [exact Bz|]. split; [exact Fz|]. split; [congruence|].
  eapply Rle_trans; [exact Nz|]. apply rsumn_le. intros o Ho. apply Req_le.
  apply (scaled_norm (shape dz) (fun i => get dt (o :: i)) (get w [o]) (fun i => get dc (o :: i))). intros i Hi. apply G. rewrite <- Sd, Sz. now apply vidx_cons.
Qed.

Lemma sum_mat_norm (t : rtt) b N w a m dt : wf t -> bsz t = Some b -> wft w -> shape w = [b; N] -> 0 < N -> 2 <= ndims t -> rank_limits true a None (ndims t) m -> full t = Ok dt ->
  exists z dz sh, reduce_sum_batch qr svd t a (Some w) = Ok z /\ bsz z = Some N /\ full z = Ok dz /\ shape dt = b :: sh /\ shape dz = N :: sh /\
    forall j, j < N -> (sqrt (isum (K := Rring) sh (fun i => get dz (j :: i) * get dz (j :: i))) <=
     sumn (K := Rring) b (fun o => Rabs (get w [o; j]) * sqrt (isum (K := Rring) sh (fun i => get dt (o :: i) * get dt (o :: i)))))%R.
Proof.
  intros Hw HB Ww Sw HN Hd Hm Ft. assert (Hb : 0 < b). { pose proof (wf_bpos Hw) as P. unfold bpre in P. rewrite HB in P. inversion P; auto. }
  destruct (limits_parse _ _ _ _ _ Hm ltac:(lia)) as (mr & Hp & _).
  destruct (spread_ok t w b N Hw HB Ww Sw HN) as (c & Ec & Wc & Rc & Kc & Bc & Dc & Entc).
  destruct (sum_levels_norm (Some N) N a mr (ndims t) b ltac:(split; auto) Hd Hp b c (le_n b) Hb Wc Dc Bc) as (z & Ez & Wz & Rz & Bz & Dz & Nz).
  destruct (dense_of z Wz) as (dz & Fz & _ & Sz & _). destruct (dense_of t Hw) as (dt' & Ft' & _ & St & _). rewrite Ft in Ft'. injection Ft' as <-.
  unfold bpre in Sz, St. rewrite HB in St. rewrite Bz in Sz. cbn [app] in Sz, St. rewrite (ishape_ext z t) in Sz by congruence.
  exists z, dz, (ishape t). unfold reduce_sum_batch. rewrite Sw, HB, Nat.eqb_refl, Ec. cbn [negb bind]. do 5 (split; [assumption|]).
  intros j Hj. specialize (Nz j Hj). rewrite (pnorm_dense z dz [j] Wz Fz) in Nz by (unfold bpre; rewrite Bz; vsolve). rewrite (ishape_ext z t) in Nz by congruence.
  eapply Rle_trans; [exact Nz|]. apply rsumn_le. intros o Ho. apply Req_le.
  change (fun i => (get dt (o :: i) * get dt (o :: i))%R) with (fun i => (get dt ([o] ++ i) * get dt ([o] ++ i))%R).
  rewrite <- (pnorm_dense t dt [o] Hw Ft) by (unfold bpre; rewrite HB; vsolve).
  unfold pnorm. rewrite (ishape_ext c t) by auto. apply scaled_norm. intros i Hi. rewrite (split_idx_same c t) by auto.
  destruct (split_idx_valid _ t i Hw Hi) as [V1 V2]. now apply Entc.
Qed.
End Thms.
