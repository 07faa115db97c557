(** The difference between an object and its rounding is orthogonal to the rounding: the sweep of [round] keeps, at
    every cut, the part of the object in the span of orthonormal right interface vectors. *)
From Coq Require Import String Ascii List Arith ZArith Lia Lra Bool Ring Reals.
From Verif Require Import Scalar Tensor TensorLemmas TensorLemmas2 Base Spec Chain BaseLemmas Ops
  FullProofs ResultLemmas Dense AddProofs MulProofs MatmulProofs DenseMatmul Sweep FlatProofs NormProofs OpsR ScaleProofs
  Decomp DecompSpec GaugeProofs OrthProofs OrthNorm QRExists Trunc TruncChain RoundProofs RoundThms SvdSpec.
Import ListNotations.
Local Open Scope nat_scope.
Local Notation get := (@get Rring).

Lemma round_orth qr svd (t : rtt) a eps mr : qr_ok qr -> svd_ok svd -> wf t ->
  parse_ranks (is_batch t) a eps (ndims t) = Ok mr ->
  exists z, round qr svd t a eps = Ok z /\ wf z /\ rshape z = rshape t /\ bsz z = bsz t /\ ndims z = ndims t /\
    forall p, vidx (bpre t) p -> rj (all_modes t) (fun J => (tt_entry t p J - tt_entry z p J) * tt_entry z p J)%R = 0%R.
Proof.
  intros Hqr Hsvd Hw Hp. destruct (parse_ranks_ok _ _ _ _ _ Hp) as [Hmr Hmp].
  destruct (orth_ok qr t true Hqr Hw ltac:(discriminate)) as (o & Eo & Wo & Ro & Bo & Do & Ent & Hl & _).
  destruct (Hl eq_refl) as [Ko Orth]. clear Hl. pose proof (wf_d Hw) as Hd. set (d := ndims t) in *.
  unfold round. cbv zeta. fold d. rewrite Hp. cbn [bind]. rewrite Eo. cbn [bind]. fold (bpre t).
  destruct (foldM_rev_seq1 (round_step svd (bpre t) t mr) (rd_inv t o mr) (d - 1) (cores o, repeat 1 (S d))) as (st & Est & Hst).
  - now apply rd_start.
  - intros i s Hi Hs. destruct i as [|i']; [lia|]. rewrite Nat.sub_succ, Nat.sub_0_r. apply rd_step; auto; fold d; try lia; congruence.
  - rewrite Est. cbn [bind]. destruct st as [cs vr]. destruct (rd_end t o mr cs vr Hw Hst) as (g & Ez & Wv & Hmin & e & He).
    exists (vtt t cs vr). split; [exact Ez|]. split; [exact Wv|]. split; [reflexivity|]. split; [reflexivity|]. split; [apply vtt_ndims|].
    intros p Hpp. destruct (He p Hpp) as (_ & HO & _ & _).
    assert (EA : forall J, vjdx (map (modes t) (seq 0 d)) J -> A o p J = tt_entry t p J).
    { intros J HJ. apply vjdx_seq in HJ as [V1 V2]. now apply Ent. }
    rewrite <- (cut_sum t 1) by (fold d; lia). apply rj_zero. intros J1 H1.
    assert (L1 : length J1 = 1) by (apply vjdx_length in H1; now rewrite map_length, seq_length in H1).
    etransitivity; [apply rj_ext; intros J2 H2|].
    { rewrite <- EA; [|replace (seq 0 d) with (seq 0 1 ++ seq 1 (d - 1)) by (rewrite <- seq_app; f_equal; lia); rewrite map_app; now apply Forall2_app].
      rewrite (entry_cut (vtt t cs vr) p 1) at 2 by auto. rewrite <- rsum_mul_l. reflexivity. }
    cbv beta. rewrite rj_rsum. apply rsum_0. intros b Hb.
    etransitivity; [|exact (Rmult_0_r (lvec (coreG (vtt t cs vr) p) (rk (vtt t cs vr)) J1 b))].
    rewrite <- (HO J1 b H1 Hb). rewrite <- rj_mul_l. apply rj_ext. intros J2 H2.
    change (Av t cs vr p (J1 ++ J2)) with (tt_entry (vtt t cs vr) p (J1 ++ J2)). 
    change (vG t cs vr p) with (coreG (vtt t cs vr) p). change (vr_ vr) with (rk (vtt t cs vr)). ring.
Qed.

Lemma sq_norm_entries (a : rtt) da p : wf a -> full a = Ok da -> vidx (bpre a) p ->
  isum (K := Rring) (ishape a) (fun i => (get da (p ++ i) * get da (p ++ i))%R) = rj (all_modes a) (fun J => tt_entry a p J * tt_entry a p J)%R.
Proof.
  intros Ha Fa Hp. unfold rj. rewrite <- (isum_split Rring) by auto. apply (isum_ext Rring). intros i Hi.
  destruct (full_correct Rring a Ha) as (d' & Fd' & _ & _ & Ea). assert (d' = da) by congruence. subst d'.
  rewrite Ea by (rewrite get_shape_ishape; now apply vidx_app). now rewrite !tt_at_entry by auto.
Qed.

Lemma inner_entries (a b : rtt) da db p : wf a -> wf b -> rshape b = rshape a -> bsz b = bsz a -> full a = Ok da -> full b = Ok db ->
  vidx (bpre a) p ->
  isum (K := Rring) (ishape a) (fun i => ((get da (p ++ i) - get db (p ++ i)) * get db (p ++ i))%R) =
  rj (all_modes a) (fun J => (tt_entry a p J - tt_entry b p J) * tt_entry b p J)%R.
Proof.
  intros Ha Hb R B Fa Fb Hp. unfold rj. rewrite <- (isum_split Rring) by auto. apply (isum_ext Rring). intros i Hi.
  destruct (full_correct Rring a Ha) as (d' & Fd' & _ & _ & Ea). assert (d' = da) by congruence. subst d'.
  destruct (full_correct Rring b Hb) as (d' & Fd2 & _ & _ & Eb). assert (d' = db) by congruence. subst d'.
  assert (Ei : ishape b = ishape a) by (unfold ishape, is_tt_matrix; now rewrite R).
  assert (Ep : bpre b = bpre a) by (unfold bpre; now rewrite B).
  rewrite Ea by (rewrite get_shape_ishape; now apply vidx_app).
  rewrite Eb by (rewrite get_shape_ishape, Ei, Ep; now apply vidx_app).
  rewrite !tt_at_entry by (auto; now rewrite Ep). now rewrite (split_idx_ext _ b a) by auto.
Qed.

(** The same between a dense array and a single object. *)
From Verif Require Import TTSvdStep TTSvdProofs TTSvdThms TTMatProofs TTMatThms RankArgs.

Lemma inner_glue (x : rtensor) (z : rtt) dz A : wf z -> bsz z = None -> full z = Ok dz ->
  (forall J, vjdx (all_modes z) J -> A J = get x (glue (rshape z) J)) ->
  isum (K := Rring) (ishape z) (fun i => ((get x i - get dz i) * get dz i)%R) = rj (all_modes z) (fun J => (A J - tt_entry z [] J) * tt_entry z [] J)%R.
Proof.
  intros Hw B F HA. assert (P : bpre z = []) by (unfold bpre; now rewrite B).
  unfold rj. rewrite <- (isum_split Rring) by auto. apply (isum_ext Rring). intros i Hi.
  destruct (split_idx_valid _ z i Hw Hi) as [V1 V2]. assert (VJ : vjdx (all_modes z) (split_idx z i)) by (unfold all_modes; now apply vjdx_chain).
  rewrite HA by auto. rewrite glue_split by auto. pose proof (glue_get z dz [] (split_idx z i) Hw F ltac:(rewrite P; constructor) VJ) as G.
  rewrite glue_split in G by auto. cbn [app] in G. rewrite G. reflexivity.
Qed.

Lemma concat_glue (z : rtt) sh J : wf z -> rshape z = [sh] -> vjdx (all_modes z) J -> List.concat J = glue (rshape z) J.
Proof.
  intros Hw R V. destruct (glue_ok z J Hw V) as [_ E]. rewrite <- E at 1. unfold split_idx, is_tt_matrix. rewrite R. cbn [length Nat.eqb]. apply concat_sing.
Qed.

Lemma tt_tensor_orth svd (x : rtensor) a eps m : svd_ok svd -> wft x -> 2 <= length (shape x) -> Forall (fun n => 0 < n) (shape x) ->
  rank_limits false a eps (length (shape x)) m ->
  exists z dz, to_tt_tensor svd x a eps = Ok z /\ full z = Ok dz /\
    isum (K := Rring) (shape x) (fun i => ((get x i - get dz i) * get dz i)%R) = 0%R.
Proof.
  intros Hs Wx Hd Hpos Hm. destruct (limits_parse _ _ _ _ _ Hm ltac:(lia)) as (mr & Hp & _).
  destruct (to_tt_tensor_orth svd Hs x a eps mr Wx Hd Hpos Hp) as (z & Ez & Wz & Rz & Bz & Dz & _ & HO & _).
  destruct (full_correct Rring z Wz) as (dz & Fz & _). exists z, dz. split; [exact Ez|]. split; [exact Fz|].
  destruct (single_facts z (shape x) Wz Rz Bz) as (_ & I & M & _). rewrite <- I. rewrite (inner_glue x z dz (xA x)); auto.
  - rewrite M, <- smodes_all. exact HO.
  - intros J VJ. unfold xA. f_equal. now apply (concat_glue z (shape x)).
Qed.

Lemma tt_matrix_orth svd (mat : rtensor) s0 s1 a eps m : svd_ok svd -> shape mat = [prodn s0; prodn s1] -> length s0 = length s1 -> 2 <= length s0 ->
  Forall (fun n => 0 < n) s0 -> Forall (fun n => 0 < n) s1 -> rank_limits false a eps (length s0) m ->
  exists z dz, to_tt_matrix svd mat (Some s0) (Some s1) a eps = Ok z /\ full z = Ok dz /\
    isum (K := Rring) (shape mat) (fun i => ((get mat i - get dz i) * get dz i)%R) = 0%R.
Proof.
  intros Hs Sm L Hd P0 P1 Hm. destruct (limits_parse _ _ _ _ _ Hm ltac:(lia)) as (mr & Hp & _).
  destruct (to_tt_matrix_orth svd Hs mat s0 s1 a eps mr Sm L Hd P0 P1 Hp) as (z & Ez & Wz & Rz & Bz & Dz & HO).
  destruct (full_correct Rring z Wz) as (dz & Fz & _). exists z, dz. split; [exact Ez|]. split; [exact Fz|].
  assert (I : ishape z = [prodn s0; prodn s1]) by (unfold ishape, is_tt_matrix; now rewrite Rz).
  rewrite Sm, <- I. rewrite (inner_glue mat z dz (mA mat s0 s1)); auto.
  - unfold all_modes. rewrite Dz. etransitivity; [|exact HO]. f_equal. apply map_ext. intros k. unfold modes. now rewrite Rz.
  - intros J _. unfold mA. now rewrite Rz.
Qed.

(** Pythagoras. *)
Lemma isum_pyth sh (x z : list nat -> R) : isum (K := Rring) sh (fun i => ((x i - z i) * z i)%R) = 0%R ->
  isum (K := Rring) sh (fun i => (x i * x i)%R) =
  (isum (K := Rring) sh (fun i => (z i * z i)%R) + isum (K := Rring) sh (fun i => ((x i - z i) * (x i - z i))%R))%R.
Proof.
  intros H. transitivity (isum (K := Rring) sh (fun i => z i * z i + ((x i - z i) * (x i - z i) + (2 * ((x i - z i) * z i))))%R).
  - apply (isum_ext Rring). intros i _. cbn. ring.
  - rewrite (isum_add Rring). change (@cadd Rring) with Rplus. f_equal. rewrite (isum_add Rring). change (@cadd Rring) with Rplus.
    rewrite (isum_mul_l Rring). change (@cmul Rring) with Rmult. rewrite H. now rewrite Rmult_0_r, Rplus_0_r.
Qed.
