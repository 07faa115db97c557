(** Consequences of the error analysis of [to_tt_tensor]. *)
From Coq Require Import String Ascii List Arith ZArith Lia Lra Bool Ring Reals.
From Verif Require Import Scalar Tensor TensorLemmas TensorLemmas2 Base Spec Chain BaseLemmas Ops
  FullProofs ResultLemmas Dense Sweep FlatProofs NormProofs OpsR ScaleProofs
  Decomp DecompSpec GaugeProofs OrthProofs OrthNorm QRExists Trunc TruncChain RoundProofs SvdSpec RoundThms TTSvdStep TTSvdProofs.
Import ListNotations.
Local Open Scope nat_scope.
Local Notation get := (@get Rring).

Lemma glue_single sh J : vjdx (map (fun n => [n]) sh) J -> glue [sh] J = List.concat J.
Proof.
  revert J; induction sh as [|n sh IH]; intros J H; inversion H as [|? j ? J' H1 H2]; subst; [reflexivity|].
  inversion H1 as [|w ? ? ? Hw H3]; subst. inversion H3; subst. specialize (IH _ H2). unfold glue in *. cbn [map List.concat app nth]. now f_equal.
Qed.

Lemma single_facts (z : rtt) sh : wf z -> rshape z = [sh] -> bsz z = None ->
  ndims z = length sh /\ ishape z = sh /\ all_modes z = map (fun n => [n]) sh /\ bpre z = [] /\ (forall k, modes z k = smodes sh k).
Proof.
  intros Hw R B. assert (Hm : is_tt_matrix z = false) by (unfold is_tt_matrix; now rewrite R).
  pose proof (wf_rlen Hw) as L. rewrite R in L. inversion L as [|? ? L1 L2]; subst.
  split; [auto|]. split; [unfold ishape; now rewrite Hm, R|]. split; [rewrite (all_modes_eq Rring z Hw), Hm, R; reflexivity|].
  split; [unfold bpre; now rewrite B|]. intros k. unfold modes. now rewrite R.
Qed.

(** Distance between a dense tensor and an object. *)
Lemma sq_dist_single (x : rtensor) (z : rtt) dz sh : shape x = sh -> wf z -> rshape z = [sh] -> bsz z = None -> full z = Ok dz ->
  sq_dist sh x dz [] = rj (map (fun n => [n]) sh) (fun J => (xA x J - tt_entry z [] J) * (xA x J - tt_entry z [] J))%R.
Proof.
  intros Sx Hw R B F. destruct (single_facts z sh Hw R B) as (D & I & M & P & _).
  unfold sq_dist, rj. rewrite <- M, <- (isum_split Rring) by auto. rewrite I. apply (isum_ext Rring). intros i Hi.
  destruct (full_correct Rring z Hw) as (d' & Fd' & _ & _ & Ez). assert (d' = dz) by congruence. subst d'.
  pose proof (Ez ([] ++ i)) as E. rewrite get_shape_ishape, P, I in E. rewrite E by exact Hi. rewrite tt_at_entry by (rewrite P; constructor).
  unfold xA. replace (List.concat (split_idx z i)) with i; [reflexivity|].
  unfold split_idx, is_tt_matrix. rewrite R. cbn [length Nat.eqb]. symmetry. apply concat_sing.
Qed.

Lemma smodes_all sh : map (smodes sh) (seq 0 (length sh)) = map (fun n => [n]) sh.
Proof. rewrite smodes_firstn by auto. now rewrite firstn_all. Qed.

Lemma xcut_sum (x : rtensor) k (f : list (list nat) -> R) : k <= length (shape x) ->
  rj (map (smodes (shape x)) (seq 0 k)) (fun J1 => rj (map (smodes (shape x)) (seq k (length (shape x) - k))) (fun J2 => f (J1 ++ J2))) =
  rj (map (fun n => [n]) (shape x)) f.
Proof. intros Hk. rewrite <- rj_app, <- map_app, <- (seq_cut k) by auto. now rewrite smodes_all. Qed.

Lemma xcut_dist_best (x : rtensor) (b : rtt) k : wf b -> k <= length (shape x) ->
  xcut_dist x k (rk b k) (lvec (coreG b []) (rk b)) (rvec (coreG b []) (rk b) k) =
  rj (map (fun n => [n]) (shape x)) (fun J => (xA x J - tt_entry b [] J) * (xA x J - tt_entry b [] J))%R.
Proof.
  intros Hb Hk. rewrite <- (xcut_sum x k) by auto. unfold xcut_dist. apply rj_ext. intros J1 H1. apply rj_ext. intros J2 _.
  apply vjdx_length in H1. rewrite map_length, seq_length in H1. now rewrite (entry_cut b [] k) by auto.
Qed.

Section Thms.
Variable svd : rtensor -> rtensor * rtensor * rtensor.
Hypothesis Hsvd : svd_ok svd.
Variables (x : rtensor) (a : rank_arg) (eps : option R) (mr : list nat).
Hypothesis Wx : wft x.
Hypothesis Hd : 2 <= length (shape x).
Hypothesis Hpos : Forall (fun n => 0 < n) (shape x).
Hypothesis Hp : parse_ranks false a eps (length (shape x)) = Ok mr.

(** Some factorization with few enough terms at every cut makes the result exact. *)
Lemma tt_svd_exact :
  (forall k, 0 < k < length (shape x) -> exists q P Z, q <= nth k mr 0 /\ xcut_dist x k q P Z = 0%R) ->
  exists z dz, to_tt_tensor svd x a eps = Ok z /\ wf z /\ rshape z = [shape x] /\ bsz z = None /\
    full z = Ok dz /\ shape dz = shape x /\ forall i, vidx (shape x) i -> get dz i = get x i.
Proof.
  intros HX. destruct (to_tt_tensor_ok svd Hsvd x a eps mr Wx Hd Hpos Hp) as (z & Ez & Wz & Rz & Bz & Dz & Kz & (e & HE & HB)).
  destruct (single_facts z (shape x) Wz Rz Bz) as (D & I & M & P & _).
  destruct (full_correct Rring z Wz) as (dz & Fz & _ & Sz & Gz). rewrite get_shape_ishape, P, I in Sz, Gz. cbn [app] in Sz, Gz.
  exists z, dz. do 6 (split; [assumption|]). intros i Hi. rewrite Gz by auto.
  assert (E0 : rsum (length (shape x) - 1) (fun x => e (S x)) = 0%R).
  { apply rsum_0. intros k Hk. destruct (HB (S k) ltac:(lia)) as [B1 B2]. destruct (HX (S k) ltac:(lia)) as (q & P' & Z' & Hq & E).
    specialize (B2 q P' Z' Hq). lra. }
  rewrite E0, smodes_all, <- M in HE.
  destruct (split_idx_valid _ z i Wz ltac:(now rewrite I)) as [V1 V2].
  pose proof (rj_zero_each _ _ (fun J _ => Rle_0_sqr _) HE (split_idx z i) ltac:(unfold all_modes; now apply vjdx_chain)) as Q. cbv beta in Q.
  change i with ([] ++ i) at 1. rewrite tt_at_entry by (rewrite P; constructor).
  unfold xA in Q. replace (List.concat (split_idx z i)) with i in Q.
  2:{ unfold split_idx, is_tt_matrix. rewrite Rz. cbn [length Nat.eqb]. symmetry. apply concat_sing. }
  apply Rmult_integral in Q. destruct Q; lra.
Qed.

(** Enough terms for any tensor: one side of the unfolding. *)
Lemma xcut_side k : 0 < k < length (shape x) ->
  Nat.min (prodn (firstn k (shape x))) (prodn (skipn k (shape x))) <= nth k mr 0 ->
  exists q P Z, q <= nth k mr 0 /\ xcut_dist x k q P Z = 0%R.
Proof.
  intros Hk Hm. set (sh := shape x) in *.
  assert (Z : forall q P Z, (forall J1 J2, vjdx (map (smodes sh) (seq 0 k)) J1 -> vjdx (map (smodes sh) (seq k (length sh - k))) J2 ->
     rsum q (fun c => P J1 c * Z J2 c)%R = xA x (J1 ++ J2)) -> xcut_dist x k q P Z = 0%R).
  { intros q P Z H. unfold xcut_dist. fold sh. apply rj_zero. intros J1 H1. apply rj_zero. intros J2 H2. rewrite H by auto. ring. }
  destruct (Nat.min_spec (prodn (firstn k sh)) (prodn (skipn k sh))) as [[_ E]|[_ E]]; rewrite E in Hm.
  - exists (prodn (firstn k sh)), (fun J c => kron (ravel (firstn k sh) (List.concat J)) c), (fun J c => get x (unravel (firstn k sh) c ++ List.concat J)).
    split; [auto|]. apply Z. intros J1 J2 H1 H2.
    rewrite smodes_firstn in H1 by lia. apply vjdx_sing in H1. unfold xA. rewrite concat_app.
    rewrite (rsum_ext _ _ (fun c => get x (unravel (firstn k sh) c ++ List.concat J2) * kron (ravel (firstn k sh) (List.concat J1)) c)%R) by (intros; ring).
    rewrite rsum_kron_r by now apply ravel_lt. now rewrite unravel_ravel.
  - exists (prodn (skipn k sh)), (fun J c => get x (List.concat J ++ unravel (skipn k sh) c)), (fun J c => kron (ravel (skipn k sh) (List.concat J)) c).
    split; [auto|]. apply Z. intros J1 J2 H1 H2.
    rewrite smodes_skipn in H2 by lia. apply vjdx_sing in H2. unfold xA. rewrite concat_app.
    rewrite rsum_kron_r by now apply ravel_lt. now rewrite unravel_ravel.
Qed.

Lemma xcut_rep (b : rtt) k : k <= length (shape x) -> wf b -> rshape b = [shape x] -> bsz b = None -> full b = Ok x ->
  xcut_dist x k (rk b k) (lvec (coreG b []) (rk b)) (rvec (coreG b []) (rk b) k) = 0%R.
Proof.
  intros Hk Wb Rb Bb Fb. rewrite xcut_dist_best by auto. rewrite <- (sq_dist_single x b x (shape x)) by auto.
  unfold sq_dist. apply (isum_zero Rring). intros i _. cbn [app]. unfold Rminus. rewrite Rplus_opp_r. apply Rmult_0_l.
Qed.

Lemma tt_svd_best (b : rtt) db : wf b -> rshape b = [shape x] -> bsz b = None -> full b = Ok db ->
  (forall k, 0 < k < length (shape x) -> rk b k <= nth k mr 0) ->
  exists z dz, to_tt_tensor svd x a eps = Ok z /\ full z = Ok dz /\
    (sq_dist (shape x) x dz [] <= INR (length (shape x) - 1) * sq_dist (shape x) x db [])%R.
Proof.
  intros Wb Rb Bb Fb Kb. destruct (to_tt_tensor_ok svd Hsvd x a eps mr Wx Hd Hpos Hp) as (z & Ez & Wz & Rz & Bz & Dz & Kz & (e & HE & HB)).
  destruct (full_correct Rring z Wz) as (dz & Fz & _). exists z, dz. split; [exact Ez|]. split; [exact Fz|].
  rewrite (sq_dist_single x z dz (shape x)), (sq_dist_single x b db (shape x)) by auto.
  rewrite smodes_all in HE. rewrite HE. apply rsum_le_const. intros i Hi. destruct (HB (S i) ltac:(lia)) as [_ B2].
  rewrite <- (xcut_dist_best x b (S i)) by (auto; lia). apply B2. apply Kb. lia.
Qed.

Lemma xcut_svd k n U s V r : k <= length (shape x) ->
  unfolding_svd [shape x] (smodes (shape x)) (length (shape x)) x [] k n U s V -> r <= n ->
  xcut_dist x k r (fun J l => U J l * s l)%R V = tail n r s.
Proof.
  intros Hk [H1 H2 H3 _ _] Hr.
  set (X := map (smodes (shape x)) (seq 0 k)). set (Y := map (smodes (shape x)) (seq k (length (shape x) - k))). fold X Y in H1, H2, H3.
  set (U' := fun x l => U (jun X x) l). set (V' := fun y l => V (jun Y y) l).
  assert (OU : ortho (jsize X) n U') by (intros c b Hc Hb; unfold U'; rewrite <- (rj_rsum_all X (fun J => U J c * U J b)%R); now apply H2).
  assert (OV : ortho (jsize Y) n V') by (intros c b Hc Hb; unfold V'; rewrite <- (rj_rsum_all Y (fun J => V J c * V J b)%R); now apply H3).
  transitivity (sum2 (jsize X) (jsize Y) (fun x y => (expan n U' s V' x y - expan r U' s V' x y) * (expan n U' s V' x y - expan r U' s V' x y))%R).
  - unfold xcut_dist. fold X Y. rewrite rj_rsum_all. unfold sum2. apply rsum_ext. intros w Hw. rewrite rj_rsum_all. apply rsum_ext. intros y Hy.
    pose proof (jun_valid X w Hw) as Vx. pose proof (jun_valid Y y Hy) as Vy.
    assert (E : xA x (jun X w ++ jun Y y) = expan n U' s V' w y).
    { unfold xA. rewrite <- (glue_single (shape x)).
      - apply H1; auto.
      - rewrite <- smodes_all, (seq_cut k) by auto. rewrite map_app. now apply Forall2_app. }
    rewrite E. reflexivity.
  - rewrite (trunc_error (jsize X) (jsize Y) n r (expan n U' s V') U' V' s); auto.
    + replace (sum2 _ _ _) with 0%R; [lra|]. symmetry. unfold sum2. apply rsum_0. intros. apply rsum_0. intros. ring.
    + intros. apply rsum_0. intros. ring.
Qed.

Lemma tt_svd_bound (n : nat -> nat) U s V :
  (forall k, 0 < k < length (shape x) -> unfolding_svd [shape x] (smodes (shape x)) (length (shape x)) x [] k (n k) (U k) (s k) (V k)) ->
  exists z dz, to_tt_tensor svd x a eps = Ok z /\ full z = Ok dz /\
    (sq_dist (shape x) x dz [] <= sum_cuts (length (shape x)) (fun k => discarded (n k) (nth k mr 0%nat) (s k)))%R.
Proof.
  intros HU. destruct (to_tt_tensor_ok svd Hsvd x a eps mr Wx Hd Hpos Hp) as (z & Ez & Wz & Rz & Bz & Dz & Kz & (e & HE & HB)).
  destruct (full_correct Rring z Wz) as (dz & Fz & _). exists z, dz. split; [exact Ez|]. split; [exact Fz|].
  rewrite (sq_dist_single x z dz (shape x)) by auto. rewrite smodes_all in HE. rewrite HE.
  apply rsum_le. intros i Hi. destruct (HB (S i) ltac:(lia)) as [_ B2]. rewrite <- discarded_min.
  change (discarded (n (S i)) (Nat.min (nth (S i) mr 0) (n (S i))) (s (S i))) with (tail (n (S i)) (Nat.min (nth (S i) mr 0) (n (S i))) (s (S i))).
  rewrite <- (xcut_svd (S i) (n (S i)) (U (S i)) (s (S i)) (V (S i))); auto; try lia; [|apply HU; lia].
  apply B2. lia.
Qed.
End Thms.
