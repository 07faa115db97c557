(** C69: the program of docs/quick_start.ipynb.

    [convert], [arithmetic_cell], [matrix_cells] (Quickstart.v) are the cells of the notebook; [elementwise2 F a b c]:
    the dense tensor of c is F applied to the elements of those of a and b (Dense.v); [sq_dist l x y []]: the sum of
    the squares of x - y (SvdSpec.v); [rank_limits]: the limits [m k] that max_tt_rank puts on the ranks. *)
From Coq Require Import String List Arith ZArith Lia Lra Bool Reals.
From Verif Require Import Scalar Tensor TensorLemmas TensorLemmas2 Base Spec BaseLemmas Ops FullProofs ResultLemmas Dense FlatProofs NormProofs MatmulProofs OpsR
  Decomp DecompSpec SvdSpec QRExists SvdExists RoundThms RoundBest Init Quickstart Samples
  Properties_Full_Add Properties_Mul_Matmul Properties_Scale Properties_Decomp Properties_Svd.
From Verif Require TangentSpace InitProofs Properties_Init.
Import ListNotations.
Local Open Scope nat_scope.
Local Notation get := (@get Rring).

(** "rounding finds the tensor that is of a smaller rank but is as close to the original one as possible": false.
    There are a 2 x 2 x 2 tensor and a tensor of rank 1 closer to it than the result of round, whatever QR and SVD do. *)
Theorem C69_round_best_refuted : exists (t b : rtt) dt db, wf t /\ wf b /\ rshape t = [[2;2;2]] /\ rshape b = [[2;2;2]] /\ bsz t = None /\ bsz b = None /\
  rks b = [1;1;1;1] /\ full t = Ok dt /\ full b = Ok db /\
  forall qr svd, qr_ok qr -> svd_ok svd -> exists z dz, round qr svd t (RkNum 1) None = Ok z /\ full z = Ok dz /\
    (sq_dist [2;2;2]%nat dt db [] < sq_dist [2;2;2]%nat dt dz [])%R.
Proof.
  assert (Wt : wf (toR x222)) by (apply wfb_wf; vm_compute; reflexivity).
  assert (Wb : wf (toR b222)) by (apply wfb_wf; vm_compute; reflexivity).
  destruct (full_correct Rring _ Wt) as (dt & Ft & _). destruct (full_correct Rring _ Wb) as (db & Fb & _).
  exists (toR x222), (toR b222), dt, db. do 7 (split; [assumption||reflexivity|]). do 2 (split; [assumption|]).
  intros qr svd Hq Hs. destruct (worse qr svd Hq Hs) as (z & Ez & Wz & Rz & Bz & E1 & E2).
  destruct (full_correct Rring _ Wz) as (dz & Fz & _). exists z, dz. do 2 (split; [assumption|]).
  change [2;2;2] with (ishape (toR x222)).
  rewrite (sq_dist_entries (toR x222) z dt dz []), (sq_dist_entries (toR x222) (toR b222) dt db []) by (auto; constructor).
  rewrite E1. lra.
Qed.
Print Assumptions C69_round_best_refuted.

(** It is true of two cores: matrices in the TT-format, TT-matrices with two cores, batches of them. *)
Theorem C69_round_two_cores_best : forall qr svd (t b : rtt) dt db a eps m, qr_ok qr -> svd_ok svd -> wf t -> ndims t = 2 ->
  rank_limits (is_batch t) a eps 2 m -> wf b -> rshape b = rshape t -> bsz b = bsz t -> rk b 1 <= m 1 ->
  full t = Ok dt -> full b = Ok db ->
  exists z dz, round qr svd t a eps = Ok z /\ full z = Ok dz /\ rk z 1 <= m 1 /\
    forall p, vidx (bpre t) p -> (sq_dist (ishape t) dt dz p <= sq_dist (ishape t) dt db p)%R.
Proof.
  intros qr svd t b dt db a eps m Hq Hs Wt D Hm Wb Rb Bb Kb Ft Fb.
  destruct (C32_quasi_optimal qr svd t b dt db a eps m) as (z & dz & Ez & Fz & B); auto; [now rewrite D|intros k Hk; now replace k with 1 by lia|].
  destruct (C31_round_ranks qr svd t a eps m Hq Hs Wt ltac:(now rewrite D)) as (z' & Ez' & _ & _ & _ & _ & K).
  assert (z' = z) by congruence. subst z'. exists z, dz. do 2 (split; [assumption|]). split; [apply K; lia|].
  intros p Vp. eapply Rle_trans; [now apply B|]. rewrite D. cbn. lra.
Qed.
Print Assumptions C69_round_two_cores_best.

Theorem C69_convert_matrix_best : forall svd (x : rtensor) n1 n2 r (b : rtt) db, svd_ok svd -> wft x -> shape x = [n1; n2] -> 0 < n1 -> 0 < n2 -> 0 < r ->
  wf b -> rshape b = [[n1; n2]] -> bsz b = None -> rk b 1 <= r -> full b = Ok db ->
  exists z dz, convert svd x (RkNum (Z.of_nat r)) = Ok (z, dz) /\ rk z 1 <= r /\ (sq_dist [n1; n2] x dz [] <= sq_dist [n1; n2] x db [])%R.
Proof.
  intros svd x n1 n2 r b db Hs Wx Sx P1 P2 Pr Wb Rb Bb Kb Fb.
  assert (Hm : rank_limits false (RkNum (Z.of_nat r)) None (length (shape x)) (fun _ => r)).
  { split; [exact I|]. split; [lia|]. intros. now rewrite Nat2Z.id. }
  assert (HP : Forall (fun n => 0 < n) (shape x)) by (rewrite Sx; auto).
  destruct (C29_quasi_optimal svd x (RkNum (Z.of_nat r)) None (fun _ => r) b db) as (z & dz & Ez & Fz & B); auto; try (rewrite Sx; cbn; auto).
  { intros k Hk. now replace k with 1 by lia. }
  destruct (C29_ranks svd x (RkNum (Z.of_nat r)) None (fun _ => r) Hs Wx ltac:(rewrite Sx; cbn; lia) HP Hm) as (z' & Ez' & _ & _ & _ & K).
  assert (z' = z) by congruence. subst z'. exists z, dz. unfold convert. rewrite Ez. cbn [bind]. rewrite Fz. split; [reflexivity|].
  split; [apply (K 1); rewrite Sx; cbn; lia|]. rewrite Sx in B. eapply Rle_trans; [exact B|]. cbn. lra.
Qed.
Print Assumptions C69_convert_matrix_best.

(** Cells 2 and 3: a 3 x 4 matrix and a 3 x 2 x 2 tensor are converted to rank 3 and back without change. *)
Theorem C69_convert : forall svd (x : rtensor), svd_ok svd -> wft x -> shape x = [3;4] \/ shape x = [3;2;2] ->
  exists a d, convert svd x (RkNum 3) = Ok (a, d) /\ wf a /\ rshape a = [shape x] /\ bsz a = None /\
    rks a = (if Nat.eqb (length (shape x)) 2 then [1;3;1] else [1;3;2;1]) /\
    shape d = shape x /\ forall i, vidx (shape x) i -> get d i = get x i.
Proof.
  intros svd x Hs Wx Sx.
  assert (Hm : rank_limits false (RkNum 3) None (length (shape x)) (fun _ => 3)) by (split; [exact I|]; split; [lia|reflexivity]).
  assert (L : 2 <= length (shape x)) by (destruct Sx as [-> | ->]; cbn; lia).
  assert (HP : Forall (fun n => 0 < n) (shape x)) by (destruct Sx as [-> | ->]; repeat constructor).
  destruct (C29_exact svd x (RkNum 3) None (fun _ => 3) Hs Wx L HP Hm) as (a & d & Ea & Wa & Ra & Ba & Fa & Sd & G).
  { intros k Hk. destruct Sx as [Sx | Sx]; rewrite Sx in *; cbn in Hk; destruct k as [|[|[|k]]]; try lia; vm_compute; lia. }
  destruct (C29_exact_ranks svd x (RkNum 3) None (fun _ => 3) Hs Wx L HP Hm) as (a' & Ea' & K0 & Kd & K).
  assert (a' = a) by congruence. subst a'.
  exists a, d. unfold convert. rewrite Ea. cbn [bind]. rewrite Fa. split; [reflexivity|]. do 3 (split; [assumption|]). split; [|split; assumption].
  pose proof (wf_rlen Wa) as L1. rewrite Ra in L1. inversion L1 as [|? ? L2 _]; subst.
  pose proof (wf_klen Wa) as L3. rewrite <- L2 in L3.
  destruct Sx as [Sx | Sx]; rewrite Sx in *; cbn [length] in *; unfold rk in *; cbn [Nat.eqb].
  - destruct (rks a) as [|r0 [|r1 [|r2 [|]]]]; try discriminate L3. cbn in K0, Kd. specialize (K 1 ltac:(lia)). vm_compute in K0, Kd, K. subst. reflexivity.
  - destruct (rks a) as [|r0 [|r1 [|r2 [|r3 [|]]]]]; try discriminate L3. cbn in K0, Kd.
    pose proof (K 1 ltac:(lia)) as K1. pose proof (K 2 ltac:(lia)) as K2. cbn in K1, K2. subst r0 r3. vm_compute in K1. subst r1. vm_compute in K2. subst. reflexivity.
Qed.
Print Assumptions C69_convert.

(** Cell 4, for a TT-tensor [a] of any shape and ranks, any rank of b and any limit of the rounding: sum, product
    and double are those of the dense tensors; the printed ranks of a product are at most those of the factors multiplied; both printed norms
    are sqrt (norm^2 + 1e-5); the rounding is within sqrt (d - 1) of the best. *)
Theorem C69_arithmetic : forall qr svd xi (a : rtt) l rb rkb rr m, qr_ok qr -> svd_ok svd -> wf a -> rshape a = [l] -> bsz a = None -> 2 <= length l ->
  InitProofs.rank_arg (length l) rb rkb -> rank_limits false rr None (length l) m ->
  exists o, arithmetic_cell qr svd xi a (S1Vec (nints l)) rb rr = Ok o /\
    wf (ar_b o) /\ rshape (ar_b o) = [l] /\ bsz (ar_b o) = None /\ rks (ar_b o) = rkb /\
    elementwise2 (K := Rring) Rplus a (ar_b o) (ar_sum o) /\ elementwise2 (K := Rring) Rmult a (ar_b o) (ar_prod o) /\
    elementwise1 (K := Rring) (L := Rring) (Rmult 2) a (ar_twice o) /\
    wf (ar_prod o) /\ rks (ar_prod o) = map2 Nat.mul (rks a) rkb /\
    wf (ar_rounded o) /\ round qr svd (ar_prod o) rr None = Ok (ar_rounded o) /\ (forall k, 0 < k < length l -> rk (ar_rounded o) k <= m k) /\
    ar_ranks o = (list_max (rks a), list_max rkb, list_max (rks (ar_prod o)), list_max (rks (ar_rounded o))) /\
    exists db dp dr, full (ar_b o) = Ok db /\ full (ar_prod o) = Ok dp /\ full (ar_rounded o) = Ok dr /\
      ar_norm o = sqrt (isum (K := Rring) l (fun i => get db i * get db i)%R + 1 / 100000) /\
      ar_difference o = sqrt (sq_dist l dp dr [] + 1 / 100000) /\
      forall (c : rtt) dc, wf c -> rshape c = [l] -> bsz c = None -> (forall k, 0 < k < length l -> rk c k <= m k) -> full c = Ok dc ->
        (sq_dist l dp dr [] <= INR (length l - 1) * sq_dist l dp dc [])%R.
Proof.
  intros qr svd xi a l rb rkb rr m Hq Hs Wa Ra Ba Hl Hr Hm.
  assert (Da : ndims a = length l). { pose proof (wf_rlen Wa) as L. rewrite Ra in L. inversion L; subst. auto. }
  assert (Pl : Forall (fun n => 0 < n) l). { pose proof (wf_rpos Wa) as P. rewrite Ra in P. inversion P; auto. }
  destruct (Properties_Init.C37_random_objects xi l rb rkb 1 1 Hl Pl Hr ltac:(lia)) as ((b & Eb & Wb & Rb & Kb & Bb) & _ & _).
  destruct (C16_frobenius_norm qr b eps5 false Hq Wb) as (nb & db & En & _ & _ & Fb & Gn).
  destruct (C03_add Rring a b Wa Wb ltac:(congruence) ltac:(lia) Ba Bb) as (s & Es & _ & _ & _ & _ & Hs2).
  destruct (C06_multiply Rring a b Wa Wb ltac:(congruence) Ba Bb) as (p & Ep & Wp & Rp & Bp & Kp & Hp).
  destruct (C07_multiply_number a 2 Wa) as (w & Ew & _ & _ & _ & _ & Hw).
  assert (Dp : ndims p = length l). { pose proof (wf_rlen Wp) as L. rewrite Rp, Ra in L. inversion L; subst. auto. }
  assert (Hmp : rank_limits (is_batch p) rr None (ndims p) m) by (unfold is_batch; rewrite Bp, Dp; exact Hm).
  destruct (C31_round_ranks qr svd p rr None m Hq Hs Wp Hmp) as (z & Ez & Wz & Rz & Bz & Dz & Kz).
  destruct (C05_sub p z Wp Wz ltac:(congruence) ltac:(lia) Bp ltac:(congruence)) as (f & Ef & Wf & Rf & Bf & _ & Hf).
  destruct (C16_frobenius_norm qr f eps5 false Hq Wf) as (nf & df & En2 & _ & _ & Ff & Gf).
  eexists. split. { unfold arithmetic_cell. rewrite Eb. cbn [bind]. rewrite En. cbn [bind]. rewrite Es. cbn [bind multiply]. rewrite Ep. cbn [bind].
    change (multiply_num a 2) with (multiply a (FNum 2)). rewrite Ew. cbn [bind]. rewrite Ez. cbn [bind]. rewrite Ef. cbn [bind]. rewrite En2. cbn [bind]. reflexivity. }
  cbn [ar_b ar_sum ar_prod ar_twice ar_rounded ar_ranks ar_norm ar_difference]. do 3 (split; [assumption|]). split; [assumption|].
  do 3 (split; [assumption|]). split; [assumption|]. split; [now rewrite Kp, Kb|]. split; [assumption|]. split; [assumption|]. split; [intros k Hk; apply Kz; lia|].
  split; [unfold max_rank; now rewrite Kb|].
  destruct Hf as (dp & dr & df' & Fp & Fz & Ff' & Sf & G). assert (df' = df) by congruence. subst df'. rewrite Bf in G.
  exists db, dp, dr. do 3 (split; [assumption|]).
  assert (Ib : ishape b = l) by (unfold ishape, is_tt_matrix; rewrite Rb; reflexivity).
  assert (If : ishape f = l) by (unfold ishape, is_tt_matrix; rewrite Rf, Rp, Ra; reflexivity).
  assert (Ip : ishape p = l) by (unfold ishape, is_tt_matrix; rewrite Rp, Ra; reflexivity).
  specialize (Gn 0). specialize (Gf 0). unfold inrange, bo, sum_squares in Gn, Gf. rewrite Bb, Ib in Gn. rewrite Bf, If in Gf.
  split; [now apply Gn|]. split.
  { rewrite Gf by exact I. f_equal. f_equal. unfold sq_dist. apply (isum_ext Rring). intros i Hi. cbn [bo app].
    rewrite G; [reflexivity|]. rewrite Sf, get_shape_ishape, If. unfold bpre. now rewrite Bf. }
  intros c dc Wc Rc Bc Kc Fc. destruct (C32_quasi_optimal qr svd p c dp dc rr None m Hq Hs Wp Hmp Wc ltac:(congruence) ltac:(congruence) ltac:(rewrite Dp; auto) Fp Fc) as (z' & dz & Ez' & Fz' & B).
  assert (z' = z) by congruence. subst z'. assert (dz = dr) by congruence. subst dz.
  specialize (B [] ltac:(unfold bpre; rewrite Bp; constructor)). rewrite Ip, Dp in B. exact B.
Qed.
Print Assumptions C69_arithmetic.

(** The numbers of the notebook: "The TT-ranks of a and b are 3 and 2. The TT-rank of their elementwise product is 6. The TT-rank of their product after rounding
    is 3", for every 3 x 2 x 2 array and all samples.  "The difference between the exact and the rounded elementwise product is 0.003162": the two are
    equal, and the number printed is sqrt (1e-5). *)
Theorem C69_printed : forall qr svd xi (x : rtensor), qr_ok qr -> svd_ok svd -> wft x -> shape x = [3;2;2] ->
  exists a d o, convert svd x (RkNum 3) = Ok (a, d) /\
    arithmetic_cell qr svd xi a (S1Vec (nints [3;2;2])) (RAnum (NI 2)) (RkNum 3) = Ok o /\
    ar_ranks o = (3, 2, 6, 3) /\ rks (ar_rounded o) = [1;3;2;1] /\ same_full (ar_prod o) (ar_rounded o) /\ ar_difference o = sqrt (1 / 100000).
Proof.
  intros qr svd xi x Hq Hs Wx Sx.
  destruct (C69_convert svd x Hs Wx (or_intror Sx)) as (a & d & Ea & Wa & Ra & Ba & Ka & _). rewrite Sx in Ra, Ka. cbn [length Nat.eqb] in Ka.
  assert (Hm : rank_limits false (RkNum 3) None (length [3;2;2]) (fun _ => 3)) by (split; [exact I|]; split; [lia|reflexivity]).
  destruct (C69_arithmetic qr svd xi a [3;2;2] (RAnum (NI 2)) [1;2;2;1] (RkNum 3) (fun _ => 3) Hq Hs Wa Ra Ba ltac:(cbn; lia)) as (o & Eo & H); auto.
  { left. exists 2. split; [lia|]. split; reflexivity. }
  exists a, d, o. split; [exact Ea|]. split; [exact Eo|].
  destruct H as (Wb & Rb & Bb & Kb & _ & Hp & _ & Wp & Kp & Wz & Ez & Kz & Rk & db & dp & dr & Fb & Fp & Fr & _ & Hd & Hbest).
  rewrite Ka in Kp. cbn in Kp.
  assert (Rp : rshape (ar_prod o) = [[3;2;2]] /\ bsz (ar_prod o) = None).
  { destruct (C06_multiply Rring a (ar_b o) Wa Wb ltac:(congruence) Ba Bb) as (p & Ep & _ & Rp & Bp & _).
    destruct (Properties_Init.C37_random_objects xi [3;2;2] (RAnum (NI 2)) [1;2;2;1] 1 1 ltac:(cbn; lia) ltac:(repeat constructor)) as ((b & Eb & _) & _); [left; exists 2; split; [lia|]; split; reflexivity|lia|].
    assert (p = ar_prod o); [|subst; rewrite Rp, Bp, Ra; auto].
    unfold arithmetic_cell in Eo. rewrite Eb in Eo. cbn [bind] in Eo.
    repeat match type of Eo with bind ?e _ = _ => destruct e eqn:?; [|discriminate]; cbn [bind] in Eo end. injection Eo as <-. cbn [ar_prod ar_b] in *.
    cbn [multiply] in *. congruence. }
  destruct Rp as [Rp Bp].
  assert (Dp : ndims (ar_prod o) = 3). { pose proof (wf_rlen Wp) as L. rewrite Rp in L. inversion L; subst. auto. }
  assert (Kr : rks (ar_rounded o) = [1;3;2;1]).
  { destruct (C31_exact_ranks qr svd (ar_prod o) (RkNum 3) None (fun _ => 3) Hq Hs Wp) as (z & q & Ez' & Q0 & Q & K & K3).
    { unfold is_batch. rewrite Bp, Dp. exact Hm. }
    assert (z = ar_rounded o) by congruence. subst z. rewrite Dp in *.
    pose proof (Q 0 ltac:(lia)) as Q1. pose proof (Q 1 ltac:(lia)) as Q2. pose proof (K 1 ltac:(lia)) as K1. pose proof (K 2 ltac:(lia)) as K2.
    assert (Ms : forall k, modes (ar_prod o) k = [nth k [3;2;2] 0]) by (intros k; unfold modes; now rewrite Rp). rewrite !Ms in *. unfold rk in *. rewrite Kp in *.
    unfold prodn in *. cbn in Q1, Q2, K1, K2. rewrite Q0 in Q1. cbn in Q1. rewrite Q1 in *. cbn in Q2. rewrite Q2 in *. cbn in K3. rewrite K3 in K2. cbn in K2. rewrite K2 in K1. cbn in K1.
    pose proof (wf_klen Wz) as L. pose proof (wf_first Wz) as K0.
    destruct (C31_round_ranks qr svd (ar_prod o) (RkNum 3) None (fun _ => 3) Hq Hs Wp) as (z & Ez2 & _ & _ & _ & Dz & _).
    { unfold is_batch. rewrite Bp, Dp. exact Hm. }
    assert (z = ar_rounded o) by congruence. subst z. rewrite Dz, Dp in L. unfold rk in *.
    destruct (rks (ar_rounded o)) as [|r0 [|r1 [|r2 [|r3 [|]]]]]; try discriminate L. cbn in *. subst. reflexivity. }
  split. { rewrite Rk, Kr, Kp, Ka. reflexivity. } split; [exact Kr|].
  destruct (full_correct Rring _ Wp) as (dp' & Fp' & Wdp & Sdp & _). assert (dp' = dp) by congruence. subst dp'.
  assert (Sp : shape dp = [3;2;2]) by (rewrite Sdp; unfold get_shape, is_tt_matrix; rewrite Rp, Bp; reflexivity).
  destruct (C69_convert svd dp Hs Wdp (or_intror Sp)) as (c & dc & Ec & Wc & Rc & Bc & Kc & Sc & Gc). rewrite Sp in *. cbn [length Nat.eqb] in Kc.
  assert (Fc : full c = Ok dc). { unfold convert in Ec. destruct (to_tt_tensor svd dp (RkNum 3) None) as [t|]; [|discriminate]. cbn [bind] in Ec. destruct (full t) eqn:E; [|discriminate]. cbn [bind] in Ec. congruence. }
  assert (Z0 : (sq_dist [3;2;2]%nat dp dr [] = 0)%R).
  { apply Rle_antisym.
    - eapply Rle_trans; [apply (Hbest c dc); auto|].
      + intros k Hk. unfold rk. rewrite Kc. destruct k as [|[|[|k]]]; cbn in *; lia.
      + apply Req_le. unfold sq_dist. rewrite (isum_zero Rring); [cbn; lra|]. intros i Hi. cbn [app]. rewrite Gc by exact Hi. cbn. lra.
    - apply (TangentSpace.isum_zero_each [3;2;2] (fun i => (get dp ([] ++ i) - get dr ([] ++ i)) * (get dp ([] ++ i) - get dr ([] ++ i)))%R). intros k _. apply Rle_0_sqr. }
  split.
  - exists dp, dr. do 2 (split; [assumption|]). destruct (full_correct Rring _ Wz) as (dr' & Fr' & _ & Sr & _). assert (dr' = dr) by congruence. subst dr'.
    destruct (C31_round_ranks qr svd (ar_prod o) (RkNum 3) None (fun _ => 3) Hq Hs Wp) as (z & Ez2 & _ & Rz & Bz & _).
    { unfold is_batch. rewrite Bp, Dp. exact Hm. }
    assert (z = ar_rounded o) by congruence. subst z.
    split; [rewrite Sr, Sp; unfold get_shape, is_tt_matrix; rewrite Rz, Bz, Rp, Bp; reflexivity|]. rewrite Sp. intros i Hi.
    destruct (TangentSpace.isum_zero_each [3;2;2] (fun i => (get dp ([] ++ i) - get dr ([] ++ i)) * (get dp ([] ++ i) - get dr ([] ++ i)))%R) as [_ Q].
    { intros k _. apply Rle_0_sqr. } specialize (Q Z0 i Hi). cbn [app] in Q. apply Rsqr_0_uniq in Q. cbn in *. lra.
  - rewrite Hd, Z0. f_equal. lra.
Qed.
Print Assumptions C69_printed.

(** The last two cells, for any matrix, factorization of its sizes and ranks. *)
Theorem C69_matrices : forall qr svd xi (x : rtensor) rows cols ra rv rkv m, qr_ok qr -> svd_ok svd -> shape x = [prodn rows; prodn cols] ->
  length rows = length cols -> 2 <= length rows -> Forall (fun n => 0 < n) rows -> Forall (fun n => 0 < n) cols ->
  rank_limits false ra None (length rows) m -> InitProofs.rank_arg (length cols) rv rkv ->
  exists o da dv, matrix_cells qr svd xi x rows cols ra rv = Ok o /\ wf (mx_a o) /\ rshape (mx_a o) = [rows; cols] /\
    (forall k, 0 < k < length rows -> rk (mx_a o) k <= m k) /\ full (mx_a o) = Ok da /\ full (mx_vector o) = Ok dv /\ shape dv = [prodn cols; 1] /\
    mx_norm o = sqrt (isum (K := Rring) [prodn rows; prodn cols] (fun i => get da i * get da i)%R + 1 / 100000) /\
    elementwise1 (K := Rring) (L := Rring) (Rmult 2) (mx_a o) (mx_twice o) /\ elementwise2 (K := Rring) Rmult (mx_a o) (mx_a o) (mx_square o) /\
    full (mx_matvec o) = Ok (mx_dense o) /\ shape (mx_expected o) = [prodn rows; 1] /\ shape (mx_dense o) = [prodn rows; 1] /\
    (forall i, i < prodn rows -> get (mx_expected o) [i; 0] = sumn (K := Rring) (prodn cols) (fun j => get da [i; j] * get dv [j; 0%nat])%R) /\
    (forall i, i < prodn rows -> get (mx_dense o) [i; 0] = get (mx_expected o) [i; 0]).
Proof.
  intros qr svd xi x rows cols ra rv rkv m Hq Hs Sx L Hl P0 P1 Hm Hr.
  destruct (C30_ranks svd x rows cols ra None m Hs Sx L Hl P0 P1 Hm) as (a & Ea & Wa & Ra & Ba & Ka).
  destruct (C16_frobenius_norm qr a eps5 false Hq Wa) as (na & da & En & _ & _ & Fa & Gn).
  destruct (C07_multiply_number a 2 Wa) as (w & Ew & _ & _ & _ & _ & Hw).
  destruct (C06_multiply Rring a a Wa Wa eq_refl Ba Ba) as (p & Ep & _ & _ & _ & _ & Hp).
  assert (Lo : length (repeat 1 (length cols)) = length cols) by apply repeat_length.
  assert (Po : Forall (fun n => 0 < n) (repeat 1 (length cols))) by (apply Forall_forall; intros y Hy; apply repeat_spec in Hy; lia).
  destruct (Properties_Init.C37_random_objects xi cols rv rkv 1 1 ltac:(lia) P1 Hr ltac:(lia)) as (_ & _ & HR).
  destruct (HR (repeat 1 (length cols)) (S2Rows [Some (nints cols); Some (nints (repeat 1 (length cols)))]) Lo Po ltac:(now left)) as ((v & Ev & Wv & Rv & Kv & Bv) & _).
  assert (Ma : is_tt_matrix a = true) by (unfold is_tt_matrix; now rewrite Ra).
  assert (Mv : is_tt_matrix v = true) by (unfold is_tt_matrix; now rewrite Rv).
  destruct (C09_matmul Rring a v Wa Wv Ma Mv ltac:(now rewrite Ra, Rv) ltac:(rewrite Ba, Bv; exact I)) as (c & Ec & Wc & _ & _ & Bc & HM).
  rewrite Ra, Rv in HM. cbn [nth] in HM. destruct HM as (da' & dv & dc & Fa' & Fv & Fc & HM). assert (da' = da) by congruence. subst da'.
  rewrite Bc, Ba, Bv in HM. cbn [bc_size opidx] in HM. destruct HM as [Sc Gc].
  assert (One : forall n, prodn (repeat 1 n) = 1). { induction n; [reflexivity|]. change (1 * prodn (repeat 1 n) = 1). lia. }
  rewrite One in Sc, Gc.
  destruct (full_correct Rring a Wa) as (d1 & F1 & _ & S1 & _). assert (d1 = da) by congruence. subst d1. unfold get_shape in S1. rewrite Ma, Ba, Ra in S1.
  destruct (full_correct Rring v Wv) as (d1 & F2 & _ & S2 & _). assert (d1 = dv) by congruence. subst d1. unfold get_shape in S2. rewrite Mv, Bv, Rv in S2. cbn in S2.
  destruct (matmul_ok2 Rring da dv (prodn rows) (prodn cols) 1 S1 ltac:(rewrite S2; now rewrite One)) as (e & Ee & We & Se & Ge).
  eexists. exists da, dv. split. { unfold matrix_cells. rewrite Ea. cbn [bind]. rewrite En. cbn [bind]. rewrite Ew. cbn [bind multiply]. rewrite Ep. cbn [bind]. rewrite Ev. cbn [bind].
    rewrite Ec. cbn [bind]. rewrite Fa. cbn [bind]. rewrite Fv. cbn [bind]. rewrite Ee. cbn [bind]. rewrite Fc. cbn [bind]. reflexivity. }
  cbn [mx_a mx_norm mx_twice mx_square mx_vector mx_matvec mx_expected mx_dense].
  do 5 (split; [assumption|]). split; [rewrite S2; now rewrite One|]. split.
  { specialize (Gn 0). unfold inrange, bo, sum_squares, ishape in Gn. rewrite Ba, Ma, Ra in Gn. now apply Gn. }
  do 3 (split; [assumption|]). split; [assumption|]. split; [assumption|]. split.
  - intros i Hi. now rewrite Ge by lia.
  - intros i Hi. rewrite Ge, Gc by lia. reflexivity.
Qed.
Print Assumptions C69_matrices.

(** The hypotheses can be met: routines, a 3 x 2 x 2 array, the arguments of the notebook, a TT-matrix with two cores. *)
Example C69_ex : qr_ok gram_schmidt /\ svd_ok some_svd /\
  (exists x : rtensor, wft x /\ shape x = [3;2;2] /\ get x [2;1;1] = 12%R) /\
  InitProofs.rank_arg 3 (RAnum (NI 2)) [1;2;2;1] /\ rank_limits false (RkNum 3) None 3 (fun _ => 3) /\
  wf (toR s_a) /\ rshape (toR s_a) = [[2;3;2]] /\ bsz (toR s_a) = None /\
  wf (toR s_m) /\ ndims (toR s_m) = 2 /\ rk (toR s_m) 1 = 2 /\ rank_limits (is_batch (toR s_m)) (RkNum 1) None 2 (fun _ => 1) /\
  (exists x : rtensor, shape x = [prodn [2;2;2]; prodn [3;3;3]]) /\ rank_limits false (RkNum 4) None 3 (fun _ => 4) /\
  InitProofs.rank_arg 3 (RAnum (NI 3)) [1;3;3;1].
Proof.
  split; [exact gram_schmidt_ok|]. split; [exact some_svd_ok|].
  split; [exists (@Tensor Rring [3;2;2] [1;2;3;4;5;6;7;8;9;10;11;12]%R); repeat split|].
  split; [left; exists 2; repeat split; lia|]. split; [split; [exact I|]; split; [lia|reflexivity]|].
  split; [exact r_a_wf|]. do 2 (split; [reflexivity|]). split; [exact r_m_wf|]. do 2 (split; [reflexivity|]).
  split; [split; [exact I|]; split; [lia|reflexivity]|]. split; [exists (@Tensor Rring [8;27] []); reflexivity|].
  split; [split; [exact I|]; split; [lia|reflexivity]|]. left; exists 3; repeat split; lia.
Qed.
