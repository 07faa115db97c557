(** C73: the error of [round], [to_tt_tensor] and [to_tt_matrix] is orthogonal to their result. *)
From Coq Require Import String List Arith ZArith Lia Lra Bool Reals.
From Verif Require Import Scalar Tensor TensorLemmas Base Spec BaseLemmas Ops FullProofs ResultLemmas Dense FlatProofs NormProofs OpsR
  Decomp DecompSpec OrthProofs OrthNorm QRExists RoundProofs SvdSpec RoundThms RankArgs SvdExists RoundPyth Approx AddNProofs AddNNorm SumNorm Samples
  Properties_Inner Properties_Decomp Properties_Svd.
From Verif Require TangentSpace.
Import ListNotations.
Local Open Scope nat_scope.
Local Notation get := (@get Rring).

(** Sum of the squares of the entries of element [p] (the entries behind [p]) of an array. *)
Definition sq_norm (sh : list nat) (x : rtensor) (p : list nat) : R :=
  isum (K := Rring) sh (fun i => (get x (p ++ i) * get x (p ++ i))%R).
(** Scalar product of the difference of two arrays with the second, for element [p]. *)
Definition diff_dot (sh : list nat) (x z : rtensor) (p : list nat) : R :=
  isum (K := Rring) sh (fun i => ((get x (p ++ i) - get z (p ++ i)) * get z (p ++ i))%R).

Lemma pyth sh x z p : diff_dot sh x z p = 0%R -> sq_norm sh x p = (sq_norm sh z p + sq_dist sh x z p)%R.
Proof. exact (isum_pyth sh (fun i => get x (p ++ i)) (fun i => get z (p ++ i))). Qed.

Theorem C73_round : forall qr svd (t : rtt) dt a eps m, qr_ok qr -> svd_ok svd -> wf t ->
  rank_limits (is_batch t) a eps (ndims t) m -> full t = Ok dt ->
  exists z dz, round qr svd t a eps = Ok z /\ full z = Ok dz /\
    forall p, vidx (bpre t) p -> diff_dot (ishape t) dt dz p = 0%R /\
      sq_norm (ishape t) dt p = (sq_norm (ishape t) dz p + sq_dist (ishape t) dt dz p)%R.
Proof.
  intros qr svd t dt a eps m Hq Hs Hw Hm Ft. pose proof (wf_d Hw). destruct (limits_parse _ _ _ _ _ Hm ltac:(lia)) as (mr & Hp & _).
  destruct (round_orth qr svd t a eps mr Hq Hs Hw Hp) as (z & Ez & Wz & Rz & Bz & _ & HO).
  destruct (full_correct Rring z Wz) as (dz & Fz & _). exists z, dz. do 2 (split; [assumption|]). intros p Vp.
  assert (D : diff_dot (ishape t) dt dz p = 0%R) by (unfold diff_dot; rewrite (inner_entries t z dt dz p) by auto; now apply HO).
  split; [exact D|now apply pyth].
Qed.
Print Assumptions C73_round.

(** The two functions of the code that compute the norm agree with this: rounding does not increase the norm of any
    element of a batch, for both values of [differentiable]. *)
Theorem C73_norm_not_larger : forall qr svd (t : rtt) a eps m differentiable, qr_ok qr -> svd_ok svd -> wf t ->
  rank_limits (is_batch t) a eps (ndims t) m ->
  exists z r r', round qr svd t a eps = Ok z /\ frobenius_norm_squared qr t differentiable = Ok r /\
    frobenius_norm_squared qr z differentiable = Ok r' /\ shape r' = shape r /\
    forall i, vidx (shape r) i -> (get r' i <= get r i)%R.
Proof.
  intros qr svd t a eps m b Hq Hs Hw Hm. destruct (C31_round_ranks qr svd t a eps m Hq Hs Hw Hm) as (z & Ez & Wz & Rz & Bz & Dz & _).
  destruct (C16_frobenius_norm_squared qr t b Hq Hw) as (r & d & Er & _ & Sr & Fd & Gr).
  destruct (C16_frobenius_norm_squared qr z b Hq Wz) as (r' & d' & Er' & _ & Sr' & Fd' & Gr').
  assert (P : bpre z = bpre t) by (unfold bpre; now rewrite Bz).
  assert (I : ishape z = ishape t) by (unfold ishape, is_tt_matrix; now rewrite Rz).
  exists z, r, r'. do 3 (split; [assumption|]). split; [congruence|]. intros i Hi. rewrite Sr in Hi.
  destruct (C73_round qr svd t d a eps m Hq Hs Hw Hm Fd) as (z2 & dz & Ez2 & Fz & H). rewrite Ez in Ez2. injection Ez2 as <-. rewrite Fd' in Fz. injection Fz as <-.
  destruct (H i Hi) as [_ H2].
  assert (X : exists o, inrange (bsz t) o /\ i = bo (bsz t) o).
  { unfold bpre in Hi. unfold inrange, bo. destruct (bsz t) as [B|]; cbn in Hi.
    - inversion Hi as [|o ? i' ? Ho H3]; subst. inversion H3; subst. exists o. auto.
    - inversion Hi; subst. exists 0. auto. }
  destruct X as (o & Ho & Ei). subst i. rewrite Gr by auto. rewrite <- Bz. rewrite Gr' by (now rewrite Bz). unfold sum_squares. rewrite I, Bz.
  change (sq_norm (ishape t) d' (bo (bsz t) o) <= sq_norm (ishape t) d (bo (bsz t) o))%R. rewrite H2.
  enough (0 <= sq_dist (ishape t) d d' (bo (bsz t) o))%R by lra.
  unfold sq_dist. destruct (TangentSpace.isum_zero_each (ishape t) (fun i => (get d (bo (bsz t) o ++ i) - get d' (bo (bsz t) o ++ i)) * (get d (bo (bsz t) o ++ i) - get d' (bo (bsz t) o ++ i)))%R) as [Q1 _].
  { intros k _. apply Rle_0_sqr. }
  exact Q1.
Qed.
Print Assumptions C73_norm_not_larger.

(** The scalar product of an object with its rounding is the squared norm of the rounding. *)
Theorem C73_inner_with_rounding : forall qr svd (t : rtt) a eps m, qr_ok qr -> svd_ok svd -> wf t -> bsz t = None ->
  rank_limits false a eps (ndims t) m ->
  exists z r r', round qr svd t a eps = Ok z /\ flat_inner_any (ATT t) (ATT z) = Ok r /\ flat_inner_any (ATT z) (ATT z) = Ok r' /\
    shape r = [] /\ shape r' = [] /\ get r [] = get r' [].
Proof.
  intros qr svd t a eps m Hq Hs Hw Hb Hm. assert (Hm' : rank_limits (is_batch t) a eps (ndims t) m) by (unfold is_batch; now rewrite Hb).
  destruct (C31_round_ranks qr svd t a eps m Hq Hs Hw Hm') as (z & Ez & Wz & Rz & Bz & Dz & _). rewrite Hb in Bz.
  destruct (C13_flat_inner Rring t z Hw Wz ltac:(congruence) Hb Bz) as (dt & dz & r & Ft & Fz & S1 & E1 & Sr & G1).
  destruct (C13_flat_inner Rring z z Wz Wz eq_refl Bz Bz) as (dz' & dz2 & r' & Fz' & Fz2 & _ & E2 & Sr' & G2).
  rewrite Fz in Fz', Fz2. injection Fz' as <-. injection Fz2 as <-.
  destruct (C73_round qr svd t dt a eps m Hq Hs Hw Hm' Ft) as (z2 & dz' & Ez2 & Fz' & H). rewrite Ez in Ez2. injection Ez2 as <-. rewrite Fz in Fz'. injection Fz' as <-.
  assert (P : bpre t = []) by (unfold bpre; now rewrite Hb).
  destruct (H []) as [D _]; [rewrite P; constructor|].
  destruct (full_correct Rring t Hw) as (dt' & Ft' & _ & St & _). rewrite Ft in Ft'. injection Ft' as <-. rewrite get_shape_ishape, P in St. cbn [app] in St.
  exists z, r, r'. do 5 (split; [assumption|]). rewrite G1, G2. rewrite <- S1, St. unfold diff_dot in D. cbn [app] in D.
  transitivity (isum (K := Rring) (ishape t) (fun i => (get dz i * get dz i + (get dt i - get dz i) * get dz i)%R)).
  - apply (isum_ext Rring). intros i _. cbn. ring.
  - rewrite (isum_add Rring). change (@cadd Rring) with Rplus. rewrite D. apply Rplus_0_r.
Qed.
Print Assumptions C73_inner_with_rounding.

(** Rounding that keeps the norm of every element changes no entry. *)
Theorem C73_norm_kept : forall qr svd (t : rtt) dt a eps m, qr_ok qr -> svd_ok svd -> wf t ->
  rank_limits (is_batch t) a eps (ndims t) m -> full t = Ok dt ->
  exists z dz, round qr svd t a eps = Ok z /\ full z = Ok dz /\
    forall p, vidx (bpre t) p -> sq_norm (ishape t) dz p = sq_norm (ishape t) dt p ->
      forall i, vidx (ishape t) i -> get dz (p ++ i) = get dt (p ++ i).
Proof.
  intros qr svd t dt a eps m Hq Hs Hw Hm Ft. destruct (C73_round qr svd t dt a eps m Hq Hs Hw Hm Ft) as (z & dz & Ez & Fz & H).
  exists z, dz. do 2 (split; [assumption|]). intros p Vp E i Vi. destruct (H p Vp) as [_ H2].
  destruct (TangentSpace.isum_zero_each (ishape t) (fun i => (get dt (p ++ i) - get dz (p ++ i)) * (get dt (p ++ i) - get dz (p ++ i)))%R) as [_ Q2].
  { intros k _. apply Rle_0_sqr. }
  assert (Z : sq_dist (ishape t) dt dz p = 0%R) by lra. specialize (Q2 Z i Vi). cbn in Q2. apply Rsqr_0_uniq in Q2. cbn in *. lra.
Qed.
Print Assumptions C73_norm_kept.

(** Rounding again with the same limits, even with other QR and SVD routines, changes nothing. *)
Theorem C73_round_twice : forall qr svd qr' svd' (t : rtt) a eps m, qr_ok qr -> svd_ok svd -> qr_ok qr' -> svd_ok svd' -> wf t ->
  rank_limits (is_batch t) a eps (ndims t) m ->
  exists z z', round qr svd t a eps = Ok z /\ round qr' svd' z a eps = Ok z' /\ same_full z z'.
Proof.
  intros qr svd qr' svd' t a eps m Hq Hs Hq' Hs' Hw Hm. destruct (C31_round_ranks qr svd t a eps m Hq Hs Hw Hm) as (z & Ez & Wz & Rz & Bz & Dz & K).
  assert (Hm' : rank_limits (is_batch z) a eps (ndims z) m) by (unfold is_batch in *; now rewrite Bz, Dz).
  destruct (C31_round_exact qr' svd' z a eps m Hq' Hs' Wz Hm') as (z' & Ez' & _ & _ & _ & S); [intros k Hk; rewrite Dz in Hk; now apply K|].
  exists z, z'. auto.
Qed.
Print Assumptions C73_round_twice.

Theorem C73_to_tt_tensor : forall svd (x : rtensor) a eps m, svd_ok svd -> wft x -> 2 <= length (shape x) ->
  Forall (fun n => 0 < n) (shape x) -> rank_limits false a eps (length (shape x)) m ->
  exists z dz, to_tt_tensor svd x a eps = Ok z /\ full z = Ok dz /\ diff_dot (shape x) x dz [] = 0%R /\
    sq_norm (shape x) x [] = (sq_norm (shape x) dz [] + sq_dist (shape x) x dz [])%R.
Proof.
  intros svd x a eps m Hs Wx Hd Hp Hm. destruct (tt_tensor_orth svd x a eps m Hs Wx Hd Hp Hm) as (z & dz & Ez & Fz & D).
  exists z, dz. do 3 (split; [assumption|]). now apply pyth.
Qed.
Print Assumptions C73_to_tt_tensor.

Theorem C73_to_tt_matrix : forall svd (mat : rtensor) s0 s1 a eps m, svd_ok svd -> shape mat = [prodn s0; prodn s1] ->
  length s0 = length s1 -> 2 <= length s0 -> Forall (fun n => 0 < n) s0 -> Forall (fun n => 0 < n) s1 ->
  rank_limits false a eps (length s0) m ->
  exists z dz, to_tt_matrix svd mat (Some s0) (Some s1) a eps = Ok z /\ full z = Ok dz /\ diff_dot (shape mat) mat dz [] = 0%R /\
    sq_norm (shape mat) mat [] = (sq_norm (shape mat) dz [] + sq_dist (shape mat) mat dz [])%R.
Proof.
  intros svd mat s0 s1 a eps m Hs Sm L Hd P0 P1 Hm. destruct (tt_matrix_orth svd mat s0 s1 a eps m Hs Sm L Hd P0 P1 Hm) as (z & dz & Ez & Fz & D).
  exists z, dz. do 3 (split; [assumption|]). now apply pyth.
Qed.
Print Assumptions C73_to_tt_matrix.

(** Sums computed by add_n: the norm of the result is at most the sum of the norms, whatever the roundings cut off. *)
Theorem C73_add_n : forall qr svd (l : list rtt) rs d a m, qr_ok qr -> svd_ok svd -> l <> [] -> 2 <= d ->
  Forall (fun t => wf t /\ rshape t = rs /\ ndims t = d /\ bsz t = None) l -> rank_limits false a None d m ->
  exists z dz ds, add_n qr svd l a = Ok z /\ full z = Ok dz /\ Forall2 (fun t dt => full t = Ok dt) l ds /\
    (sqrt (sq_norm (shape dz) dz []) <= fold_right Rplus 0 (map (fun dt => sqrt (sq_norm (shape dz) dt [])) ds))%R.
Proof.
  intros qr svd l rs d a m Hq Hs Hne Hd Hl Hm.
  destruct (add_n_norm_dense qr svd Hq Hs rs d None a m l Hd I Hm Hne Hl) as (z & dz & ds & Ez & Bz & Fz & HF & Sz & Kz & N).
  exists z, dz, ds. do 3 (split; [assumption|]). cbn [bkind] in Kz. assert (S0 : shape dz = ishape z) by (rewrite Sz; unfold bpre; now rewrite Kz).
  specialize (N 0 I). rewrite Kz in N. rewrite S0. eapply Rle_trans; [exact N|]. apply Req_le.
  clear - HF Hl. induction HF as [|t dt l ds F HF IH]; [reflexivity|]. inversion Hl as [|? ? (_ & _ & _ & Bt) Hl']; subst.
  cbn [map2 map rsuml fold_right]. unfold rsuml in IH. rewrite IH by auto. rewrite Bt. reflexivity.
Qed.
Print Assumptions C73_add_n.

(** Element [o] of every batch; a batch of one element is broadcast. *)
Theorem C73_add_n_batches : forall qr svd (l : list rtt) rs d b a m, qr_ok qr -> svd_ok svd -> l <> [] -> 2 <= d -> 0 < b ->
  Forall (fun t => wf t /\ rshape t = rs /\ ndims t = d /\ (bsz t = Some 1 \/ bsz t = Some b)) l -> rank_limits true a None d m ->
  exists z dz ds n sh, add_n qr svd l a = Ok z /\ full z = Ok dz /\ shape dz = n :: sh /\ Forall2 (fun t dt => full t = Ok dt) l ds /\
    forall o, o < n ->
      (sqrt (sq_norm sh dz [o]) <= fold_right Rplus 0 (map2 (fun t dt => sqrt (sq_norm sh dt (opidx (bsz t) o []))) l ds))%R.
Proof.
  intros qr svd l rs d b a m Hq Hs Hne Hd Hb Hl Hm.
  destruct (add_n_norm_dense qr svd Hq Hs rs d (Some b) a m l Hd Hb Hm Hne Hl) as (z & dz & ds & Ez & Bz & Fz & HF & Sz & Kz & N).
  cbn [bkind] in Kz. assert (K : exists n, bsz z = Some n /\ (n = 1 \/ n = b)) by (destruct Kz as [K|K]; eexists; eauto). destruct K as (n & K & Kn).
  exists z, dz, ds, n, (ishape z). do 2 (split; [assumption|]). split; [rewrite Sz; unfold bpre; now rewrite K|]. split; [exact HF|].
  intros o Ho. specialize (N o ltac:(cbn; lia)). rewrite K in N.
  assert (E : forall s x, isum (K := Rring) (ishape z) (fun i => (get x (opidx (Some s) o i) * get x (opidx (Some s) o i))%R) = sq_norm (ishape z) x (opidx (Some s) o [])).
  { intros s x. unfold sq_norm, opidx. destruct s as [|[|s]]; reflexivity. }
  rewrite E in N. replace (opidx (Some n) o []) with [o] in N by (unfold opidx; destruct n as [|[|n]]; try reflexivity; f_equal; lia).
  eapply Rle_trans; [exact N|]. apply Req_le.
  clear - HF Hl E. induction HF as [|t dt l ds F HF IH]; [reflexivity|]. inversion Hl as [|? ? (_ & _ & _ & Bt) Hl']; subst.
  cbn [map2 rsuml fold_right]. unfold rsuml in IH. rewrite IH by auto. destruct Bt as [Bt|Bt]; rewrite Bt, E; reflexivity.
Qed.
Print Assumptions C73_add_n_batches.

(** Sums over the elements of a batch, with and without coefficients: likewise. *)
Theorem C73_reduce_sum : forall qr svd (t : rtt) b a m dt, qr_ok qr -> svd_ok svd -> wf t -> bsz t = Some b -> 2 <= ndims t ->
  rank_limits true a None (ndims t) m -> full t = Ok dt ->
  (exists z dz, reduce_sum_batch qr svd t a None = Ok z /\ full z = Ok dz /\ shape dt = b :: shape dz /\
    (sqrt (sq_norm (shape dz) dz []) <= sumn (K := Rring) b (fun o => sqrt (sq_norm (shape dz) dt [o])))%R) /\
  (forall w, wft w -> shape w = [b] -> exists z dz, reduce_sum_batch qr svd t a (Some w) = Ok z /\ full z = Ok dz /\ shape dt = b :: shape dz /\
    (sqrt (sq_norm (shape dz) dz []) <= sumn (K := Rring) b (fun o => Rabs (get w [o]) * sqrt (sq_norm (shape dz) dt [o])))%R) /\
  (forall w N, wft w -> shape w = [b; N] -> 0 < N ->
    exists z dz sh, reduce_sum_batch qr svd t a (Some w) = Ok z /\ full z = Ok dz /\ shape dt = b :: sh /\ shape dz = N :: sh /\
    forall j, j < N -> (sqrt (sq_norm sh dz [j]) <= sumn (K := Rring) b (fun o => Rabs (get w [o; j]) * sqrt (sq_norm sh dt [o])))%R).
Proof.
  intros qr svd t b a m dt Hq Hs Hw HB Hd Hm Ft. split; [|split].
  - destruct (sum_norm qr svd Hq Hs t b a m dt Hw HB Hd Hm Ft) as (z & dz & E & _ & F & S & N). exists z, dz. auto.
  - intros w Ww Sw. destruct (sum_vec_norm qr svd Hq Hs t b w a m dt Hw HB Ww Sw Hd Hm Ft) as (z & dz & E & _ & F & S & N). exists z, dz. auto.
  - intros w n Ww Sw Hn. destruct (sum_mat_norm qr svd Hq Hs t b n w a m dt Hw HB Ww Sw Hn Hd Hm Ft) as (z & dz & sh & E & _ & F & S1 & S2 & N). exists z, dz, sh. auto.
Qed.
Print Assumptions C73_reduce_sum.

(** A 2 x 3 x 2 tensor of ranks (1,2,2,1) and a batch of three, both rounded to rank 1; a dense tensor and a dense
    6 x 4 matrix; a list of three tensors. *)
Example C73_ex : qr_ok gram_schmidt /\ svd_ok some_svd /\
  wf (toR s_a) /\ bsz (toR s_a) = None /\ rk (toR s_a) 1 = 2 /\ rank_limits false (RkNum 1) None (ndims (toR s_a)) (fun _ => 1) /\
  wf (toR s_b3) /\ bsz (toR s_b3) = Some 3 /\ rank_limits (is_batch (toR s_b3)) (RkNum 1) None (ndims (toR s_b3)) (fun _ => 1) /\
  (exists x, full (toR s_a) = Ok x /\ wft x /\ shape x = [2; 3; 2] /\ rank_limits false (RkNum 1) None (length (shape x)) (fun _ => 1)) /\
  (exists x, full (toR s_m) = Ok x /\ shape x = [prodn [2; 3]; prodn [2; 2]] /\ rank_limits false (RkNum 1) None 2 (fun _ => 1)) /\
  Forall (fun t => wf t /\ rshape t = [[2;3;2]] /\ ndims t = 3 /\ bsz t = None) [toR s_a; toR s_b; toR s_a].
Proof.
  split; [exact gram_schmidt_ok|]. split; [exact some_svd_ok|]. split; [exact r_a_wf|]. split; [reflexivity|]. split; [reflexivity|].
  split; [split; [exact I|]; split; [lia|reflexivity]|]. split; [exact r_b3_wf|]. split; [reflexivity|].
  split; [split; [exact I|]; split; [lia|reflexivity]|]. split; [|split].
  - destruct (full_correct Rring (toR s_a) r_a_wf) as (x & F & W & S & _). exists x. split; [exact F|]. split; [exact W|].
    split; [rewrite S; reflexivity|]. split; [exact I|]. split; [lia|reflexivity].
  - destruct (full_correct Rring (toR s_m) r_m_wf) as (x & F & W & S & _). exists x. split; [exact F|]. split; [rewrite S; reflexivity|].
    split; [exact I|]. split; [lia|reflexivity].
  - constructor; [|constructor; [|constructor; [|constructor]]]; (split; [first [exact r_a_wf|exact r_b_wf]|]; repeat split; reflexivity).
Qed.
