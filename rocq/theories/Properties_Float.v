(** C57-C59: rounding errors.  [arith_ok u ar] (FloatSpec.v) is the contract of a floating point arithmetic with
    unit roundoff [u]; the functions ending in [_fl] (Float.v) compute with it.  Errors are bounded by a number
    that depends on the shapes and ranks only, times the value of the same computation with the absolute values of all
    core elements ([tt_abs]). *)
From Coq Require Import String Ascii List Arith ZArith Lia Lra Bool Reals.
From Verif Require Import Scalar Tensor TensorLemmas AddFull Base Spec BaseLemmas Ops OpsR FullProofs ResultLemmas Dense MulProofs MatmulProofs DenseMatmul FlatProofs NormProofs GatherProofs ValidProofs Samples.
From Verif Require Import Float FloatSpec FloatProofs FloatThms FloatThms2 FloatThms3 FloatThms4 FloatThms5 FloatSeq FloatSeqProofs FloatBin.
Import ListNotations.
Local Open Scope R_scope.
Local Notation get := (@get Rring).

(** ** C57: full and gather_nd *)
Theorem C57_full_rounding : forall u ar t, 0 <= u -> arith_ok u ar -> wf t ->
  exists z, full_fl ar t = Ok z /\ wft z /\ shape z = get_shape t /\
    forall i, vidx (get_shape t) i ->
      Rabs (get z i - tt_at t i) <= ((1 + u) ^ interior_ranks t - 1) * tt_at (tt_abs t) i /\
      Rabs (tt_at t i) <= tt_at (tt_abs t) i.
Proof.
  intros u ar t Hu Har Hw. pose proof (full_rel u Hu ar Har (fun _ => 0%nat) t t (tt_abs t) (ttnear_self u Hu t _ Hw) (wf_d Hw)) as H.
  destruct (full_correct Rring t Hw) as (d & Fd & _ & Sd & Ed). destruct (full_correct Rring (tt_abs t) (tt_abs_wf t Hw)) as (D & FD & _ & _ & ED).
  rewrite Fd, FD in H. destruct (full_fl ar t) as [z|]; cbn [rel3] in H; [|contradiction]. exists z. split; [reflexivity|].
  pose proof H as (Wz & _ & _ & Sz & _). split; [exact Wz|]. split; [congruence|]. intros i Hi.
  apply tnear_get with (i := i) in H. rewrite Ed, ED in H by exact Hi.
  replace (csum (fun _ => 0%nat) (ndims t) + inner_ranks t (ndims t))%nat with (interior_ranks t) in H; [exact H|].
  unfold csum, inner_ranks, interior_ranks. replace (list_sum (map (fun _ => 0%nat) (seq 0 (ndims t)))) with 0%nat; [reflexivity|].
  generalize (seq 0 (ndims t)). clear. induction l; [reflexivity|exact IHl].
Qed.
Print Assumptions C57_full_rounding.

(** When no core element is negative the error is relative. *)
Theorem C57_full_relative : forall u ar (t : rtt), 0 <= u -> arith_ok u ar -> wf t ->
  (forall c, In c (cores t) -> Forall (fun x : R => 0 <= x) (data c)) ->
  exists z, full_fl ar t = Ok z /\ shape z = get_shape t /\
    forall i, vidx (get_shape t) i -> Rabs (get z i - tt_at t i) <= ((1 + u) ^ interior_ranks t - 1) * tt_at t i.
Proof.
  intros u ar t Hu Har Hw Hp. destruct (C57_full_rounding u ar t Hu Har Hw) as (z & E & _ & S & G). exists z. split; [exact E|]. split; [exact S|].
  assert (EA : tt_abs t = t).
  { unfold tt_abs. replace (map tabs (cores t)) with (cores t); [now destruct t|]. symmetry. rewrite <- (map_id (cores t)) at 2. apply map_ext_in. intros [sh l] Hc.
    specialize (Hp _ Hc). unfold tabs, tmap. cbn [data shape] in *. f_equal. clear Hc. induction Hp as [|x l Hx Hl IH]; [reflexivity|]. cbn [map]. f_equal; [now apply Rabs_right, Rle_ge|exact IH]. }
  intros i Hi. destruct (G i Hi) as [B _]. now rewrite EA in B.
Qed.
Print Assumptions C57_full_relative.

(** The error factor in terms of the number of roundings. *)
Theorem C57_error_factor : forall u n, 0 <= u -> INR n * u < 1 -> (1 + u) ^ n - 1 <= INR n * u / (1 - INR n * u).
Proof.
  intros u n Hu Hn. assert (H : (1 + u) ^ n * (1 - INR n * u) <= 1).
  { induction n as [|n IH]; [cbn; lra|]. rewrite S_INR in *. assert (INR n * u < 1) by nra. specialize (IH H). cbn [pow].
    pose proof (pos_INR n). assert (1 <= (1 + u) ^ n) by (apply pow_R1_Rle; lra).
    assert (E : (1 + u) * (1 - (INR n + 1) * u) <= 1 - INR n * u) by nra.
    apply Rle_trans with ((1 + u) ^ n * (1 - INR n * u)); [|exact IH]. replace ((1 + u) * (1 + u) ^ n * (1 - (INR n + 1) * u)) with ((1 + u) ^ n * ((1 + u) * (1 - (INR n + 1) * u))) by ring.
    apply Rmult_le_compat_l; [lra|exact E]. }
  apply Rmult_le_reg_r with (1 - INR n * u); [lra|]. unfold Rdiv. rewrite Rmult_assoc, Rinv_l by lra. nra.
Qed.
Print Assumptions C57_error_factor.

(** Rows of indices as in C18. *)
Theorem C57_gather_nd_rounding : forall u ar t (ix : itensor) M, 0 <= u -> arith_ok u ar -> wf t -> is_tt_matrix t = false ->
  shape ix = [M; length (get_shape t)] -> rows_valid ix (get_shape t) ->
  exists z, gather_nd_fl ar t ix = Ok z /\ shape z = [M] /\
    forall m, (m < M)%nat -> let i := row ix (length (get_shape t)) m in
      Rabs (get z [m] - tt_at t i) <= ((1 + u) ^ left_ranks t - 1) * tt_at (tt_abs t) i.
Proof.
  intros u ar t ix M Hu Har Hw Hm Si Hv.
  assert (GS : get_shape t = bpre t ++ nth 0 (rshape t) []) by (unfold get_shape, bpre; rewrite Hm; destruct (bsz t); reflexivity).
  destruct (wf_kind_cases _ t Hw) as [(_ & Hl & _)|(E & _)]; [|congruence].
  assert (L : length (nth 0 (rshape t) []) = ndims t) by (apply (Forall_nth' (fun s : list nat => length s = ndims t)); [apply (wf_rlen Hw)|lia]).
  assert (GA : get_shape (tt_abs t) = get_shape t) by reflexivity.
  destruct (gather_nd_full Rring t ix M Hw Hm Si Hv) as (d & r & Fd & Er & Wr & Sr & Gr).
  destruct (gather_nd_full Rring (tt_abs t) ix M (tt_abs_wf t Hw) Hm Si Hv) as (D & r' & FD & Er' & _ & _ & Gr').
  destruct (full_correct Rring t Hw) as (d1 & Fd1 & _ & Sd & Ed). rewrite Fd in Fd1. apply Ok_inj in Fd1. subst d1.
  destruct (full_correct Rring (tt_abs t) (tt_abs_wf t Hw)) as (D1 & FD1 & _ & _ & ED). rewrite FD in FD1. apply Ok_inj in FD1. subst D1.
  assert (Hrow : forall m, (m < M)%nat -> vidx (get_shape t) (row ix (length (get_shape t)) m)) by (intros m Hmm; eapply row_valid; eauto).
  assert (H : rel3 (tnear u (csum (fun _ => 0%nat) (ndims t) + rank_sum t (ndims t))) (gather_nd_fl ar t ix) (gather_nd t ix) (gather_nd (tt_abs t) ix)).
  { rewrite GS, app_length, L in Si. unfold rows_valid in Hv. rewrite GS, app_length, L, Si in Hv. cbn [nth] in Hv.
    apply (gather_nd_rel u Hu ar Har (fun _ => 0%nat) t t (tt_abs t) ix M (ttnear_self u Hu t _ Hw) Hw Hm Si).
    intros m Hmm. split.
    - specialize (Hv m 0%nat Hmm). unfold bpre in Hv. destruct (bsz t); auto. apply Hv. cbn; lia.
    - intros k Hk. specialize (Hv m (length (bpre t) + k)%nat Hmm ltac:(lia)).
      rewrite app_nth2 in Hv by lia. replace (length (bpre t) + k - length (bpre t))%nat with k in Hv by lia. exact Hv. }
  rewrite Er, Er' in H. destruct (gather_nd_fl ar t ix) as [z|]; cbn [rel3] in H; [|contradiction]. exists z. split; [reflexivity|].
  pose proof H as (_ & _ & _ & Sz & _). split; [congruence|]. intros m Hmm i. apply tnear_get with (i := [m]) in H. rewrite Gr, Gr' in H by exact Hmm.
  rewrite Ed in H by (apply Hrow; exact Hmm). rewrite GA, ED in H by (apply Hrow; exact Hmm).
  replace (csum (fun _ => 0%nat) (ndims t) + rank_sum t (ndims t))%nat with (left_ranks t) in H; [exact (proj1 H)|].
  unfold csum, rank_sum, csum, left_ranks. replace (list_sum (map (fun _ => 0%nat) (seq 0 (ndims t)))) with 0%nat; [reflexivity|].
  generalize (seq 0 (ndims t)). clear. induction l; [reflexivity|exact IHl].
Qed.
Print Assumptions C57_gather_nd_rounding.

(** With exact operations the functions are those of Ops.v. *)
Theorem C57_exact : forall (a b c e : rtt) (x : rtensor) (ix : itensor) (s : sparse Rring),
  full_fl exact_arith a = full a /\ gather_nd_fl exact_arith a ix = gather_nd a ix /\
  tt_tt_matmul_fl exact_arith a b = tt_tt_matmul a b /\ tt_dense_matmul_fl exact_arith a x = tt_dense_matmul a x /\
  dense_tt_matmul_fl exact_arith x b = dense_tt_matmul x b /\ tt_tt_flat_inner_fl exact_arith a b = tt_tt_flat_inner a b /\
  tt_sparse_flat_inner_fl exact_arith a s = tt_sparse_flat_inner a s /\ tt_multiply_fl exact_arith a b = tt_multiply a b /\
  frobenius_norm_squared_diff_fl exact_arith a = frobenius_norm_squared_diff a /\ bilinear_form_fl exact_arith a b c = bilinear_form a b c /\
  bilinear_form_two_mat_fl exact_arith a b c e = bilinear_form_two_mat a b c e.
Proof. intros. do 10 (split; [reflexivity|]). reflexivity. Qed.
Print Assumptions C57_exact.

(** The contract is met by computing every sum from left to right and rounding every multiplication and addition, for
    any rounding of numbers with unit roundoff [u]; in particular for binary numbers with [p] bits rounded to
    nearest, ties to even (p = 24: float32, p = 53: float64). *)
Theorem C57_contract_met : forall u rnd, (forall x, rounds u x (rnd x)) -> arith_ok u (seq_arith rnd).
Proof. intros u rnd H. now apply seq_arith_ok. Qed.
Print Assumptions C57_contract_met.

Theorem C57_binary : forall p : nat, (0 < p)%nat -> arith_ok ((/ 2) ^ p) (seq_arith (round_bits p)).
Proof. intros p Hp. apply seq_arith_ok. intros x. now apply round_bits_ok. Qed.
Print Assumptions C57_binary.

Example C57_ex : arith_ok ((/ 2) ^ 24) (seq_arith (round_bits 24)) /\ wf (toR s_a) /\ interior_ranks (toR s_a) = 4%nat /\
  left_ranks (toR s_a) = 5%nat /\ wf (toR s_b3) /\ get_shape (toR s_b3) = [3; 2; 2]%nat /\ interior_ranks (toR s_b3) = 2%nat.
Proof. split; [apply C57_binary; lia|]. split; [exact r_a_wf|]. do 2 (split; [reflexivity|]). split; [exact r_b3_wf|]. split; reflexivity. Qed.
Example C57_relative_ex : let t := TT (K := Rring) [Tensor (K := Rring) [1;2;2]%nat [1;2;3;4]; Tensor (K := Rring) [2;2;1]%nat [5;0;1;7]] [[2;2]%nat] [1;2;1]%nat None in
  wf t /\ forall c, In c (cores t) -> Forall (fun x : R => 0 <= x) (data c).
Proof.
  split; [apply wfb_wf; vm_compute; reflexivity|]. intros c [<-|[<-|[]]]; cbn [data]; repeat (apply Forall_cons; [lra|]); apply Forall_nil.
Qed.
Example C57_gather_ex : rows_valid (zt [2; 3]%nat [0; 2; 1; 1; 0; 0]%Z) (get_shape (toR s_a)) /\ is_tt_matrix (toR s_a) = false.
Proof.
  split; [|reflexivity]. unfold rows_valid. intros m k Hm Hk. cbn in Hm, Hk.
  destruct m as [|[|m]]; [| |lia]; destruct k as [|[|[|k]]]; try lia; vm_compute; (split; [discriminate|reflexivity]).
Qed.
Example C57_factor_ex : INR 4 * (/ 2) ^ 24 < 1.
Proof. cbn. lra. Qed.

(** The bound is attained: two cores of ones with rank 2 between them, a rounding that always errs by the factor [1 + u]. *)
Theorem C57_bound_attained : forall u, 0 <= u -> exists ar (t : rtt) z i,
  arith_ok u ar /\ wf t /\ interior_ranks t = 2%nat /\ full_fl ar t = Ok z /\ vidx (get_shape t) i /\ tt_at (tt_abs t) i = 2 /\
  Rabs (get z i - tt_at t i) = ((1 + u) ^ interior_ranks t - 1) * tt_at (tt_abs t) i.
Proof.
  intros u Hu.
  exists (seq_arith (fun x => x * (1 + u))).
  exists (TT (K := Rring) [Tensor (K := Rring) [1;1;2]%nat [1;1]; Tensor (K := Rring) [2;1;1]%nat [1;1]] [[1;1]%nat] [1;2;1]%nat None).
  exists (Tensor (K := Rring) [1;1]%nat [((1 * 1 * (1 + u) + 1 * 1 * (1 + u)) * (1 + u))]). exists [0;0]%nat.
  split. { apply seq_arith_ok. intros x. unfold rounds. replace (x * (1 + u) - x) with (u * x) by ring. rewrite Rabs_mult, (Rabs_pos_eq u) by exact Hu. lra. }
  split; [apply wfb_wf; vm_compute; reflexivity|]. split; [reflexivity|].
  split; [reflexivity|].
  split. { apply vidx_intro; [reflexivity|]. intros [|[|k]] Hk; cbn in *; lia. }
  match goal with |- ?A = 2 /\ Rabs (?B - ?C) = (_ ^ ?n - 1) * _ => assert (EA : A = 2) by (cbv -[Rabs Rplus Rmult Rminus Ropp IZR pow]; rewrite Rabs_R1; ring); assert (EB : B = 2 * (1 + u) ^ 2) by (cbv -[Rabs Rplus Rmult Rminus Ropp IZR pow]; ring); assert (EC : C = 2) by (cbv -[Rabs Rplus Rmult Rminus Ropp IZR pow]; ring) end.
  rewrite EA, EB, EC. split; [reflexivity|]. replace (2 * (1 + u) ^ 2 - 2) with (((1 + u) ^ 2 - 1) * 2) by ring. change (interior_ranks _) with 2%nat.
  apply Rabs_pos_eq. nra.
Qed.
Print Assumptions C57_bound_attained.

(** ** C58: inner product and squared norm *)
Lemma csum_0 n : csum (fun _ => 0%nat) n = 0%nat.
Proof. unfold csum. generalize (seq 0 n). induction l; [reflexivity|exact IHl]. Qed.

Lemma flat_inner_bound u ar wa wb a' (a A : rtt) b' (b B : rtt) : 0 <= u -> arith_ok u ar -> ttnear u wa a' a A -> ttnear u wb b' b B ->
  wf a -> wf b -> rshape a = rshape b -> bc_ok (bsz a) (bsz b) ->
  exists da db dA dB z, full a = Ok da /\ full b = Ok db /\ full A = Ok dA /\ full B = Ok dB /\
    tt_tt_flat_inner_fl ar a' b' = Ok z /\ shape z = pre_of (mm_bs a b) /\
    forall o, inrange (mm_bs a b) o ->
      Rabs (get z (bo (mm_bs a b) o) - isum (K := Rring) (ishape a) (fun i => get da (opidx (bsz a) o i) * get db (opidx (bsz b) o i)))
      <= ((1 + u) ^ (csum wa (ndims a) + csum wb (ndims a) + inner_terms a b) - 1) *
         isum (K := Rring) (ishape a) (fun i => get dA (opidx (bsz a) o i) * get dB (opidx (bsz b) o i)).
Proof.
  intros Hu Har Ta Tb Ha Hb Hr Hbc. pose proof (flat_inner_rel u Hu ar Har wa wb a' a A b' b B Ta Tb Ha Hb Hr Hbc) as H.
  destruct (ttnear_wf u _ _ _ _ Ta Ha) as [_ HA]. destruct (ttnear_wf u _ _ _ _ Tb Hb) as [_ HB].
  pose proof Ta as (_ & _ & _ & RA & _ & BA & _). pose proof Tb as (_ & _ & _ & RB & _ & BB & _).
  destruct (flat_inner_full Rring a b Ha Hb Hr Hbc) as (r & Er & Wr & Sr & da & db & Fa & Fb & Gr).
  destruct (flat_inner_full Rring A B HA HB ltac:(congruence) ltac:(now rewrite BA, BB)) as (r' & Er' & _ & _ & dA & dB & FA & FB & Gr').
  rewrite Er, Er' in H. destruct (tt_tt_flat_inner_fl ar a' b') as [z|]; cbn [rel3] in H; [|contradiction].
  exists da, db, dA, dB, z. do 4 (split; [assumption|]). split; [reflexivity|]. pose proof H as (_ & _ & _ & Sz & _). split; [congruence|].
  assert (EM : mm_bs A B = mm_bs a b) by (unfold mm_bs; now rewrite BA, BB). assert (EI : ishape A = ishape a) by (unfold ishape, is_tt_matrix; now rewrite RA).
  intros o Ho. apply tnear_get with (i := bo (mm_bs a b) o) in H. specialize (Gr o Ho). rewrite EM in Gr'. specialize (Gr' o Ho).
  rewrite Gr, Gr' in H. rewrite EI, BA, BB in H. replace (fi_count wa wb a b (ndims a)) with (csum wa (ndims a) + csum wb (ndims a) + inner_terms a b)%nat in H.
  - exact (proj1 H).
  - unfold fi_count, inner_terms. unfold csum, fi_terms. lia.
Qed.

(** [opidx] and [bo] place the batch coordinate (absent for a TensorTrain, 0 for a batch of one element), as in C14. *)
Theorem C58_flat_inner_rounding : forall u ar (a b : rtt), 0 <= u -> arith_ok u ar ->
  wf a -> wf b -> rshape a = rshape b -> bc_ok (bsz a) (bsz b) ->
  exists da db dA dB z, full a = Ok da /\ full b = Ok db /\ full (tt_abs a) = Ok dA /\ full (tt_abs b) = Ok dB /\
    tt_tt_flat_inner_fl ar a b = Ok z /\ shape z = pre_of (mm_bs a b) /\
    forall o, inrange (mm_bs a b) o ->
      Rabs (get z (bo (mm_bs a b) o) - isum (K := Rring) (ishape a) (fun i => get da (opidx (bsz a) o i) * get db (opidx (bsz b) o i)))
      <= ((1 + u) ^ inner_terms a b - 1) *
         isum (K := Rring) (ishape a) (fun i => get dA (opidx (bsz a) o i) * get dB (opidx (bsz b) o i)).
Proof.
  intros u ar a b Hu Har Ha Hb Hr Hbc.
  pose proof (flat_inner_bound u ar _ _ a a _ b b _ Hu Har (ttnear_self u Hu a (fun _ => 0%nat) Ha) (ttnear_self u Hu b (fun _ => 0%nat) Hb) Ha Hb Hr Hbc) as H.
  rewrite csum_0 in H. exact H.
Qed.
Print Assumptions C58_flat_inner_rounding.

(** Two TensorTrains: one number. *)
Theorem C58_flat_inner_number : forall u ar (a b : rtt), 0 <= u -> arith_ok u ar ->
  wf a -> wf b -> rshape a = rshape b -> bsz a = None -> bsz b = None ->
  exists da db dA dB z, full a = Ok da /\ full b = Ok db /\ full (tt_abs a) = Ok dA /\ full (tt_abs b) = Ok dB /\
    tt_tt_flat_inner_fl ar a b = Ok z /\ shape z = [] /\
    Rabs (get z [] - isum (K := Rring) (shape da) (fun i => get da i * get db i))
      <= ((1 + u) ^ inner_terms a b - 1) * isum (K := Rring) (shape da) (fun i => get dA i * get dB i).
Proof.
  intros u ar a b Hu Har Ha Hb Hr Ba Bb.
  destruct (C58_flat_inner_rounding u ar a b Hu Har Ha Hb Hr) as (da & db & dA & dB & z & Fa & Fb & FA & FB & Ez & Sz & H); [now rewrite Ba|].
  exists da, db, dA, dB, z. do 5 (split; [assumption|]).
  assert (EM : mm_bs a b = None) by (unfold mm_bs; now rewrite Ba, Bb). rewrite EM in *. split; [exact Sz|]. specialize (H 0%nat I). cbn [bo] in H.
  destruct (full_correct Rring a Ha) as (d & Fd & _ & Sd & _). rewrite Fa in Fd. apply Ok_inj in Fd. subst d.
  rewrite Sd, get_shape_ishape. unfold bpre. rewrite Ba, Bb in *. exact H.
Qed.
Print Assumptions C58_flat_inner_number.

Theorem C58_norm_squared_rounding : forall u ar (t : rtt), 0 <= u -> arith_ok u ar -> wf t ->
  exists d D z, full t = Ok d /\ full (tt_abs t) = Ok D /\ frobenius_norm_squared_diff_fl ar t = Ok z /\ shape z = pre_of (bsz t) /\
    forall o, inrange (bsz t) o ->
      Rabs (get z (bo (bsz t) o) - sum_squares t d o) <= ((1 + u) ^ inner_terms t t - 1) * sum_squares (tt_abs t) D o.
Proof.
  intros u ar t Hu Har Hw. pose proof (frobenius_rel u Hu ar Har (fun _ => 0%nat) t t (tt_abs t) (ttnear_self u Hu t _ Hw) Hw) as H.
  destruct (frobenius_diff_full Rring t Hw) as (r & d & Er & _ & Sr & Fd & Gr). destruct (frobenius_diff_full Rring (tt_abs t) (tt_abs_wf t Hw)) as (r' & D & Er' & _ & _ & FD & Gr').
  rewrite Er, Er' in H. destruct (frobenius_norm_squared_diff_fl ar t) as [z|]; cbn [rel3] in H; [|contradiction].
  exists d, D, z. do 2 (split; [assumption|]). split; [reflexivity|]. pose proof H as (_ & _ & _ & Sz & _). split; [rewrite Sz; exact Sr|].
  intros o Ho. apply tnear_get with (i := bo (bsz t) o) in H. rewrite (Gr o Ho) in H. pose proof (Gr' o Ho) as E. change (bsz (tt_abs t)) with (bsz t) in E. rewrite E in H.
  replace (fi_count (fun _ => 0%nat) (fun _ => 0%nat) t t (ndims t)) with (inner_terms t t) in H; [exact (proj1 H)|].
  unfold fi_count, inner_terms. rewrite !csum_0. unfold csum, fi_terms. lia.
Qed.
Print Assumptions C58_norm_squared_rounding.

Example C58_ex : wf (toR s_a) /\ wf (toR s_b) /\ rshape (toR s_a) = rshape (toR s_b) /\ bsz (toR s_a) = None /\ bsz (toR s_b) = None /\
  inner_terms (toR s_a) (toR s_b) = 18%nat.
Proof. split; [exact r_a_wf|]. split; [exact r_b_wf|]. do 3 (split; [reflexivity|]). vm_compute. reflexivity. Qed.
Example C58_batch_ex : wf (toR s_b3) /\ wf (toR s_b1) /\ rshape (toR s_b3) = rshape (toR s_b1) /\ bc_ok (bsz (toR s_b3)) (bsz (toR s_b1)) /\
  mm_bs (toR s_b3) (toR s_b1) = Some 3%nat.
Proof. split; [exact r_b3_wf|]. split; [exact r_b1_wf|]. split; [reflexivity|]. split; [vm_compute; auto|reflexivity]. Qed.

(** ** C59: sums, products, matrix products and transposes, nested in any way *)
Theorem C59_expression_rounding : forall u ar e t, 0 <= u -> arith_ok u ar -> all_good e -> run_exact e = Ok t ->
  exists z T, run_fl ar e = Ok z /\ run_exact (abs_exp e) = Ok T /\ wf z /\ wf T /\
    rshape z = rshape t /\ rks z = rks t /\ bsz z = bsz t /\
    forall i, vidx (get_shape t) i ->
      Rabs (tt_at z i - tt_at t i) <= ((1 + u) ^ all_roundings e (ndims t) - 1) * tt_at T i /\ Rabs (tt_at t i) <= tt_at T i.
Proof.
  intros u ar e t Hu Har Hg Et. pose proof (exp_near u Hu ar Har e Hg) as H. rewrite Et in H.
  assert (Hw : wf t) by (destruct e; destruct Hg as [(t' & E & W) _]; congruence).
  destruct (run_fl ar e) as [z|], (run_exact (abs_exp e)) as [T|]; cbn [rel3] in H; try contradiction.
  exists z, T. do 2 (split; [reflexivity|]). destruct (ttnear_wf u _ _ _ _ H Hw) as [Wz WT]. do 2 (split; [assumption|]).
  pose proof H as (R1 & L1 & B1 & _). do 3 (split; [assumption|]). intros i Hi. exact (at_near u Hu _ _ _ _ i H Hw Hi).
Qed.
Print Assumptions C59_expression_rounding.

(** ... converted to a dense tensor. *)
Theorem C59_full_rounding : forall u ar e t, 0 <= u -> arith_ok u ar -> all_good e -> run_exact e = Ok t ->
  exists z T d, run_fl ar e = Ok z /\ run_exact (abs_exp e) = Ok T /\ wf T /\ full_fl ar z = Ok d /\ shape d = get_shape t /\
    forall i, vidx (get_shape t) i ->
      Rabs (get d i - tt_at t i) <= ((1 + u) ^ (all_roundings e (ndims t) + interior_ranks t) - 1) * tt_at T i.
Proof.
  intros u ar e t Hu Har Hg Et. pose proof (exp_near u Hu ar Har e Hg) as H. rewrite Et in H.
  assert (Hw : wf t) by (destruct e; destruct Hg as [(t' & E & W) _]; congruence).
  destruct (run_fl ar e) as [z|], (run_exact (abs_exp e)) as [T|]; cbn [rel3] in H; try contradiction.
  destruct (ttnear_wf u _ _ _ _ H Hw) as [Wz WT]. pose proof H as (_ & _ & _ & RT & _ & BT & _).
  pose proof (full_rel u Hu ar Har _ _ _ _ H (wf_d Hw)) as F.
  destruct (full_correct Rring t Hw) as (x & Fx & _ & Sx & Ex). destruct (full_correct Rring T WT) as (X & FX & _ & _ & EX).
  rewrite Fx, FX in F. destruct (full_fl ar z) as [d|] eqn:Ed; cbn [rel3] in F; [|contradiction].
  exists z, T, d. do 2 (split; [reflexivity|]). split; [assumption|]. split; [exact Ed|]. pose proof F as (_ & _ & _ & Sd & _). split; [congruence|].
  intros i Hi. apply tnear_get with (i := i) in F. rewrite Ex in F by exact Hi. rewrite EX in F.
  - exact (proj1 F).
  - replace (get_shape T) with (get_shape t); [exact Hi|]. unfold get_shape, is_tt_matrix. now rewrite RT, BT.
Qed.
Print Assumptions C59_full_rounding.

(** ... and the inner product of two such results. *)
Theorem C59_flat_inner_rounding : forall u ar ea eb a b, 0 <= u -> arith_ok u ar -> all_good ea -> all_good eb ->
  run_exact ea = Ok a -> run_exact eb = Ok b -> rshape a = rshape b -> bc_ok (bsz a) (bsz b) ->
  exists za zb A B da db dA dB z, run_fl ar ea = Ok za /\ run_fl ar eb = Ok zb /\
    run_exact (abs_exp ea) = Ok A /\ run_exact (abs_exp eb) = Ok B /\
    full a = Ok da /\ full b = Ok db /\ full A = Ok dA /\ full B = Ok dB /\
    tt_tt_flat_inner_fl ar za zb = Ok z /\ shape z = pre_of (mm_bs a b) /\
    forall o, inrange (mm_bs a b) o ->
      Rabs (get z (bo (mm_bs a b) o) - isum (K := Rring) (ishape a) (fun i => get da (opidx (bsz a) o i) * get db (opidx (bsz b) o i)))
      <= ((1 + u) ^ (all_roundings ea (ndims a) + all_roundings eb (ndims a) + inner_terms a b) - 1) *
         isum (K := Rring) (ishape a) (fun i => get dA (opidx (bsz a) o i) * get dB (opidx (bsz b) o i)).
Proof.
  intros u ar ea eb a b Hu Har Ga Gb Ea Eb Hr Hbc. pose proof (exp_near u Hu ar Har ea Ga) as Ha. pose proof (exp_near u Hu ar Har eb Gb) as Hb. rewrite Ea in Ha. rewrite Eb in Hb.
  assert (Wa : wf a) by (destruct ea; destruct Ga as [(t' & E & W) _]; congruence). assert (Wb : wf b) by (destruct eb; destruct Gb as [(t' & E & W) _]; congruence).
  destruct (run_fl ar ea) as [za|], (run_exact (abs_exp ea)) as [A|]; cbn [rel3] in Ha; try contradiction.
  destruct (run_fl ar eb) as [zb|], (run_exact (abs_exp eb)) as [B|]; cbn [rel3] in Hb; try contradiction.
  destruct (flat_inner_bound u ar _ _ _ _ _ _ _ _ Hu Har Ha Hb Wa Wb Hr Hbc) as (da & db & dA & dB & z & H).
  exists za, zb, A, B, da, db, dA, dB, z. do 4 (split; [reflexivity|]). exact H.
Qed.
Print Assumptions C59_flat_inner_rounding.

(** A TT-matrix times a dense matrix, and a dense matrix times a TT-matrix. *)
Theorem C59_tt_dense_rounding : forall u ar (a : rtt) (b : rtensor) P, 0 <= u -> arith_ok u ar ->
  wf a -> is_tt_matrix a = true -> bsz a = None -> wft b -> shape b = [prodn (nth 1 (rshape a) []); P] ->
  exists da dA r Q z, full a = Ok da /\ full (tt_abs a) = Ok dA /\ dense_product da b r /\ dense_product dA (tabs b) Q /\
    tt_dense_matmul_fl ar a b = Ok z /\ shape z = shape r /\
    forall i k, Rabs (get z [i; k] - get r [i; k]) <= ((1 + u) ^ columns_terms a - 1) * get Q [i; k].
Proof.
  intros u ar a b P Hu Har Hw Hm Hb Wb Sb.
  destruct (tt_dense_full Rring a b P Hw Hm Hb Wb Sb) as (da & r & Fa & Er & Wr & Dr).
  destruct (tt_dense_full Rring (tt_abs a) (tabs b) P (tt_abs_wf a Hw) Hm Hb (tabs_wft b Wb) Sb) as (dA & Q & FA & ER & _ & DR).
  pose proof (dense_rel u Hu ar Har (fun _ => 0%nat) 0 a a (tt_abs a) b b (tabs b) (ttnear_self u Hu a _ Hw) (tnear_self u Hu b 0 Wb) Hw Hb Hm) as H.
  rewrite Er, ER in H. destruct (tt_dense_matmul_fl ar a b) as [z|]; cbn [rel3] in H; [|contradiction].
  exists da, dA, r, Q, z. do 4 (split; [assumption|]). split; [reflexivity|]. pose proof H as (_ & _ & _ & Sz & _). split; [exact Sz|].
  intros i k. apply tnear_get with (i := [i; k]) in H. rewrite csum_0 in H. exact (proj1 H).
Qed.
Print Assumptions C59_tt_dense_rounding.

Theorem C59_dense_tt_rounding : forall u ar (a : rtensor) (b : rtt) M, 0 <= u -> arith_ok u ar ->
  wf b -> is_tt_matrix b = true -> bsz b = None -> wft a -> shape a = [M; prodn (nth 0 (rshape b) [])] ->
  exists db dB r Q z, full b = Ok db /\ full (tt_abs b) = Ok dB /\ dense_product a db r /\ dense_product (tabs a) dB Q /\
    dense_tt_matmul_fl ar a b = Ok z /\ shape z = shape r /\
    forall i k, Rabs (get z [i; k] - get r [i; k]) <= ((1 + u) ^ rows_terms b - 1) * get Q [i; k].
Proof.
  intros u ar a b M Hu Har Hw Hm Hb Wa Sa.
  destruct (dense_tt_full Rring a b M Hw Hm Hb Wa Sa) as (db & r & Fb & Er & Wr & Dr).
  destruct (dense_tt_full Rring (tabs a) (tt_abs b) M (tt_abs_wf b Hw) Hm Hb (tabs_wft a Wa) Sa) as (dB & Q & FB & ER & _ & DR).
  assert (H : rel3 (tnear u (rows_terms b)) (dense_tt_matmul_fl ar a b) (dense_tt_matmul a b) (dense_tt_matmul (tabs a) (tt_abs b))).
  { unfold dense_tt_matmul_fl, dense_tt_matmul. eapply rel3_bind; [apply (transpose_rev_rel u 0), (tnear_self u Hu a 0 Wa)|]. intros a1 a2 a3 HA.
    destruct (transpose_full Rring b Hw Hm) as (bt & x1 & x2 & Ebt & Wbt & Rbt & Bbt & Kbt & _).
    pose proof (transpose_tt_rel u (fun _ => 0%nat) b b (tt_abs b) (ttnear_self u Hu b _ Hw)) as T. rewrite Ebt in *.
    destruct (tt_transpose (tt_abs b)) as [B|]; cbn [rel3] in T; [|contradiction]. cbn [bind].
    assert (Mbt : is_tt_matrix bt = true) by (unfold is_tt_matrix; rewrite Rbt; reflexivity).
    assert (Nbt : ndims bt = ndims b) by (pose proof (wf_klen Wbt) as K1; pose proof (wf_klen Hw) as K2; rewrite Kbt, K2 in K1; lia).
    pose proof (dense_rel u Hu ar Har _ _ _ _ _ _ _ _ T HA Wbt ltac:(congruence) Mbt) as H.
    eapply rel3_bind; [exact H|]. intros c1 c2 c3 HC. eapply rel3_mono; [apply transpose_rev_rel, HC|]. intros d1 d2 d3 HD.
    replace (rows_terms b) with (0 + csum (fun _ => 0%nat) (ndims bt) + csum (dense_terms bt) (ndims bt))%nat; [exact HD|].
    rewrite csum_0. unfold csum, rows_terms, dense_terms. rewrite Nbt. cbn [Nat.add]. f_equal. apply map_ext_in. intros k Hk.
    unfold mode, rk. now rewrite Rbt, Kbt. }
  rewrite Er, ER in H. destruct (dense_tt_matmul_fl ar a b) as [z|]; cbn [rel3] in H; [|contradiction].
  exists db, dB, r, Q, z. do 4 (split; [assumption|]). split; [reflexivity|]. pose proof H as (_ & _ & _ & Sz & _). split; [exact Sz|].
  intros i k. apply tnear_get with (i := [i; k]) in H. exact (proj1 H).
Qed.
Print Assumptions C59_dense_tt_rounding.

(** [(a + b) * b] for two TensorTrains, and [m^T n'] for TT-matrices. *)
Example C59_ex : let e := TMul (TAdd (TLeaf (toR s_a)) (TLeaf (toR s_b))) (TLeaf (toR s_b)) in
  all_good e /\ all_roundings e 3 = 3%nat /\ exists t, run_exact e = Ok t /\ get_shape t = [2; 3; 2]%nat /\ interior_ranks t = 11%nat.
Proof.
  assert (Ga : all_good (TLeaf (toR s_a))) by (split; [exists (toR s_a); split; [reflexivity|exact r_a_wf]|exact I]).
  assert (Gb : all_good (TLeaf (toR s_b))) by (split; [exists (toR s_b); split; [reflexivity|exact r_b_wf]|exact I]).
  destruct (add_full Rring (toR s_a) (toR s_b) r_a_wf r_b_wf eq_refl) as (c & Ec & Wc & Rc & Bc & Kc & _); [vm_compute; lia|reflexivity|reflexivity|].
  destruct (multiply_full Rring c (toR s_b) Wc r_b_wf Rc) as (t & Et & Wt & Rt & Kt & Bt & _); [unfold is_batch_broadcasting_possible; now rewrite Bc|].
  assert (Ru : run_exact (TAdd (TLeaf (toR s_a)) (TLeaf (toR s_b))) = Ok c) by exact Ec.
  assert (Rt' : run_exact (TMul (TAdd (TLeaf (toR s_a)) (TLeaf (toR s_b))) (TLeaf (toR s_b))) = Ok t) by (cbn [run_exact bind]; rewrite Ec; exact Et).
  cbv zeta. split; [|split; [reflexivity|]].
  - split; [exists t; auto|]. split; [|exact Gb]. split; [exists c; auto|]. split; assumption.
  - exists t. split; [exact Rt'|]. split.
    + unfold get_shape, is_tt_matrix. rewrite Rt, Rc, Bt. unfold mul_bs. rewrite Bc. reflexivity.
    + unfold interior_ranks. assert (L : 4%nat = S (ndims t)) by (rewrite <- (wf_klen Wt), Kt, Kc; reflexivity). replace (ndims t) with 3%nat by lia. unfold rk. rewrite Kt, Kc. reflexivity.
Qed.
Example C59_dense_ex : wf (toR s_m) /\ is_tt_matrix (toR s_m) = true /\ bsz (toR s_m) = None /\
  prodn (nth 1 (rshape (toR s_m)) []) = 4%nat /\ columns_terms (toR s_m) = 6%nat /\ rows_terms (toR s_m) = 7%nat.
Proof. split; [exact r_m_wf|]. do 4 (split; [reflexivity|]). reflexivity. Qed.
