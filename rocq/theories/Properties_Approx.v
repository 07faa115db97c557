(** C34, C35: approximate.add_n and approximate.reduce_sum_batch.  [qr] and [svd] are any routines
    satisfying the contracts [qr_ok] and [svd_ok]; [m k] is the bound that the argument
    max_tt_rank puts on TT-rank [k]. *)
From Coq Require Import String List Arith ZArith Lia Lra Bool Reals.
From Verif Require Import Scalar Tensor TensorLemmas Base Spec BaseLemmas Ops FullProofs ResultLemmas Dense AddFull OpsR BatchOps ScaleProofs
  Decomp DecompSpec QRExists SvdSpec RankArgs SvdExists Approx AddNProofs ReduceSumProofs ApproxThms Samples.
Import ListNotations.
Local Open Scope nat_scope.
Local Notation get := (@get Rring).
Local Notation rsum_list := (fold_right Rplus 0%R).

(** The sum of any number of TensorTrains is exact when the bound at every cut is at least the sum
    of their TT-ranks there. *)
Theorem C34_add_n : forall qr svd (l : list rtt) rs d a m, qr_ok qr -> svd_ok svd -> l <> [] -> 2 <= d ->
  Forall (fun t => wf t /\ rshape t = rs /\ ndims t = d /\ bsz t = None) l -> rank_limits false a None d m ->
  (forall k, 0 < k < d -> list_sum (map (fun t => rk t k) l) <= m k) ->
  exists z dz ds, add_n qr svd l a = Ok z /\ wf z /\ rshape z = rs /\ bsz z = None /\ (forall k, 0 < k < d -> rk z k <= m k) /\
    full z = Ok dz /\ Forall2 (fun t dt => full t = Ok dt) l ds /\
    forall i, vidx (shape dz) i -> get dz i = rsum_list (map (fun dt => get dt i) ds).
Proof.
  intros qr svd l rs d a m Hq Hs Hne Hd Hl Hm Hk.
  destruct (add_n_dense qr svd Hq Hs rs d None a m l Hd I Hm Hne Hl Hk) as (z & dz & ds & Ez & Wz & Rz & Bz & Kz & Fz & HF & G).
  assert (Bn : bsz z = None). { rewrite Bz. clear - Hl. induction Hl as [|t l (_ & _ & _ & B) _ IH]; [reflexivity|]. cbn. now rewrite B. }
  rewrite Bn in G. exists z, dz, ds. do 4 (split; [assumption|]). split; [exact Kz|]. split; [exact Fz|]. split; [exact HF|exact G].
Qed.
Print Assumptions C34_add_n.

(** Batches of the same size, or of one element, which is broadcast. *)
Theorem C34_add_n_batches : forall qr svd (l : list rtt) rs d b a m, qr_ok qr -> svd_ok svd -> l <> [] -> 2 <= d -> 0 < b ->
  Forall (fun t => wf t /\ rshape t = rs /\ ndims t = d /\ (bsz t = Some 1 \/ bsz t = Some b)) l -> rank_limits true a None d m ->
  (forall k, 0 < k < d -> list_sum (map (fun t => rk t k) l) <= m k) ->
  exists z dz ds, add_n qr svd l a = Ok z /\ wf z /\ rshape z = rs /\
    bsz z = fold_right (fun t acc => bc_size (bsz t) acc) None l /\ (forall k, 0 < k < d -> rk z k <= m k) /\
    full z = Ok dz /\ Forall2 (fun t dt => full t = Ok dt) l ds /\
    forall o i, vidx (shape dz) (o :: i) -> get dz (o :: i) = rsum_list (map2 (fun t dt => get dt (opidx (bsz t) o i)) l ds).
Proof.
  intros qr svd l rs d b a m Hq Hs Hne Hd Hb Hl Hm Hk.
  destruct (add_n_dense qr svd Hq Hs rs d (Some b) a m l Hd Hb Hm Hne Hl Hk) as (z & dz & ds & Ez & Wz & Rz & Bz & Kz & Fz & HF & G).
  assert (Bn : exists x, bsz z = Some x).
  { rewrite Bz. destruct Hl as [|t l (_ & _ & _ & B) _]; [congruence|]. cbn. fold (gsize l). destruct B as [-> | ->], (gsize l); cbn; eauto. }
  destruct Bn as (x & Bn). rewrite Bn in G. exists z, dz, ds. do 4 (split; [assumption|]). split; [exact Kz|]. split; [exact Fz|]. split; [exact HF|exact G].
Qed.
Print Assumptions C34_add_n_batches.

(** Whatever the ranks of the summands, two or more of them give a well-formed object within the
    bounds. *)
Theorem C34_ranks : forall qr svd (l : list rtt) rs d B a m, qr_ok qr -> svd_ok svd -> 2 <= length l -> 2 <= d ->
  Forall (fun t => wf t /\ rshape t = rs /\ ndims t = d /\
                   match B with None => bsz t = None | Some b => 0 < b /\ (bsz t = Some 1 \/ bsz t = Some b) end) l ->
  rank_limits (match B with Some _ => true | None => false end) a None d m ->
  exists z, add_n qr svd l a = Ok z /\ wf z /\ rshape z = rs /\
    bsz z = fold_right (fun t acc => bc_size (bsz t) acc) None l /\ forall k, 0 < k < d -> rk z k <= m k.
Proof.
  intros qr svd l rs d B a m Hq Hs H2 Hd Hl Hm. apply (add_n_total qr svd Hq Hs rs d B a m l); auto.
  - destruct B as [b|]; auto. destruct Hl as [|t l (_ & _ & _ & H & _) _]; [cbn in H2; lia|exact H].
  - eapply Forall_impl; [|exact Hl]. intros t (H1 & H3 & H4 & H5). split; [exact H1|]. split; [exact H3|]. split; [exact H4|].
    destruct B; [exact (proj2 H5)|exact H5].
Qed.
Print Assumptions C34_ranks.

(** One object is returned as it is, whatever the bound ... *)
Theorem C34_one_object : forall qr svd (t : rtt) a, add_n qr svd [t] a = Ok t.
Proof. reflexivity. Qed.
Print Assumptions C34_one_object.
(** ... so max_tt_rank does not limit the ranks of the result in general. *)
Theorem C34_bound_ignored_refuted : exists (t : rtt) z, wf t /\ rk t 1 = 2 /\
  forall qr svd, add_n qr svd [t] (RkNum 1) = Ok z /\ ~ rk z 1 <= 1.
Proof. exists (toR s_a), (toR s_a). split; [exact r_a_wf|]. split; [reflexivity|]. intros. split; [reflexivity|]. cbn. lia. Qed.
Print Assumptions C34_bound_ignored_refuted.

Theorem C34_empty_list_raises : forall qr svd a, add_n qr svd [] a = Err IndexError.
Proof. reflexivity. Qed.
Print Assumptions C34_empty_list_raises.

(** Objects of different shapes (of any kind) are refused, wherever they are in the list. *)
Theorem C34_mixed_shapes_raise : forall qr svd (l : list rtt) B z, qr_ok qr -> svd_ok svd -> (1 <= z)%Z ->
  Forall (fun t => wf t /\ 2 <= ndims t /\ match B with None => bsz t = None | Some b => 0 < b /\ (bsz t = Some 1 \/ bsz t = Some b) end) l ->
  (exists t u, In t l /\ In u l /\ rshape t <> rshape u) -> add_n qr svd l (RkNum z) = Err ValueError.
Proof.
  intros qr svd l B z Hq Hs Hz Hl HX. apply (add_n_shape_err qr svd Hq Hs B _ l z); auto.
  - destruct B as [b|]; auto. destruct Hl as [|t l (_ & _ & H & _) _]; [destruct HX as (? & _ & [] & _)|exact H].
  - eapply Forall_impl; [|exact Hl]. intros t (H1 & H3 & H5). split; [exact H1|]. split; [exact H3|]. destruct B; [exact (proj2 H5)|exact H5].
Qed.
Print Assumptions C34_mixed_shapes_raise.

(** [2 <= d] is needed: summing two objects with one core raises. *)
Theorem C34_one_core_refuted : exists t : rtt, wf t /\ forall qr svd a, add_n qr svd [t; t] a = Err ValueError.
Proof.
  exists (toR s_one). split; [exact r_one_wf|]. intros qr svd a. unfold add_n. cbn [length add_levels Nat.ltb Nat.leb add_level].
  rewrite (add_one_core_err Rring (toR s_one) (toR s_one)) by (exact r_one_wf || reflexivity). reflexivity.
Qed.
Print Assumptions C34_one_core_refuted.

(** A TensorTrain and a batch cannot be summed in this order. *)
Theorem C34_tensortrain_then_batch_raises : forall qr svd (t u : rtt) l b a, bsz t = None -> bsz u = Some b -> add_n qr svd (t :: u :: l) a = Err ValueError.
Proof.
  intros. unfold add_n. cbn [length add_levels Nat.ltb Nat.leb add_level]. rewrite (add_asks_tt_err Rring t u b) by (left; auto). reflexivity.
Qed.
Print Assumptions C34_tensortrain_then_batch_raises.

Example C34_ex : qr_ok gram_schmidt /\ svd_ok some_svd /\
  Forall (fun t => wf t /\ rshape t = [[2;3;2]] /\ ndims t = 3 /\ bsz t = None) [toR s_a; toR s_b; toR s_a] /\
  rank_limits false (RkNum 6) None 3 (fun _ => 6) /\
  (forall k, 0 < k < 3 -> list_sum (map (fun t => rk t k) [toR s_a; toR s_b; toR s_a]) <= 6) /\
  Forall (fun t => wf t /\ rshape t = [[2;2]] /\ ndims t = 2 /\ (bsz t = Some 1 \/ bsz t = Some 3)) [toR s_b3; toR s_b1; toR s_b3] /\
  (exists t u, In t [toR s_a; toR s_a; toR s_t2] /\ In u [toR s_a; toR s_a; toR s_t2] /\ rshape t <> rshape u).
Proof.
  split; [exact gram_schmidt_ok|]. split; [exact some_svd_ok|].
  split. { constructor; [|constructor; [|constructor; [|constructor]]]; (split; [first [exact r_a_wf|exact r_b_wf]|]; repeat split; reflexivity). }
  split. { split; [exact I|]. split; [lia|reflexivity]. }
  split. { intros k Hk. destruct k as [|[|[|k]]]; cbn; lia. }
  split. { constructor; [|constructor; [|constructor; [|constructor]]]; (split; [first [exact r_b3_wf|exact r_b1_wf]|]; split; [reflexivity|]; split; [reflexivity|]; cbn; auto). }
  exists (toR s_a), (toR s_t2). split; [now left|]. split; [right; right; now left|discriminate].
Qed.

(** * C35 *)
Theorem C35_reduce_sum : forall qr svd (t : rtt) b a m, qr_ok qr -> svd_ok svd -> wf t -> bsz t = Some b -> 2 <= ndims t ->
  rank_limits true a None (ndims t) m -> (forall k, 0 < k < ndims t -> b * rk t k <= m k) ->
  exists z dt dz, reduce_sum_batch qr svd t a None = Ok z /\ wf z /\ rshape z = rshape t /\ bsz z = None /\
    full t = Ok dt /\ full z = Ok dz /\ shape dt = b :: shape dz /\
    forall i, vidx (shape dz) i -> get dz i = sumn (K := Rring) b (fun o => get dt (o :: i)).
Proof. intros. now apply (reduce_sum_dense qr svd H H0 t b a m). Qed.
Print Assumptions C35_reduce_sum.

Theorem C35_weighted_sum : forall qr svd (t : rtt) b w a m, qr_ok qr -> svd_ok svd -> wf t -> bsz t = Some b -> wft w -> shape w = [b] -> 2 <= ndims t ->
  rank_limits true a None (ndims t) m -> (forall k, 0 < k < ndims t -> b * rk t k <= m k) ->
  exists z dt dz, reduce_sum_batch qr svd t a (Some w) = Ok z /\ wf z /\ rshape z = rshape t /\ bsz z = None /\
    full t = Ok dt /\ full z = Ok dz /\ shape dt = b :: shape dz /\
    forall i, vidx (shape dz) i -> get dz i = sumn (K := Rring) b (fun o => (get w [o] * get dt (o :: i))%R).
Proof. intros. now apply (reduce_sum_vec_dense qr svd H H0 t b w a m). Qed.
Print Assumptions C35_weighted_sum.

(** One sum for every column of the coefficient matrix. *)
Theorem C35_matrix_of_weights : forall qr svd (t : rtt) b N w a m, qr_ok qr -> svd_ok svd -> wf t -> bsz t = Some b -> wft w -> shape w = [b; N] -> 0 < N -> 2 <= ndims t ->
  rank_limits true a None (ndims t) m -> (forall k, 0 < k < ndims t -> b * rk t k <= m k) ->
  exists z dt dz sh, reduce_sum_batch qr svd t a (Some w) = Ok z /\ wf z /\ rshape z = rshape t /\ bsz z = Some N /\
    full t = Ok dt /\ full z = Ok dz /\ shape dt = b :: sh /\ shape dz = N :: sh /\
    forall j i, j < N -> vidx sh i -> get dz (j :: i) = sumn (K := Rring) b (fun o => (get w [o; j] * get dt (o :: i))%R).
Proof. intros. now apply (reduce_sum_mat_dense qr svd H H0 t b N w a m). Qed.
Print Assumptions C35_matrix_of_weights.

(** Whatever is cut off, the result is well-formed and within the bounds if the batch has more than
    one element. *)
Theorem C35_ranks : forall qr svd (t : rtt) b a m, qr_ok qr -> svd_ok svd -> wf t -> bsz t = Some b -> 2 <= b -> 2 <= ndims t -> rank_limits true a None (ndims t) m ->
  (exists z, reduce_sum_batch qr svd t a None = Ok z /\ wf z /\ rshape z = rshape t /\ bsz z = None /\ forall k, 0 < k < ndims t -> rk z k <= m k) /\
  (forall w, wft w -> shape w = [b] ->
    exists z, reduce_sum_batch qr svd t a (Some w) = Ok z /\ wf z /\ rshape z = rshape t /\ bsz z = None /\ forall k, 0 < k < ndims t -> rk z k <= m k) /\
  (forall w N, wft w -> shape w = [b; N] -> 0 < N ->
    exists z, reduce_sum_batch qr svd t a (Some w) = Ok z /\ wf z /\ rshape z = rshape t /\ bsz z = Some N /\ forall k, 0 < k < ndims t -> rk z k <= m k).
Proof. intros. now apply (reduce_sum_total qr svd H H0 t b a m). Qed.
Print Assumptions C35_ranks.

(** A batch of one element: nothing is added and nothing is rounded, the ranks stay. *)
Theorem C35_one_element_ranks : forall qr svd (t : rtt) a, wf t -> bsz t = Some 1 ->
  (exists z, reduce_sum_batch qr svd t a None = Ok z /\ rks z = rks t) /\
  (forall w, wft w -> shape w = [1] -> exists z, reduce_sum_batch qr svd t a (Some w) = Ok z /\ rks z = rks t) /\
  (forall w N, wft w -> shape w = [1; N] -> 0 < N -> exists z, reduce_sum_batch qr svd t a (Some w) = Ok z /\ rks z = rks t).
Proof.
  intros qr svd t a Hw HB. assert (Z : forall c : rtt, bsz c = Some 1 -> sum_levels qr svd 1 None a c = Ok c) by (intros c Hc; cbn [sum_levels]; now rewrite Hc).
  assert (F : forall c : rtt, wf c -> bsz c = Some 1 -> exists z, batch_dim_getitem c (IInt 0) = Ok z /\ rks z = rks c).
  { intros c Wc Bc. destruct (full_correct Rring c Wc) as (dc & Fc & _). destruct (first_dense c 1 dc Wc Bc Fc) as (z & dz & Ez & _ & _ & _ & Kz & _). eauto. }
  unfold reduce_sum_batch. split; [|split].
  - rewrite HB, Z by auto. cbn [bind]. now apply F.
  - intros w Ww Sw. rewrite Sw. destruct (multiply_along_full Rring t 1 w Hw HB Ww Sw) as (c & Ec & Wc & Rc & Kc & Bc & _).
    rewrite Ec. cbn [bind]. rewrite Bc, HB, Z by congruence. cbn [bind]. destruct (F c Wc ltac:(congruence)) as (z & Ez & Kz). exists z. split; [exact Ez|congruence].
  - intros w N Ww Sw HN. rewrite Sw, HB. cbn [Nat.eqb negb]. destruct (spread_ok t w 1 N Hw HB Ww Sw HN) as (c & Ec & Wc & Rc & Kc & Bc & Dc & _).
    rewrite Ec. cbn [bind]. exists c. split; [|exact Kc]. cbn [sum_levels]. rewrite Bc. replace (N <? _) with false; [reflexivity|]. symmetry. apply Nat.ltb_ge. lia.
Qed.
Print Assumptions C35_one_element_ranks.

(** A batch of one element of rank (1,2,1) summed with max_tt_rank 1 keeps rank 2. *)
Definition rb1 : rtt := @TT Rring [@Tensor Rring [1;1;2;2] [1;2;3;4]%R; @Tensor Rring [1;2;2;1] [1;1;2;3]%R] [[2;2]] [1;2;1] (Some 1).
Theorem C35_bound_ignored_refuted : exists (t : rtt), wf t /\ bsz t = Some 1 /\ exists z,
  forall qr svd, reduce_sum_batch qr svd t (RkNum 1) None = Ok z /\ ~ rk z 1 <= 1.
Proof.
  exists rb1. split; [apply wfb_wf; vm_compute; reflexivity|]. split; [reflexivity|]. eexists. intros. split; [vm_compute; reflexivity|]. cbn. lia.
Qed.
Print Assumptions C35_bound_ignored_refuted.

(** [2 <= ndims t] is needed. *)
Definition rone2 : rtt := @TT Rring [@Tensor Rring [2;1;2;1] [1;2;3;4]%R] [[2]] [1;1] (Some 2).
Theorem C35_one_core_refuted : exists t : rtt, wf t /\ bsz t = Some 2 /\ forall qr svd a, reduce_sum_batch qr svd t a None = Err ValueError.
Proof. exists rone2. split; [apply wfb_wf; vm_compute; reflexivity|]. split; [reflexivity|]. intros. vm_compute. reflexivity. Qed.
Print Assumptions C35_one_core_refuted.

(** Refused arguments. *)
Theorem C35_wrong_matrix_raises : forall qr svd (t : rtt) b n N w a, bsz t = Some b -> shape w = [n; N] -> n <> b ->
  reduce_sum_batch qr svd t a (Some w) = Err ValueError.
Proof. intros qr svd t b n N w a HB Sw Hn. unfold reduce_sum_batch. rewrite Sw, HB. apply Nat.eqb_neq in Hn. now rewrite Hn. Qed.
Print Assumptions C35_wrong_matrix_raises.

Theorem C35_wrong_vector_raises : forall qr svd (t : rtt) b n w a, wf t -> bsz t = Some b -> shape w = [n] -> n <> 1 -> b <> 1 -> n <> b ->
  reduce_sum_batch qr svd t a (Some w) = Err TFError.
Proof.
  intros qr svd t b n w a Hw HB Sw H1 H2 H3. unfold reduce_sum_batch. rewrite Sw. rewrite (multiply_along_err Rring t b n w) by auto. reflexivity.
Qed.
Print Assumptions C35_wrong_vector_raises.

Theorem C35_other_ranks_raise : forall qr svd (t : rtt) w a, length (shape w) <> 1 -> length (shape w) <> 2 ->
  reduce_sum_batch qr svd t a (Some w) = Err ValueError.
Proof. intros qr svd t w a H1 H2. unfold reduce_sum_batch. destruct (shape w) as [|x [|y [|]]]; cbn in *; congruence. Qed.
Print Assumptions C35_other_ranks_raise.

Theorem C35_tensortrain_raises : forall qr svd (t : rtt) a, bsz t = None -> reduce_sum_batch qr svd t a None = Err AttributeError.
Proof. intros qr svd t a HB. unfold reduce_sum_batch. rewrite HB. cbn [sum_levels]. now rewrite HB. Qed.
Print Assumptions C35_tensortrain_raises.

Example C35_ex : wf (toR s_b3) /\ bsz (toR s_b3) = Some 3 /\ 2 <= ndims (toR s_b3) /\
  rank_limits true (RkNum 6) None (ndims (toR s_b3)) (fun _ => 6) /\ (forall k, 0 < k < ndims (toR s_b3) -> 3 * rk (toR s_b3) k <= 6) /\
  exists w : rtensor, wft w /\ shape w = [3; 2].
Proof.
  split; [exact r_b3_wf|]. split; [reflexivity|]. split; [cbn; lia|]. split; [split; [exact I|]; split; [lia|reflexivity]|].
  split; [intros [|[|k]] Hk; cbn in *; lia|]. exists (mk [3; 2] (fun _ => 1%R : Rring)). split; [apply (wft_mk Rring)|reflexivity].
Qed.
