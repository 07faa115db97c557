(** C29-C33: TT-SVD and rounding.  [qr] and [svd] are any routines satisfying the
    contracts [qr_ok] and [svd_ok] (DecompSpec.v); such routines exist ([C27_qr_exists],
    [C29_svd_exists]). *)
From Coq Require Import String List Arith ZArith Lia Lra Bool Reals.
From Verif Require Import Scalar Tensor TensorLemmas Base Spec BaseLemmas Ops FullProofs ResultLemmas Dense FlatProofs NormProofs OpsR
  Decomp DecompSpec OrthProofs OrthNorm QRExists RoundProofs SvdSpec RoundThms TTSvdStep TTSvdProofs TTSvdThms RankArgs SvdExists UnfoldExists TTMatProofs TTMatThms Samples.
From Verif Require TangentSpace.
Import ListNotations.
Local Open Scope nat_scope.
Local Notation get := (@get Rring).

Theorem C29_svd_exists : exists svd, svd_ok svd.
Proof. exists some_svd. exact some_svd_ok. Qed.
Print Assumptions C29_svd_exists.

(** The singular values in the error bounds below exist for every tensor and every cut. *)
Theorem C29_unfolding_svd_exists : forall rsh ms d (x : rtensor) p k, exists n U s V, unfolding_svd rsh ms d x p k n U s V.
Proof. intros. destruct (unfolding_svd_exists rsh ms d x p k) as (n & U & s & V & _ & H). eauto. Qed.
Print Assumptions C29_unfolding_svd_exists.

(** * C29: to_tt_tensor.  [m k] is the bound that the arguments put on TT-rank [k]. *)
Theorem C29_ranks : forall svd (x : rtensor) a eps m, svd_ok svd -> wft x -> 2 <= length (shape x) ->
  Forall (fun n => 0 < n) (shape x) -> rank_limits false a eps (length (shape x)) m ->
  exists z, to_tt_tensor svd x a eps = Ok z /\ wf z /\ rshape z = [shape x] /\ bsz z = None /\
    forall k, 0 < k < length (shape x) ->
      rk z k <= m k /\ rk z k <= prodn (firstn k (shape x)) /\ rk z k <= prodn (skipn k (shape x)).
Proof.
  intros svd x a eps m Hs Wx Hd Hpos Hm. destruct (limits_parse _ _ _ _ _ Hm ltac:(lia)) as (mr & Hp & Hk).
  destruct (to_tt_tensor_ok svd Hs x a eps mr Wx Hd Hpos Hp) as (z & Ez & Wz & Rz & Bz & Dz & Kz & _).
  exists z. do 4 (split; [assumption|]). intros k H. rewrite <- Hk by lia. destruct (Kz k) as (H1 & H2 & H3 & _); [lia|]. auto.
Qed.
Print Assumptions C29_ranks.

(** The ranks exactly: at each cut the least of the bound, of the rows and of the columns of the matrix decomposed. *)
Theorem C29_exact_ranks : forall svd (x : rtensor) a eps m, svd_ok svd -> wft x -> 2 <= length (shape x) ->
  Forall (fun n => 0 < n) (shape x) -> rank_limits false a eps (length (shape x)) m ->
  exists z, to_tt_tensor svd x a eps = Ok z /\ rk z 0 = 1 /\ rk z (length (shape x)) = 1 /\
    forall k, 0 < k < length (shape x) -> rk z k = Nat.min (m k) (Nat.min (rk z (k - 1) * nth (k - 1) (shape x) 0) (prodn (skipn k (shape x)))).
Proof.
  intros svd x a eps m Hs Wx Hd Hpos Hm. destruct (limits_parse _ _ _ _ _ Hm ltac:(lia)) as (mr & Hp & Hk).
  destruct (to_tt_tensor_ok svd Hs x a eps mr Wx Hd Hpos Hp) as (z & Ez & Wz & Rz & Bz & Dz & Kz & _).
  exists z. split; [exact Ez|]. split; [apply (wf_first Wz)|]. split; [rewrite <- Dz; apply (wf_last Wz)|]. intros k H. rewrite <- Hk by lia. apply (Kz k). lia.
Qed.
Print Assumptions C29_exact_ranks.

(** Exact when at every cut the bound allows at least the smaller side of the unfolding ("no
    truncation") ... *)
Theorem C29_exact : forall svd (x : rtensor) a eps m, svd_ok svd -> wft x -> 2 <= length (shape x) ->
  Forall (fun n => 0 < n) (shape x) -> rank_limits false a eps (length (shape x)) m ->
  (forall k, 0 < k < length (shape x) -> Nat.min (prodn (firstn k (shape x))) (prodn (skipn k (shape x))) <= m k) ->
  exists z dz, to_tt_tensor svd x a eps = Ok z /\ wf z /\ rshape z = [shape x] /\ bsz z = None /\
    full z = Ok dz /\ shape dz = shape x /\ forall i, vidx (shape x) i -> get dz i = get x i.
Proof.
  intros svd x a eps m Hs Wx Hd Hpos Hm Hk. destruct (limits_parse _ _ _ _ _ Hm ltac:(lia)) as (mr & Hp & Hn).
  apply (tt_svd_exact svd Hs x a eps mr Wx Hd Hpos Hp). intros k H. apply xcut_side; auto. rewrite Hn by lia. now apply Hk.
Qed.
Print Assumptions C29_exact.

(** ... or as much as the ranks of some TT representation of the tensor. *)
Theorem C29_exact_low_rank : forall svd (x : rtensor) a eps m (b : rtt), svd_ok svd -> wft x -> 2 <= length (shape x) ->
  Forall (fun n => 0 < n) (shape x) -> rank_limits false a eps (length (shape x)) m ->
  wf b -> rshape b = [shape x] -> bsz b = None -> full b = Ok x -> (forall k, 0 < k < length (shape x) -> rk b k <= m k) ->
  exists z dz, to_tt_tensor svd x a eps = Ok z /\ wf z /\ rshape z = [shape x] /\ bsz z = None /\
    full z = Ok dz /\ shape dz = shape x /\ forall i, vidx (shape x) i -> get dz i = get x i.
Proof.
  intros svd x a eps m b Hs Wx Hd Hpos Hm Wb Rb Bb Fb Hk. destruct (limits_parse _ _ _ _ _ Hm ltac:(lia)) as (mr & Hp & Hn).
  apply (tt_svd_exact svd Hs x a eps mr Wx Hd Hpos Hp). intros k H. do 3 eexists. split; [|apply (xcut_rep x b k); auto; lia].
  rewrite Hn by lia. now apply Hk.
Qed.
Print Assumptions C29_exact_low_rank.

(** The error bound: [s k] are the singular values of the unfolding number [k] (any singular
    value decomposition of it). *)
Theorem C29_error_bound : forall svd (x : rtensor) a eps m n U s V, svd_ok svd -> wft x -> 2 <= length (shape x) ->
  Forall (fun n => 0 < n) (shape x) -> rank_limits false a eps (length (shape x)) m ->
  (forall k, 0 < k < length (shape x) ->
     unfolding_svd [shape x] (fun i => [nth i (shape x) 0]) (length (shape x)) x [] k (n k) (U k) (s k) (V k)) ->
  exists z dz, to_tt_tensor svd x a eps = Ok z /\ full z = Ok dz /\
    (sq_dist (shape x) x dz [] <= sum_cuts (length (shape x)) (fun k => discarded (n k) (m k) (s k)))%R.
Proof.
  intros svd x a eps m n U s V Hs Wx Hd Hpos Hm HU. destruct (limits_parse _ _ _ _ _ Hm ltac:(lia)) as (mr & Hp & Hn).
  destruct (tt_svd_bound svd Hs x a eps mr Wx Hd Hpos Hp n U s V HU) as (z & dz & Ez & Fz & B). exists z, dz. do 2 (split; [assumption|]).
  replace (sum_cuts _ (fun k => discarded (n k) (m k) (s k))) with (sum_cuts (length (shape x)) (fun k => discarded (n k) (nth k mr 0) (s k))); [exact B|].
  unfold sum_cuts. apply (rsum_ext (length (shape x) - 1)). intros i Hi. rewrite Hn by lia. reflexivity.
Qed.
Print Assumptions C29_error_bound.

(** ... hence at most d-1 times the smallest possible error at these ranks. *)
Theorem C29_quasi_optimal : forall svd (x : rtensor) a eps m (b : rtt) db, svd_ok svd -> wft x -> 2 <= length (shape x) ->
  Forall (fun n => 0 < n) (shape x) -> rank_limits false a eps (length (shape x)) m ->
  wf b -> rshape b = [shape x] -> bsz b = None -> full b = Ok db -> (forall k, 0 < k < length (shape x) -> rk b k <= m k) ->
  exists z dz, to_tt_tensor svd x a eps = Ok z /\ full z = Ok dz /\
    (sq_dist (shape x) x dz [] <= INR (length (shape x) - 1) * sq_dist (shape x) x db [])%R.
Proof.
  intros svd x a eps m b db Hs Wx Hd Hpos Hm Wb Rb Bb Fb Hk. destruct (limits_parse _ _ _ _ _ Hm ltac:(lia)) as (mr & Hp & Hn).
  apply (tt_svd_best svd Hs x a eps mr Wx Hd Hpos Hp b db); auto. intros k H. rewrite Hn by lia. now apply Hk.
Qed.
Print Assumptions C29_quasi_optimal.

(** Fewer than two axes: refused. *)
Theorem C29_one_axis_raises : forall svd (x : rtensor) n a eps m, wft x -> shape x = [n] -> rank_limits false a eps 1 m ->
  to_tt_tensor svd x a eps = Err TypeError.
Proof. exact to_tt_one_axis. Qed.
Print Assumptions C29_one_axis_raises.

(** * C30: to_tt_matrix, with row modes [s0] and column modes [s1]. *)
Theorem C30_exact : forall svd (mat : rtensor) s0 s1 a eps m, svd_ok svd -> shape mat = [prodn s0; prodn s1] ->
  length s0 = length s1 -> 2 <= length s0 -> Forall (fun n => 0 < n) s0 -> Forall (fun n => 0 < n) s1 ->
  rank_limits false a eps (length s0) m ->
  (forall k, 0 < k < length s0 ->
     Nat.min (prodn (map (fun i => nth i s0 0 * nth i s1 0) (seq 0 k)))
             (prodn (map (fun i => nth i s0 0 * nth i s1 0) (seq k (length s0 - k)))) <= m k) ->
  exists z dz, to_tt_matrix svd mat (Some s0) (Some s1) a eps = Ok z /\ wf z /\ rshape z = [s0; s1] /\ bsz z = None /\
    full z = Ok dz /\ shape dz = shape mat /\ forall i, vidx (shape mat) i -> get dz i = get mat i.
Proof. intros. now apply (tt_matrix_exact_large svd H mat s0 s1 a eps m). Qed.
Print Assumptions C30_exact.

Theorem C30_exact_low_rank : forall svd (mat : rtensor) s0 s1 a eps m (b : rtt), svd_ok svd -> shape mat = [prodn s0; prodn s1] ->
  length s0 = length s1 -> 2 <= length s0 -> Forall (fun n => 0 < n) s0 -> Forall (fun n => 0 < n) s1 ->
  rank_limits false a eps (length s0) m ->
  wf b -> rshape b = [s0; s1] -> bsz b = None -> full b = Ok mat -> (forall k, 0 < k < length s0 -> rk b k <= m k) ->
  exists z dz, to_tt_matrix svd mat (Some s0) (Some s1) a eps = Ok z /\ wf z /\ rshape z = [s0; s1] /\ bsz z = None /\
    full z = Ok dz /\ shape dz = shape mat /\ forall i, vidx (shape mat) i -> get dz i = get mat i.
Proof. intros. now apply (tt_matrix_exact_low_rank svd H mat s0 s1 a eps m) with (b := b). Qed.
Print Assumptions C30_exact_low_rank.

(** With truncation, the bounds of C29 for the matrix whose rows and columns are the indices of the
    first and of the last cores. *)
Theorem C30_error_bound : forall svd (mat : rtensor) s0 s1 a eps m n U s V, svd_ok svd -> shape mat = [prodn s0; prodn s1] ->
  length s0 = length s1 -> 2 <= length s0 -> Forall (fun n => 0 < n) s0 -> Forall (fun n => 0 < n) s1 ->
  rank_limits false a eps (length s0) m ->
  (forall k, 0 < k < length s0 ->
     unfolding_svd [s0; s1] (fun i => [nth i s0 0; nth i s1 0]) (length s0) mat [] k (n k) (U k) (s k) (V k)) ->
  exists z dz, to_tt_matrix svd mat (Some s0) (Some s1) a eps = Ok z /\ full z = Ok dz /\
    (sq_dist (shape mat) mat dz [] <= sum_cuts (length s0) (fun k => discarded (n k) (m k) (s k)))%R.
Proof. intros. now apply (tt_matrix_bound svd H mat s0 s1 a eps m) with (U := U) (V := V). Qed.
Print Assumptions C30_error_bound.

Theorem C30_quasi_optimal : forall svd (mat : rtensor) s0 s1 a eps m (b : rtt) db, svd_ok svd -> shape mat = [prodn s0; prodn s1] ->
  length s0 = length s1 -> 2 <= length s0 -> Forall (fun n => 0 < n) s0 -> Forall (fun n => 0 < n) s1 ->
  rank_limits false a eps (length s0) m ->
  wf b -> rshape b = [s0; s1] -> bsz b = None -> full b = Ok db -> (forall k, 0 < k < length s0 -> rk b k <= m k) ->
  exists z dz, to_tt_matrix svd mat (Some s0) (Some s1) a eps = Ok z /\ full z = Ok dz /\
    (sq_dist (shape mat) mat dz [] <= INR (length s0 - 1) * sq_dist (shape mat) mat db [])%R.
Proof. intros. now apply (tt_matrix_best svd H mat s0 s1 a eps m) with (b := b). Qed.
Print Assumptions C30_quasi_optimal.

Theorem C30_ranks : forall svd (mat : rtensor) s0 s1 a eps m, svd_ok svd -> shape mat = [prodn s0; prodn s1] ->
  length s0 = length s1 -> 2 <= length s0 -> Forall (fun n => 0 < n) s0 -> Forall (fun n => 0 < n) s1 ->
  rank_limits false a eps (length s0) m ->
  exists z, to_tt_matrix svd mat (Some s0) (Some s1) a eps = Ok z /\ wf z /\ rshape z = [s0; s1] /\ bsz z = None /\
    forall k, 0 < k < length s0 -> rk z k <= m k.
Proof.
  intros svd mat s0 s1 a eps m Hs Sm L Hd P0 P1 Hm.
  destruct (tt_matrix_facts svd Hs mat s0 s1 a eps m Sm L Hd P0 P1 Hm) as (z & dz & e & Ez & Wz & Rz & Bz & _ & _ & _ & _ & _ & K & _).
  exists z. auto.
Qed.
Print Assumptions C30_ranks.

Theorem C30_exact_ranks : forall svd (mat : rtensor) s0 s1 a eps m, svd_ok svd -> shape mat = [prodn s0; prodn s1] ->
  length s0 = length s1 -> 2 <= length s0 -> Forall (fun n => 0 < n) s0 -> Forall (fun n => 0 < n) s1 ->
  rank_limits false a eps (length s0) m ->
  exists z, to_tt_matrix svd mat (Some s0) (Some s1) a eps = Ok z /\ rk z 0 = 1 /\ rk z (length s0) = 1 /\
    forall k, 0 < k < length s0 ->
      rk z k = Nat.min (m k) (Nat.min (rk z (k - 1) * (nth (k - 1) s0 0 * nth (k - 1) s1 0)) (prodn (map (fun i => nth i s0 0 * nth i s1 0) (seq k (length s0 - k))))).
Proof.
  intros svd mat s0 s1 a eps m Hs Sm L Hd P0 P1 Hm. destruct (limits_parse _ _ _ _ _ Hm ltac:(lia)) as (mr & Hp & Hn).
  destruct (to_tt_matrix_ok svd Hs mat s0 s1 a eps mr Sm L Hd P0 P1 Hp) as (z & Ez & Wz & Rz & Bz & Dz & Kz & _).
  exists z. split; [exact Ez|]. split; [apply (wf_first Wz)|]. split; [rewrite <- Dz; apply (wf_last Wz)|]. intros k H. rewrite <- Hn by lia. now apply (Kz k).
Qed.
Print Assumptions C30_exact_ranks.

(** A missing part of the shape means ones. *)
Theorem C30_none_is_ones : forall svd (mat : rtensor) s a eps,
  to_tt_matrix svd mat None (Some s) a eps = to_tt_matrix svd mat (Some (repeat 1 (length s))) (Some s) a eps /\
  to_tt_matrix svd mat (Some s) None a eps = to_tt_matrix svd mat (Some s) (Some (repeat 1 (length s))) a eps /\
  to_tt_matrix svd mat None None a eps = Err TypeError.
Proof. intros. repeat split. Qed.
Print Assumptions C30_none_is_ones.

(** * C31: round. *)
Theorem C31_round_exact : forall qr svd (t : rtt) a eps m, qr_ok qr -> svd_ok svd -> wf t ->
  rank_limits (is_batch t) a eps (ndims t) m -> (forall k, 0 < k < ndims t -> rk t k <= m k) ->
  exists z, round qr svd t a eps = Ok z /\ wf z /\ rshape z = rshape t /\ bsz z = bsz t /\ same_full t z.
Proof.
  intros qr svd t a eps m Hq Hs Hw Hm Hk. pose proof (wf_d Hw). destruct (limits_parse _ _ _ _ _ Hm ltac:(lia)) as (mr & Hp & Hn).
  destruct (round_exact qr svd Hq Hs t a eps mr Hw Hp ltac:(intros k Hk'; rewrite Hn by lia; auto)) as (z & Ez & Wz & Rz & Bz & _ & Ent).
  exists z. do 4 (split; [assumption|]).
  destruct (elementwise1_intro Rring Rring (fun x => x) t z Hw Wz Rz Bz Ent) as (da & dc & F1 & F2 & S1 & G).
  exists da, dc. do 3 (split; [assumption|]). intros i Hi. rewrite S1 in Hi. now rewrite G.
Qed.
Print Assumptions C31_round_exact.

Theorem C31_round_ranks : forall qr svd (t : rtt) a eps m, qr_ok qr -> svd_ok svd -> wf t ->
  rank_limits (is_batch t) a eps (ndims t) m ->
  exists z, round qr svd t a eps = Ok z /\ wf z /\ rshape z = rshape t /\ bsz z = bsz t /\ ndims z = ndims t /\
    forall k, 0 < k < ndims t -> rk z k <= m k /\ rk z k <= rk t k.
Proof.
  intros qr svd t a eps m Hq Hs Hw Hm. pose proof (wf_d Hw). destruct (limits_parse _ _ _ _ _ Hm ltac:(lia)) as (mr & Hp & Hn).
  destruct (round_ok qr svd t a eps mr Hq Hs Hw Hp) as (z & Ez & Wz & Rz & Bz & Dz & Kz & _).
  exists z. do 5 (split; [assumption|]). intros k Hk. rewrite <- Hn by lia. now apply Kz.
Qed.
Print Assumptions C31_round_ranks.

(** The ranks of the result, exactly: [q] are the ranks after the orthogonalization, left to right; then, right to
    left, the rank at cut k is the least of the limit, [q k] and what is left of the cores to the right. *)
Theorem C31_exact_ranks : forall qr svd (t : rtt) a eps m, qr_ok qr -> svd_ok svd -> wf t ->
  rank_limits (is_batch t) a eps (ndims t) m ->
  exists z q, round qr svd t a eps = Ok z /\ q 0 = 1 /\
    (forall k, S k < ndims t -> q (S k) = Nat.min (q k * prodn (modes t k)) (rk t (S k))) /\
    (forall k, 0 < k < ndims t -> rk z k = Nat.min (m k) (Nat.min (q k) (prodn (modes t k) * rk z (S k)))) /\ rk z (ndims t) = 1.
Proof.
  intros qr svd t a eps m Hq Hs Hw Hm. pose proof (wf_d Hw). destruct (limits_parse _ _ _ _ _ Hm ltac:(lia)) as (mr & Hp & Hn).
  destruct (round_ok_ranks qr svd t a eps mr Hq Hs Hw Hp) as (z & Ez & Wz & Rz & Bz & Dz & (q & Q0 & Q1 & Q2) & _).
  exists z, q. do 3 (split; [assumption|]). split; [intros k Hk; rewrite <- Hn by lia; now apply Q2|]. pose proof (wf_last Wz). unfold rk. now rewrite <- Dz.
Qed.
Print Assumptions C31_exact_ranks.

(** * C32: the error of round, for every element [p] of a batch ([p] = [] for a TensorTrain). *)
Theorem C32_error_bound : forall qr svd (t : rtt) dt a eps m n U s V p, qr_ok qr -> svd_ok svd -> wf t ->
  rank_limits (is_batch t) a eps (ndims t) m -> full t = Ok dt -> vidx (bpre t) p ->
  (forall k, 0 < k < ndims t -> unfolding_svd (rshape t) (modes t) (ndims t) dt p k (n k) (U k) (s k) (V k)) ->
  exists z dz, round qr svd t a eps = Ok z /\ full z = Ok dz /\
    (sq_dist (ishape t) dt dz p <= sum_cuts (ndims t) (fun k => discarded (n k) (m k) (s k)))%R.
Proof.
  intros qr svd t dt a eps m n U s V p Hq Hs Hw Hm Fd Vp HU. pose proof (wf_d Hw). destruct (limits_parse _ _ _ _ _ Hm ltac:(lia)) as (mr & Hp & Hn).
  destruct (round_svd_bound qr svd Hq Hs t dt a eps mr n U s V p Hw Hp Fd Vp HU) as (z & dz & Ez & Fz & B). exists z, dz. do 2 (split; [assumption|]).
  replace (sum_cuts _ (fun k => discarded (n k) (m k) (s k))) with (sum_cuts (ndims t) (fun k => discarded (n k) (nth k mr 0) (s k))); [exact B|].
  unfold sum_cuts. apply (rsum_ext (ndims t - 1)). intros i Hi. rewrite Hn by lia. reflexivity.
Qed.
Print Assumptions C32_error_bound.

Theorem C32_quasi_optimal : forall qr svd (t b : rtt) dt db a eps m, qr_ok qr -> svd_ok svd -> wf t ->
  rank_limits (is_batch t) a eps (ndims t) m -> wf b -> rshape b = rshape t -> bsz b = bsz t ->
  (forall k, 0 < k < ndims t -> rk b k <= m k) -> full t = Ok dt -> full b = Ok db ->
  exists z dz, round qr svd t a eps = Ok z /\ full z = Ok dz /\
    forall p, vidx (bpre t) p ->
    (sq_dist (ishape t) dt dz p <= INR (ndims t - 1) * sq_dist (ishape t) dt db p)%R.
Proof.
  intros qr svd t b dt db a eps m Hq Hs Hw Hm Wb Rb Bb Hk Ft Fb. pose proof (wf_d Hw). destruct (limits_parse _ _ _ _ _ Hm ltac:(lia)) as (mr & Hp & Hn).
  destruct (round_best qr svd Hq Hs t b a eps mr Hw Hp Wb ltac:(intros k Hk'; rewrite Hn by lia; auto)) as (z & Ez & Wz & Rz & Bz & B).
  destruct (full_correct Rring z Wz) as (dz & Fz & _). exists z, dz. do 2 (split; [assumption|]). intros p Vp.
  rewrite (sq_dist_entries t z dt dz), (sq_dist_entries t b dt db) by auto. now apply B.
Qed.
Print Assumptions C32_quasi_optimal.

(** An object whose array has a TT representation with the allowed ranks is rounded without error, whatever
    the ranks of the object itself. *)
Theorem C31_round_exact_low_rank : forall qr svd (t b : rtt) a eps m, qr_ok qr -> svd_ok svd -> wf t ->
  rank_limits (is_batch t) a eps (ndims t) m -> wf b -> rshape b = rshape t -> bsz b = bsz t ->
  (forall k, 0 < k < ndims t -> rk b k <= m k) -> same_full t b ->
  exists z, round qr svd t a eps = Ok z /\ wf z /\ rshape z = rshape t /\ bsz z = bsz t /\
    (forall k, 0 < k < ndims t -> rk z k <= m k /\ rk z k <= rk t k) /\ same_full t z.
Proof.
  intros qr svd t b a eps m Hq Hs Hw Hm Wb Rb Bb Hk (dt & db & Ft & Fb & Sb & Gb).
  destruct (C31_round_ranks qr svd t a eps m Hq Hs Hw Hm) as (z & Ez & Wz & Rz & Bz & Dz & Kz).
  destruct (C32_quasi_optimal qr svd t b dt db a eps m Hq Hs Hw Hm Wb Rb Bb Hk Ft Fb) as (z' & dz & Ez' & Fz & Q).
  rewrite Ez in Ez'. injection Ez' as <-.
  exists z. do 5 (split; [assumption|]). exists dt, dz. do 2 (split; [assumption|]).
  destruct (full_correct Rring t Hw) as (dt' & Ft' & _ & St & _). rewrite Ft in Ft'. injection Ft' as <-.
  destruct (full_correct Rring z Wz) as (dz' & Fz' & _ & Sz & _). rewrite Fz in Fz'. injection Fz' as <-.
  rewrite get_shape_ishape in St, Sz.
  assert (I : ishape z = ishape t) by (unfold ishape, is_tt_matrix; now rewrite Rz).
  assert (P : bpre z = bpre t) by (unfold bpre; now rewrite Bz).
  split; [congruence|]. intros i Hi. rewrite St in Hi. apply vidx_app_inv in Hi as (p & j & -> & Vp & Vj).
  specialize (Q p Vp). unfold sq_dist in Q at 2. rewrite (isum_zero Rring) in Q.
  2:{ intros k Vk. rewrite Gb by (rewrite St; now apply vidx_app). cbn. lra. }
  cbn in Q. rewrite Rmult_0_r in Q.
  destruct (TangentSpace.isum_zero_each (ishape t) (fun i => (get dt (p ++ i) - get dz (p ++ i)) * (get dt (p ++ i) - get dz (p ++ i)))%R) as [Q1 Q2].
  { intros k _. apply Rle_0_sqr. }
  specialize (Q2 ltac:(apply Rle_antisym; [exact Q|exact Q1]) j Vj). cbn in Q2. apply Rsqr_0_uniq in Q2. cbn in *. lra.
Qed.
Print Assumptions C31_round_exact_low_rank.

(** * C33: arguments. *)
(** The documented forms are accepted (this is [C29_ranks] and [C31_round_ranks]).  Refusals: *)
Theorem C33_below_one : forall qr svd (x : rtensor) (t : rtt) a eps z, (a = RkNum z \/ exists l, a = RkList l /\ In z l) -> (z < 1)%Z ->
  to_tt_tensor svd x a eps = Err ValueError /\ round qr svd t a eps = Err ValueError.
Proof. intros. split; [apply to_tt_err|apply round_err]; now apply (parse_below1 _ _ _ _ z). Qed.
Print Assumptions C33_below_one.

Theorem C33_wrong_length : forall qr svd (x : rtensor) (t : rtt) l eps, length l <> 1 ->
  (length l <> S (length (shape x)) -> to_tt_tensor svd x (RkList l) eps = Err ValueError) /\
  (length l <> S (ndims t) -> round qr svd t (RkList l) eps = Err ValueError).
Proof. intros. split; intros; [apply to_tt_err|apply round_err]; now apply parse_length. Qed.
Print Assumptions C33_wrong_length.

Theorem C33_negative_epsilon : forall qr svd (x : rtensor) (t : rtt) a e, a <> RkNone -> (e < 0)%R ->
  to_tt_tensor svd x a (Some e) = Err ValueError /\ round qr svd t a (Some e) = Err ValueError.
Proof. intros. split; [apply to_tt_err|apply round_err]; now apply parse_eps. Qed.
Print Assumptions C33_negative_epsilon.

(** The default [max_tt_rank=None] of [round] is a TypeError and [np.inf] (the value the
    documentation of other functions uses for "no limit") a ValueError; a list is refused for
    batches. *)
Theorem C33_default_refuted : forall qr svd (t : rtt) eps, round qr svd t RkNone eps = Err TypeError.
Proof. intros. apply round_err. apply parse_none. Qed.
Print Assumptions C33_default_refuted.
Theorem C33_no_limit_refuted : forall qr svd (t : rtt) (x : rtensor) eps,
  round qr svd t RkInf eps = Err ValueError /\ to_tt_tensor svd x RkInf eps = Err ValueError.
Proof. intros. split; [apply round_err|apply to_tt_err]; apply parse_inf. Qed.
Print Assumptions C33_no_limit_refuted.
Theorem C33_batch_list_refuted : exists (t : rtt) l, wf t /\ length l = S (ndims t) /\ Forall (fun z => (1 <= z)%Z) l /\
  forall qr svd eps, round qr svd t (RkList l) eps = Err ValueError.
Proof.
  exists (toR s_b3), [1; 2; 1]%Z. split; [exact r_b3_wf|]. split; [reflexivity|]. split; [repeat constructor; lia|].
  intros. apply round_err. apply (parse_batch_list [1; 2; 1]%Z eps 2); [reflexivity|lia].
Qed.
Print Assumptions C33_batch_list_refuted.

(** The hypotheses can be met: a 2 x 3 x 2 tensor of ranks (1,2,2,1) cut to ranks 1 and 2, a batch,
    a 6 x 4 matrix with shape ((2,3),(2,2)). *)
Example C29_C33_ex : svd_ok some_svd /\ qr_ok gram_schmidt /\
  (exists x, full (toR s_a) = Ok x /\ wft x /\ shape x = [2; 3; 2] /\ Forall (fun n => 0 < n) (shape x) /\
     rank_limits false (RkNum 2) None 3 (fun _ => 2) /\ rank_limits false (RkList [1; 1; 2; 1]%Z) (Some 1%R) 3 (fun k => nth k [1; 1; 2; 1] 0)) /\
  wf (toR s_b3) /\ rank_limits (is_batch (toR s_b3)) (RkNum 1) None (ndims (toR s_b3)) (fun _ => 1) /\
  (exists x, full (toR s_m) = Ok x /\ wft x /\ shape x = [prodn [2; 3]; prodn [2; 2]] /\ rk (toR s_m) 1 = 2 /\ rank_limits false (RkNum 2) None 2 (fun _ => 2)).
Proof.
  split; [exact some_svd_ok|]. split; [exact gram_schmidt_ok|]. split.
  { destruct (full_correct Rring (toR s_a) r_a_wf) as (x & F & W & S & _). exists x. split; [exact F|]. split; [exact W|].
    split; [rewrite S; reflexivity|]. split; [rewrite S; repeat constructor|]. split.
    - split; [exact I|]. split; [lia|reflexivity].
    - split; [lra|]. split; [reflexivity|]. split; [reflexivity|]. split; [repeat constructor; lia|]. intros k Hk. destruct k as [|[|[|[|k]]]]; try reflexivity; lia. }
  split; [exact r_b3_wf|]. split; [split; [exact I|]; split; [lia|reflexivity]|].
  destruct (full_correct Rring (toR s_m) r_m_wf) as (x & F & W & S & _). exists x. split; [exact F|]. split; [exact W|].
  split; [rewrite S; reflexivity|]. split; [reflexivity|]. split; [exact I|]. split; [lia|reflexivity].
Qed.
