(** C39, C40: Kronecker products.

    [kronecker t ns] (KronSpec.v): [t] is a TT-matrix (or a batch of TT-matrices) all TT-ranks of
    which are 1 and all cores of which are square, of sizes [ns]; [factor t p k] is the matrix in core
    [k] of batch element [p]; [mat D p] is the matrix of batch element [p] ([p = []] without a batch) of
    the dense object [D].  [det] (Det.v) is the determinant.  [la] holds any routines
    for inverses and Cholesky factors; they are to satisfy [inv_ok], [cho_ok]. *)
From Coq Require Import String List Arith ZArith Lia Lra Bool Reals.
From mathcomp Require matrix.
From Verif Require Import Scalar Tensor TensorLemmas Base Spec BaseLemmas Ops FullProofs ResultLemmas Dense OpsR Det DecompSpec KronSpec Kron DetProofs KronProofs KronThms KronInv CholProofs KronExists Samples.
Import ListNotations.
Local Open Scope nat_scope.
Local Notation get := (@get Rring).

(** * C39 *)
Theorem C39_determinant : forall (t : rtt) ns D, kronecker t ns -> full t = Ok D ->
  exists v, determinant t = Ok v /\ wft v /\ shape v = bpre t /\
    forall p, vidx (bpre t) p -> get v p = det (prodn ns) (mat D p).
Proof. intros t ns D HK HD. exact (determinant_ok t ns HK D HD). Qed.
Print Assumptions C39_determinant.

(** Signs and logarithms of the absolute values, [None] being minus infinity. *)
Theorem C39_slog_determinant : forall (t : rtt) ns D, kronecker t ns -> full t = Ok D ->
  exists s l, slog_determinant t = Ok (s, l) /\ shape s = bpre t /\ length l = prodn (bpre t) /\
    forall p, vidx (bpre t) p -> let d := det (prodn ns) (mat D p) in
      ((0 < d)%R -> get s p = 1%R) /\ ((d < 0)%R -> get s p = (-1)%R) /\
      (d <> 0%R -> nth (ravel (bpre t) p) l None = Some (ln (Rabs d))) /\
      (d = 0%R -> get s p = 0%R /\ nth (ravel (bpre t) p) l None = None).
Proof.
  intros t ns D HK HD. destruct (slog_determinant_ok t ns HK D HD) as (s & l & E & _ & Ss & Ll & H). exists s, l. do 3 (split; [assumption|]).
  intros p Hp d. destruct (H p Hp) as [Hs Hl]. fold d in Hs, Hl. rewrite Hs, Hl. unfold tf_sign, tf_log. repeat split.
  - intros. destruct (Rlt_dec 0 d); [reflexivity|lra].
  - intros. destruct (Rlt_dec 0 d); [lra|]. destruct (Rlt_dec d 0); [reflexivity|lra].
  - intros Hd. apply Rabs_no_R0 in Hd. destruct (Req_EM_T (Rabs d) 0); [contradiction|reflexivity].
  - subst d. rewrite H0. destruct (Rlt_dec 0 0); [lra|reflexivity].
  - rewrite H0, Rabs_R0. destruct (Req_EM_T 0 0); [reflexivity|lra].
Qed.
Print Assumptions C39_slog_determinant.
(** The determinant is sign * exp(logdet). *)
Theorem C39_sign_times_exp : forall (t : rtt) ns D, kronecker t ns -> full t = Ok D ->
  exists s l, slog_determinant t = Ok (s, l) /\ forall p, vidx (bpre t) p ->
    det (prodn ns) (mat D p) = (get s p * match nth (ravel (bpre t) p) l None with Some x => exp x | None => 0 end)%R.
Proof.
  intros t ns D HK HD. destruct (C39_slog_determinant t ns D HK HD) as (s & l & E & _ & _ & H). exists s, l. split; [exact E|].
  intros p Hp. destruct (H p Hp) as (H1 & H2 & H3 & H4). set (d := det (prodn ns) (mat D p)) in *.
  destruct (Rtotal_order d 0) as [Hd|[Hd|Hd]].
  - rewrite H2, H3 by lra. rewrite exp_ln by (apply Rabs_pos_lt; lra). rewrite Rabs_left by lra. lra.
  - destruct (H4 Hd) as [-> ->]. lra.
  - rewrite H1, H3 by lra. rewrite exp_ln by (apply Rabs_pos_lt; lra). rewrite Rabs_right by lra. lra.
Qed.
Print Assumptions C39_sign_times_exp.

Theorem C39_rejects : forall (t : rtt), wf t -> (forall ns, ~ kronecker t ns) ->
  determinant t = Err ValueError /\ slog_determinant t = Err ValueError /\
  forall f, inv f t = Err ValueError /\ cholesky f t = Err ValueError.
Proof.
  intros t Hw H. unfold determinant, slog_determinant, inv, cholesky, map_kron. rewrite (check_kron_err t Hw H). repeat split; reflexivity.
Qed.
Print Assumptions C39_rejects.

(** [det] is the determinant of mathcomp. *)
Theorem C39_det_is_mathcomp_det : forall n A, det n A = matrix.determinant (matrix.matrix_of_fun matrix.matrix_key (fun i j : fintype.ordinal n => A (fintype.nat_of_ord i) (fintype.nat_of_ord j)) : matrix.matrix R n n).
Proof. intros. exact (det_mx n A). Qed.
Print Assumptions C39_det_is_mathcomp_det.

(** Samples: [1 2; 3 4] x [0 1; 2 0], a batch of two, and objects that are refused. *)
Definition k_a : tt Zring := TT [zt [1;2;2;1] [1;2;3;4]%Z; zt [1;2;2;1] [0;1;2;0]%Z] [[2;2];[2;2]] [1;1;1] None.
Definition k_b : tt Zring := TT [zt [2;1;2;2;1] [1;2;3;4;2;0;0;1]%Z; zt [2;1;1;1;1] [-3;5]%Z] [[2;1];[2;1]] [1;1;1] (Some 2).
Lemma k_a_ok : kronecker (toR k_a) [2;2].
Proof. split; [apply wfb_wf; vm_compute; reflexivity|]. split; [reflexivity|]. intros [|[|[|k]]] H; try reflexivity. cbn in H. lia. Qed.
Lemma k_b_ok : kronecker (toR k_b) [2;1].
Proof. split; [apply wfb_wf; vm_compute; reflexivity|]. split; [reflexivity|]. intros [|[|[|k]]] H; try reflexivity. cbn in H. lia. Qed.
Lemma k_full_exists (t : rtt) : wf t -> exists D, full t = Ok D.
Proof. intros H. destruct (full_correct Rring t H) as (D & E & _). eauto. Qed.
Example C39_ex : kronecker (toR k_a) [2;2] /\ kronecker (toR k_b) [2;1] /\
  (exists D, full (toR k_a) = Ok D /\ det 4 (mat D []) = 16%R) /\
  wf (toR s_n) /\ (forall ns, ~ kronecker (toR s_n) ns) /\ wf (toR s_m) /\ (forall ns, ~ kronecker (toR s_m) ns).
Proof.
  split; [exact k_a_ok|]. split; [exact k_b_ok|]. split.
  - destruct (k_full_exists (toR k_a) (proj1 k_a_ok)) as (D & HD). exists D. split; [exact HD|].
    change 4 with (prodn [2;2]). rewrite (k_det (toR k_a) [2;2] k_a_ok D [] HD (Forall2_nil _)). unfold dprod, dterm, factor. cbn. unfold Tensor.get; cbn. unfold prodn; cbn. req. lra.
  - split; [exact r_n_wf|]. split; [intros ns (_ & H & _); cbn in H; injection H; intros; subst; discriminate|].
    split; [exact r_m_wf|]. intros ns (_ & H & _); cbn in H; injection H; intros; subst; discriminate.
Qed.

(** * C40 *)
Theorem C40_inv_exists : exists minv, inv_ok minv. Proof. exists some_inv. exact some_inv_ok. Qed.
Print Assumptions C40_inv_exists.
Theorem C40_cholesky_exists : exists mcho, cho_ok mcho. Proof. exists some_cho. exact some_cho_ok. Qed.
Print Assumptions C40_cholesky_exists.

(** Nonsingular dense matrices (equivalently: nonsingular factors). *)
Theorem C40_inv : forall la (t : rtt) ns D, inv_ok (tf_inv la) -> kronecker t ns -> full t = Ok D ->
  (forall p, vidx (bpre t) p -> det (prodn ns) (mat D p) <> 0%R) ->
  exists z E, inv la t = Ok z /\ kronecker z ns /\ bsz z = bsz t /\ full z = Ok E /\ shape E = shape D /\
    forall p, vidx (bpre t) p ->
      meq (prodn ns) (mmul (prodn ns) (mat D p) (mat E p)) kron /\ meq (prodn ns) (mmul (prodn ns) (mat E p) (mat D p)) kron.
Proof. intros la t ns D HI HK HD H. exact (inv_correct t ns HK la D HI HD H). Qed.
Print Assumptions C40_inv.
Theorem C40_invertible_factors : forall (t : rtt) ns D p, kronecker t ns -> full t = Ok D -> vidx (bpre t) p ->
  (det (prodn ns) (mat D p) <> 0%R <-> forall k, k < ndims t -> det (nth k ns 0) (factor t p k) <> 0%R).
Proof. intros t ns D p HK HD Hp. exact (factors_nonzero t ns HK D p HD Hp). Qed.
Print Assumptions C40_invertible_factors.
Theorem C40_inv_singular_raises : forall la (t : rtt) ns D, inv_ok (tf_inv la) -> kronecker t ns -> full t = Ok D ->
  (exists p, vidx (bpre t) p /\ det (prodn ns) (mat D p) = 0%R) -> inv la t = Err TFError.
Proof. intros la t ns D HI HK HD H. exact (inv_singular t ns HK la D HI HD H). Qed.
Print Assumptions C40_inv_singular_raises.

Theorem C40_cholesky : forall la (t : rtt) ns D, cho_ok (tf_cholesky la) -> kronecker t ns -> full t = Ok D ->
  (forall p k, vidx (bpre t) p -> k < ndims t -> symmetric (nth k ns 0) (factor t p k) /\ posdef (nth k ns 0) (factor t p k)) ->
  exists z E, cholesky la t = Ok z /\ kronecker z ns /\ bsz z = bsz t /\ full z = Ok E /\ shape E = shape D /\
    forall p, vidx (bpre t) p ->
      (forall i j, i < j -> j < prodn ns -> mat E p i j = 0%R) /\ (forall i, i < prodn ns -> (0 < mat E p i i)%R) /\
      meq (prodn ns) (mmul (prodn ns) (mat E p) (mtr (mat E p))) (mat D p).
Proof. intros la t ns D HI HK HD H. exact (cholesky_correct t ns HK la D HI HD H). Qed.
Print Assumptions C40_cholesky.
Theorem C40_cholesky_indefinite_raises : forall la (t : rtt) ns, cho_ok (tf_cholesky la) -> kronecker t ns ->
  (forall p k, vidx (bpre t) p -> k < ndims t -> symmetric (nth k ns 0) (factor t p k)) ->
  (exists p k, vidx (bpre t) p /\ k < ndims t /\ ~ posdef (nth k ns 0) (factor t p k)) -> cholesky la t = Err TFError.
Proof. intros la t ns HI HK. exact (cholesky_indefinite t ns HK la HI). Qed.
Print Assumptions C40_cholesky_indefinite_raises.

(** The condition on the dense matrices only: cholesky returns the factor, which is unique, or it raises because
    some factor of the product is not positive definite. *)
Theorem C40_cholesky_dense : forall la (t : rtt) ns D, cho_ok (tf_cholesky la) -> kronecker t ns -> full t = Ok D ->
  (forall p, vidx (bpre t) p -> symmetric (prodn ns) (mat D p) /\ posdef (prodn ns) (mat D p)) ->
  match cholesky la t with
  | Ok z => exists E, kronecker z ns /\ bsz z = bsz t /\ full z = Ok E /\ shape E = shape D /\
      forall p, vidx (bpre t) p -> cholesky_factor (prodn ns) (mat D p) (mat E p) /\
        forall L, cholesky_factor (prodn ns) (mat D p) L -> meq (prodn ns) L (mat E p)
  | Err e => e = TFError /\ exists p k, vidx (bpre t) p /\ k < ndims t /\ ~ posdef (nth k ns 0) (factor t p k)
  end.
Proof.
  intros la t ns D HC HK HD H. pose proof (cholesky_dense la t ns D HC HK HD H) as Q. destruct (cholesky la t); [|exact Q].
  destruct Q as (E & Kz & Bz & Fz & Sz & G). exists E. repeat (split; [assumption|]). intros p Hp. split; [now apply G|].
  intros L HL. apply (cholesky_unique _ (mat D p)); auto.
Qed.
Print Assumptions C40_cholesky_dense.

Example C40_ex : kronecker (toR k_a) [2;2] /\ kronecker (toR k_b) [2;1] /\
  (forall p k, vidx (bpre (toR k_b)) p -> k < 2 -> det (nth k [2;1] 0) (factor (toR k_b) p k) <> 0%R).
Proof.
  split; [exact k_a_ok|]. split; [exact k_b_ok|].
  intros p k Hp Hk. apply vidx_1_inv in Hp as (o & -> & Ho). unfold factor.
  destruct k as [|[|k]]; [| |lia]; destruct o as [|[|o]]; try lia; cbn; unfold Tensor.get; cbn; unfold prodn; cbn; lra.
Qed.

(** [2 1; 1 3] x [5]: positive definite factors. *)
Definition k_c : tt Zring := TT [zt [1;2;2;1] [2;1;1;3]%Z; zt [1;1;1;1] [5]%Z] [[2;1];[2;1]] [1;1;1] None.
(** [-2] x [-3 -1; -1 -2]: a positive definite product of negative definite factors. *)
Definition k_d : tt Zring := TT [zt [1;1;1;1] [-2]%Z; zt [1;2;2;1] [-3;-1;-1;-2]%Z] [[1;2];[1;2]] [1;1;1] None.
Lemma k_c_ok : kronecker (toR k_c) [2;1].
Proof. split; [apply wfb_wf; vm_compute; reflexivity|]. split; [reflexivity|]. intros [|[|[|k]]] H; try reflexivity. cbn in H. lia. Qed.
Lemma k_d_ok : kronecker (toR k_d) [1;2].
Proof. split; [apply wfb_wf; vm_compute; reflexivity|]. split; [reflexivity|]. intros [|[|[|k]]] H; try reflexivity. cbn in H. lia. Qed.
Lemma symmetric2 A : A 0 1 = A 1 0 -> symmetric 2 A.
Proof. intros H [|[|i]] [|[|j]] Hi Hj; try lia; auto. Qed.
Lemma posdef2 A : A 0 1 = A 1 0 -> (0 < A 0%nat 0%nat)%R -> (0 < A 0%nat 0%nat * A 1%nat 1%nat - A 0%nat 1%nat * A 0%nat 1%nat)%R -> posdef 2 A.
Proof.
  intros Hs Ha Hd v (i & Hi & Hv). unfold quad. cbn [sumn]. rewrite <- Hs. cbn [cadd c0 Rring].
  set (a := A 0 0) in *. set (b := A 0 1) in *. set (c := A 1 1) in *. set (x := v 0) in *. set (y := v 1) in *.
  assert (Hxy : (x <> 0 \/ y <> 0)%R) by (destruct i as [|[|i]]; [left|right|lia]; exact Hv).
  apply Rmult_lt_reg_l with a; [exact Ha|].
  replace (a * (0 + (0 + x * a * x + x * b * y) + (0 + y * b * x + y * c * y)))%R with ((a * x + b * y) ^ 2 + (a * c - b * b) * y ^ 2)%R by ring.
  rewrite Rmult_0_r. pose proof (pow2_ge_0 (a * x + b * y)) as P1. pose proof (pow2_ge_0 y) as P2.
  destruct (Req_EM_T y 0) as [Hy|Hy].
  - destruct Hxy as [Hx|Hx]; [|contradiction]. rewrite Hy. assert (0 < (a * x) ^ 2)%R.
    { assert (a * x <> 0)%R by (intros E; apply Rmult_integral in E as [E|E]; lra). nra. }
    nra.
  - assert (0 < y ^ 2)%R by nra. assert (0 < (a * c - b * b) * y ^ 2)%R by (apply Rmult_lt_0_compat; lra). lra.
Qed.
Example C40_cholesky_ex : kronecker (toR k_c) [2;1] /\
  forall p k, vidx (bpre (toR k_c)) p -> k < 2 -> symmetric (nth k [2;1] 0) (factor (toR k_c) p k) /\ posdef (nth k [2;1] 0) (factor (toR k_c) p k).
Proof.
  split; [exact k_c_ok|]. intros p k Hp Hk. inversion Hp; subst. unfold factor. destruct k as [|[|k]]; [| |lia]; cbn [nth].
  - split; [apply symmetric2; reflexivity|]. apply posdef2; [reflexivity| |]; cbn; unfold Tensor.get; cbn; unfold prodn; cbn; lra.
  - split; [intros [|i] [|j] Hi Hj; try lia; reflexivity|]. intros v (i & Hi & Hv). assert (i = 0) by lia. subst i.
    unfold quad; cbn; unfold Tensor.get; cbn; unfold prodn; cbn. nra.
Qed.

(** The documentation asks for positive definite cores; a positive definite matrix is not enough. *)
Theorem C40_definite_product_refuted : forall la, cho_ok (tf_cholesky la) -> exists (t : rtt) ns D, kronecker t ns /\ bsz t = None /\ full t = Ok D /\
  symmetric (prodn ns) (mat D []) /\ posdef (prodn ns) (mat D []) /\ cholesky la t = Err TFError.
Proof.
  intros la HI. exists (toR k_d), [1;2]. destruct (k_full_exists (toR k_d) (proj1 k_d_ok)) as (D & HD). exists D.
  split; [exact k_d_ok|]. split; [reflexivity|]. split; [exact HD|].
  assert (G : forall i j, i < 2 -> j < 2 -> mat D [] i j = kall [1;2] (factor (toR k_d) []) 0 i j).
  { intros i j Hi Hj. apply (k_full (toR k_d) [1;2] k_d_ok D []); auto. constructor. }
  change (prodn [1;2]) with 2. split; [apply symmetric2; rewrite !G by lia; reflexivity|]. split.
  - apply posdef2; rewrite !G by lia; unfold factor; cbn; unfold Tensor.get; cbn; unfold prodn; cbn; lra.
  - apply (cholesky_indefinite (toR k_d) [1;2] k_d_ok la HI).
    + intros p k Hp Hk. inversion Hp; subst. cbn in Hk. destruct k as [|[|k]]; [| |lia]; cbn [nth].
      * intros [|i] [|j] Hi Hj; try lia; reflexivity.
      * apply symmetric2. reflexivity.
    + exists [], 0. split; [constructor|]. split; [cbn; lia|]. intros P. specialize (P (fun _ => 1%R)). cbn [nth] in P.
      unfold quad, factor in P; cbn in P; unfold Tensor.get in P; cbn in P; unfold prodn in P; cbn in P.
      assert (0 < 0 + (0 + 1 * -2 * 1))%R; [|lra]. apply P. exists 0. split; [lia|lra].
Qed.
Print Assumptions C40_definite_product_refuted.
