(** C43-C47: riemannian.py.

    Definitions used below (RiemSpec.v): [tangent x T]: [T] is a derivative of (cores -> tensor) at the
    cores of [x]; [full_tt_ranks x]: the TT-ranks of [x] are the ranks of the unfoldings of the tensor;
    [admissible x]: no TT-rank exceeds the sizes of the neighbouring cores (implied by [full_tt_ranks]);
    [of_deltas]: the tensor with given delta cores.  [made qr x addr p] (RiemMade.v): [p] is a result of
    project, project_sum, project_matmul or add_n_projected (nested in any way) on the tangent space
    of [x], or of deltas_to_tangent_space for delta cores satisfying the gauge condition (so that results of
    gradients and hessian_vector_product are included, [C48_gradients_made]).  [good_weights], [wsize], [wcoef] (RiemThms.v) describe the weights of project_sum,
    [good_coef], [acoef] (RiemAddN.v) those of add_n_projected.  [ocnt b], [osel b k]: the number of elements
    of a TensorTrain ([b = None]) or batch, and the index in front that selects number k.
    [pre_of b] is [] or the batch size.  [addr] stands for the identity of the object [x]. *)
From Coq Require Import String List Arith ZArith Lia Lra Bool Reals.
From Verif Require Import Scalar Tensor TensorLemmas Base Spec BaseLemmas Chain Ops FullProofs ResultLemmas Dense OpsR Decomp DecompSpec QRExists
  BatchOps Riem RiemSpec RiemBlock RiemProofs RiemThms RiemMatmul RiemFull RiemDelta RiemInner RiemAddN RiemMade RiemRefute Samples Properties_Batch.
Import ListNotations.
Local Open Scope nat_scope.
Local Notation get := (@get Rring).

(** * C43 *)
(** The projection lies in the tangent space, and has the same scalar products with its elements. *)
Theorem C43_orthogonal_projection : forall qr (x z : rtt) addr, qr_ok qr -> wf x -> bsz x = None -> 2 <= ndims x -> full_tt_ranks x ->
  wf z -> rshape z = rshape x ->
  exists p dp dz, project qr z addr x = Ok (Proj p (Some addr)) /\ full p = Ok dp /\ full z = Ok dz /\
    forall o, vidx (pre_of (bsz z)) o ->
      tangent x (fun i => get dp (o ++ i)) /\
      forall T, tangent x T -> isum (K := Rring) (ishape x) (fun i => get dp (o ++ i) * T i)%R = isum (K := Rring) (ishape x) (fun i => get dz (o ++ i) * T i)%R.
Proof. intros qr x z addr Hq Hx Bx Hd Hr. now apply c43_tangent. Qed.
Print Assumptions C43_orthogonal_projection.

(** It is the nearest element of the tangent space. *)
Theorem C43_nearest : forall qr (x z : rtt) addr, qr_ok qr -> wf x -> bsz x = None -> 2 <= ndims x -> full_tt_ranks x ->
  wf z -> rshape z = rshape x ->
  exists p dp dz, project qr z addr x = Ok (Proj p (Some addr)) /\ full p = Ok dp /\ full z = Ok dz /\
    forall o T, vidx (pre_of (bsz z)) o -> tangent x T ->
      (isum (K := Rring) (ishape x) (fun i => Rsqr (get dz (o ++ i) - get dp (o ++ i))) <= isum (K := Rring) (ishape x) (fun i => Rsqr (get dz (o ++ i) - T i)))%R.
Proof. intros qr x z addr Hq Hx Bx Hd Hr. now apply c43_nearest. Qed.
Print Assumptions C43_nearest.

Theorem C43_fixes_tangent_tensors : forall qr (x z : rtt) addr dz, qr_ok qr -> wf x -> bsz x = None -> 2 <= ndims x -> full_tt_ranks x ->
  wf z -> rshape z = rshape x -> full z = Ok dz -> (forall o, vidx (pre_of (bsz z)) o -> tangent x (fun i => get dz (o ++ i))) ->
  exists p, project qr z addr x = Ok (Proj p (Some addr)) /\ same_full p z.
Proof. intros qr x z addr dz Hq Hx Bx Hd Hr. now apply c43_fixed. Qed.
Print Assumptions C43_fixes_tangent_tensors.

(** The result does not depend on the QR routine. *)
Theorem C43_any_qr : forall qr qr' (x z : rtt) addr, qr_ok qr -> qr_ok qr' -> wf x -> bsz x = None -> 2 <= ndims x -> full_tt_ranks x ->
  wf z -> rshape z = rshape x ->
  exists p p', project qr z addr x = Ok (Proj p (Some addr)) /\ project qr' z addr x = Ok (Proj p' (Some addr)) /\ same_full p p'.
Proof. exact c43_qr_independent. Qed.
Print Assumptions C43_any_qr.

(** The following hold for every [x], also with TT-ranks that are too large. *)
Theorem C43_projects_x_to_x : forall qr (x : rtt) addr, qr_ok qr -> wf x -> bsz x = None -> 2 <= ndims x ->
  exists p, project qr x addr x = Ok (Proj p (Some addr)) /\ same_full p x.
Proof. exact c43_self. Qed.
Print Assumptions C43_projects_x_to_x.

Theorem C43_linear : forall qr (x z z1 z2 : rtt) addr dz d1 d2 (a b : R), qr_ok qr -> wf x -> bsz x = None -> 2 <= ndims x ->
  wf z -> wf z1 -> wf z2 -> rshape z = rshape x -> rshape z1 = rshape x -> rshape z2 = rshape x ->
  bsz z1 = bsz z -> bsz z2 = bsz z -> full z = Ok dz -> full z1 = Ok d1 -> full z2 = Ok d2 ->
  (forall i, vidx (shape dz) i -> get dz i = (a * get d1 i + b * get d2 i)%R) ->
  exists p p1 p2 dp dp1 dp2, project qr z addr x = Ok (Proj p (Some addr)) /\ project qr z1 addr x = Ok (Proj p1 (Some addr)) /\
    project qr z2 addr x = Ok (Proj p2 (Some addr)) /\ full p = Ok dp /\ full p1 = Ok dp1 /\ full p2 = Ok dp2 /\
    forall i, vidx (shape dz) i -> get dp i = (a * get dp1 i + b * get dp2 i)%R.
Proof. intros qr x z z1 z2 addr dz d1 d2 a b Hq Hx Bx Hd. now apply c43_linear. Qed.
Print Assumptions C43_linear.

Theorem C43_idempotent : forall qr (x z : rtt) addr, qr_ok qr -> wf x -> bsz x = None -> 2 <= ndims x -> wf z -> rshape z = rshape x ->
  exists p p', project qr z addr x = Ok (Proj p (Some addr)) /\ project qr p addr x = Ok (Proj p' (Some addr)) /\ same_full p' p.
Proof. intros qr x z addr Hq Hx Bx Hd. now apply c43_idempotent. Qed.
Print Assumptions C43_idempotent.

Theorem C43_self_adjoint : forall qr (x z1 z2 : rtt) addr, qr_ok qr -> wf x -> bsz x = None -> 2 <= ndims x ->
  wf z1 -> wf z2 -> rshape z1 = rshape x -> rshape z2 = rshape x ->
  exists p1 p2 dp1 dp2 d1 d2, project qr z1 addr x = Ok (Proj p1 (Some addr)) /\
    project qr z2 addr x = Ok (Proj p2 (Some addr)) /\ full p1 = Ok dp1 /\ full p2 = Ok dp2 /\ full z1 = Ok d1 /\ full z2 = Ok d2 /\
    forall o1 o2, vidx (pre_of (bsz z1)) o1 -> vidx (pre_of (bsz z2)) o2 ->
      isum (K := Rring) (ishape x) (fun i => get dp1 (o1 ++ i) * get d2 (o2 ++ i))%R = isum (K := Rring) (ishape x) (fun i => get d1 (o1 ++ i) * get dp2 (o2 ++ i))%R.
Proof. intros qr x z1 z2 addr Hq Hx Bx Hd. now apply c43_symmetric. Qed.
Print Assumptions C43_self_adjoint.

(** Pythagoras: the projection is never longer than the projected tensor. *)
Theorem C43_pythagoras : forall qr (x z : rtt) addr, qr_ok qr -> wf x -> bsz x = None -> 2 <= ndims x -> wf z -> rshape z = rshape x ->
  exists p dp dz, project qr z addr x = Ok (Proj p (Some addr)) /\ full p = Ok dp /\ full z = Ok dz /\
    forall o, vidx (pre_of (bsz z)) o ->
      isum (K := Rring) (ishape x) (fun i => Rsqr (get dz (o ++ i))) =
      (isum (K := Rring) (ishape x) (fun i => Rsqr (get dp (o ++ i))) + isum (K := Rring) (ishape x) (fun i => Rsqr (get dz (o ++ i) - get dp (o ++ i))))%R.
Proof.
  intros qr x z addr Hq Hx Bx Hd Hz Rz.
  destruct (project_dense qr z x addr Hq Hx Bx Hd Hz Rz) as (l & r & p & dp & dz & Ef & HF & Ep & Wp & Rp & Bp & _ & Fp & Fz & Sp & Sz & _).
  destruct (C43_idempotent qr x z addr Hq Hx Bx Hd Hz Rz) as (p1 & p' & E1 & E' & d' & d1 & F' & F1 & S1 & G).
  rewrite Ep in E1. injection E1 as <-. rewrite Fp in F1. injection F1 as <-.
  destruct (C43_self_adjoint qr x p z addr Hq Hx Bx Hd Wp Hz Rp Rz) as (p2 & p3 & dp2 & dp3 & d2 & d3 & E2 & E3 & F2 & F3 & F4 & F5 & SA).
  rewrite E' in E2. injection E2 as <-. rewrite Ep in E3. injection E3 as <-. rewrite F' in F2. injection F2 as <-. rewrite Fp in F3, F4. injection F3 as <-. injection F4 as <-.
  rewrite Fz in F5. injection F5 as <-.
  exists p, dp, dz. do 3 (split; [assumption|]). intros o Ho. specialize (SA o o). rewrite Bp in SA. specialize (SA Ho Ho).
  assert (D : isum (K := Rring) (ishape x) (fun i => get dp (o ++ i) * get dz (o ++ i))%R = isum (K := Rring) (ishape x) (fun i => get dp (o ++ i) * get dp (o ++ i))%R).
  { rewrite <- SA. apply (isum_ext Rring). intros i Hi. rewrite G; [reflexivity|]. rewrite S1, Sp, Sz. now apply vidx_app. }
  transitivity (isum (K := Rring) (ishape x) (fun i => Rsqr (get dp (o ++ i)) + (Rsqr (get dz (o ++ i) - get dp (o ++ i)) + (2 * (get dp (o ++ i) * get dz (o ++ i)) + -2 * (get dp (o ++ i) * get dp (o ++ i)))))%R).
  - apply (isum_ext Rring). intros i _. unfold Rsqr. cbn. ring.
  - rewrite !(isum_add Rring). change (@cadd Rring) with Rplus. rewrite !(isum_mul_l Rring). change (@cmul Rring) with Rmult. rewrite D.
    set (a := isum _ _) at 1. set (b := isum _ _) at 1. set (c := isum _ _). change (@eq R (a + (b + (2 * c + -2 * c))) (a + b))%R. ring.
Qed.
Print Assumptions C43_pythagoras.

(** The object returned: shape, batch size, TT-ranks twice those of [x]. *)
Theorem C43_ranks : forall qr (x z : rtt) addr, qr_ok qr -> wf x -> bsz x = None -> 2 <= ndims x -> admissible x -> wf z -> rshape z = rshape x ->
  exists p, project qr z addr x = Ok (Proj p (Some addr)) /\ wf p /\ rshape p = rshape x /\ bsz p = bsz z /\
    forall k, 0 < k < ndims x -> rk p k = 2 * rk x k.
Proof.
  intros qr x z addr Hq Hx Bx Hd HA Hz Rz.
  destruct (project_dense qr z x addr Hq Hx Bx Hd Hz Rz) as (l & r & p & dp & dz & Ef & HF & Ep & Wp & Rp & Bp & Kp & _).
  exists p. do 4 (split; [assumption|]). intros k Hk. rewrite Kp by auto. rewrite (adm_l x l r Hx HF Hd HA), (adm_r x l r Hx HF Hd HA) by lia. lia.
Qed.
Print Assumptions C43_ranks.

Theorem C43_rejects : forall qr (x z : rtt) addr,
  (is_batch x = true -> project qr z addr x = Err ValueError) /\
  (rshape x <> rshape z -> project qr z addr x = Err ValueError).
Proof.
  intros qr x z addr. unfold project. split; intros H.
  - now rewrite H.
  - destruct (is_batch x); [reflexivity|]. destruct (llist_eqb (rshape x) (rshape z)) eqn:E; [|reflexivity]. apply llist_eqb_eq in E. contradiction.
Qed.
Print Assumptions C43_rejects.

(** A point whose TT-ranks are not minimal: the zero tensor with TT-rank 1.  Only zero is
    tangent there, but [project] maps the tensor 1 to 1, for every QR routine. *)
Theorem C43_rank_deficient_refuted : exists x z : rtt, wf x /\ bsz x = None /\ ndims x = 2 /\ wf z /\ rshape z = rshape x /\ bsz z = None /\
  forall qr addr, qr_ok qr -> exists p dp, project qr z addr x = Ok (Proj p (Some addr)) /\ full p = Ok dp /\
    ~ tangent x (fun i => get dp i).
Proof.
  exists x_zero, z_one. split; [exact x_zero_wf|]. do 2 (split; [reflexivity|]). split; [exact z_one_wf|]. do 2 (split; [reflexivity|]).
  intros qr addr Hq. destruct (x_zero_project qr addr Hq) as (p & dp & E & F & G). exists p, dp. do 2 (split; [assumption|]).
  intros HT. apply x_zero_tangent in HT. rewrite G in HT. lra.
Qed.
Print Assumptions C43_rank_deficient_refuted.

(** One core: refused. *)
Theorem C43_one_core_refuted : exists x : rtt, wf x /\ bsz x = None /\ ndims x = 1 /\ forall qr addr, project qr x addr x = Err ValueError.
Proof. exists (toR s_one). split; [exact r_one_wf|]. do 2 (split; [reflexivity|]). intros qr addr. cbv -[Rplus Rmult IZR]. reflexivity. Qed.
Print Assumptions C43_one_core_refuted.

(** A point with three cores and TT-ranks 2, which are minimal. *)
Ltac num H := cbn in H; unfold coreG, Tensor.get in H; cbn in H; unfold prodn in H; cbn in H.
Ltac vch := cbn; repeat (split; [repeat (constructor; [lia|]); constructor|]); exact I.
Ltac use H J := let H1 := fresh "Q" in pose proof (H J ltac:(vch) eq_refl) as H1; num H1.
Ltac fin2 a := destruct a as [|[|a]]; [..|cbn in *; lia]; lra.
Lemma r_a_full : full_tt_ranks (toR s_a).
Proof.
  intros k Hk. change (ndims (toR s_a)) with 3 in Hk.
  assert (k = 1 \/ k = 2) as [-> | ->] by lia.
  - split; intros c H a Ha; change (rk (toR s_a) 1) with 2 in *.
    + use H [[0]]. use H [[1]]. fin2 a.
    + use H [[0];[0]]. use H [[1];[0]]. fin2 a.
  - split; intros c H a Ha; change (rk (toR s_a) 2) with 2 in *.
    + use H [[0];[0]]. use H [[1];[0]]. fin2 a.
    + use H [[0]]. use H [[1]]. fin2 a.
Qed.

Example C43_case : qr_ok gram_schmidt /\ wf (toR s_a) /\ bsz (toR s_a) = None /\ 2 <= ndims (toR s_a) /\ full_tt_ranks (toR s_a) /\ admissible (toR s_a) /\
  rks (toR s_a) = [1;2;2;1] /\ wf (toR s_b) /\ rshape (toR s_b) = rshape (toR s_a).
Proof.
  split; [exact gram_schmidt_ok|]. split; [exact r_a_wf|]. split; [reflexivity|]. split; [cbn; lia|]. split; [exact r_a_full|].
  split; [exact (full_admissible _ r_a_wf r_a_full)|]. split; [reflexivity|]. split; [exact r_b_wf|]. reflexivity.
Qed.

(** * C44 *)
(** [project_sum] with the weights [wcoef weights s o]; the projections are those of [project]. *)
Theorem C44_project_sum : forall qr (z x : rtt) addr weights, qr_ok qr -> wf x -> bsz x = None -> 2 <= ndims x -> wf z -> rshape z = rshape x ->
  good_weights (ocnt (bsz z)) weights ->
  exists p t dp dt, project qr z addr x = Ok (Proj p (Some addr)) /\ project_sum qr z addr x weights = Ok (Proj t (Some addr)) /\
    wf t /\ rshape t = rshape x /\ bsz t = wsize weights /\ rks t = rks p /\ full p = Ok dp /\ full t = Ok dt /\
    forall o i, vidx (pre_of (wsize weights)) o -> vidx (ishape x) i ->
      get dt (o ++ i) = sumn (K := Rring) (ocnt (bsz z)) (fun s => wcoef weights s o * get dp (osel (bsz z) s ++ i))%R.
Proof. intros. now apply (c44_sum qr z x addr weights). Qed.
Print Assumptions C44_project_sum.

(** [z] is any representation of the products of the matrix [m] and the elements of [what]. *)
Theorem C44_project_matmul : forall qr (what x m z : rtt) addr B dm dw dz, qr_ok qr -> wf x -> bsz x = None -> 2 <= ndims x -> is_tt_matrix x = true ->
  wf what -> bsz what = Some B -> rshape what = rshape x -> wf m -> bsz m = None -> rshape m = [nth 0 (rshape x) []; nth 0 (rshape x) []] ->
  wf z -> bsz z = Some B -> rshape z = rshape x -> full m = Ok dm -> full what = Ok dw -> full z = Ok dz ->
  (forall s i j, s < B -> i < prodn (nth 0 (rshape x) []) -> j < prodn (nth 1 (rshape x) []) ->
     get dz [s; i; j] = sumn (K := Rring) (prodn (nth 0 (rshape x) [])) (fun k => get dm [i; k] * get dw [s; k; j])%R) ->
  exists t p, project_matmul qr what addr x m = Ok (Proj t (Some addr)) /\ project qr z addr x = Ok (Proj p (Some addr)) /\
    wf t /\ rshape t = rshape x /\ bsz t = Some B /\ same_full t p.
Proof. exact c44_matmul. Qed.
Print Assumptions C44_project_matmul.

(** A column of weights, shape (n, 1), which the documentation allows: raises. *)
Theorem C44_weight_column_raises : forall qr (what w : rtt) addr x, qr_ok qr -> wf w -> bsz w = None -> 2 <= ndims w -> wf what -> rshape what = rshape w ->
  shape x = [ocnt (bsz what); 1] -> project_sum qr what addr w (Some x) = Err TFError.
Proof. exact project_sum_column. Qed.
Print Assumptions C44_weight_column_raises.
(** A TensorTrain in place of a batch raises in [project_matmul]. *)
Theorem C44_matmul_tensortrain_raises : forall qr (what w m : rtt) addr, qr_ok qr -> wf w -> bsz what = None ->
  project_matmul qr what addr w m = Err ValueError.
Proof.
  intros qr what w m addr Hq Hw Hb. unfold project_matmul. destruct (is_batch w) eqn:Ew; [reflexivity|].
  destruct (negb (llist_eqb (rshape w) (rshape what))); [reflexivity|].
  destruct (frame_ok qr w Hq Hw) as (l & r & Ef & _); [unfold is_batch in Ew; destruct (bsz w); [discriminate|reflexivity]|].
  rewrite Ef. cbn [bind]. unfold lazy_batch_size. now rewrite Hb.
Qed.
Print Assumptions C44_matmul_tensortrain_raises.
Theorem C44_weight_column_refuted : exists (x z : rtt) (weights : rtensor), wf x /\ bsz x = None /\ ndims x = 2 /\ wf z /\ rshape z = rshape x /\
  wft weights /\ shape weights = [ocnt (bsz z); 1] /\ forall qr addr, qr_ok qr -> project_sum qr z addr x (Some weights) = Err TFError.
Proof.
  exists (toR s_t2), (toR s_b3), (@Tensor Rring [3;1] [1%R;2%R;3%R]). split; [exact r_t2_wf|]. do 2 (split; [reflexivity|]). split; [exact r_b3_wf|].
  do 3 (split; [reflexivity|]). intros qr addr Hq. apply C44_weight_column_raises; auto using r_t2_wf, r_b3_wf; reflexivity.
Qed.
Print Assumptions C44_weight_column_refuted.
Theorem C44_rejects : forall qr (what w m : rtt) addr, is_batch w = true \/ rshape w <> rshape what ->
  project_matmul qr what addr w m = Err ValueError /\ (wf what -> forall weights, project_sum qr what addr w weights = Err ValueError).
Proof.
  intros qr what w m addr H. split.
  - unfold project_matmul. destruct (is_batch w); [reflexivity|]. destruct H as [H|H]; [discriminate|].
    destruct (llist_eqb (rshape w) (rshape what)) eqn:E; [|reflexivity]. apply llist_eqb_eq in E. contradiction.
  - intros Hw weights. unfold project_sum.
    destruct (expand_what what Hw) as (z & B & Ez & Wz & Rz & _). rewrite Ez. cbn [bind].
    destruct (is_batch w); [reflexivity|]. destruct H as [H|H]; [discriminate|]. rewrite Rz.
    destruct (llist_eqb (rshape w) (rshape what)) eqn:E; [|reflexivity]. apply llist_eqb_eq in E. contradiction.
Qed.
Print Assumptions C44_rejects.

Example C44_case : qr_ok gram_schmidt /\ wf (toR s_t2) /\ bsz (toR s_t2) = None /\ 2 <= ndims (toR s_t2) /\ wf (toR s_b3) /\ rshape (toR s_b3) = rshape (toR s_t2) /\
  good_weights (ocnt (bsz (toR s_b3))) (Some (@Tensor Rring [3] [1%R;2%R;3%R])) /\ good_weights (ocnt (bsz (toR s_b3))) (Some (@Tensor Rring [3;2] [1%R;2%R;3%R;4%R;5%R;6%R])).
Proof.
  split; [exact gram_schmidt_ok|]. split; [exact r_t2_wf|]. split; [reflexivity|]. split; [cbn; lia|]. split; [exact r_b3_wf|]. split; [reflexivity|].
  split; [now left|]. right. exists 2. split; [lia|reflexivity].
Qed.
(** Matrices: two 2 x 3 matrices with two cores each, the product with the identity. *)
Definition s_w2 : tt Zring := TT [zt [2;1;2;1;1]%nat [1;2;0;1]%Z; zt [2;1;1;3;1]%nat [1;0;2;-1;3;1]%Z] [[2;1];[1;3]]%nat [1;1;1]%nat (Some 2%nat).
Definition s_id : tt Zring := TT [zt [1;2;2;1]%nat [1;0;0;1]%Z; zt [1;1;1;1]%nat [1]%Z] [[2;1];[2;1]]%nat [1;1;1]%nat None.
Definition s_w1 : tt Zring := TT [zt [1;2;1;1]%nat [1;2]%Z; zt [1;1;3;1]%nat [1;0;2]%Z] [[2;1];[1;3]]%nat [1;1;1]%nat None.
Example C44_matmul_case : let x := toR s_w1 in let what := toR s_w2 in let m := toR s_id in exists dm dw,
  qr_ok gram_schmidt /\ wf x /\ bsz x = None /\ 2 <= ndims x /\ is_tt_matrix x = true /\ wf what /\ bsz what = Some 2 /\ rshape what = rshape x /\
  wf m /\ bsz m = None /\ rshape m = [nth 0 (rshape x) []; nth 0 (rshape x) []] /\ full m = Ok dm /\ full what = Ok dw /\
  forall s i j, s < 2 -> i < prodn (nth 0 (rshape x) []) -> j < prodn (nth 1 (rshape x) []) ->
     get dw [s; i; j] = sumn (K := Rring) (prodn (nth 0 (rshape x) [])) (fun k => get dm [i; k] * get dw [s; k; j])%R.
Proof.
  intros x what m. do 2 eexists. split; [exact gram_schmidt_ok|]. split; [apply wfb_wf; vm_compute; reflexivity|]. split; [reflexivity|]. split; [cbn; lia|].
  split; [reflexivity|]. split; [apply wfb_wf; vm_compute; reflexivity|]. do 2 (split; [reflexivity|]). split; [apply wfb_wf; vm_compute; reflexivity|].
  do 2 (split; [reflexivity|]). do 2 (split; [cbv -[Rplus Rmult IZR]; reflexivity|]).
  intros s i j Hs Hi Hj. change (i < 2) in Hi. change (j < 3) in Hj. change (prodn (nth 0 (rshape x) [])) with 2.
  destruct s as [|[|s]]; [| |lia]; (destruct i as [|[|i]]; [| |lia]); (destruct j as [|[|[|j]]]; [| | |lia]); unfold Tensor.get; cbn; unfold prodn; cbn; lra.
Qed.

(** * C45 *)
(** [made]: everything project, project_sum, project_matmul and add_n_projected return, and deltas_to_tangent_space for delta cores
    satisfying the gauge condition. *)
Theorem C45_pairwise_flat_inner_projected : forall qr (x : rtt) addr p1 p2, qr_ok qr -> wf x -> bsz x = None -> 2 <= ndims x -> admissible x ->
  made qr x addr p1 -> made qr x addr p2 ->
  exists w d1 d2, pairwise_flat_inner_projected p1 p2 = Ok w /\ wft w /\ full (p_tt p1) = Ok d1 /\ full (p_tt p2) = Ok d2 /\
    shape w = [ocnt (bsz (p_tt p1)); ocnt (bsz (p_tt p2))] /\
    forall p q, p < ocnt (bsz (p_tt p1)) -> q < ocnt (bsz (p_tt p2)) ->
      get w [p; q] = isum (K := Rring) (ishape x) (fun i => get d1 (osel (bsz (p_tt p1)) p ++ i) * get d2 (osel (bsz (p_tt p2)) q ++ i))%R.
Proof. intros qr x addr p1 p2 Hq Hx Bx Hd HA. now apply c45_inner. Qed.
Print Assumptions C45_pairwise_flat_inner_projected.

(** The same matrix as [pairwise_flat_inner], which removes axes of size 1 (C26). *)
Theorem C45_equals_pairwise_flat_inner : forall qr (x : rtt) addr p1 p2 P Q, qr_ok qr -> wf x -> bsz x = None -> 2 <= ndims x -> admissible x ->
  made qr x addr p1 -> made qr x addr p2 -> bsz (p_tt p1) = Some P -> bsz (p_tt p2) = Some Q -> P <> 1 -> Q <> 1 ->
  pairwise_flat_inner_projected p1 p2 = pairwise_flat_inner (p_tt p1) (p_tt p2).
Proof.
  intros qr x addr p1 p2 P Q Hq Hx Bx Hd HA M1 M2 B1 B2 NP NQ.
  destruct (c45_inner qr x addr Hq Hx Bx Hd HA p1 p2 M1 M2) as (w & d1 & d2 & E & W & F1 & F2 & S & G). rewrite B1, B2 in S, G. cbn [ocnt osel] in S, G.
  destruct (frame_ok qr x Hq Hx Bx) as (l & r & EF & HF).
  destruct (made_gblocks qr x addr Hq Hx Bx Hd HA l r p1 EF HF M1) as (ob1 & D1 & t1 & -> & G1 & _).
  destruct (made_gblocks qr x addr Hq Hx Bx Hd HA l r p2 EF HF M2) as (ob2 & D2 & t2 & -> & G2 & _). cbn [p_tt] in *.
  destruct (C26_pairwise_flat_inner Rring t1 t2 (bl_wf _ _ _ _ _ _ G1) (bl_wf _ _ _ _ _ _ G2)) with (P := P) (Q := Q) as (w' & e1 & e2 & E' & W' & S' & F1' & F2' & _ & _ & G').
  { rewrite (bl_rs _ _ _ _ _ _ G1), (bl_rs _ _ _ _ _ _ G2). reflexivity. } 1-4: assumption.
  assert (e1 = d1) by congruence. assert (e2 = d2) by congruence. subst. rewrite E, E'. f_equal. apply tensor_ext; auto; [congruence|].
  intros i Hi. rewrite S in Hi. apply vidx_2_inv in Hi as (p & q & -> & Hp & Hq'). rewrite G, G' by auto. rewrite (same_ishape t1 x) by apply (bl_rs _ _ _ _ _ _ G1). reflexivity.
Qed.
Print Assumptions C45_equals_pairwise_flat_inner.

(** Objects not known to lie in one tangent space are refused. *)
Theorem C45_rejects : forall p1 p2, p_on p1 = None \/ p_on p2 = None \/ p_on p1 <> p_on p2 -> pairwise_flat_inner_projected p1 p2 = Err ValueError.
Proof.
  intros p1 p2 H. unfold pairwise_flat_inner_projected. destruct (p_on p1) as [a|], (p_on p2) as [b|]; try reflexivity.
  destruct (Nat.eqb_spec a b) as [->|]; [|reflexivity]. destruct H as [H|[H|H]]; [discriminate|discriminate|contradiction].
Qed.
Print Assumptions C45_rejects.

(** TT-rank 3 at a cut with a 3 x 1 unfolding: the zero tensor gets norm 1. *)
Theorem C45_rank_too_large_refuted : exists x z : rtt, wf x /\ bsz x = None /\ ndims x = 2 /\ wf z /\ rshape z = rshape x /\
  forall qr addr, qr_ok qr -> exists t w dt, project qr z addr x = Ok (Proj t (Some addr)) /\
    pairwise_flat_inner_projected (Proj t (Some addr)) (Proj t (Some addr)) = Ok w /\ get w [0;0] = 1%R /\
    full t = Ok dt /\ shape dt = [3;1] /\ forall i, vidx [3;1] i -> get dt i = 0%R.
Proof.
  exists x_big, z_nil. split; [exact x_big_wf|]. do 2 (split; [reflexivity|]). split; [exact z_nil_wf|]. split; [reflexivity|]. exact big_inner.
Qed.
Print Assumptions C45_rank_too_large_refuted.

Lemma r_t2_adm : admissible (toR s_t2).
Proof. intros k Hk. change (ndims (toR s_t2)) with 2 in Hk. assert (k = 1) as -> by lia. vm_compute. lia. Qed.
Example C45_case : exists p, qr_ok gram_schmidt /\ wf (toR s_t2) /\ bsz (toR s_t2) = None /\ 2 <= ndims (toR s_t2) /\ admissible (toR s_t2) /\
  made gram_schmidt (toR s_t2) 7 p /\ bsz (p_tt p) = Some 3.
Proof.
  destruct (C43_ranks gram_schmidt (toR s_t2) (toR s_b3) 7) as (t & E & W & R & B & _); auto using gram_schmidt_ok, r_t2_wf, r_b3_wf, r_t2_adm.
  exists (Proj t (Some 7)). split; [exact gram_schmidt_ok|]. split; [exact r_t2_wf|]. split; [reflexivity|]. split; [cbn; lia|]. split; [exact r_t2_adm|].
  split; [|exact B]. apply (made_project _ _ _ (toR s_b3)); auto using r_b3_wf.
Qed.

(** * C46 *)
Theorem C46_add_n_projected : forall qr (x : rtt) addr ps ob coef, qr_ok qr -> wf x -> bsz x = None -> 2 <= ndims x -> admissible x ->
  ps <> [] -> (forall q, In q ps -> made qr x addr q) -> (forall q, In q ps -> bsz (p_tt q) = ob) -> good_coef (length ps) ob coef ->
  exists t dt ds, add_n_projected ps coef = Ok (Proj t (Some addr)) /\ wf t /\ rshape t = rshape x /\ bsz t = ob /\
    (forall q, In q ps -> rks (p_tt q) = rks t) /\ full t = Ok dt /\ mapM (fun q => full (p_tt q)) ps = Ok ds /\
    forall o i, vidx (pre_of ob) o -> vidx (ishape x) i ->
      get dt (o ++ i) = sumn (K := Rring) (length ps) (fun k => acoef coef k o * get (nth k ds rzero) (o ++ i))%R.
Proof.
  intros qr x addr ps ob coef Hq Hx Bx Hd HA H1 H2 H3 H4.
  destruct (c46_sum qr x addr Hq Hx Bx Hd HA ps ob coef H1 H2 H3 H4) as (t & dt & ds & E & _ & H). now exists t, dt, ds.
Qed.
Print Assumptions C46_add_n_projected.

Theorem C46_rejects : forall ps coef p0, In p0 ps ->
  (exists q, In q ps /\ p_on q = None) \/ (exists q, In q ps /\ p_on q <> p_on (hd p0 ps)) -> add_n_projected ps coef = Err ValueError.
Proof.
  intros ps coef p0 Hp0 H. unfold add_n_projected.
  destruct (forallb (fun p => match p_on p with Some _ => true | None => false end) ps) eqn:E; [|reflexivity]. cbn [negb].
  rewrite forallb_forall in E. destruct ps as [|p ps']; [contradiction|]. cbn [nthr nth_error hd tl bind] in *. change (nthr (p :: ps') 0) with (Ok p). cbn [bind].
  destruct H as [(q & Hq & Nq)|(q & Hq & Nq)]; [specialize (E q Hq); rewrite Nq in E; discriminate|].
  destruct (forallb (fun q => match p_on q, p_on p with Some a, Some b => Nat.eqb a b | _, _ => true end) ps') eqn:E2; [|reflexivity]. exfalso.
  rewrite forallb_forall in E2. destruct Hq as [->|Hq]; [now apply Nq|]. pose proof (E p (or_introl eq_refl)) as Ep. pose proof (E q (or_intror Hq)) as Eq. specialize (E2 q Hq).
  destruct (p_on p) as [a|], (p_on q) as [b|]; try discriminate. apply Nat.eqb_eq in E2. subst. now apply Nq.
Qed.
Print Assumptions C46_rejects.
Theorem C46_empty_list_raises : forall coef, add_n_projected [] coef = Err IndexError.
Proof. reflexivity. Qed.
Print Assumptions C46_empty_list_raises.

Theorem C46_rank_too_large_refuted : exists x z1 : rtt, wf x /\ bsz x = None /\ ndims x = 2 /\ wf z1 /\ rshape z1 = rshape x /\ bsz z1 = None /\
  forall qr addr, qr_ok qr -> exists z2 t1 t2 t d1 d2 d i, wf z2 /\ rshape z2 = rshape x /\ bsz z2 = None /\
    project qr z1 addr x = Ok (Proj t1 (Some addr)) /\ project qr z2 addr x = Ok (Proj t2 (Some addr)) /\
    add_n_projected [Proj t1 (Some addr); Proj t2 (Some addr)] None = Ok (Proj t (Some addr)) /\
    full t1 = Ok d1 /\ full t2 = Ok d2 /\ full t = Ok d /\ vidx [3;1] i /\ get d i <> (get d1 i + get d2 i)%R.
Proof.
  exists x_big, z_nil. split; [exact x_big_wf|]. do 2 (split; [reflexivity|]). split; [exact z_nil_wf|]. do 2 (split; [reflexivity|]). exact big_sum.
Qed.
Print Assumptions C46_rank_too_large_refuted.

Example C46_case : exists p, qr_ok gram_schmidt /\ wf (toR s_t2) /\ bsz (toR s_t2) = None /\ 2 <= ndims (toR s_t2) /\ admissible (toR s_t2) /\
  (forall q, In q [p; p] -> made gram_schmidt (toR s_t2) 7 q) /\ (forall q, In q [p; p] -> bsz (p_tt q) = Some 3) /\
  good_coef 2 (Some 3) (Some (@Tensor Rring [2;3] [1%R;2%R;3%R;4%R;5%R;6%R])).
Proof.
  destruct C45_case as (p & H1 & H2 & H3 & H4 & H5 & H6 & H7). exists p. do 5 (split; [assumption|]).
  split; [intros q [<-|[<-|[]]]; assumption|]. split; [intros q [<-|[<-|[]]]; assumption|]. right. exists 3. split; reflexivity.
Qed.

(** * C47 *)
(** The delta cores of anything [made]; from them deltas_to_tangent_space gives the same object, whether it
    computes the frame or is given it. *)
Theorem C47_round_trip : forall qr (x : rtt) addr p, qr_ok qr -> wf x -> bsz x = None -> 2 <= ndims x -> admissible x -> made qr x addr p ->
  exists l r ds dt, frame qr x = Ok (l, r) /\ tangent_space_to_deltas p = Ok ds /\ delta_shapes x l r (bsz (p_tt p)) ds /\
    deltas_to_tangent_space qr ds addr x None None = Ok p /\
    deltas_to_tangent_space qr ds addr x (Some l) (Some r) = Ok p /\
    full (p_tt p) = Ok dt /\ forall o i, vidx (pre_of (bsz (p_tt p))) o -> vidx (ishape x) i ->
      get dt (o ++ i) = of_deltas x l r (fun m a j c => get (nth m ds rzero) (o ++ a :: j ++ [c])) i.
Proof. intros qr x addr p Hq Hx Bx Hd HA. now apply c47_project. Qed.
Print Assumptions C47_round_trip.

(** Any delta cores of the right shapes. *)
Theorem C47_deltas_to_tangent_space : forall qr (x : rtt) addr l r ob ds, qr_ok qr -> wf x -> bsz x = None -> 2 <= ndims x -> admissible x ->
  frame qr x = Ok (l, r) -> Forall (fun n => 0 < n) (pre_of ob) -> delta_shapes x l r ob ds ->
  exists t dt, deltas_to_tangent_space qr ds addr x None None = Ok (Proj t (Some addr)) /\
    deltas_to_tangent_space qr ds addr x (Some l) (Some r) = Ok (Proj t (Some addr)) /\
    wf t /\ rshape t = rshape x /\ bsz t = ob /\ tangent_space_to_deltas (Proj t (Some addr)) = Ok ds /\
    full t = Ok dt /\ forall o, vidx (pre_of ob) o ->
      (forall i, vidx (ishape x) i -> get dt (o ++ i) = of_deltas x l r (fun m a j c => get (nth m ds rzero) (o ++ a :: j ++ [c])) i) /\
      (full_tt_ranks x -> tangent x (fun i => get dt (o ++ i))).
Proof. intros qr x addr l r ob ds Hq Hx Bx Hd HA. now apply c47_any. Qed.
Print Assumptions C47_deltas_to_tangent_space.

Theorem C47_not_projected_raises : forall t, tangent_space_to_deltas (Proj t None) = Err ValueError.
Proof. reflexivity. Qed.
Print Assumptions C47_not_projected_raises.
Theorem C47_rank_too_large_refuted : exists x z : rtt, wf x /\ bsz x = None /\ ndims x = 2 /\ wf z /\ rshape z = rshape x /\
  forall qr addr, qr_ok qr -> exists t ds, project qr z addr x = Ok (Proj t (Some addr)) /\
    tangent_space_to_deltas (Proj t (Some addr)) = Ok ds /\ deltas_to_tangent_space qr ds addr x None None = Err ValueError.
Proof.
  exists x_big, z_nil. split; [exact x_big_wf|]. do 2 (split; [reflexivity|]). split; [exact z_nil_wf|]. split; [reflexivity|]. exact big_deltas.
Qed.
Print Assumptions C47_rank_too_large_refuted.

Example C47_case : exists p l r ds, qr_ok gram_schmidt /\ wf (toR s_t2) /\ bsz (toR s_t2) = None /\ 2 <= ndims (toR s_t2) /\ admissible (toR s_t2) /\
  made gram_schmidt (toR s_t2) 7 p /\ frame gram_schmidt (toR s_t2) = Ok (l, r) /\ Forall (fun n => 0 < n) (pre_of (Some 3)) /\ delta_shapes (toR s_t2) l r (Some 3) ds.
Proof.
  destruct C45_case as (p & H1 & H2 & H3 & H4 & H5 & H6 & H7).
  destruct (C47_round_trip gram_schmidt (toR s_t2) 7 p H1 H2 H3 H4 H5 H6) as (l & r & ds & dt & E & _ & S & _). rewrite H7 in S.
  exists p, l, r, ds. do 7 (split; [assumption|]). split; [repeat constructor|exact S].
Qed.
