(** C62: the arithmetic work of orthogonalization and of projections on tangent spaces.
    [c m n min(m, n)]: the cost of a QR decomposition of an m x n matrix.  [best_order ec]: every tf.einsum is done
    two tensors at a time in an order with the fewest multiplications. *)
From Coq Require Import String Ascii List Arith ZArith Lia Bool Permutation Reals.
From Verif Require Import Scalar Tensor TensorLemmas TensorLemmas2 Base Spec BaseLemmas Ops OpsR BatchOps Decomp DecompSpec OrthProofs OrthNorm QRExists Riem RiemSpec RiemBlock RiemProofs
  RiemThms RiemMatmul RiemFull RiemDelta RiemInner RiemAddN RiemMade Samples Cost CostOps CostErase CostProofs CostInner CostOrder CostContract CostGreedy CostOrth CostRiem CostRiem2 CostRefute
  Properties_Decomp Properties_Riem Properties_Cost.
Import ListNotations.
Local Open Scope nat_scope.

(** orthogonalize_tt_cores, in either direction: (c + 1) B d r^3 n. *)
Theorem C62_orthogonalize : forall qr ec c (t : rtt) lr, qr_ok qr -> wf t -> (lr = false -> bsz t = None) ->
  exists o l, orthogonalize_tt_cores qr t lr = Ok o /\ t_orthogonalize qr t lr = Ok (o, l) /\
    total ec c l <= (c + 1) * (bnum t * ndims t * (rmax t * rmax t * rmax t * nmax t)).
Proof.
  intros qr ec c t lr Hq Hw Hlr. destruct (orth_ok qr t lr Hq Hw Hlr) as (o & Eo & _).
  destruct (costed ec c (t_orthogonalize qr t lr) o _ (orthogonalize_cost ec c qr Hq t lr Hw Hlr) ltac:(now rewrite erase_orthogonalize)) as (l & El & H).
  exists o, l. split; [exact Eo|]. split; [exact El|]. etransitivity; [exact H|].
  replace ((c + 1) * (bnum t * ndims t * _)) with (ndims t * ((c + 1) * (bnum t * (rmax t * rmax t * rmax t * nmax t)))) by lia.
  apply Nat.mul_le_mono_r. lia.
Qed.
Print Assumptions C62_orthogonalize.

(** project: O(d r_where^3 n) + O(B d r_what r_where n (r_what + r_where)). *)
Theorem C62_project : forall qr ec c (what x : rtt) addr, qr_ok qr -> best_order ec -> wf x -> bsz x = None -> 2 <= ndims x ->
  wf what -> rshape what = rshape x ->
  exists p l, project qr what addr x = Ok p /\ t_project qr what addr x = Ok (p, l) /\
    total ec c l <= 2 * (c + 1) * (ndims x * (rmax x * rmax x * rmax x * nmax x)) +
      4 * (bnum what * ndims x * (rmax what * rmax x * nmax x * (rmax what + rmax x))).
Proof.
  intros qr ec c what x addr Hq He Hx Hb Hd Ht Rt. destruct (project_ok qr what x addr Hq Hx Hb Hd Ht Rt) as (l0 & r0 & t0 & _ & _ & Ep & _).
  destruct (costed ec c (t_project qr what addr x) _ _ (project_cost ec c He qr what x addr Hq Hx Ht) ltac:(rewrite erase_project; exact Ep)) as (l & El & H).
  eauto.
Qed.
Print Assumptions C62_project.

(** project_sum: the same and, for weights with O columns (a vector has one), O B d r_where^2 n. *)
Theorem C62_project_sum : forall qr ec c (what x : rtt) addr weights, qr_ok qr -> best_order ec -> wf x -> bsz x = None -> 2 <= ndims x ->
  wf what -> rshape what = rshape x -> good_weights (bnum what) weights ->
  exists p l, project_sum qr what addr x weights = Ok p /\ t_project_sum qr what addr x weights = Ok (p, l) /\
    total ec c l <= 2 * (c + 1) * (ndims x * (rmax x * rmax x * rmax x * nmax x)) +
      4 * (bnum what * ndims x * (rmax what * rmax x * nmax x * (rmax what + rmax x))) +
      wcols weights * (bnum what * ndims x * (rmax x * rmax x * nmax x)).
Proof.
  intros qr ec c what x addr weights Hq He Hx Hb Hd Ht Rt Hg. destruct (project_sum_ok qr what x addr weights Hq Hx Hb Hd Ht Rt Hg) as (l0 & r0 & t0 & _ & _ & Ep & _).
  destruct (costed ec c (t_project_sum qr what addr x weights) _ _ (project_sum_cost ec c He qr what x addr weights Hq Hx Ht Hg) ltac:(rewrite erase_project_sum; exact Ep)) as (l & El & H).
  eauto.
Qed.
Print Assumptions C62_project_sum.

(** Without weights or with a vector of weights this is the documented bound. *)
Theorem C62_project_sum_documented : forall qr ec c (what x : rtt) addr weights, qr_ok qr -> best_order ec -> wf x -> bsz x = None -> 2 <= ndims x ->
  wf what -> rshape what = rshape x -> (weights = None \/ exists v, weights = Some v /\ shape v = [bnum what]) ->
  exists p l, project_sum qr what addr x weights = Ok p /\ t_project_sum qr what addr x weights = Ok (p, l) /\
    total ec c l <= 2 * (c + 1) * (ndims x * (rmax x * rmax x * rmax x * nmax x)) +
      5 * (bnum what * ndims x * (rmax what * rmax x * nmax x * (rmax what + rmax x))).
Proof.
  intros qr ec c what x addr weights Hq He Hx Hb Hd Ht Rt Hg.
  destruct (C62_project_sum qr ec c what x addr weights Hq He Hx Hb Hd Ht Rt) as (p & l & E1 & E2 & H).
  { destruct Hg as [-> | (v & -> & Sv)]; [exact I|left; exact Sv]. }
  exists p, l. split; [exact E1|]. split; [exact E2|]. etransitivity; [exact H|].
  assert (W : wcols weights <= 1) by (destruct Hg as [-> | (v & -> & Sv)]; cbn; [lia|rewrite Sv; lia]).
  assert (Q : wcols weights * (bnum what * ndims x * (1 * (rmax x * rmax x * nmax x))) <= 1 * (bnum what * ndims x * (rmax what * (rmax x * rmax x * nmax x)))).
  { repeat apply Nat.mul_le_mono; auto. now apply rmax_pos. }
  lia.
Qed.
Print Assumptions C62_project_sum_documented.

(** With a matrix of weights no multiple of the documented bound suffices. *)
Theorem C62_project_sum_columns_refuted : forall qr ec c addr C, qr_ok qr -> best_order ec ->
  exists (what x : rtt) weights, wf x /\ bsz x = None /\ ndims x = 3 /\ wf what /\ rshape what = rshape x /\
    good_weights (bnum what) (Some weights) /\
    C * (ndims x * (rmax x * rmax x * rmax x * nmax x) + bnum what * ndims x * (rmax what * rmax x * nmax x * (rmax what + rmax x))) <
    total ec c (calls (t_project_sum qr what addr x (Some weights))).
Proof.
  intros qr ec c addr C Hq He. exists (ones3 1 1), (ones3 1 1), (ones [1; 9 * C + 2]).
  assert (W : wf (ones3 (K := Rring) 1 1)) by (apply ones3_wf; lia).
  split; [exact W|]. split; [reflexivity|]. split; [reflexivity|]. split; [exact W|]. split; [reflexivity|].
  assert (G : good_weights (bnum (ones3 (K := Rring) 1 1)) (Some (ones [1; 9 * C + 2]))) by (right; exists (9 * C + 2); split; [lia|reflexivity]).
  split; [exact G|].
  destruct (C62_project_sum qr ec c (ones3 1 1) (ones3 1 1) addr (Some (ones [1; 9 * C + 2])) Hq He W eq_refl ltac:(cbn; lia) W eq_refl G) as (p & l & _ & E & _).
  pose proof (sum_low ec c He qr addr (9 * C + 2) Hq ltac:(lia)) as L. rewrite E in L |- *. cbn [tlow calls] in *.
  change (C * 9 < total ec c l). lia.
Qed.
Print Assumptions C62_project_sum_columns_refuted.

(** project_matmul: with a matrix of TT-rank R and raw shape (m, ..., m) x (n, ..., n), and k the largest number of
    columns of the cores (1 for vectors):
    O(d r_where^3 n) + O(B d R r_what r_where k (n r_what + n m R + m r_where)). *)
Theorem C62_project_matmul : forall qr ec c (what x m : rtt) addr B, qr_ok qr -> best_order ec -> wf x -> bsz x = None -> 2 <= ndims x -> is_tt_matrix x = true ->
  wf what -> bsz what = Some B -> rshape what = rshape x -> wf m -> bsz m = None ->
  rshape m = [nth 0 (rshape x) []; nth 0 (rshape x) []] ->
  exists p l, project_matmul qr what addr x m = Ok p /\ t_project_matmul qr what addr x m = Ok (p, l) /\
    total ec c l <= 2 * (c + 1) * (ndims x * (rmax x * rmax x * rmax x * nmax x)) +
      5 * (B * ndims x * (rmax m * rmax what * rmax x * colmax x *
           (colmax m * rmax what + rowmax m * colmax m * rmax m + rowmax m * rmax x))).
Proof.
  intros qr ec c what x m addr B Hq He Hx Hb Hd Kx Ht Bt Rt Hm Bm Rm.
  destruct (project_matmul_ok qr what x m addr B Hq Hx Hb Hd Kx Ht Bt Rt Hm Bm Rm) as (l0 & r0 & t0 & _ & _ & Ep & _).
  assert (Km : is_tt_matrix m = true) by (unfold is_tt_matrix; now rewrite Rm).
  pose proof (project_matmul_cost ec c He qr what x m addr Hq Hx Kx Ht Hm Km Bm ltac:(now rewrite Rm)) as Q.
  unfold bnum in Q. rewrite Bt in Q.
  destruct (costed ec c (t_project_matmul qr what addr x m) _ _ Q ltac:(rewrite erase_project_matmul; exact Ep)) as (l & El & H).
  eauto.
Qed.
Print Assumptions C62_project_matmul.

(** pairwise_flat_inner_projected: O(B1 B2 d r^2 n), for everything the projections return; r is at most twice the
    TT-rank of the object projected on. *)
Theorem C62_pairwise_projected : forall qr ec c (x : rtt) addr p1 p2, qr_ok qr -> best_order ec -> wf x -> bsz x = None -> 2 <= ndims x -> admissible x ->
  made qr x addr p1 -> made qr x addr p2 ->
  exists v l, pairwise_flat_inner_projected p1 p2 = Ok v /\ t_pairwise_flat_inner_projected p1 p2 = Ok (v, l) /\
    total ec c l <= 3 * (bnum (p_tt p1) * bnum (p_tt p2) * ndims x * (rmax (p_tt p1) * rmax (p_tt p1) * nmax x)) /\
    rmax (p_tt p1) <= 2 * rmax x.
Proof.
  intros qr ec c x addr p1 p2 Hq He Hx Bx Hd HA M1 M2.
  destruct (c45_inner qr x addr Hq Hx Bx Hd HA p1 p2 M1 M2) as (v & _ & _ & E & _).
  destruct (frame_ok qr x Hq Hx Bx) as (l & r & EF & HF).
  destruct (made_gblocks qr x addr Hq Hx Bx Hd HA l r p1 EF HF M1) as (ob1 & D1 & t1 & -> & G1 & _).
  destruct (made_gblocks qr x addr Hq Hx Bx Hd HA l r p2 EF HF M2) as (ob2 & D2 & t2 & -> & G2 & _). cbn [p_tt] in *.
  pose proof (bl_wf _ _ _ _ _ _ G1) as W1. pose proof (bl_wf _ _ _ _ _ _ G2) as W2.
  pose proof (bl_rs _ _ _ _ _ _ G1) as R1. pose proof (bl_rs _ _ _ _ _ _ G2) as R2. pose proof (bl_nd _ _ _ _ _ _ G1) as N1.
  assert (K12 : is_tt_matrix t1 = is_tt_matrix t2) by (unfold is_tt_matrix; now rewrite R1, R2).
  destruct (costed ec c (t_pairwise_flat_inner_projected (Proj t1 (Some addr)) (Proj t2 (Some addr))) v _
    (pairwise_projected_cost ec c He (Proj t1 (Some addr)) (Proj t2 (Some addr)) W1 W2 K12) ltac:(now rewrite erase_pairwise_projected)) as (ll & El & H).
  exists v, ll. split; [exact E|]. split; [exact El|]. cbn [p_tt] in H.
  assert (Nm : nmax t1 = nmax x) by (unfold nmax, modes; now rewrite N1, R1). rewrite N1, Nm in H. split; [exact H|].
  apply list_max_le'. intros k. change (rk t1 k <= 2 * rmax x).
  destruct (Nat.le_gt_cases k (ndims x)) as [Hk|Hk].
  - destruct G1 as (_ & _ & _ & _ & K & _). rewrite K by exact Hk. unfold brank. pose proof (rmax_pos x Hx).
    pose proof (fr_lmax x l r Hx HF k). pose proof (fr_rmax x l r Hx HF k).
    destruct (Nat.eqb k 0); [lia|]. destruct (Nat.eqb k (ndims x)); lia.
  - unfold rk. rewrite nth_overflow; [lia|]. rewrite (wf_klen W1), N1. exact Hk.
Qed.
Print Assumptions C62_pairwise_projected.

(** Concrete cases: axes of size 4, TT-ranks 1, 3, 3, 1 of x and 1, 2, 2, 1 of what. *)
Example C62_ex : exists qr, qr_ok qr /\
  (exists p l, project qr (ones3 4 2) 0 (ones3 4 3) = Ok p /\ t_project qr (ones3 4 2) 0 (ones3 4 3) = Ok (p, l) /\
     total best_cost 4 l <= 10 * (3 * (27 * 4)) + 4 * (3 * (2 * 3 * 4 * 5))) /\
  (exists p l, project_sum qr (ones3 4 2) 0 (ones3 4 3) (Some (ones [1; 5])) = Ok p /\
     t_project_sum qr (ones3 4 2) 0 (ones3 4 3) (Some (ones [1; 5])) = Ok (p, l) /\
     total best_cost 4 l <= 10 * (3 * (27 * 4)) + 4 * (3 * (2 * 3 * 4 * 5)) + 5 * (3 * (3 * 3 * 4))).
Proof.
  destruct C27_qr_exists as [qr Hq]. exists qr. split; [exact Hq|].
  assert (W3 : wf (ones3 (K := Rring) 4 3)) by (apply ones3_wf; lia). assert (W2 : wf (ones3 (K := Rring) 4 2)) by (apply ones3_wf; lia).
  split.
  - exact (C62_project qr best_cost 4 (ones3 4 2) (ones3 4 3) 0 Hq best_cost_best W3 eq_refl ltac:(cbn; lia) W2 eq_refl).
  - apply (C62_project_sum qr best_cost 4 (ones3 4 2) (ones3 4 3) 0 (Some (ones [1; 5])) Hq best_cost_best W3 eq_refl ltac:(cbn; lia) W2 eq_refl).
    right. exists 5. split; [lia|reflexivity].
Qed.

(** Three projected vectors and their inner products: two axes, TT-ranks 1, 1, 1 of x. *)
Example C62_ex_pairwise : exists p v l, made gram_schmidt (toR s_t2) 7 p /\ bnum (p_tt p) = 3 /\
  pairwise_flat_inner_projected p p = Ok v /\ t_pairwise_flat_inner_projected p p = Ok (v, l) /\
  total best_cost 4 l <= 3 * (3 * 3 * 2 * (rmax (p_tt p) * rmax (p_tt p) * nmax (toR s_t2))) /\ rmax (p_tt p) <= 2 * rmax (toR s_t2).
Proof.
  destruct C45_case as (p & Hq & Hx & Bx & Hd & HA & Mp & Bp). 
  destruct (C62_pairwise_projected gram_schmidt best_cost 4 (toR s_t2) 7 p p Hq best_cost_best Hx Bx Hd HA Mp Mp) as (v & l & E1 & E2 & H & R).
  exists p, v, l. split; [exact Mp|]. assert (Bn : bnum (p_tt p) = 3) by (unfold bnum; now rewrite Bp). rewrite Bn in *.
  split; [reflexivity|]. split; [exact E1|]. split; [exact E2|]. split; [exact H|exact R].
Qed.

(** A product with a matrix. *)
Example C62_ex_matmul : exists p l, project_matmul gram_schmidt (toR s_w2) 7 (toR s_w1) (toR s_id) = Ok p /\
  t_project_matmul gram_schmidt (toR s_w2) 7 (toR s_w1) (toR s_id) = Ok (p, l) /\
  total best_cost 4 l <= 10 * (2 * (1 * 3)) + 5 * (2 * 2 * (3 * (2 * 1 + 2 * 2 * 1 + 2 * 1))).
Proof.
  destruct C44_matmul_case as (dm & dw & Hq & Hx & Bx & Hd & Kx & Ht & Bt & Rt & Hm & Bm & Rm & _).
  exact (C62_project_matmul gram_schmidt best_cost 4 (toR s_w2) (toR s_w1) (toR s_id) 7 2 Hq best_cost_best Hx Bx Hd Kx Ht Bt Rt Hm Bm Rm).
Qed.
