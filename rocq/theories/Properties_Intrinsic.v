(** C60: the Riemannian functions are functions of tensors.  [x] and [y] are two TT objects for the same
    tensor ([same_full x y]) whose TT-ranks are those of the tensor ([full_tt_ranks], RiemSpec.v); [z] and
    [z'] likewise represent one tensor (or one batch).  The QR routines, the gradient routines and the
    identities [addr], [addr'] of the two points may differ. *)
From Coq Require Import String List Arith ZArith Lia Lra Bool Reals.
From Verif Require Import Scalar Tensor TensorLemmas Base Spec BaseLemmas Chain Ops FullProofs ResultLemmas Dense OpsR Decomp DecompSpec QRExists
  BatchOps Riem RiemSpec RiemBlock RiemProofs RiemThms RiemMatmul RiemFull RiemDelta RiemInner RiemAddN RiemMade Autodiff AutoSpec AutoProofs AutoThms GradExists AutoMain Samples Properties_Riem Properties_Auto
  TangentIntrinsic IntrinsicThms.
Import ListNotations.
Local Open Scope nat_scope.
Local Notation get := (@get Rring).

(** No representation has smaller TT-ranks; in particular two of this kind have equal ones. *)
Theorem C60_least_ranks : forall x y : rtt, wf x -> wf y -> rshape y = rshape x -> bsz x = None -> bsz y = None -> same_full x y ->
  full_tt_ranks x -> forall k, k <= ndims x -> rk x k <= rk y k.
Proof. intros x y Hx Hy R Bx By S F. now apply rank_least. Qed.
Print Assumptions C60_least_ranks.

Theorem C60_equal_ranks : forall x y : rtt, wf x -> wf y -> rshape y = rshape x -> bsz x = None -> bsz y = None -> same_full x y ->
  full_tt_ranks x -> (full_tt_ranks y <-> rks y = rks x).
Proof.
  intros x y Hx Hy Rxy Bx By HS F. pose proof (nd_xy x y Hx Hy Rxy) as Ed. split.
  - intros F'. apply nth_ext with (d := 0) (d' := 0); [rewrite (wf_klen Hx), (wf_klen Hy), Ed; reflexivity|].
    intros k Hk. rewrite (wf_klen Hy), Ed in Hk. change (rk y k = rk x k).
    pose proof (rank_least x y Hx Hy Rxy Bx By HS F k ltac:(lia)). pose proof (rank_least y x Hy Hx (eq_sym Rxy) By Bx (same_full_sym _ _ HS) F' k ltac:(lia)). lia.
  - now apply full_of_ranks.
Qed.
Print Assumptions C60_equal_ranks.

(** The tangent space is the same. *)
Theorem C60_tangent_space : forall (x y : rtt) T, wf x -> wf y -> rshape y = rshape x -> bsz x = None -> bsz y = None -> same_full x y ->
  full_tt_ranks x -> full_tt_ranks y -> (tangent x T <-> tangent y T).
Proof. intros. now apply tangent_iff. Qed.
Print Assumptions C60_tangent_space.

Theorem C60_project : forall qr qr' (x y z z' : rtt) addr addr', qr_ok qr -> qr_ok qr' ->
  wf x -> wf y -> rshape y = rshape x -> bsz x = None -> bsz y = None -> 2 <= ndims x -> same_full x y -> full_tt_ranks x -> full_tt_ranks y ->
  wf z -> wf z' -> rshape z = rshape x -> rshape z' = rshape x -> same_full z z' ->
  exists p p', project qr z addr x = Ok (Proj p (Some addr)) /\ project qr' z' addr' y = Ok (Proj p' (Some addr')) /\
    wf p /\ wf p' /\ rshape p = rshape x /\ rshape p' = rshape x /\ bsz p = bsz z /\ bsz p' = bsz z /\ same_full p p'.
Proof. intros. now apply i_project. Qed.
Print Assumptions C60_project.

Theorem C60_project_sum : forall qr qr' (x y z z' : rtt) addr addr' weights, qr_ok qr -> qr_ok qr' ->
  wf x -> wf y -> rshape y = rshape x -> bsz x = None -> bsz y = None -> 2 <= ndims x -> same_full x y -> full_tt_ranks x -> full_tt_ranks y ->
  wf z -> wf z' -> rshape z = rshape x -> rshape z' = rshape x -> same_full z z' -> good_weights (ocnt (bsz z)) weights ->
  exists p p', project_sum qr z addr x weights = Ok (Proj p (Some addr)) /\ project_sum qr' z' addr' y weights = Ok (Proj p' (Some addr')) /\ same_full p p'.
Proof. intros. now apply i_sum. Qed.
Print Assumptions C60_project_sum.

Theorem C60_project_matmul : forall qr qr' (x y w w' m m' : rtt) addr addr' B, qr_ok qr -> qr_ok qr' ->
  wf x -> wf y -> rshape y = rshape x -> bsz x = None -> bsz y = None -> 2 <= ndims x -> same_full x y -> full_tt_ranks x -> full_tt_ranks y ->
  is_tt_matrix x = true -> wf w -> wf w' -> rshape w = rshape x -> rshape w' = rshape x -> bsz w = Some B -> same_full w w' ->
  wf m -> wf m' -> bsz m = None -> rshape m = [nth 0 (rshape x) []; nth 0 (rshape x) []] -> rshape m' = rshape m -> same_full m m' ->
  exists p p', project_matmul qr w addr x m = Ok (Proj p (Some addr)) /\ project_matmul qr' w' addr' y m' = Ok (Proj p' (Some addr')) /\ same_full p p'.
Proof. intros. now apply (i_matmul x y) with (B := B). Qed.
Print Assumptions C60_project_matmul.

Theorem C60_gradients : forall qr qr' grad grad' func F addr addr' (x y : rtt) dx E check check', qr_ok qr -> qr_ok qr' -> grad_ok grad -> grad_ok grad' ->
  wf x -> wf y -> rshape y = rshape x -> bsz x = None -> bsz y = None -> 2 <= ndims x -> same_full x y -> full_tt_ranks x -> full_tt_ranks y ->
  full x = Ok dx -> function_of_tensor x func F -> gradient_at (ishape x) F (get dx) E -> F (get dx) <> 0%R ->
  (forall l r, frame qr x = Ok (l, r) -> ~ In None (grad (augmented qr func addr x l r) (start_deltas r))) ->
  (forall l r, frame qr' y = Ok (l, r) -> ~ In None (grad' (augmented qr' func addr' y l r) (start_deltas r))) ->
  exists p p', gradients qr grad func addr x check = Ok (Proj p (Some addr)) /\ gradients qr' grad' func addr' y check' = Ok (Proj p' (Some addr')) /\ same_full p p'.
Proof. intros. now apply (i_gradients x y) with (F := F) (E := E) (dx := dx). Qed.
Print Assumptions C60_gradients.

Theorem C60_hessian_vector_product : forall qr qr' grad grad' func F addr addr' (x y v v' : rtt) dx (E : (list nat -> R) -> list nat -> R) H check check',
  qr_ok qr -> qr_ok qr' -> grad_ok grad -> grad_ok grad' ->
  wf x -> wf y -> rshape y = rshape x -> bsz x = None -> bsz y = None -> 2 <= ndims x -> same_full x y -> full_tt_ranks x -> full_tt_ranks y ->
  wf v -> wf v' -> rshape v = rshape x -> rshape v' = rshape x -> bsz v = None -> same_full v v' ->
  full x = Ok dx -> function_of_tensor x func F ->
  (forall T, exists eps, (0 < eps)%R /\ forall t, (Rabs t < eps)%R -> gradient_at (ishape x) F (shift (get dx) T t) (E (shift (get dx) T t))) ->
  hessian_at (ishape x) E (get dx) H -> F (get dx) <> 0%R ->
  (forall l r ds, frame qr x = Ok (l, r) -> ~ In None (grad (augmented qr func addr x l r) ds)) ->
  (forall l r, frame qr x = Ok (l, r) -> ~ In None (grad (outer qr grad func addr x l r v check) (start_deltas r))) ->
  (forall l r ds, frame qr' y = Ok (l, r) -> ~ In None (grad' (augmented qr' func addr' y l r) ds)) ->
  (forall l r, frame qr' y = Ok (l, r) -> ~ In None (grad' (outer qr' grad' func addr' y l r v' check') (start_deltas r))) ->
  exists p p', hessian_vector_product qr grad func addr x v check = Ok (Proj p (Some addr)) /\
    hessian_vector_product qr' grad' func addr' y v' check' = Ok (Proj p' (Some addr')) /\ same_full p p'.
Proof. intros. now apply (i_hvp x y) with (F := F) (E := E) (H := H) (dx := dx). Qed.
Print Assumptions C60_hessian_vector_product.

(** Two representations of one tensor: [s_a] of Samples.v and the same with a change of basis at the first cut. *)
Definition s_a' : rtt := toR (TT [zt [1;2;2] [1;3;3;-1]%Z; zt [2;3;2] [-4;-1;1;-3;2;-4;5;1;1;2;-2;7]%Z; zt [2;2;1] [4;1;-1;2]%Z] [[2;3;2]] [1;2;2;1] None).
Lemma s_a'_wf : wf s_a'. Proof. apply wfb_wf; vm_compute; reflexivity. Qed.
Lemma same_data (a b : rtt) s da db : full a = Ok (Tensor s da) -> full b = Ok (Tensor s db) -> da = db -> same_full a b.
Proof. intros Fa Fb ->. exists (Tensor s db), (Tensor s db). do 3 (split; [assumption || reflexivity|]). reflexivity. Qed.
Lemma s_a'_same : same_full (toR s_a) s_a'.
Proof.
  eapply same_data; [cbv -[Rplus Rmult IZR]; reflexivity|cbv -[Rplus Rmult IZR]; reflexivity|].
  repeat match goal with |- _ :: _ = _ :: _ => apply f_equal2; [|] end; try reflexivity; ring.
Qed.
Example C60_case : exists x y : rtt, x <> y /\ wf x /\ wf y /\ rshape y = rshape x /\ bsz x = None /\ bsz y = None /\ 2 <= ndims x /\ same_full x y /\
  full_tt_ranks x /\ full_tt_ranks y /\ rks x = [1;2;2;1] /\ wf (toR s_b) /\ rshape (toR s_b) = rshape x.
Proof.
  exists (toR s_a), s_a'. split.
  { intros E. apply (f_equal (fun t : rtt => get (core t 0) [0;0;1])) in E. cbv -[IZR] in E. lra. }
  split; [exact r_a_wf|]. split; [exact s_a'_wf|]. do 3 (split; [reflexivity|]). split; [cbn; lia|]. split; [exact s_a'_same|]. split; [exact r_a_full|].
  split; [apply (C60_equal_ranks (toR s_a)); auto using r_a_wf, s_a'_wf, s_a'_same, r_a_full|]. split; [reflexivity|]. split; [exact r_b_wf|reflexivity].
Qed.
(** A TT-matrix: the point of C44_matmul_case, stored as it is and with the cores multiplied by -1. *)
Definition s_w1' : rtt := toR (TT [zt [1;2;1;1] [-1;-2]%Z; zt [1;1;3;1] [-1;0;-2]%Z] [[2;1];[1;3]] [1;1;1] None).
Example C60_matrix_case : let x := toR s_w1 in let w := toR s_w2 in let m := toR s_id in
  wf x /\ wf s_w1' /\ rshape s_w1' = rshape x /\ bsz x = None /\ bsz s_w1' = None /\ 2 <= ndims x /\ same_full x s_w1' /\ full_tt_ranks x /\ full_tt_ranks s_w1' /\
  is_tt_matrix x = true /\ wf w /\ rshape w = rshape x /\ bsz w = Some 2 /\ wf m /\ bsz m = None /\ rshape m = [nth 0 (rshape x) []; nth 0 (rshape x) []].
Proof.
  intros x w m.
  assert (Wx : wf x) by (apply wfb_wf; vm_compute; reflexivity). assert (Wy : wf s_w1') by (apply wfb_wf; vm_compute; reflexivity).
  assert (S : same_full x s_w1').
  { eapply same_data; [cbv -[Rplus Rmult IZR]; reflexivity|cbv -[Rplus Rmult IZR]; reflexivity|].
    repeat match goal with |- _ :: _ = _ :: _ => apply f_equal2; [|] end; try reflexivity; ring. }
  assert (F : full_tt_ranks x).
  { intros k Hk. change (ndims x) with 2 in Hk. assert (k = 1) as -> by lia.
    split; intros c H a Ha; change (rk x 1) with 1 in *; use H [[0;0]]; destruct a as [|a]; [lra|lia|lra|lia]. }
  do 2 (split; [assumption|]). do 3 (split; [reflexivity|]). split; [cbn; lia|]. do 2 (split; [assumption|]).
  split; [apply (C60_equal_ranks x); auto|]. split; [reflexivity|]. split; [apply wfb_wf; vm_compute; reflexivity|]. do 2 (split; [reflexivity|]).
  split; [apply wfb_wf; vm_compute; reflexivity|]. split; reflexivity.
Qed.
(** Hypotheses of [C60_gradients] and [C60_hessian_vector_product]: C48_case and C48_norm_hessian (Properties_Auto.v). *)

(** With TT-ranks that are admissible but larger than those of the tensor the projection is another one: for
    e1 (x) e1, stored with TT-rank 1 and with TT-rank 2, the tensor e2 (x) e2 is projected to 0 and to itself. *)
Definition e_11 : rtt := toR (TT [zt [1;2;1] [1;0]%Z; zt [1;2;1] [1;0]%Z] [[2;2]] [1;1;1] None).
Definition e_11' : rtt := toR (TT [zt [1;2;2] [1;0;0;1]%Z; zt [2;2;1] [1;0;0;0]%Z] [[2;2]] [1;2;1] None).
Definition e_22 : rtt := toR (TT [zt [1;2;1] [0;1]%Z; zt [1;2;1] [0;1]%Z] [[2;2]] [1;1;1] None).
Lemma e_11_wf : wf e_11. Proof. apply wfb_wf; vm_compute; reflexivity. Qed.
Lemma e_11'_wf : wf e_11'. Proof. apply wfb_wf; vm_compute; reflexivity. Qed.
Lemma e_22_wf : wf e_22. Proof. apply wfb_wf; vm_compute; reflexivity. Qed.
Lemma e_11_same : same_full e_11 e_11'.
Proof.
  eapply same_data; [cbv -[Rplus Rmult IZR]; reflexivity|cbv -[Rplus Rmult IZR]; reflexivity|].
  repeat match goal with |- _ :: _ = _ :: _ => apply f_equal2; [|] end; try reflexivity; ring.
Qed.
Lemma e_11_full : full_tt_ranks e_11.
Proof.
  intros k Hk. change (ndims e_11) with 2 in Hk. assert (k = 1) as -> by lia.
  split; intros c H a Ha; change (rk e_11 1) with 1 in *; use H [[0]]; destruct a as [|a]; [lra|lia|lra|lia].
Qed.
Theorem C60_larger_ranks_refuted : exists x y z : rtt, wf x /\ wf y /\ rshape y = rshape x /\ bsz x = None /\ bsz y = None /\ ndims x = 2 /\ same_full x y /\
  full_tt_ranks x /\ admissible y /\ wf z /\ rshape z = rshape x /\ bsz z = None /\
  forall qr addr, qr_ok qr -> exists p p' dp dp', project qr z addr x = Ok (Proj p (Some addr)) /\ project qr z addr y = Ok (Proj p' (Some addr)) /\
    full p = Ok dp /\ full p' = Ok dp' /\ get dp [1;1] = 0%R /\ get dp' [1;1] = 1%R.
Proof.
  exists e_11, e_11', e_22. split; [exact e_11_wf|]. split; [exact e_11'_wf|]. do 4 (split; [reflexivity|]). split; [exact e_11_same|]. split; [exact e_11_full|].
  split; [intros k Hk; change (ndims e_11') with 2 in Hk; assert (k = 1) as -> by lia; vm_compute; lia|]. split; [exact e_22_wf|]. do 2 (split; [reflexivity|]).
  intros qr addr Hq.
  destruct (C43_orthogonal_projection qr e_11 e_22 addr Hq e_11_wf eq_refl ltac:(cbn; lia) e_11_full e_22_wf eq_refl) as (p & dp & dz & Ep & Fp & Fz & V).
  destruct (full_frame qr e_22 e_11' addr 2 2 Hq e_11'_wf eq_refl eq_refl e_22_wf eq_refl eq_refl eq_refl) as (p' & Ep' & dp' & dz' & Fp' & Fz' & Sp' & V').
  assert (dz' = dz) by congruence. subst dz'. exists p, p', dp, dp'. do 4 (split; [assumption|]).
  assert (Ez : full e_22 = Ok (@Tensor Rring [2;2] [0;0;0;1]%R)).
  { transitivity (Ok (@Tensor Rring [2;2] [0 + 0 * 0; 0 + 0 * 1; 0 + 1 * 0; 0 + 1 * 1]%R)); [cbv -[Rplus Rmult IZR]; reflexivity|]. repeat f_equal; ring. }
  assert (dz = @Tensor Rring [2;2] [0;0;0;1]%R) by congruence. subst dz.
  split.
  - destruct (V [] ltac:(constructor)) as [HT HI]. cbn [app] in HT, HI. pose proof HT as (dG & HG).
    specialize (HG [1;1] ltac:(repeat constructor; cbn; lia)). cbv -[Rplus Rmult IZR get] in HG.
    etransitivity; [exact HG|]. cbv -[Rplus Rmult IZR]. match goal with |- @eq _ ?u ?v => change (@eq R u v) end. ring.
  - rewrite V'; [reflexivity|]. rewrite Sp'. cbn [shape]. repeat constructor; lia.
Qed.
Print Assumptions C60_larger_ranks_refuted.
