(** Proofs for C53: programs. *)
From Coq Require Import List Arith ZArith Lia Bool Reals.
From Verif Require Import Scalar Tensor TensorLemmas Base BaseLemmas Spec Ops OpsR ConstructProofs BatchOps Decomp Approx Kron Riem Autodiff Init History
  ValidSpec ValidProofs ValidOps ValidReal ValidMore HistorySpec.
Import ListNotations.
Local Open Scope nat_scope.
Local Open Scope list_scope.

Section Thm.
Variable qr : rtensor -> rtensor * rtensor.
Variable svd : rtensor -> rtensor * rtensor * rtensor.
Variable la : linalg.
Variable grad : (list rtensor -> res R) -> list rtensor -> list (option rtensor).
Hypothesis Hla : keeps_shapes la.

Lemma nth_error_first (cs : list rtensor) : cs <> [] -> nth_error cs 0 = Some (nth 0 cs rc0).
Proof. destruct cs; [congruence|reflexivity]. Qed.

Lemma mapM_nthr (e : env) l xs : mapM (nthr e) l = Ok xs -> forall x, In x xs -> In x e.
Proof.
  revert xs; induction l as [|a l IH]; intros xs H; cbn [mapM] in H; [injection H as <-; contradiction|].
  bdesn H E. bdesn H E1. injection H as <-. intros x [<-|Hx]; [apply nthr_inv in E; now apply nth_error_In in E|now apply (IH _ eq_refl)].
Qed.

Lemma built cs sh ranks (t : rtt) : sized_cores 0 cs sh ranks -> TensorTrain cs sh ranks = Ok t -> valid t.
Proof.
  intros (H1 & H2 & H3) H. pose proof H as H'. unfold TensorTrain in H'. destruct (clean_raw_shape sh) as [clean|] eqn:E; [|discriminate]. cbn [bind] in H'.
  bdesn H' E1. destruct a; [|discriminate]. destruct (cores_valid_inv _ _ _ _ _ _ E1) as (Hne & _). pose proof (nth_error_first cs Hne) as N0.
  set (nax := rank (nth 0 cs rc0) - 2). assert (Hx : nax = 1 \/ nax = 2) by (destruct (H1 _ N0); unfold nax; lia).
  apply (made _ cs sh clean ranks t nax H E); auto; [unfold nax; destruct (H1 _ N0); lia|].
  intros ss ->. destruct (H2 ss eq_refl) as [A B]. split; auto. specialize (A _ N0). unfold nax. lia.
Qed.
Lemma built_batch cs sh ranks bs (t : rtt) : sized_cores 1 cs sh ranks -> (bs = None -> same_first_axis cs) -> TensorTrainBatch cs sh ranks bs = Ok t -> valid t.
Proof.
  intros (H1 & H2 & H3) HB H. pose proof H as H'. unfold TensorTrainBatch in H'. destruct (clean_raw_shape sh) as [clean|] eqn:E; [|discriminate]. cbn [bind] in H'.
  bdesn H' E1. destruct a; [|discriminate]. destruct (cores_valid_inv _ _ _ _ _ _ E1) as (Hne & _). pose proof (nth_error_first cs Hne) as N0.
  set (nax := rank (nth 0 cs rc0) - 3). assert (Hx : nax = 1 \/ nax = 2) by (destruct (H1 _ N0); unfold nax; lia).
  apply (made_batch _ cs sh clean ranks bs t nax H E); auto; [unfold nax; destruct (H1 _ N0); lia| |].
  - intros ss ->. destruct (H2 ss eq_refl) as [A B]. split; auto. specialize (A _ N0). unfold nax. lia.
  - intros Eb k Hk. apply (HB Eb); [now apply nth_In|apply nth_In; lia].
Qed.

Lemma call_valid e c o : all_valid e -> proper e c -> call qr svd la grad e c = Ok o -> valid (o_tt o).
Proof.
  intros V P H. destruct Hla as [Hi Hc].
  assert (VN : forall a x, nthr e a = Ok x -> valid (o_tt x)) by (intros a x E; apply V; apply nthr_inv in E; now apply nth_error_In in E).
  assert (UN : forall a f, unary e a f = Ok o -> (forall t r, (forall x, nthr e a = Ok x -> o_tt x = t) -> valid t -> f t = Ok r -> valid r) -> valid (o_tt o)).
  { intros a f Hf Hv. unfold unary in Hf. bdesn Hf E. unfold fresh in Hf. bdesn Hf E1. injection Hf as <-. cbn [o_tt]. apply (Hv (o_tt a0) a1); auto; [|now apply (VN a)]. intros x Ex. congruence. }
  assert (BIN : forall a b f, binary e a b f = Ok o ->
            (forall t u r, valid t -> valid u -> f t u = Ok r -> valid r) -> valid (o_tt o)).
  { intros a b f Hf Hv. unfold binary in Hf. bdesn Hf E. bdesn Hf E0. unfold fresh in Hf. bdesn Hf E1. injection Hf as <-. cbn [o_tt]. apply (Hv (o_tt a0) (o_tt a1) a2); auto; [now apply (VN a)|now apply (VN b)]. }
  assert (FR : forall r, fresh (length e) r = Ok o -> (forall t, r = Ok t -> valid t) -> valid (o_tt o)).
  { intros r Hf Hv. unfold fresh in Hf. bdesn Hf E. injection Hf as <-. cbn [o_tt]. auto. }
  assert (ON : forall r, on (length e) r = Ok o -> (forall p, r = Ok p -> valid (p_tt p)) -> valid (o_tt o)).
  { intros r Hf Hv. unfold on in Hf. bdesn Hf E. injection Hf as <-. cbn [o_tt]. auto. }
  destruct c; cbn [call proper] in *.
  - apply (FR _ H). intros t. now apply built.
  - apply (FR _ H). intros t. destruct P. now apply built_batch.
  - apply (UN _ _ H). intros t r _ Vt. destruct (is_batch t) eqn:EB; [now apply ttb_getitem_valid|apply tt_getitem_valid].
  - apply (UN _ _ H). intros t r _ Vt Ht. destruct (is_batch t); [|discriminate]. now apply batch_dim_getitem_valid in Ht.
  - bdesn H E. assert (X : valid (o_tt a0)) by now apply (VN a). destruct (bsz (o_tt a0)) as [[|[|]]|]; try (now injection H as <-). apply (FR _ H). intros t Ht. now apply squeeze_valid in Ht.
  - bdesn H E. assert (X : valid (o_tt a0)) by now apply (VN a). destruct (is_batch (o_tt a0)); [now injection H as <-|]. apply (FR _ H). intros t Ht. now apply expand_valid in Ht.
  - apply (UN _ _ H). intros t r _. apply tt_transpose_valid.
  - apply (BIN _ _ _ H). intros t u r. apply tt_tt_matmul_valid.
  - apply (BIN _ _ _ H). intros t u r. apply add_valid.
  - apply (BIN _ _ _ H). intros t u r. apply tt_sub_valid.
  - apply (UN _ _ H). intros t r _. apply tt_neg_valid.
  - apply (BIN _ _ _ H). intros t u r Vt Vu. apply multiply_valid; auto. intros u' E. now injection E as <-.
  - apply (UN _ _ H). intros t r _ Vt. apply multiply_valid; auto. discriminate.
  - apply (UN _ _ H). intros t r _. apply cast_valid.
  - apply (UN _ _ H). intros t r _. apply renormalize_valid.
  - bdesn H E. apply (FR _ H). intros t. apply concat_along_batch_dim_valid. apply Forall_forall. intros x Hx. apply in_map_iff in Hx as (y & <- & Hy). apply V. now apply (mapM_nthr _ _ _ E).
  - bdesn H E. bdesn H E1. injection H as <-. now apply (VN a).
  - apply (UN _ _ H). intros t r _. apply multiply_along_batch_dim_valid.
  - apply (UN _ _ H). intros t r _ Vt Ht. now apply orthogonalize_valid in Ht.
  - apply (FR _ H). intros t Ht. now apply to_tt_tensor_valid in Ht.
  - apply (FR _ H). intros t. apply to_tt_matrix_valid.
  - apply (UN _ _ H). intros t r _ Vt Ht. now apply round_valid in Ht.
  - bdesn H E. assert (X : valid (o_tt o) \/ fresh (length e) (add_n qr svd (map o_tt a) max_rank) = Ok o).
    { destruct a as [|x [|y a]]; auto. injection H as <-. left. apply V, (mapM_nthr _ _ _ E). now left. }
    destruct X as [X|X]; auto. apply (FR _ X). intros t. apply add_n_valid. apply Forall_forall. intros x Hx. apply in_map_iff in Hx as (y & <- & Hy). apply V. now apply (mapM_nthr _ _ _ E).
  - apply (UN _ _ H). intros t r _. apply reduce_sum_batch_valid.
  - apply (UN _ _ H). intros t r _. apply map_kron_valid. exact Hi.
  - apply (UN _ _ H). intros t r _. apply map_kron_valid. exact Hc.
  - apply (FR _ H). intros t. apply tensor_const_valid.
  - apply (FR _ H). intros t. apply tensor_const_valid.
  - apply (FR _ H). intros t. now apply eye_valid.
  - apply (FR _ H). intros t. now apply matrix_const_valid.
  - apply (FR _ H). intros t. now apply matrix_const_valid.
  - apply (UN _ _ H). intros t r N Vt. apply const_like_valid; auto. unfold names in P. pose proof H as H'. unfold unary in H'. bdesn H' E. specialize (P _ (nthr_inv _ _ _ E)). rewrite (N _ eq_refl) in P. unfold ndims, is_tt_matrix.
    destruct P as [-> | P]; auto.
  - apply (UN _ _ H). intros t r N Vt. apply const_like_valid; auto. unfold names in P. pose proof H as H'. unfold unary in H'. bdesn H' E. specialize (P _ (nthr_inv _ _ _ E)). rewrite (N _ eq_refl) in P. unfold ndims, is_tt_matrix.
    destruct P as [-> | P]; auto.
  - apply (FR _ H). intros t. apply tensor_with_random_cores_valid.
  - apply (FR _ H). intros t. apply tensor_batch_with_random_cores_valid.
  - apply (FR _ H). intros t. now apply matrix_with_random_cores_valid.
  - apply (FR _ H). intros t. now apply matrix_batch_with_random_cores_valid.
  - apply (FR _ H). intros t. apply random_tensor_valid.
  - apply (FR _ H). intros t. apply random_tensor_batch_valid.
  - apply (FR _ H). intros t. now apply random_matrix_valid.
  - apply (FR _ H). intros t. now apply random_matrix_batch_valid.
  - apply (FR _ H). intros t Ht. exact (variance_valid _ _ _ _ _ P Ht).
  - apply (FR _ H). intros t Ht. exact (variance_valid _ _ _ _ _ P Ht).
  - apply (FR _ H). intros t Ht. exact (variance_valid _ _ _ _ _ P Ht).
  - bdesn H E. bdesn H E1. apply (ON _ H). intros p. apply project_valid. now apply (VN wher).
  - bdesn H E. bdesn H E1. apply (ON _ H). intros p. apply project_sum_valid. now apply (VN wher).
  - bdesn H E. bdesn H E1. bdesn H E2. apply (ON _ H). intros p. apply project_matmul_valid. now apply (VN wher).
  - bdesn H E. apply (ON _ H). intros p. apply add_n_projected_valid. apply Forall_forall. intros x Hx. apply in_map_iff in Hx as (y & <- & Hy). apply V. now apply (mapM_nthr _ _ _ E).
  - bdesn H E. bdesn H E1. bdesn H E2. apply (ON _ H). intros p. unfold names, plain in P. apply deltas_to_tangent_space_valid; [now apply (VN a)| |].
    + intros x ->. destruct left as [l|]; [|discriminate]. unfold ref in E1. bdesn E1 E3. injection E1 as <-. split; [now apply (VN l)|]. unfold is_batch. now rewrite (P _ (nthr_inv _ _ _ E3)).
    + intros ->. destruct left as [l|]; [unfold ref in E1; bdesn E1 E3; discriminate|]. destruct right as [r|]; [|left; unfold ref in E2; now injection E2 as <-].
      right. unfold is_batch. now rewrite (P _ (nthr_inv _ _ _ E)).
  - bdesn H E. apply (ON _ H). intros p. apply gradients_valid. now apply (VN a).
  - bdesn H E. bdesn H E1. apply (ON _ H). intros p. apply hessian_vector_product_valid. now apply (VN a).
Qed.

Lemma run_valid p e : all_valid e -> proper_run qr svd la grad e p -> all_valid (run qr svd la grad e p).
Proof.
  revert e; induction p as [|c p IH]; intros e V P; [exact V|]. cbn [run proper_run] in *. destruct P as [P PR]. destruct (call qr svd la grad e c) as [o|] eqn:E; [|now apply IH].
  apply IH; auto. intros x Hx. apply in_app_iff in Hx as [Hx|[<-|[]]]; [now apply V|]. now apply (call_valid e c).
Qed.
End Thm.
