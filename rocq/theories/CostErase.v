(** Forgetting the list of calls gives the functions of Ops.v, BatchOps.v, Decomp.v and Riem.v back. *)
From Coq Require Import String Ascii List Arith ZArith Bool Reals.
From Verif Require Import Scalar Tensor Base Ops OpsR BatchOps Decomp Riem Cost CostOps.
Import ListNotations.
Local Open Scope nat_scope.

Lemma erase_tbind {A B} (m : tr A) (k : A -> tr B) m' k' : erase m = m' -> (forall a, erase (k a) = k' a) ->
  erase (tbind m k) = bind m' k'.
Proof.
  intros <- H. destruct m as [[a l]|e]; [|reflexivity]. cbn. rewrite <- H. destruct (k a) as [[b l']|e]; reflexivity.
Qed.
Lemma erase_free {A} (m : res A) : erase (free m) = m.
Proof. now destruct m. Qed.
Lemma erase_fold {A S} (f : A -> S -> tr S) f' l s : (forall x s, erase (f x s) = f' x s) -> erase (tfold f l s) = foldM f' l s.
Proof.
  intros H. revert s; induction l as [|x l IH]; intros s; [reflexivity|]. cbn [tfold foldM]. apply erase_tbind; auto.
Qed.
Lemma erase_mapM {A B} (f : A -> tr B) f' l : (forall x, erase (f x) = f' x) -> erase (tmapM f l) = mapM f' l.
Proof.
  intros H. induction l as [|x l IH]; [reflexivity|]. cbn [tmapM mapM]. apply erase_tbind; auto. intros y. apply erase_tbind; auto.
Qed.
Lemma erase_einsum {K : cring} eq (ts : list (tensor K)) : erase (t_einsum eq ts) = einsum eq ts.
Proof. unfold t_einsum. now destruct (einsum eq ts). Qed.
Lemma erase_matmul {K : cring} (a b : tensor K) : erase (t_matmul a b) = matmul a b.
Proof. unfold t_matmul. now destruct (matmul a b). Qed.
Lemma erase_ewise {K : cring} f (a b : tensor K) : erase (t_ewise f a b) = ewise f a b.
Proof. unfold t_ewise. now destruct (ewise f a b). Qed.

Create HintDb erased.
Ltac er := cbv zeta; repeat first
  [ reflexivity | apply erase_free | apply erase_einsum | apply erase_matmul | apply erase_ewise
  | solve [auto with erased]
  | apply erase_tbind; [|intros]
  | apply erase_fold; intros | apply erase_mapM; intros
  | match goal with |- erase (let '(_, _) := ?x in _) = _ => destruct x end
  | match goal with |- erase (match ?x with _ => _ end) = _ => destruct x end ].

Section G.
Context {K : cring}.
Lemma erase_flat_inner (a b : tt K) : erase (t_flat_inner a b) = tt_tt_flat_inner a b.
Proof. unfold t_flat_inner, tt_tt_flat_inner. er. Qed.
Lemma erase_bilinear_form (A b c : tt K) : erase (t_bilinear_form A b c) = bilinear_form A b c.
Proof. unfold t_bilinear_form, bilinear_form. er. Qed.
Lemma erase_pairwise (a b : tt K) : erase (t_pairwise_flat_inner a b) = pairwise_flat_inner a b.
Proof. unfold t_pairwise_flat_inner, pairwise_flat_inner. er. Qed.
Lemma erase_pairwise_mat (a b m : tt K) : erase (t_pairwise_flat_inner_mat a b m) = pairwise_flat_inner_mat a b m.
Proof. unfold t_pairwise_flat_inner_mat, pairwise_flat_inner_mat. er. Qed.
Lemma erase_gram (t : tt K) m : erase (t_gram_matrix t m) = gram_matrix t m.
Proof. destruct m; [apply erase_pairwise_mat|apply erase_pairwise]. Qed.
End G.

Section D.
Variable qr : rtensor -> rtensor * rtensor.
Lemma erase_qr_bind {B} m (k : rtensor * rtensor -> tr B) k' : (forall q r, erase (k (q, r)) = k' q r) ->
  erase (tbind (t_qr qr m) k) = let '(q, r) := qr m in k' q r.
Proof.
  intros H. unfold tbind, t_qr. destruct (qr m) as [q r]. specialize (H q r). destruct (k (q, r)) as [[b l]|e]; exact H.
Qed.
Ltac ed := repeat first [progress er | apply erase_qr_bind; intros].
Lemma erase_orth_lr_step pre t i st : erase (t_orth_lr_step qr pre t i st) = orth_lr_step qr pre t i st.
Proof. destruct st. unfold t_orth_lr_step, orth_lr_step. ed. Qed.
Lemma erase_orth_rl_step t i st : erase (t_orth_rl_step qr t i st) = orth_rl_step qr t i st.
Proof. destruct st. unfold t_orth_rl_step, orth_rl_step. ed. Qed.
Lemma erase_orth_lr pre t : erase (t_orth_lr qr pre t) = orth_lr qr pre t.
Proof. unfold t_orth_lr, orth_lr, t_orth_lr_step, orth_lr_step. ed. Qed.
Lemma erase_orth_rl t : erase (t_orth_rl qr t) = orth_rl qr t.
Proof. unfold t_orth_rl, orth_rl, t_orth_rl_step, orth_rl_step. ed. Qed.
Lemma erase_orthogonalize t lr : erase (t_orthogonalize qr t lr) = orthogonalize_tt_cores qr t lr.
Proof.
  unfold t_orthogonalize, orthogonalize_tt_cores. destruct (bsz t), lr; try reflexivity; try apply erase_orth_lr; apply erase_orth_rl.
Qed.
Hint Resolve erase_orthogonalize : erased.
Lemma erase_frame w : erase (t_frame qr w) = frame qr w.
Proof. unfold t_frame, frame. er. Qed.
Lemma erase_rhs w what r b : erase (t_rhs_list w what r b) = rhs_list w what r b.
Proof. unfold t_rhs_list, rhs_list. er. Qed.
Lemma erase_lhs w what r b : erase (t_lhs_list w what r b) = lhs_list w what r b.
Proof. unfold t_lhs_list, lhs_list. er. Qed.
Lemma erase_gauged w what l lhs i : erase (t_gauged w what l lhs i) = gauged w what l lhs i.
Proof. unfold t_gauged, gauged. er. Qed.
Lemma erase_result_cores ob w l r p p' : (forall i, erase (p i) = p' i) -> erase (t_result_cores ob w l r p) = result_cores ob w l r p'.
Proof. intros H. unfold t_result_cores, result_cores. er. Qed.
Hint Resolve erase_frame erase_rhs erase_lhs erase_gauged : erased.
Lemma erase_project what addr w : erase (t_project qr what addr w) = project qr what addr w.
Proof. unfold t_project, project. er. Qed.
Lemma erase_project_sum what addr w ws : erase (t_project_sum qr what addr w ws) = project_sum qr what addr w ws.
Proof. unfold t_project_sum, project_sum. er; try (apply erase_result_cores; intros; er). Qed.
Lemma erase_project_matmul what addr w m : erase (t_project_matmul qr what addr w m) = project_matmul qr what addr w m.
Proof. unfold t_project_matmul, project_matmul. er; try (apply erase_result_cores; intros; er). Qed.
End D.
Lemma erase_pairwise_projected p1 p2 : erase (t_pairwise_flat_inner_projected p1 p2) = pairwise_flat_inner_projected p1 p2.
Proof. unfold t_pairwise_flat_inner_projected, pairwise_flat_inner_projected. er. Qed.
