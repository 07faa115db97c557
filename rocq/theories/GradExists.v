(** The contract on [tf.GradientTape] can be met: gradients are unique. *)
From Coq Require Import List Arith Lia Lra Bool Reals ClassicalEpsilon.
From Verif Require Import Scalar Tensor TensorLemmas Base Spec BaseLemmas Chain Ops OpsR Riem OrthNorm TangentSpace RiemFull Autodiff AutoSpec AutoProofs AutoThms.
Import ListNotations.
Local Open Scope nat_scope.
Local Notation get := (@get Rring).
Local Ltac req := match goal with |- @eq _ ?u ?v => change (@eq R u v) end.

Lemma limits_equal (f g : R -> R) eps a b : (0 < eps)%R -> (forall t, (Rabs t < eps)%R -> f t = g t) -> derivable_pt_lim f 0 a -> derivable_pt_lim g 0 b -> a = b.
Proof.
  intros He E Hf Hg. apply (uniqueness_limite g 0); [|exact Hg]. apply (derivable_pt_lim_locally_ext f g 0 (- eps) eps); [lra| |exact Hf].
  intros z Hz. apply E. now apply Rabs_def1.
Qed.

Lemma inner_sub s (a b c : list nat -> R) : (inner s a c - inner s b c)%R = inner s (fun i => a i - b i)%R c.
Proof.
  unfold inner. replace (isum (K := Rring) s (fun i => a i * c i)%R) with (isum (K := Rring) s (fun i => (a i - b i) * c i)%R + isum (K := Rring) s (fun i => b i * c i)%R)%R.
  - change (car Rring) with R. lra.
  - symmetry. etransitivity; [|apply (isum_add Rring)]. apply (isum_ext Rring). intros i _. cbn. req. ring.
Qed.

Definition gap (gs gs' : list rtensor) : list rtensor := map2 (fun g g' : rtensor => mk (K := Rring) (shape g) (fun i => get g i - get g' i)%R) gs gs'.
Lemma gap_shapes gs gs' : length gs = length gs' -> same_shapes gs (gap gs gs').
Proof.
  revert gs'. induction gs as [|g gs IH]; intros [|g' gs'] L; cbn in L; try lia; [constructor|]. cbn [gap map2]. constructor; [split; [apply wft_mk|reflexivity]|]. apply IH. lia.
Qed.
Lemma same_shapes_trans a b c : same_shapes a b -> same_shapes b c -> same_shapes a c.
Proof.
  intros H. revert c. induction H as [|x y a b [_ S] _ IH]; intros c H2; inversion H2 as [|y' z b' c' [Wz Sz] H3]; subst; [constructor|]. constructor; [split; [auto|congruence]|]. now apply IH.
Qed.
Lemma gap_zero gs gs' : same_shapes gs gs' -> Forall wft gs -> inners gs (gap gs gs') = inners gs' (gap gs gs') -> gs = gs'.
Proof.
  intros H W E. assert (Q : (inners gs (gap gs gs') - inners gs' (gap gs gs') = 0)%R) by lra. clear E.
  assert (P : (0 <= inners gs (gap gs gs') - inners gs' (gap gs gs'))%R /\ ((inners gs (gap gs gs') - inners gs' (gap gs gs') = 0)%R -> gs = gs')); [|now apply P].
  clear Q. revert W. induction H as [|g g' gs gs' [Wg' S] _ IH]; intros W; [cbn; split; [lra|reflexivity]|]. apply Forall_cons_iff in W as [Wg W].
  destruct (IH W) as [P1 P2]. cbn [gap map2 inners]. fold (gap gs gs').
  set (h := mk (K := Rring) (shape g) (fun i => get g i - get g' i)%R).
  assert (E : (inner (shape g) (get g) (get h) - inner (shape g') (get g') (get h))%R = isum (K := Rring) (shape g) (fun i => Rsqr (get g i - get g' i))).
  { rewrite S, inner_sub. apply (isum_ext Rring). intros i Hi. unfold h. rewrite get_mk by auto. reflexivity. }
  destruct (isum_zero_each (shape g) (fun i => Rsqr (get g i - get g' i))) as [Q1 Q2]; [intros; apply Rle_0_sqr|]. split; [lra|].
  intros Z. f_equal.
  - apply tensor_ext; auto. intros i Hi. specialize (Q2 ltac:(lra) i Hi). apply Rsqr_0_uniq in Q2. cbn in *. lra.
  - apply P2. lra.
Qed.

Theorem gradient_unique f ds gs gs' : is_gradient f ds gs -> is_gradient f ds gs' -> gs = gs'.
Proof.
  intros [S H] [S' H'].
  assert (W : Forall wft gs) by (clear - S; induction S as [|? ? ? ? []]; auto).
  assert (SS : same_shapes gs gs'). { apply same_shapes_of; [rewrite (same_shapes_len _ _ S), (same_shapes_len _ _ S'); reflexivity|]. intros m Hm. rewrite (same_shapes_len _ _ S) in Hm.
    destruct (same_shapes_nth _ _ m S Hm), (same_shapes_nth _ _ m S' Hm). split; [auto|congruence]. }
  apply gap_zero; auto.
  assert (SG : same_shapes ds (gap gs gs')). { eapply same_shapes_trans; [exact S|]. apply gap_shapes. symmetry. apply (same_shapes_len _ _ SS). }
  destruct (H _ SG) as (phi & (e1 & P1 & Q1) & D1). destruct (H' _ SG) as (psi & (e2 & P2 & Q2) & D2).
  apply (limits_equal phi psi (Rmin e1 e2)); auto; [now apply Rmin_glb_lt|]. intros t Ht. pose proof (Rmin_l e1 e2). pose proof (Rmin_r e1 e2).
  specialize (Q1 t ltac:(lra)). specialize (Q2 t ltac:(lra)). congruence.
Qed.

(** The gradients where they exist. *)
Definition the_grad (f : list rtensor -> res R) (ds : list rtensor) : list (option rtensor) :=
  match excluded_middle_informative (exists gs, is_gradient f ds gs) with
  | left H => map Some (proj1_sig (constructive_indefinite_description _ H))
  | right _ => []
  end.
Theorem the_grad_ok : grad_ok the_grad.
Proof.
  intros f ds gs H. unfold the_grad. destruct (excluded_middle_informative _) as [HE|N]; [|exfalso; apply N; eauto].
  destruct (constructive_indefinite_description _ HE) as [gs' H']. cbn [proj1_sig]. rewrite (gradient_unique f ds gs' gs H' H).
  clear. induction gs; cbn; constructor; auto.
Qed.
Theorem the_grad_some f ds : ~ In None (the_grad f ds).
Proof.
  unfold the_grad. destruct (excluded_middle_informative _) as [HE|N]; [|intros []]. intros H. apply in_map_iff in H as (y & Hy & _). discriminate.
Qed.

(** The value is the same for all arguments. *)
Definition constant_at (f : list rtensor -> res R) (ds : list rtensor) : Prop := exists c, forall hs, same_shapes ds hs -> f hs = Ok c.
Definition tape_grad (f : list rtensor -> res R) (ds : list rtensor) : list (option rtensor) :=
  if excluded_middle_informative (constant_at f ds) then map (fun _ => None) ds else the_grad f ds.
Theorem tape_grad_ok : grad_ok tape_grad.
Proof.
  intros f ds gs H. unfold tape_grad. destruct (excluded_middle_informative _) as [HE|N]; [|now apply the_grad_ok].
  destruct H as [S _]. clear HE. induction S; cbn; constructor; auto.
Qed.
