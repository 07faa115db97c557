(** One step of the left-to-right TT-SVD, in terms of functions. *)
From Coq Require Import List Arith Lia Lra Reals.
From Verif Require Import Scalar Tensor TensorLemmas Base Spec Chain Sweep OpsR DecompSpec QRExists Trunc TruncChain.
Import ListNotations.
Local Open Scope R_scope.

Section Step.
Variables (X Y : list (list nat)) (mi : list nat) (ra K rr : nat).
Variables (A : list (list nat) -> R) (L L' : list (list nat) -> nat -> R) (T T' : nat -> list (list nat) -> R).
Variables (u : nat -> list nat -> nat -> R) (s : nat -> R) (v : list (list nat) -> nat -> R).
Hypothesis HrK : (rr <= K)%nat.
Hypothesis HT : forall a j J, (a < ra)%nat -> vidx mi j -> vjdx Y J -> T a (j :: J) = rsum K (fun l => u a j l * s l * v J l).
Hypothesis HT' : forall l J, (l < rr)%nat -> vjdx Y J -> T' l J = s l * v J l.
Hypothesis HL' : forall J j l, vjdx X J -> vidx mi j -> (l < rr)%nat -> L' (J ++ [j]) l = rsum ra (fun a => L J a * u a j l).
Hypothesis Hu : forall l l', (l < K)%nat -> (l' < K)%nat -> rsum ra (fun a => ri mi (fun j => u a j l * u a j l')) = kron l l'.
Hypothesis Hv : forall l l', (l < K)%nat -> (l' < K)%nat -> rj Y (fun J => v J l * v J l') = kron l l'.
Hypothesis Hs : forall a b, (a <= b)%nat -> (b < K)%nat -> 0 <= s b <= s a.
Hypothesis HL : forall a a', (a < ra)%nat -> (a' < ra)%nat -> rj X (fun J => L J a * L J a') = kron a a'.
Let Ai (J1 : list (list nat)) (J2 : list (list nat)) : R := rsum ra (fun a => L J1 a * T a J2).
Let A' (J1 : list (list nat)) (J2 : list (list nat)) : R := rsum rr (fun l => L' J1 l * T' l J2).
Hypothesis HO : forall J2 a, vjdx (mi :: Y) J2 -> (a < ra)%nat -> rj X (fun J1 => (A (J1 ++ J2) - Ai J1 J2) * L J1 a) = 0.
Let X' := X ++ [mi].
Let U (J : list (list nat)) (l : nat) : R := rsum ra (fun a => L (removelast J) a * u a (last J []) l).

Lemma X'_sum F : rj X' F = rj X (fun J => ri mi (fun j => F (J ++ [j]))).
Proof. unfold X'. rewrite rj_app. apply rj_ext. intros J _. rewrite rj_cons. apply ri_ext. intros j _. reflexivity. Qed.

Lemma X'_inv J : vjdx X' J -> exists J1 j, J = J1 ++ [j] /\ vjdx X J1 /\ vidx mi j.
Proof.
  intros H. unfold X' in H. apply Forall2_app_inv_l in H as (J1 & J2 & H1 & H2 & ->). inversion H2 as [|? j ? ? Hj H3]; subst. inversion H3; subst.
  exists J1, j. auto.
Qed.

Lemma U_snoc J j l : U (J ++ [j]) l = rsum ra (fun a => L J a * u a j l).
Proof. unfold U. now rewrite removelast_last, last_last. Qed.

Lemma L'_U J l : vjdx X' J -> (l < rr)%nat -> L' J l = U J l.
Proof. intros H Hl. apply X'_inv in H as (J1 & j & -> & H1 & H2). rewrite U_snoc. now apply HL'. Qed.

Lemma rj_ri_swap ms m (f : list (list nat) -> list nat -> R) : rj ms (fun J => ri m (fun j => f J j)) = ri m (fun j => rj ms (fun J => f J j)).
Proof. apply (jsum_isum_swap Rring). Qed.

Lemma U_ortho' l l' : (l < K)%nat -> (l' < K)%nat -> rj X' (fun J => U J l * U J l') = kron l l'.
Proof.
  intros Hl Hl'. rewrite <- Hu by auto. rewrite X'_sum.
  rewrite rj_ri_swap, <- ri_rsum. apply ri_ext. intros j Hj.
  rewrite (rj_ext _ _ (fun J => rsum ra (fun a => rsum ra (fun a' => (u a j l * u a' j l') * (L J a * L J a'))))).
  2:{ intros J _. rewrite !U_snoc. rewrite <- rsum_mul_r. apply rsum_ext. intros a _. rewrite <- rsum_mul_l. apply rsum_ext. intros; ring. }
  rewrite rj_rsum. apply rsum_ext. intros a Ha. rewrite rj_rsum.
  rewrite (rsum_ext _ _ (fun a' => (u a j l * u a' j l') * kron a a')).
  2:{ intros a' Ha'. now rewrite rj_mul_l, HL. }
  now rewrite rsum_kron_r.
Qed.

Lemma Ai_expan' J j J2 : vjdx X J -> vidx mi j -> vjdx Y J2 -> Ai J (j :: J2) = rsum K (fun l => v J2 l * s l * U (J ++ [j]) l).
Proof.
  intros H1 Hj H2. unfold Ai.
  rewrite (rsum_ext _ _ (fun a => rsum K (fun l => L J a * u a j l * (s l * v J2 l)))).
  2:{ intros a Ha. rewrite HT by auto. rewrite <- rsum_mul_l. apply rsum_ext. intros; ring. }
  rewrite rsum_swap. apply rsum_ext. intros l _. rewrite rsum_mul_r, U_snoc. ring.
Qed.

Lemma A'_expan' J J2 : vjdx X' J -> vjdx Y J2 -> A' J J2 = rsum rr (fun l => v J2 l * s l * U J l).
Proof. intros H1 H2. unfold A'. apply rsum_ext. intros l Hl. rewrite L'_U, HT' by auto. ring. Qed.

(** In numbers: rows are the right indices, columns the left ones. *)
Let m := jsize Y.
Let n := jsize X'.
Let nA y x := A (jun X' x ++ jun Y y).
Let nU y l := v (jun Y y) l.
Let nV x l := U (jun X' x) l.

Lemma tU_ortho : ortho m K nU.
Proof. intros a b Ha Hb. rewrite <- (Hv a b Ha Hb), rj_rsum_all. reflexivity. Qed.
Lemma tV_ortho : ortho n K nV.
Proof. intros a b Ha Hb. rewrite <- (U_ortho' a b Ha Hb), rj_rsum_all. reflexivity. Qed.

Lemma HO_U J2 l : vjdx Y J2 -> rj X' (fun J => (A (J ++ J2) - rsum K (fun k => v J2 k * s k * U J k)) * U J l) = 0.
Proof.
  intros H2. rewrite X'_sum, rj_ri_swap.
  transitivity (ri mi (fun _ => 0 * 0)); [|rewrite ri_mul_l; ring].
  apply ri_ext. intros j Hj.
  rewrite (rj_ext _ _ (fun J => rsum ra (fun a => u a j l * ((A (J ++ j :: J2) - Ai J (j :: J2)) * L J a)))).
  2:{ intros J HJ. rewrite Ai_expan' by auto. rewrite <- app_assoc. cbn [app]. rewrite (U_snoc J j l), <- rsum_mul_l. apply rsum_ext. intros; ring. }
  rewrite rj_rsum. rewrite rsum_0; [ring|]. intros a Ha. rewrite rj_mul_l, HO; [ring| |auto]. constructor; auto.
Qed.

Lemma tOrth y l : (y < m)%nat -> (l < K)%nat -> rsum n (fun x => (nA y x - expan K nU s nV y x) * nV x l) = 0.
Proof. intros Hy Hl. rewrite <- (HO_U (jun Y y) l) by now apply jun_valid. rewrite rj_rsum_all. reflexivity. Qed.

Lemma sum_t (F : list (list nat) -> list (list nat) -> R) :
  rj X' (fun J1 => rj Y (fun J2 => F J1 J2)) = sum2 m n (fun y x => F (jun X' x) (jun Y y)).
Proof. rewrite sum2_swap. rewrite rj_rsum_all. unfold sum2. apply rsum_ext. intros x _. now rewrite rj_rsum_all. Qed.

Lemma tstep_error :
  rj X' (fun J1 => rj Y (fun J2 => (A (J1 ++ J2) - A' J1 J2) * (A (J1 ++ J2) - A' J1 J2))) =
  rj X (fun J1 => rj (mi :: Y) (fun J2 => (A (J1 ++ J2) - Ai J1 J2) * (A (J1 ++ J2) - Ai J1 J2))) + tail K rr s.
Proof.
  rewrite sum_t.
  rewrite (sum2_ext m n _ (fun y x => (nA y x - expan rr nU s nV y x) * (nA y x - expan rr nU s nV y x))).
  2:{ intros y x Hy Hx. rewrite A'_expan' by now apply jun_valid. reflexivity. }
  rewrite (trunc_error m n K rr nA nU nV s tU_ortho tV_ortho HrK tOrth). f_equal.
  etransitivity; [symmetry; apply (sum_t (fun J1 J2 => (A (J1 ++ J2) - rsum K (fun k => v J2 k * s k * U J1 k)) * (A (J1 ++ J2) - rsum K (fun k => v J2 k * s k * U J1 k))))|].
  rewrite X'_sum. apply rj_ext. intros J1 H1. rewrite rj_cons. apply ri_ext. intros j Hj. apply rj_ext. intros J2 H2.
  rewrite Ai_expan' by auto. rewrite <- app_assoc. reflexivity.
Qed.

Lemma tstep_left l l' : (l < rr)%nat -> (l' < rr)%nat -> rj X' (fun J => L' J l * L' J l') = kron l l'.
Proof. intros H H'. rewrite <- U_ortho' by lia. apply rj_ext. intros J HJ. now rewrite !L'_U. Qed.

Lemma tstep_orth J2 l : vjdx Y J2 -> (l < rr)%nat -> rj X' (fun J1 => (A (J1 ++ J2) - A' J1 J2) * L' J1 l) = 0.
Proof.
  intros H2 Hl. set (AK := fun J1 => rsum K (fun k => v J2 k * s k * U J1 k)).
  rewrite (rj_ext _ _ (fun J1 => (A (J1 ++ J2) - AK J1) * U J1 l + (AK J1 * U J1 l + (-1) * (rsum rr (fun k => v J2 k * s k * U J1 k) * U J1 l)))).
  2:{ intros J1 H1. rewrite L'_U, A'_expan' by auto. ring. }
  rewrite rj_add. unfold AK. rewrite HO_U by auto. rewrite rj_add, rj_mul_l.
  assert (C : forall q, (q <= K)%nat -> (l < q)%nat -> rj X' (fun J1 => rsum q (fun k => v J2 k * s k * U J1 k) * U J1 l) = v J2 l * s l).
  { intros q Hq Hlq. rewrite rj_rsum_all.
    apply (expan_coef n q (fun _ k => v J2 k) s nV 0 l); auto. eapply ortho_le; [apply tV_ortho|auto]. }
  rewrite !C by lia. ring.
Qed.

Lemma tstep_best bound q (P Z : list (list nat) -> nat -> R) : rr = Nat.min bound K -> (q <= bound)%nat ->
  tail K rr s <= rj X' (fun J1 => rj Y (fun J2 =>
     (A (J1 ++ J2) - rsum q (fun c => P J1 c * Z J2 c)) * (A (J1 ++ J2) - rsum q (fun c => P J1 c * Z J2 c)))).
Proof.
  intros Hb Hq. destruct (le_lt_dec K bound) as [Hk|Hk].
  - rewrite tail_full by lia. apply rj_nonneg. intros. apply rj_nonneg. intros. apply Rle_0_sqr.
  - apply Rle_trans with (tail K q s); [apply tail_mono; lia|]. rewrite sum_t.
    rewrite (sum2_ext m n _ (fun y x => (nA y x - rsum q (fun c => Z (jun Y y) c * P (jun X' x) c)) * (nA y x - rsum q (fun c => Z (jun Y y) c * P (jun X' x) c)))).
    2:{ intros y x _ _. rewrite (rsum_ext q (fun c => P (jun X' x) c * Z (jun Y y) c) (fun c => Z (jun Y y) c * P (jun X' x) c)) by (intros; ring). reflexivity. }
    apply (tail_best m n K q nA nU nV s tU_ortho tV_ortho Hs tOrth (fun y c => Z (jun Y y) c) (fun x c => P (jun X' x) c)).
Qed.
End Step.
