(** Truncating one bond of a train of matrices: what one step of rounding does to the
    represented tensor.  No tensors or code here, only trains [chain]. *)
From Coq Require Import List Arith ZArith Lia Lra Bool Ring Reals.
From Verif Require Import Scalar Tensor TensorLemmas Base Spec Chain Sweep OpsR DecompSpec GaugeProofs QRExists Trunc.
Import ListNotations.
Local Open Scope R_scope.

Notation mtrain := (nat -> nat -> list nat -> nat -> R).

Definition ri (ns : list nat) (f : list nat -> R) : R := isum (K := Rring) ns f.
Definition rj (mss : list (list nat)) (f : list (list nat) -> R) : R := jsum (K := Rring) mss f.
Definition rchain (G : mtrain) (r : nat -> nat) (k : nat) (J : list (list nat)) (v : nat -> R) (a : nat) : R :=
  chain (K := Rring) G r k J v a.

Lemma ri_ext ns f g : (forall I, vidx ns I -> f I = g I) -> ri ns f = ri ns g. Proof. apply (isum_ext Rring). Qed.
Lemma rj_ext ns f g : (forall I, vjdx ns I -> f I = g I) -> rj ns f = rj ns g. Proof. apply (jsum_ext Rring). Qed.
Lemma ri_mul_l ns c f : ri ns (fun I => c * f I) = c * ri ns f. Proof. apply (isum_mul_l Rring). Qed.
Lemma rj_mul_l ns c f : rj ns (fun I => c * f I) = c * rj ns f. Proof. apply (jsum_mul_l Rring). Qed.
Lemma rj_mul_r ns c f : rj ns (fun I => f I * c) = rj ns f * c. Proof. apply (jsum_mul_r Rring). Qed.
Lemma rj_add ns f g : rj ns (fun I => f I + g I) = rj ns f + rj ns g. Proof. apply (jsum_add Rring). Qed.
Lemma ri_rsum ns n f : ri ns (fun I => rsum n (fun i => f I i)) = rsum n (fun i => ri ns (fun I => f I i)).
Proof. apply (isum_sumn_swap Rring). Qed.
Lemma rj_rsum ns n f : rj ns (fun I => rsum n (fun i => f I i)) = rsum n (fun i => rj ns (fun I => f I i)).
Proof. apply (jsum_sumn_swap Rring). Qed.
Lemma rj_app a b f : rj (a ++ b) f = rj a (fun J1 => rj b (fun J2 => f (J1 ++ J2))). Proof. apply (jsum_app Rring). Qed.
Lemma rj_cons m ms f : rj (m :: ms) f = ri m (fun j => rj ms (fun J => f (j :: J))). Proof. reflexivity. Qed.
Lemma rj_zero ms f : (forall J, vjdx ms J -> f J = 0) -> rj ms f = 0. Proof. apply (jsum_zero Rring). Qed.
Lemma rchain_cons G r k j J v a :
  rchain G r k (j :: J) v a = rsum (r (S k)) (fun b => G k a j b * rchain G r (S k) J v b).
Proof. reflexivity. Qed.

Lemma vjdx_cons_inv m ms j J : vjdx (m :: ms) (j :: J) -> vidx m j /\ vjdx ms J.
Proof. intros H. inversion H; subst. auto. Qed.

(** *** Multi-indices as numbers *)
Fixpoint jsize (mss : list (list nat)) : nat := match mss with [] => 1 | m :: ms => prodn m * jsize ms end.
Fixpoint jun (mss : list (list nat)) (i : nat) : list (list nat) :=
  match mss with [] => [] | m :: ms => unravel m (i / jsize ms) :: jun ms (i mod jsize ms) end.

Lemma jun_valid mss i : (i < jsize mss)%nat -> vjdx mss (jun mss i).
Proof.
  revert i; induction mss as [|m ms IH]; intros i H; cbn [jun jsize] in *; [constructor|].
  assert (P : (jsize ms <> 0)%nat) by (intros E; rewrite E in H; lia).
  constructor.
  - apply unravel_valid. apply Nat.div_lt_upper_bound; auto. lia.
  - apply IH. now apply Nat.mod_upper_bound.
Qed.

Lemma rj_rsum_all mss f : rj mss f = rsum (jsize mss) (fun i => f (jun mss i)).
Proof.
  revert f; induction mss as [|m ms IH]; intros f; [unfold rj, rsum; cbn; lra|].
  rewrite rj_cons. unfold ri. rewrite (isum_unravel Rring). cbn [jsize jun]. unfold rsum. rewrite (sumn_prod Rring).
  apply (sumn_ext Rring). intros a Ha. rewrite IH. unfold rsum. apply (sumn_ext Rring). intros b Hb.
  assert (P : (jsize ms <> 0)%nat) by lia. f_equal. f_equal.
  - f_equal. rewrite Nat.add_comm, Nat.div_add by auto. now rewrite Nat.div_small.
  - f_equal. rewrite Nat.add_comm, Nat.mod_add by auto. now rewrite Nat.mod_small.
Qed.

Lemma rj_nonneg mss f : (forall J, vjdx mss J -> 0 <= f J) -> 0 <= rj mss f.
Proof. intros H. rewrite rj_rsum_all. apply rsum_nonneg. intros. apply H. now apply jun_valid. Qed.
Lemma rj_zero_each mss f : (forall J, vjdx mss J -> 0 <= f J) -> rj mss f = 0 -> forall J, vjdx mss J -> f J = 0.
Proof.
  revert f; induction mss as [|m ms IH]; intros f H E J HJ.
  - inversion HJ; subst. exact E.
  - destruct J as [|j J']; [inversion HJ|]. inversion HJ as [|? ? ? ? Hj HJ']; subst. rewrite rj_cons in E. unfold ri in E. rewrite (isum_unravel Rring) in E.
    pose proof (ravel_lt _ _ Hj) as Lt.
    pose proof (fun P => rsum_zero_each _ _ P E (ravel m j) Lt) as E2. cbn beta in E2. rewrite unravel_ravel in E2 by auto.
    refine (IH (fun J => f (j :: J)) _ _ J' HJ').
    + intros J0 H0. apply H. now constructor.
    + apply E2. intros i Hi. apply rj_nonneg. intros J0 H0. apply H. constructor; auto. now apply unravel_valid.
Qed.

(** *** Left and right products *)
Definition lvec (G : mtrain) (r : nat -> nat) (J : list (list nat)) (a : nat) : R := lv (K := Rring) G r J a.
Definition rvec (G : mtrain) (r : nat -> nat) (k : nat) (J : list (list nat)) (a : nat) : R := rchain G r k J (fun _ => 1) a.

Lemma cut G r J1 J2 : (0 < r 0)%nat ->
  rchain G r 0 (J1 ++ J2) (fun _ => 1) 0 = rsum (r (length J1)) (fun a => lvec G r J1 a * rvec G r (length J1) J2 a).
Proof.
  intros H. unfold rchain. rewrite (chain_app Rring). rewrite (chain_delta Rring) by auto. rewrite !Nat.add_0_l. reflexivity.
Qed.

Lemma lvec_snoc G r J j b : (0 < r 0)%nat -> (b < r (S (length J)))%nat ->
  lvec G r (J ++ [j]) b = rsum (r (length J)) (fun a => lvec G r J a * G (length J) a j b).
Proof. apply (lv_snoc Rring). Qed.

(** Right products of right-orthonormal cores are orthonormal. *)
Lemma rvec_ortho_step (G : mtrain) (r : nat -> nat) (ms : nat -> list nat) k n :
  (forall b b', (b < r (S k))%nat -> (b' < r (S k))%nat ->
     rj (map ms (seq (S k) n)) (fun J => rvec G r (S k) J b * rvec G r (S k) J b') = kron b b') ->
  (forall a a', (a < r k)%nat -> (a' < r k)%nat ->
     ri (ms k) (fun j => rsum (r (S k)) (fun b => G k a j b * G k a' j b)) = kron a a') ->
  forall a a', (a < r k)%nat -> (a' < r k)%nat ->
     rj (map ms (seq k (S n))) (fun J => rvec G r k J a * rvec G r k J a') = kron a a'.
Proof.
  intros HR HG a a' Ha Ha'. rewrite <- HG by auto. cbn [seq map]. rewrite rj_cons. apply ri_ext. intros j Hj.
  rewrite (rj_ext _ _ (fun J => rsum (r (S k)) (fun b => rsum (r (S k)) (fun b' =>
     (G k a j b * G k a' j b') * (rvec G r (S k) J b * rvec G r (S k) J b'))))).
  2:{ intros J _. unfold rvec at 1 2. rewrite !rchain_cons. rewrite <- rsum_mul_r. apply rsum_ext. intros b _.
      rewrite <- rsum_mul_l. apply rsum_ext. intros b' _. unfold rvec. ring. }
  rewrite rj_rsum. apply rsum_ext. intros b Hb. rewrite rj_rsum.
  rewrite (rsum_ext _ _ (fun b' => (G k a j b * G k a' j b') * kron b b')).
  2:{ intros b' Hb'. now rewrite rj_mul_l, HR. }
  now rewrite rsum_kron_r.
Qed.

Lemma seq_cut i d : (i <= d)%nat -> seq 0 d = seq 0 i ++ seq i (d - i).
Proof. intros H. rewrite <- (Nat.add_0_l i) at 3. rewrite <- seq_app. f_equal. lia. Qed.

(** *** One truncation *)
Section Step.
Variables (ms : nat -> list nat) (d i : nat).
Variables (G G' : mtrain) (r r' : nat -> nat) (K rr : nat).
Variables (u : nat -> nat -> R) (s : nat -> R) (v : list nat -> nat -> nat -> R).
Variable A : list (list nat) -> R.
Hypothesis Hi : (0 < i < d)%nat.
Hypothesis R0 : r 0%nat = 1%nat.
Hypothesis Hr : forall k, k <> i -> r' k = r k.
Hypothesis Hri : r' i = rr.
Hypothesis HrK : (rr <= K)%nat.
Hypothesis HGsame : forall k a j b, (k < d)%nat -> k <> i -> S k <> i -> (a < r k)%nat -> (b < r (S k))%nat -> vidx (ms k) j ->
  G' k a j b = G k a j b.
Hypothesis HGi : forall a j b, (a < r i)%nat -> vidx (ms i) j -> (b < r (S i))%nat ->
  G i a j b = rsum K (fun l => u a l * s l * v j b l).
Hypothesis HG'i : forall l j b, (l < rr)%nat -> vidx (ms i) j -> (b < r (S i))%nat -> G' i l j b = v j b l.
Hypothesis HG'p : forall a j l, (a < r (i - 1))%nat -> vidx (ms (i - 1)) j -> (l < rr)%nat ->
  G' (i - 1)%nat a j l = rsum (r i) (fun b => G (i - 1)%nat a j b * (u b l * s l)).
Hypothesis Hu : forall l l', (l < K)%nat -> (l' < K)%nat -> rsum (r i) (fun a => u a l * u a l') = kron l l'.
Hypothesis Hv : forall l l', (l < K)%nat -> (l' < K)%nat ->
  ri (ms i) (fun j => rsum (r (S i)) (fun b => v j b l * v j b l')) = kron l l'.
Hypothesis Hs : forall a b, (a <= b)%nat -> (b < K)%nat -> 0 <= s b <= s a.
Let X := map ms (seq 0 i).
Let Y := map ms (seq i (d - i)).
Let Y' := map ms (seq (S i) (d - S i)).
Hypothesis HL : forall a a', (a < r i)%nat -> (a' < r i)%nat ->
  rj X (fun J => lvec G r J a * lvec G r J a') = kron a a'.
Hypothesis HR : forall b b', (b < r (S i))%nat -> (b' < r (S i))%nat ->
  rj Y' (fun J => rvec G r (S i) J b * rvec G r (S i) J b') = kron b b'.
Let Ai (J : list (list nat)) : R := rchain G r 0 J (fun _ => 1) 0.
Let A' (J : list (list nat)) : R := rchain G' r' 0 J (fun _ => 1) 0.
Hypothesis HO : forall J1 b, vjdx (map ms (seq 0 (S i))) J1 -> (b < r (S i))%nat ->
  rj Y' (fun J2 => (A (J1 ++ J2) - Ai (J1 ++ J2)) * rvec G r (S i) J2 b) = 0.

Let U (J : list (list nat)) (l : nat) : R := rsum (r i) (fun a => lvec G r J a * u a l).
Let V (J : list (list nat)) (l : nat) : R := match J with
  | [] => 0 | j :: J' => rsum (r (S i)) (fun b => v j b l * rvec G r (S i) J' b) end.

Lemma Y_cons : Y = ms i :: Y'.
Proof. unfold Y, Y'. replace (d - i)%nat with (S (d - S i)) by lia. reflexivity. Qed.

Lemma U_ortho l l' : (l < K)%nat -> (l' < K)%nat -> rj X (fun J => U J l * U J l') = kron l l'.
Proof.
  intros Hl Hl'. rewrite <- Hu by auto. unfold U.
  rewrite (rj_ext _ _ (fun J => rsum (r i) (fun a => rsum (r i) (fun a' => (u a l * u a' l') * (lvec G r J a * lvec G r J a'))))).
  2:{ intros J _. rewrite <- rsum_mul_r. apply rsum_ext. intros a _. rewrite <- rsum_mul_l. apply rsum_ext. intros; ring. }
  rewrite rj_rsum. apply rsum_ext. intros a Ha. rewrite rj_rsum.
  rewrite (rsum_ext _ _ (fun a' => (u a l * u a' l') * kron a a')).
  2:{ intros a' Ha'. now rewrite rj_mul_l, HL. }
  now rewrite rsum_kron_r.
Qed.

Lemma V_ortho l l' : (l < K)%nat -> (l' < K)%nat -> rj Y (fun J => V J l * V J l') = kron l l'.
Proof.
  intros Hl Hl'. rewrite <- Hv by auto. rewrite Y_cons, rj_cons. apply ri_ext. intros j Hj. cbn [V].
  rewrite (rj_ext _ _ (fun J => rsum (r (S i)) (fun b => rsum (r (S i)) (fun b' => (v j b l * v j b' l') * (rvec G r (S i) J b * rvec G r (S i) J b'))))).
  2:{ intros J _. unfold V. rewrite <- rsum_mul_r. apply rsum_ext. intros a _. rewrite <- rsum_mul_l. apply rsum_ext. intros; ring. }
  rewrite rj_rsum. apply rsum_ext. intros b Hb. rewrite rj_rsum.
  rewrite (rsum_ext _ _ (fun b' => (v j b l * v j b' l') * kron b b')).
  2:{ intros b' Hb'. now rewrite rj_mul_l, HR. }
  now rewrite rsum_kron_r.
Qed.

Lemma Ai_expan J1 J2 : vjdx X J1 -> vjdx Y J2 -> Ai (J1 ++ J2) = rsum K (fun l => U J1 l * s l * V J2 l).
Proof.
  intros H1 H2. pose proof (vjdx_length _ _ H1) as L1. unfold X in L1. rewrite map_length, seq_length in L1.
  unfold Ai. rewrite cut by lia. rewrite L1.
  rewrite Y_cons in H2. destruct J2 as [|j J']; [inversion H2|]. apply vjdx_cons_inv in H2 as [Hj HJ'].
  rewrite (rsum_ext _ _ (fun a => rsum K (fun l => lvec G r J1 a * u a l * (s l * V (j :: J') l)))).
  2:{ intros a Ha. unfold rvec. rewrite rchain_cons.
      rewrite (rsum_ext _ _ (fun b => rsum K (fun l => u a l * (s l * (v j b l * rvec G r (S i) J' b))))).
      2:{ intros b Hb. rewrite HGi by auto. rewrite <- rsum_mul_r. apply rsum_ext. intros. unfold rvec. ring. }
      rewrite rsum_swap, <- rsum_mul_l. apply rsum_ext. intros l _. rewrite !rsum_mul_l. unfold V. ring. }
  rewrite rsum_swap. apply rsum_ext. intros l _. rewrite rsum_mul_r. unfold U. ring.
Qed.

Lemma rvec_new_V J2 l : vjdx Y J2 -> (l < rr)%nat -> rvec G' r' i J2 l = V J2 l.
Proof.
  intros H2 Hl. rewrite Y_cons in H2. destruct J2 as [|j J']; [inversion H2|]. apply vjdx_cons_inv in H2 as [Hj HJ'].
  unfold rvec. rewrite rchain_cons. rewrite Hr by lia. cbn [V]. unfold V. apply rsum_ext. intros b Hb.
  rewrite HG'i by auto. f_equal. unfold rvec, rchain.
  apply vjdx_seq in HJ' as [VJ LJ].
  apply (chain_ext2 Rring ms); auto.
  - rewrite Hr by lia. exact Hb.
  - intros m Hm. apply Hr. lia.
  - intros m a j0 b0 Hm Ha Hb0 Hj0. rewrite !Hr in * by lia. apply HGsame; auto; lia.
Qed.

Lemma lvec_new_U J1 l : vjdx X J1 -> (l < rr)%nat -> lvec G' r' J1 l = U J1 l * s l.
Proof.
  intros H1 Hl. unfold X in H1. apply vjdx_seq in H1 as [V1 L1].
  destruct (exists_last (l := J1)) as (J0 & j & ->); [intros ->; cbn in L1; lia|].
  rewrite app_length in L1. cbn [length] in L1.
  apply vchain_app in V1 as [V0 [Vj _]]. cbn in Vj.
  assert (L0 : length J0 = (i - 1)%nat) by lia.
  assert (P0 : (0 < r' 0)%nat) by (rewrite Hr; lia).
  assert (P1 : (l < r' (S (length J0)))%nat) by (rewrite L0; replace (S (i - 1)) with i by lia; now rewrite Hri).
  rewrite lvec_snoc by auto.
  rewrite L0. rewrite Hr by lia.
  assert (E0 : forall a, (a < r (i - 1))%nat -> lvec G' r' J0 a = lvec G r J0 a).
  { intros a Ha. unfold lvec, lv. symmetry. apply (chain_ext2 Rring ms); auto.
    - lia.
    - symmetry. apply Hr. lia.
    - intros m Hm. symmetry. apply Hr. lia.
    - intros m a0 j0 b0 Hm Ha0 Hb0 Hj0. symmetry. apply HGsame; auto; lia. }
  unfold U.
  rewrite (rsum_ext (r i) _ (fun b => rsum (r (i - 1)) (fun a => lvec G r J0 a * G (i - 1)%nat a j b * u b l))).
  2:{ intros b Hb. rewrite lvec_snoc by (rewrite ?L0; try lia; replace (S (i - 1)) with i by lia; auto).
      rewrite L0. now rewrite rsum_mul_r. }
  rewrite rsum_swap, <- rsum_mul_r. apply rsum_ext. intros a Ha. rewrite E0 by auto. rewrite HG'p; auto.
  2:{ rewrite L0 in Vj. exact Vj. }
  rewrite <- rsum_mul_l, <- rsum_mul_r. apply rsum_ext. intros b _. ring.
Qed.

Lemma A'_expan J1 J2 : vjdx X J1 -> vjdx Y J2 -> A' (J1 ++ J2) = rsum rr (fun l => U J1 l * s l * V J2 l).
Proof.
  intros H1 H2. pose proof (vjdx_length _ _ H1) as L1. unfold X in L1. rewrite map_length, seq_length in L1.
  unfold A'. rewrite cut by (rewrite Hr; lia). rewrite L1, Hri. apply rsum_ext. intros l Hl.
  now rewrite lvec_new_U, rvec_new_V by auto.
Qed.

(** The remainder before the step is orthogonal to the new right vectors too. *)
Lemma HO_V J1 l : vjdx X J1 -> rj Y (fun J2 => (A (J1 ++ J2) - Ai (J1 ++ J2)) * V J2 l) = 0.
Proof.
  intros H1. rewrite Y_cons, rj_cons.
  transitivity (ri (ms i) (fun _ => 0 * 0)); [|rewrite ri_mul_l; ring].
  apply ri_ext. intros j Hj.
  rewrite (rj_ext _ _ (fun J => rsum (r (S i)) (fun b => v j b l * ((A ((J1 ++ [j]) ++ J) - Ai ((J1 ++ [j]) ++ J)) * rvec G r (S i) J b)))).
  2:{ intros J _. rewrite <- app_assoc. cbn [app]. unfold V. rewrite <- rsum_mul_l. apply rsum_ext. intros; ring. }
  rewrite rj_rsum. rewrite rsum_0; [ring|]. intros b Hb. rewrite rj_mul_l, HO; [ring| |auto].
  rewrite seq_S, map_app. apply Forall2_app; auto. repeat constructor. exact Hj.
Qed.

(** In numbers. *)
Let m := jsize X.
Let n := jsize Y.
Let nA x y := A (jun X x ++ jun Y y).
Let nU x l := U (jun X x) l.
Let nV y l := V (jun Y y) l.

Lemma nU_ortho : ortho m K nU.
Proof. intros a b Ha Hb. rewrite <- (U_ortho a b Ha Hb), rj_rsum_all. reflexivity. Qed.
Lemma nV_ortho : ortho n K nV.
Proof. intros a b Ha Hb. rewrite <- (V_ortho a b Ha Hb), rj_rsum_all. reflexivity. Qed.
Lemma nOrth x l : (x < m)%nat -> (l < K)%nat -> rsum n (fun y => (nA x y - expan K nU s nV x y) * nV y l) = 0.
Proof.
  intros Hx Hl. rewrite <- (HO_V (jun X x) l) by now apply jun_valid. rewrite rj_rsum_all. apply rsum_ext. intros y Hy.
  unfold nA, nV. rewrite Ai_expan by now apply jun_valid. reflexivity.
Qed.

Lemma sum_cut (F : list (list nat) -> R) : rj (map ms (seq 0 d)) F = sum2 m n (fun x y => F (jun X x ++ jun Y y)).
Proof.
  rewrite (seq_cut i d) by lia. rewrite map_app, rj_app. fold X Y. rewrite rj_rsum_all. unfold sum2. apply rsum_ext.
  intros x Hx. now rewrite rj_rsum_all.
Qed.

Lemma step_error :
  rj (map ms (seq 0 d)) (fun J => (A J - A' J) * (A J - A' J)) =
  rj (map ms (seq 0 d)) (fun J => (A J - Ai J) * (A J - Ai J)) + tail K rr s.
Proof.
  rewrite !sum_cut. 
  rewrite (sum2_ext m n _ (fun x y => (nA x y - expan rr nU s nV x y) * (nA x y - expan rr nU s nV x y))).
  2:{ intros x y Hx Hy. rewrite A'_expan by now apply jun_valid. reflexivity. }
  rewrite (trunc_error m n K rr nA nU nV s nU_ortho nV_ortho HrK nOrth). f_equal.
  apply sum2_ext. intros x y Hx Hy. rewrite Ai_expan by now apply jun_valid. reflexivity.
Qed.

Lemma step_orth J1 l : vjdx X J1 -> (l < rr)%nat ->
  rj Y (fun J2 => (A (J1 ++ J2) - A' (J1 ++ J2)) * rvec G' r' i J2 l) = 0.
Proof.
  intros H1 Hl.
  rewrite (rj_ext _ _ (fun J2 => (A (J1 ++ J2) - Ai (J1 ++ J2)) * V J2 l + (Ai (J1 ++ J2) * V J2 l - A' (J1 ++ J2) * V J2 l))).
  2:{ intros J2 H2. rewrite rvec_new_V by auto. ring. }
  rewrite rj_add, HO_V by auto.
  rewrite (rj_ext _ _ (fun J2 => (Ai (J1 ++ J2) * V J2 l + (-1) * (A' (J1 ++ J2) * V J2 l)))) by (intros; ring).
  rewrite rj_add, rj_mul_l.
  assert (C : forall q, (q <= K)%nat -> (l < q)%nat -> rj Y (fun J2 => rsum q (fun k => U J1 k * s k * V J2 k) * V J2 l) = U J1 l * s l).
  { intros q Hq Hlq. rewrite rj_rsum_all.
    apply (expan_coef n q (fun _ k => U J1 k) s nV 0 l); auto. eapply ortho_le; [apply nV_ortho|auto]. }
  rewrite (rj_ext _ _ (fun J2 => rsum K (fun k => U J1 k * s k * V J2 k) * V J2 l)) by (intros; now rewrite Ai_expan).
  rewrite (rj_ext Y (fun J2 => A' (J1 ++ J2) * V J2 l) (fun J2 => rsum rr (fun k => U J1 k * s k * V J2 k) * V J2 l)) by (intros; now rewrite A'_expan).
  rewrite !C by lia. ring.
Qed.

Lemma step_right a a' : (a < rr)%nat -> (a' < rr)%nat ->
  rj Y (fun J => rvec G' r' i J a * rvec G' r' i J a') = kron a a'.
Proof.
  intros Ha Ha'. rewrite <- V_ortho by lia. apply rj_ext. intros J HJ. now rewrite !rvec_new_V.
Qed.

(** No tensor of rank at most [q] at this cut is closer to [A] than this tail, if [rr] is the
    smaller of [K] and a bound not below [q]. *)
Lemma step_best bound q (P Z : list (list nat) -> nat -> R) : rr = Nat.min bound K -> (q <= bound)%nat ->
  tail K rr s <= rj X (fun J1 => rj Y (fun J2 =>
     (A (J1 ++ J2) - rsum q (fun c => P J1 c * Z J2 c)) * (A (J1 ++ J2) - rsum q (fun c => P J1 c * Z J2 c)))).
Proof.
  intros Hb Hq. destruct (le_lt_dec K bound) as [Hk|Hk].
  - rewrite tail_full by lia. apply rj_nonneg. intros. apply rj_nonneg. intros. apply Rle_0_sqr.
  - apply Rle_trans with (tail K q s); [apply tail_mono; lia|].
    rewrite rj_rsum_all. rewrite (rsum_ext _ _ (fun x => rsum n (fun y =>
      (nA x y - rsum q (fun c => P (jun X x) c * Z (jun Y y) c)) * (nA x y - rsum q (fun c => P (jun X x) c * Z (jun Y y) c))))).
    2:{ intros x _. now rewrite rj_rsum_all. }
    apply (tail_best m n K q nA nU nV s nU_ortho nV_ortho Hs nOrth (fun x c => P (jun X x) c) (fun y c => Z (jun Y y) c)).
Qed.
End Step.
