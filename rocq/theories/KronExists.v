(** The assumptions about TensorFlow's inverse and Cholesky factorization can be satisfied. *)
From Coq Require Import String List Arith ZArith Lia Lra Bool Reals Classical ClassicalEpsilon.
From Verif Require Import Scalar Tensor TensorLemmas OpsR Det DecompSpec KronSpec DetProofs KronProofs.
Import ListNotations.
Local Open Scope nat_scope.
Local Notation get := (@get Rring).
Local Notation rsum := (@sumn Rring).

Lemma rsum_ext n f g : (forall i, i < n -> f i = g i) -> rsum n f = rsum n g.
Proof. apply (sumn_ext Rring). Qed.
Lemma rsum_S n f : rsum (S n) f = (f 0%nat + rsum n (fun i => f (S i)))%R.
Proof. exact (sumn_S_l Rring n f). Qed.
Lemma rsum_add n f g : rsum n (fun i => f i + g i)%R = (rsum n f + rsum n g)%R.
Proof. exact (sumn_add Rring n f g). Qed.
Lemma rsum_mul_l n c f : rsum n (fun i => c * f i)%R = (c * rsum n f)%R.
Proof. exact (sumn_mul_l Rring n c f). Qed.
Lemma rsum_0 n f : (forall i, i < n -> f i = 0%R) -> rsum n f = 0%R.
Proof. exact (sumn_zero Rring n f). Qed.

(** Cholesky's algorithm. *)
Definition schur (A : nat -> nat -> R) (i j : nat) : R := (A (S i) (S j) - A (S i) 0%nat * A 0%nat (S j) / A 0%nat 0%nat)%R.
Fixpoint chol (n : nat) (A : nat -> nat -> R) (i j : nat) : R :=
  match n with
  | O => 0%R
  | S n' => match i, j with
            | 0, 0 => sqrt (A 0%nat 0%nat)
            | S i', 0 => (A (S i') 0%nat / sqrt (A 0%nat 0%nat))%R
            | 0, S _ => 0%R
            | S i', S j' => chol n' (schur A) i' j'
            end
  end.

Lemma quad_S n A v : quad (S n) A v = (v 0%nat * A 0%nat 0%nat * v 0%nat + v 0%nat * rsum n (fun j => A 0%nat (S j) * v (S j))
  + v 0%nat * rsum n (fun i => A (S i) 0%nat * v (S i)) + quad n (fun i j => A (S i) (S j)) (fun i => v (S i)))%R.
Proof.
  unfold quad. rewrite rsum_S. rewrite rsum_S.
  rewrite (rsum_ext n (fun i => rsum (S n) (fun j => (v (S i) * A (S i) j * v j)%R))
    (fun i => (v 0%nat * (A (S i) 0%nat * v (S i)) + rsum n (fun j => v (S i) * A (S i) (S j) * v (S j)))%R)).
  2:{ intros i Hi. rewrite rsum_S. req. ring. }
  rewrite rsum_add, rsum_mul_l.
  rewrite (rsum_ext n (fun i => (v 0%nat * A 0%nat (S i) * v (S i))%R) (fun j => (v 0%nat * (A 0%nat (S j) * v (S j)))%R)) by (intros; req; ring).
  rewrite rsum_mul_l. ring.
Qed.
Lemma quad_schur n A w : symmetric (S n) A -> A 0%nat 0%nat <> 0%R ->
  quad n (schur A) w = (quad n (fun i j => A (S i) (S j)) w - (rsum n (fun j => A 0%nat (S j) * w j)) ^ 2 / A 0%nat 0%nat)%R.
Proof.
  intros Hs Ha. unfold quad, schur. set (s := rsum n (fun j => (A 0%nat (S j) * w j)%R)).
  rewrite (rsum_ext n _ (fun i => (rsum n (fun j => w i * A (S i) (S j) * w j) + (- s / A 0%nat 0%nat) * (A 0%nat (S i) * w i))%R)).
  - rewrite rsum_add, rsum_mul_l. fold s. req. field. auto.
  - intros i Hi.
    rewrite (rsum_ext n _ (fun j => (w i * A (S i) (S j) * w j + (- (w i * A (S i) 0%nat) / A 0%nat 0%nat) * (A 0%nat (S j) * w j))%R)) by (intros; req; field; auto).
    rewrite rsum_add, rsum_mul_l. fold s. rewrite (Hs (S i) 0) by lia. req. field. auto.
Qed.
Lemma posdef_corner n A : posdef (S n) A -> (0 < A 0%nat 0%nat)%R.
Proof.
  intros H. specialize (H (fun i => match i with O => 1%R | _ => 0%R end)). rewrite quad_S in H.
  rewrite !rsum_0 in H by (intros; req; ring). unfold quad in H. rewrite rsum_0 in H.
  - assert (0 < 1 * A 0%nat 0%nat * 1 + 1 * 0 + 1 * 0 + 0)%R; [|lra]. apply H. exists 0. split; [lia|lra].
  - intros i Hi. apply rsum_0. intros; req; ring.
Qed.
Lemma posdef_schur n A : symmetric (S n) A -> posdef (S n) A -> symmetric n (schur A) /\ posdef n (schur A).
Proof.
  intros Hs Hp. pose proof (posdef_corner _ _ Hp) as Ha. split.
  - intros i j Hi Hj. unfold schur. rewrite (Hs (S i) (S j)), (Hs (S i) 0), (Hs 0 (S j)) by lia. req. field. lra.
  - intros w (i & Hi & Hwi). rewrite quad_schur by (auto; lra). set (s := rsum n (fun j => (A 0%nat (S j) * w j)%R)).
    specialize (Hp (fun k => match k with O => (- s / A 0%nat 0%nat)%R | S k' => w k' end)).
    rewrite quad_S in Hp. fold s in Hp.
    assert (E : rsum n (fun i => (A (S i) 0%nat * w i)%R) = s) by (apply rsum_ext; intros k Hk; rewrite (Hs (S k) 0) by lia; reflexivity).
    rewrite E in Hp. eapply Rlt_le_trans; [apply Hp; exists (S i); split; [lia|exact Hwi]|]. right.
    unfold quad. req. field. lra.
Qed.

Lemma chol_ok n : forall A, symmetric n A -> posdef n A -> cholesky_factor n A (chol n A).
Proof.
  induction n as [|n IH]; intros A Hs Hp; [split; [|split]; [intros ? ? ? ?; lia|intros ? ?; lia|intros ? ? ? ?; lia]|].
  pose proof (posdef_corner _ _ Hp) as Ha. destruct (posdef_schur _ _ Hs Hp) as [Hs' Hp']. destruct (IH _ Hs' Hp') as (L1 & L2 & L3).
  pose proof (sqrt_lt_R0 _ Ha) as Hq. pose proof (sqrt_sqrt (A 0%nat 0%nat) ltac:(lra)) as Hqq. set (q := sqrt (A 0%nat 0%nat)) in *.
  split; [|split].
  - intros [|i] [|j] H1 H2; try lia; cbn [chol]; auto. apply L1; lia.
  - intros [|i] Hi; cbn [chol]; [exact Hq|]. apply L2. lia.
  - intros i j Hi Hj. unfold mmul, mtr. rewrite rsum_S. destruct i as [|i], j as [|j]; cbn [chol]; fold q.
    + rewrite rsum_0 by (intros; req; ring). rewrite Hqq. ring.
    + rewrite rsum_0 by (intros; req; ring). rewrite (Hs 0 (S j)) by lia. req. field. lra.
    + rewrite rsum_0 by (intros; req; ring). req. field. lra.
    + specialize (L3 i j ltac:(lia) ltac:(lia)). unfold mmul, mtr in L3. rewrite L3. unfold schur. rewrite <- Hqq, (Hs (S j) 0) by lia. req. field. lra.
Qed.

(** Batches of matrices. *)
Section Lift.
Variable good : nat -> (nat -> nat -> R) -> Prop.
Variable g : nat -> (nat -> nat -> R) -> nat -> nat -> R.
Definition lift (x : rtensor) : res rtensor :=
  let pre := firstn (length (shape x) - 2) (shape x) in
  let n := last (shape x) 0 in
  if excluded_middle_informative (forall p, vidx pre p -> good n (mat x p))
  then Ok (mk (K := Rring) (shape x) (fun idx => let p := firstn (length pre) idx in g n (mat x p) (nth (length pre) idx 0) (nth (S (length pre)) idx 0)))
  else Err TFError.
Lemma lift_ok pre n x : shape x = pre ++ [n; n] ->
  ((forall p, vidx pre p -> good n (mat x p)) -> exists y, lift x = Ok y /\ wft y /\ shape y = shape x /\ forall p, vidx pre p -> meq n (mat y p) (g n (mat x p))) /\
  ((exists p, vidx pre p /\ ~ good n (mat x p)) -> lift x = Err TFError).
Proof.
  intros S. unfold lift. rewrite S, app_length. cbn [length].
  replace (length pre + 2 - 2) with (length pre) by lia. rewrite firstn_app, Nat.sub_diag, firstn_all. cbn [firstn]. rewrite app_nil_r.
  replace (last (pre ++ [n; n]) 0) with n by (change [n; n] with ([n] ++ [n]); rewrite app_assoc, last_last; reflexivity).
  split.
  - intros H. destruct (excluded_middle_informative _) as [_|C]; [|contradiction]. eexists. split; [reflexivity|]. split; [apply wft_mk|]. split; [reflexivity|].
    intros p Hp i j Hi Hj. unfold mat at 1. pose proof (vidx_length _ _ Hp) as Lp. rewrite get_mk by (apply vidx_app; auto; vsolve). cbv zeta.
    rewrite <- Lp. rewrite firstn_app, Nat.sub_diag, firstn_all. cbn [firstn]. rewrite app_nil_r.
    rewrite !app_nth2 by lia. rewrite Nat.sub_diag. replace (Datatypes.S (length p) - length p) with 1 by lia. reflexivity.
  - intros (p & Hp & Hn). destruct (excluded_middle_informative _) as [C|_]; [|reflexivity]. exfalso. now apply Hn, C.
Qed.
End Lift.

Definition some_inv_mat (n : nat) (A : nat -> nat -> R) : nat -> nat -> R :=
  match excluded_middle_informative (exists B, right_inverse n A B) with
  | left H => proj1_sig (constructive_indefinite_description _ H)
  | right _ => kron
  end.
Definition some_inv : rtensor -> res rtensor := lift (fun n A => det n A <> 0%R) some_inv_mat.
Definition some_cho : rtensor -> res rtensor := lift posdef chol.

Lemma some_inv_ok : inv_ok some_inv.
Proof.
  intros pre n x Wx Sx _. destruct (lift_ok (fun n A => det n A <> 0%R) some_inv_mat pre n x Sx) as [H1 H2]. split.
  - intros Hd. destruct (H1 Hd) as (y & Ey & Wy & Sy & Gy). exists y. do 3 (split; auto). intros p Hp.
    assert (HB : right_inverse n (mat x p) (some_inv_mat n (mat x p))).
    { unfold some_inv_mat. destruct (excluded_middle_informative _) as [He|He]; [exact (proj2_sig (constructive_indefinite_description _ He))|].
      exfalso. apply He. now apply inverse_exists, Hd. }
    intros i j Hi Hj. rewrite <- (HB i j Hi Hj). unfold mmul. apply rsum_ext. intros k Hk. now rewrite Gy.
  - intros (p & Hp & Z). apply H2. exists p. split; auto.
Qed.
Lemma some_cho_ok : cho_ok some_cho.
Proof.
  intros pre n x Wx Sx _ Hs. destruct (lift_ok posdef chol pre n x Sx) as [H1 H2]. split; [|exact H2].
  intros Hd. destruct (H1 Hd) as (y & Ey & Wy & Sy & Gy). exists y. do 3 (split; auto). intros p Hp.
  destruct (chol_ok n (mat x p) (Hs p Hp) (Hd p Hp)) as (L1 & L2 & L3). split; [|split].
  - intros i j Hij Hj. rewrite Gy by (auto; lia). auto.
  - intros i Hi. rewrite Gy by auto. auto.
  - intros i j Hi Hj. rewrite <- (L3 i j Hi Hj). unfold mmul, mtr. apply rsum_ext. intros k Hk. now rewrite !Gy.
Qed.
