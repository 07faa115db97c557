(** Routines satisfying the contract [qr_ok] exist: Gram-Schmidt, completed by arbitrary
    orthonormal columns where the input is rank-deficient. *)
From Coq Require Import List Arith ZArith Lia Lra Bool Ring Reals.
From Verif Require Import Scalar Tensor TensorLemmas TensorLemmas2 Base Spec BaseLemmas OpsR DecompSpec.
Import ListNotations.
Local Open Scope R_scope.

Definition rsum (n : nat) (f : nat -> R) : R := sumn (K := Rring) n f.

Lemma rsum_S n f : rsum (S n) f = rsum n f + f n. Proof. reflexivity. Qed.
Lemma rsum_ext n f g : (forall i, (i < n)%nat -> f i = g i) -> rsum n f = rsum n g.
Proof. apply (sumn_ext Rring). Qed.
Lemma rsum_add n f g : rsum n (fun i => f i + g i) = rsum n f + rsum n g.
Proof. induction n; [cbn; lra|]. rewrite !rsum_S, IHn. lra. Qed.
Lemma rsum_sub n f g : rsum n (fun i => f i - g i) = rsum n f - rsum n g.
Proof. induction n; [cbn; lra|]. rewrite !rsum_S, IHn. lra. Qed.
Lemma rsum_mul_l n c f : rsum n (fun i => c * f i) = c * rsum n f.
Proof. induction n; [cbn; lra|]. rewrite !rsum_S, IHn. lra. Qed.
Lemma rsum_mul_r n c f : rsum n (fun i => f i * c) = rsum n f * c.
Proof. induction n; [cbn; lra|]. rewrite !rsum_S, IHn. lra. Qed.
Lemma rsum_swap n m f : rsum n (fun i => rsum m (fun j => f i j)) = rsum m (fun j => rsum n (fun i => f i j)).
Proof. apply (sumn_swap Rring). Qed.
Lemma rsum_0 n f : (forall i, (i < n)%nat -> f i = 0) -> rsum n f = 0.
Proof. intros H. rewrite (rsum_ext n f (fun _ => 0 * 0)) by (intros; rewrite H by auto; lra). rewrite rsum_mul_l. lra. Qed.
Lemma rsum_le n f g : (forall i, (i < n)%nat -> f i <= g i) -> rsum n f <= rsum n g.
Proof. induction n; intros H; [cbn; lra|]. rewrite !rsum_S. assert (f n <= g n) by (apply H; lia).
  assert (rsum n f <= rsum n g) by (apply IHn; intros; apply H; lia). lra. Qed.
Lemma rsum_nonneg n f : (forall i, (i < n)%nat -> 0 <= f i) -> 0 <= rsum n f.
Proof. intros H. rewrite <- (rsum_0 n (fun _ => 0)) by auto. now apply rsum_le. Qed.
Lemma rsum_zero_each n f : (forall i, (i < n)%nat -> 0 <= f i) -> rsum n f = 0 -> forall i, (i < n)%nat -> f i = 0.
Proof.
  induction n; intros H E i Hi; [lia|]. rewrite rsum_S in E.
  assert (0 <= f n) by (apply H; lia). assert (0 <= rsum n f) by (apply rsum_nonneg; intros; apply H; lia).
  destruct (Nat.eq_dec i n) as [->|]; [lra|]. apply IHn; [intros; apply H; lia|lra|lia].
Qed.
Lemma rsum_kron_l n i f : (i < n)%nat -> rsum n (fun k => kron i k * f k) = f i.
Proof.
  induction n; intros Hi; [lia|]. rewrite rsum_S. unfold kron at 2. destruct (Nat.eqb_spec i n) as [->|].
  - rewrite rsum_0; [lra|]. intros k Hk. unfold kron. destruct (Nat.eqb_spec n k); [lia|lra].
  - rewrite IHn by lia. lra.
Qed.
Lemma kron_sym i j : kron i j = kron j i. Proof. unfold kron. now rewrite Nat.eqb_sym. Qed.
Lemma kron_same i : kron i i = 1. Proof. unfold kron. now rewrite Nat.eqb_refl. Qed.
Lemma kron_diff i j : i <> j -> kron i j = 0. Proof. unfold kron. intros. destruct (Nat.eqb_spec i j); [easy|auto]. Qed.
Lemma rsum_kron_r n i f : (i < n)%nat -> rsum n (fun k => f k * kron i k) = f i.
Proof. intros. rewrite <- (rsum_kron_l n i f) by auto. apply rsum_ext. intros. lra. Qed.

Lemma find_nonzero n (f : nat -> R) : {i | (i < n)%nat /\ f i <> 0} + {forall i, (i < n)%nat -> f i = 0}.
Proof.
  induction n as [|n [[i [Hi Hf]]|Hn]]; [right; lia|left; exists i; split; [lia|auto]|].
  destruct (Req_EM_T (f n) 0) as [E|E].
  - right. intros i Hi. destruct (Nat.eq_dec i n) as [->|]; [auto|apply Hn; lia].
  - left. exists n. split; [lia|auto].
Qed.

(** [q] has [k] orthonormal columns of length [m]. *)
Definition ortho (m k : nat) (q : nat -> nat -> R) : Prop :=
  forall a b, (a < k)%nat -> (b < k)%nat -> rsum m (fun i => q i a * q i b) = kron a b.

(** Component of a vector orthogonal to the columns. *)
Definition coef (m : nat) (q : nat -> nat -> R) (v : nat -> R) (l : nat) : R := rsum m (fun i => q i l * v i).
Definition resid (m k : nat) (q : nat -> nat -> R) (v : nat -> R) (i : nat) : R :=
  v i - rsum k (fun l => coef m q v l * q i l).

Lemma resid_orth m k q v : ortho m k q -> forall a, (a < k)%nat -> rsum m (fun i => q i a * resid m k q v i) = 0.
Proof.
  intros H a Ha. unfold resid.
  rewrite (rsum_ext m _ (fun i => q i a * v i - rsum k (fun l => coef m q v l * (q i a * q i l)))).
  2:{ intros i _. rewrite Rmult_minus_distr_l. f_equal. rewrite <- rsum_mul_l. apply rsum_ext. intros; ring. }
  rewrite rsum_sub, rsum_swap.
  rewrite (rsum_ext k _ (fun l => coef m q v l * kron a l)).
  2:{ intros l Hl. rewrite rsum_mul_l. now rewrite H. }
  rewrite rsum_kron_r by auto. unfold coef. ring.
Qed.

Lemma resid_norm m k q v : ortho m k q ->
  rsum m (fun i => resid m k q v i * resid m k q v i) = rsum m (fun i => v i * v i) - rsum k (fun l => coef m q v l * coef m q v l).
Proof.
  intros H.
  rewrite (rsum_ext m _ (fun i => resid m k q v i * v i - rsum k (fun l => coef m q v l * (q i l * resid m k q v i)))).
  2:{ intros i _. unfold resid at 2. rewrite Rmult_minus_distr_l. f_equal. rewrite <- rsum_mul_l. apply rsum_ext. intros; ring. }
  rewrite rsum_sub, rsum_swap. rewrite (rsum_0 k).
  2:{ intros l Hl. rewrite rsum_mul_l, resid_orth by auto. ring. }
  rewrite (rsum_ext m _ (fun i => v i * v i - rsum k (fun l => coef m q v l * (q i l * v i)))).
  2:{ intros i _. unfold resid. rewrite Rmult_minus_distr_r. f_equal. rewrite <- rsum_mul_r. apply rsum_ext. intros; ring. }
  rewrite rsum_sub, rsum_swap. unfold coef at 3. 
  rewrite (rsum_ext k (fun j => rsum m (fun i => coef m q v j * (q i j * v i))) (fun l => coef m q v l * coef m q v l)).
  2:{ intros l _. now rewrite rsum_mul_l. }
  unfold coef. ring.
Qed.

Lemma trace_identity m k q : ortho m k q ->
  rsum m (fun e => rsum m (fun i => resid m k q (kron e) i * resid m k q (kron e) i)) = INR m - INR k.
Proof.
  intros H. rewrite (rsum_ext m _ (fun e => 1 - rsum k (fun l => q e l * q e l))).
  2:{ intros e He. rewrite resid_norm by auto. f_equal.
      - rewrite rsum_kron_l by auto. apply kron_same.
      - apply rsum_ext. intros l _. unfold coef. rewrite (rsum_kron_r m e (fun i => q i l)) by auto. reflexivity. }
  rewrite rsum_sub, rsum_swap. f_equal.
  - clear. induction m; [reflexivity|]. rewrite rsum_S, IHm, S_INR. reflexivity.
  - rewrite (rsum_ext k _ (fun _ => 1)). 2:{ intros l Hl. rewrite H by auto. apply kron_same. }
    clear. induction k; [reflexivity|]. rewrite rsum_S, IHk, S_INR. reflexivity.
Qed.

(** A unit vector orthogonal to fewer than [m] orthonormal columns. *)
Definition unit_of (m : nat) (w : nat -> R) (i : nat) : R := w i / sqrt (rsum m (fun i => w i * w i)).

Lemma sumsq_pos m w i : (i < m)%nat -> w i <> 0 -> 0 < rsum m (fun i => w i * w i).
Proof.
  intros Hi Hw. assert (0 <= rsum m (fun i => w i * w i)) by (apply rsum_nonneg; intros; nra).
  destruct (Req_dec (rsum m (fun i => w i * w i)) 0) as [E|]; [|lra].
  pose proof (rsum_zero_each m (fun i => w i * w i) ltac:(intros; nra) E i Hi) as E2. cbn in E2. nra.
Qed.

Lemma unit_norm m w : 0 < rsum m (fun i => w i * w i) -> rsum m (fun i => unit_of m w i * unit_of m w i) = 1.
Proof.
  intros H. unfold unit_of. set (s := rsum m (fun i => w i * w i)) in *.
  assert (Hs : 0 < sqrt s) by now apply sqrt_lt_R0.
  rewrite (rsum_ext m _ (fun i => (w i * w i) * / s)).
  2:{ intros i _. unfold Rdiv. rewrite <- (sqrt_sqrt s) at 3 by lra. field. lra. }
  rewrite rsum_mul_r. fold s. field. lra.
Qed.

Lemma unit_orth m w (q : nat -> nat -> R) a : rsum m (fun i => q i a * w i) = 0 -> rsum m (fun i => q i a * unit_of m w i) = 0.
Proof.
  intros H. unfold unit_of. rewrite (rsum_ext m _ (fun i => (q i a * w i) * / sqrt (rsum m (fun i => w i * w i)))).
  2:{ intros; unfold Rdiv; ring. }
  rewrite rsum_mul_r, H. ring.
Qed.

Lemma extra_column m k q : ortho m k q -> (k < m)%nat ->
  {w : nat -> R | 0 < rsum m (fun i => w i * w i) /\ forall a, (a < k)%nat -> rsum m (fun i => q i a * w i) = 0}.
Proof.
  intros H Hk.
  destruct (find_nonzero m (fun e => rsum m (fun i => resid m k q (kron e) i * resid m k q (kron e) i))) as [(e & He & Hn)|Hz].
  - exists (resid m k q (kron e)). split.
    + destruct (Rle_lt_or_eq_dec 0 _ (rsum_nonneg m (fun i => resid m k q (kron e) i * resid m k q (kron e) i) ltac:(intros; nra))); [auto|lra].
    + now apply resid_orth.
  - exfalso. pose proof (trace_identity m k q H) as T. rewrite rsum_0 in T by exact Hz. apply lt_INR in Hk. lra.
Qed.

Definition addcol (k : nat) (q : nat -> nat -> R) (u : nat -> R) : nat -> nat -> R :=
  fun i l => if Nat.eqb l k then u i else q i l.

Lemma addcol_ortho m k q w : ortho m k q -> 0 < rsum m (fun i => w i * w i) ->
  (forall a, (a < k)%nat -> rsum m (fun i => q i a * w i) = 0) -> ortho m (S k) (addcol k q (unit_of m w)).
Proof.
  intros H Hw Ho a b Ha Hb. unfold addcol.
  destruct (Nat.eqb_spec a k) as [->|Na], (Nat.eqb_spec b k) as [->|Nb].
  - rewrite kron_same. now apply unit_norm.
  - rewrite kron_diff by auto. rewrite (rsum_ext m _ (fun i => q i b * unit_of m w i)) by (intros; ring).
    apply unit_orth, Ho. lia.
  - rewrite kron_diff by auto. apply unit_orth, Ho. lia.
  - apply H; lia.
Qed.

Definition qr_spec (m n : nat) (x q r : nat -> nat -> R) : Prop :=
  (forall i j, (i < m)%nat -> (j < n)%nat -> x i j = rsum (Nat.min m n) (fun l => q i l * r l j)) /\ ortho m (Nat.min m n) q.

Lemma qr_exists m n (x : nat -> nat -> R) : {q : nat -> nat -> R & {r : nat -> nat -> R | qr_spec m n x q r}}.
Proof.
  induction n as [|n (q & r & H1 & H2)].
  - exists (fun _ _ => 0), (fun _ _ => 0). unfold qr_spec. rewrite Nat.min_0_r. split; [lia|]. intros a b Ha; lia.
  - destruct (le_lt_dec m n) as [Hmn|Hmn].
    + rewrite Nat.min_l in * by lia.
      exists q, (fun l j => if Nat.eqb j n then coef m q (fun i => x i n) l else r l j).
      unfold qr_spec. rewrite Nat.min_l by lia. split; [|exact H2]. intros i j Hi Hj.
      destruct (Nat.eqb_spec j n) as [->|]; [|apply H1; lia].
      assert (Z : forall e i, (e < m)%nat -> (i < m)%nat -> resid m m q (kron e) i = 0).
      { intros e i' He Hi'. pose proof (trace_identity m m q H2) as T. rewrite Rminus_diag_eq in T by auto.
        pose proof (fun H => rsum_zero_each m _ H T e He) as T2. cbn beta in T2. specialize (T2 ltac:(intros; apply rsum_nonneg; intros; nra)).
        pose proof (fun H => rsum_zero_each m _ H T2 i' Hi') as T3. cbn beta in T3. specialize (T3 ltac:(intros; nra)).
        apply Rmult_integral in T3. tauto. }
      assert (Z2 : forall e, (e < m)%nat -> kron i e = rsum m (fun l => q i l * q e l)).
      { intros e He. specialize (Z e i He Hi). unfold resid in Z.
        rewrite (rsum_ext m _ (fun l => q i l * q e l)) in Z; [rewrite kron_sym; lra|].
        intros l Hl. unfold coef. rewrite (rsum_kron_r m e (fun i => q i l)) by auto. ring. }
      rewrite <- (rsum_kron_l m i (fun e => x e n)) by auto.
      rewrite (rsum_ext m _ (fun e => rsum m (fun l => q i l * (q e l * x e n)))).
      2:{ intros e He. rewrite Z2 by auto. rewrite <- rsum_mul_r. apply rsum_ext. intros; ring. }
      rewrite rsum_swap. apply rsum_ext. intros l Hl. rewrite rsum_mul_l. reflexivity.
    + rewrite Nat.min_r in * by lia. set (v := fun i => x i n).
      set (w := resid m n q v).
      assert (Hdec : forall i, x i n = rsum n (fun l => q i l * coef m q v l) + w i).
      { intros i. unfold w, resid. rewrite (rsum_ext n (fun l => coef m q v l * q i l) (fun l => q i l * coef m q v l)) by (intros; ring).
        unfold v. ring. }
      assert (Hold : forall u rr i j, (i < m)%nat -> (j < n)%nat ->
        x i j = rsum (S n) (fun l => addcol n q u i l * (if Nat.eqb j n then rr l else if Nat.eqb l n then 0 else r l j))).
      { intros u rr i j Hi Hj. rewrite rsum_S. unfold addcol at 2. rewrite Nat.eqb_refl. destruct (Nat.eqb_spec j n); [lia|].
        rewrite Rmult_0_r, Rplus_0_r. rewrite (H1 i j Hi Hj). apply rsum_ext. intros l Hl. unfold addcol.
        destruct (Nat.eqb_spec l n); [lia|reflexivity]. }
      unfold qr_spec. rewrite Nat.min_r by lia.
      destruct (find_nonzero m w) as [(e & He & Hn)|Hz].
      * exists (addcol n q (unit_of m w)), (fun l j => if Nat.eqb j n then (if Nat.eqb l n then sqrt (rsum m (fun i => w i * w i)) else coef m q v l)
                                                      else if Nat.eqb l n then 0 else r l j).
        pose proof (sumsq_pos m w e He Hn) as Hp.
        split; [|apply addcol_ortho; auto; now apply resid_orth].
        intros i j Hi Hj. destruct (Nat.eq_dec j n) as [->|].
        -- rewrite Nat.eqb_refl, rsum_S. unfold addcol at 2. rewrite !Nat.eqb_refl. rewrite Hdec. f_equal.
           ++ apply rsum_ext. intros l Hl. unfold addcol. destruct (Nat.eqb_spec l n); [lia|reflexivity].
           ++ unfold unit_of. field. apply Rgt_not_eq. now apply sqrt_lt_R0.
        -- apply (Hold _ (fun l => if Nat.eqb l n then sqrt (rsum m (fun i => w i * w i)) else coef m q v l)); lia.
      * destruct (extra_column m n q H2 Hmn) as (u & Hu & Ho).
        exists (addcol n q (unit_of m u)), (fun l j => if Nat.eqb j n then (if Nat.eqb l n then 0 else coef m q v l)
                                                      else if Nat.eqb l n then 0 else r l j).
        split; [|now apply addcol_ortho].
        intros i j Hi Hj. destruct (Nat.eq_dec j n) as [->|].
        -- rewrite Nat.eqb_refl, rsum_S, Nat.eqb_refl. rewrite Hdec, Hz by auto. rewrite Rmult_0_r. f_equal.
           apply rsum_ext. intros l Hl. unfold addcol. destruct (Nat.eqb_spec l n); [lia|reflexivity].
        -- apply (Hold _ (fun l => if Nat.eqb l n then 0 else coef m q v l)); lia.
Qed.

(** The batched routine on tensors. *)
Definition mat_of (x : rtensor) (p : list nat) : nat -> nat -> R := fun i j => get x (p ++ [i; j]).
Definition split2 (sh : list nat) : list nat * nat * nat :=
  (firstn (length sh - 2) sh, nth (length sh - 2) sh 0%nat, nth (length sh - 1) sh 0%nat).
Lemma split2_app pre m n : split2 (pre ++ [m; n]) = (pre, m, n).
Proof.
  unfold split2. rewrite app_length. cbn [length].
  replace (length pre + 2 - 2)%nat with (length pre) by lia. replace (length pre + 2 - 1)%nat with (S (length pre)) by lia.
  rewrite firstn_app, firstn_all, Nat.sub_diag, app_nil_r. rewrite nth_middle.
  rewrite app_nth2 by lia. now replace (S (length pre) - length pre)%nat with 1%nat by lia.
Qed.
Definition tens2 (pre : list nat) (m n : nat) (f : list nat -> nat -> nat -> R) : rtensor :=
  mk (K := Rring) (pre ++ [m; n]) (fun idx =>
    f (firstn (length pre) idx) (nth (length pre) idx 0%nat) (nth (S (length pre)) idx 0%nat)).
Lemma get_tens2 pre m n f p i j : vidx pre p -> (i < m)%nat -> (j < n)%nat -> get (tens2 pre m n f) (p ++ [i; j]) = f p i j.
Proof.
  intros Hp Hi Hj. unfold tens2. rewrite get_mk by (apply vidx_app; [auto|vsolve]).
  rewrite <- (vidx_length _ _ Hp). rewrite firstn_app, firstn_all, Nat.sub_diag, app_nil_r. rewrite nth_middle.
  rewrite app_nth2 by lia. now replace (S (length p) - length p)%nat with 1%nat by lia.
Qed.

Definition gram_schmidt (x : rtensor) : rtensor * rtensor :=
  let '(pre, m, n) := split2 (shape x) in
  (tens2 pre m (Nat.min m n) (fun p => projT1 (qr_exists m n (mat_of x p))),
   tens2 pre (Nat.min m n) n (fun p => proj1_sig (projT2 (qr_exists m n (mat_of x p))))).

Theorem gram_schmidt_ok : qr_ok gram_schmidt.
Proof.
  intros pre m n x Wx Sx Pos. unfold gram_schmidt. rewrite Sx, split2_app. cbn [fst snd].
  split; [apply wft_mk|]. split; [reflexivity|]. split; [apply wft_mk|]. split; [reflexivity|].
  intros p Hp. destruct (qr_exists m n (mat_of x p)) as (q & r & H1 & H2) eqn:E.
  split.
  - intros i j Hi Hj. change (get x (p ++ [i; j])) with (mat_of x p i j). rewrite H1 by auto.
    apply (sumn_ext Rring). intros l Hl. rewrite !get_tens2 by auto. rewrite E. reflexivity.
  - intros a b Ha Hb. rewrite <- (H2 a b Ha Hb). apply (sumn_ext Rring). intros i Hi.
    rewrite !get_tens2 by auto. rewrite E. reflexivity.
Qed.
