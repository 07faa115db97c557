(** Truncating singular value expansions: the error of one truncation, orthogonality of the
    remainder, and optimality (Eckart-Young).  Matrices are functions nat -> nat -> R. *)
From Coq Require Import List Arith ZArith Lia Lra Bool Ring Reals.
From Verif Require Import Scalar Tensor TensorLemmas OpsR DecompSpec QRExists.
Local Open Scope R_scope.

Definition expan (K : nat) (U : nat -> nat -> R) (s : nat -> R) (V : nat -> nat -> R) (x y : nat) : R :=
  rsum K (fun l => U x l * s l * V y l).
Definition sum2 (m n : nat) (F : nat -> nat -> R) : R := rsum m (fun x => rsum n (fun y => F x y)).
Definition tail (K r : nat) (s : nat -> R) : R := rsum (K - r) (fun l => s (r + l)%nat * s (r + l)%nat).

Lemma rsum_app_range a b f : rsum (a + b) f = rsum a f + rsum b (fun l => f (a + l)%nat).
Proof.
  induction b.
  - rewrite Nat.add_0_r. cbn. lra.
  - rewrite Nat.add_succ_r, !rsum_S, IHb. lra.
Qed.

Lemma rsum_1s n : rsum n (fun _ => 1) = INR n.
Proof. induction n; [reflexivity|]. now rewrite rsum_S, IHn, S_INR. Qed.

Lemma sum2_ext m n F G : (forall x y, (x < m)%nat -> (y < n)%nat -> F x y = G x y) -> sum2 m n F = sum2 m n G.
Proof. intros H. apply rsum_ext. intros x Hx. apply rsum_ext. auto. Qed.
Lemma sum2_swap m n F : sum2 m n F = sum2 n m (fun y x => F x y).
Proof. apply rsum_swap. Qed.
Lemma sum2_nonneg m n F : (forall x y, (x < m)%nat -> (y < n)%nat -> 0 <= F x y) -> 0 <= sum2 m n F.
Proof. intros H. apply rsum_nonneg. intros. apply rsum_nonneg. auto. Qed.
Lemma tail_nonneg K r s : 0 <= tail K r s.
Proof. apply rsum_nonneg. intros. nra. Qed.

Lemma expan_split K r U s V x y : (r <= K)%nat ->
  expan K U s V x y = expan r U s V x y +
    expan (K - r) (fun x l => U x (r + l)%nat) (fun l => s (r + l)%nat) (fun y l => V y (r + l)%nat) x y.
Proof. intros H. unfold expan. replace K with (r + (K - r))%nat at 1 by lia. now rewrite rsum_app_range. Qed.

(** Coefficients of an expansion along its right vectors. *)
Lemma expan_coef n K U s V x l : ortho n K V -> (l < K)%nat ->
  rsum n (fun y => expan K U s V x y * V y l) = U x l * s l.
Proof.
  intros HV Hl. unfold expan.
  rewrite (rsum_ext n _ (fun y => rsum K (fun k => (U x k * s k) * (V y k * V y l)))).
  2:{ intros y _. rewrite <- rsum_mul_r. apply rsum_ext. intros; ring. }
  rewrite rsum_swap. rewrite (rsum_ext K _ (fun k => (U x k * s k) * kron l k)).
  2:{ intros k Hk. rewrite rsum_mul_l, HV by auto. now rewrite kron_sym. }
  now rewrite rsum_kron_r.
Qed.

(** Squared norm of an expansion. *)
Lemma expan_norm m n K U s V : ortho m K U -> ortho n K V ->
  sum2 m n (fun x y => expan K U s V x y * expan K U s V x y) = rsum K (fun l => s l * s l).
Proof.
  intros HU HV. unfold sum2.
  rewrite (rsum_ext m _ (fun x => rsum K (fun l => (s l * s l) * (U x l * U x l)))).
  2:{ intros x _. unfold expan at 2.
      rewrite (rsum_ext n _ (fun y => rsum K (fun l => (U x l * s l) * (expan K U s V x y * V y l)))).
      2:{ intros y _. rewrite <- rsum_mul_l. apply rsum_ext. intros; ring. }
      rewrite rsum_swap. apply rsum_ext. intros l Hl. rewrite rsum_mul_l, expan_coef by auto. ring. }
  rewrite rsum_swap. apply rsum_ext. intros l Hl. rewrite rsum_mul_l, HU by auto. rewrite kron_same. ring.
Qed.

Lemma ortho_shift m K r q : ortho m K q -> (r <= K)%nat -> ortho m (K - r) (fun i l => q i (r + l)%nat).
Proof.
  intros H Hr a b Ha Hb. rewrite H by lia. unfold kron.
  destruct (Nat.eqb_spec a b), (Nat.eqb_spec (r + a) (r + b)); auto; lia.
Qed.
Lemma ortho_le m K r q : ortho m K q -> (r <= K)%nat -> ortho m r q.
Proof. intros H Hr a b Ha Hb. apply H; lia. Qed.

Section Step.
Variables m n K r : nat.
Variables (A U V : nat -> nat -> R) (s : nat -> R).
Hypothesis HU : ortho m K U.
Hypothesis HV : ortho n K V.
Hypothesis Hr : (r <= K)%nat.
(** The remainder A - expansion is orthogonal to the right vectors. *)
Hypothesis Horth : forall x l, (x < m)%nat -> (l < K)%nat -> rsum n (fun y => (A x y - expan K U s V x y) * V y l) = 0.

Lemma trunc_orth x l : (x < m)%nat -> (l < r)%nat -> rsum n (fun y => (A x y - expan r U s V x y) * V y l) = 0.
Proof.
  intros Hx Hl.
  rewrite (rsum_ext n _ (fun y => (A x y - expan K U s V x y) * V y l + (expan K U s V x y * V y l - expan r U s V x y * V y l)))
    by (intros; ring).
  rewrite rsum_add, rsum_sub, Horth, !expan_coef by (auto; try lia; eapply ortho_le; eauto). ring.
Qed.

Lemma trunc_error : sum2 m n (fun x y => (A x y - expan r U s V x y) * (A x y - expan r U s V x y)) =
  sum2 m n (fun x y => (A x y - expan K U s V x y) * (A x y - expan K U s V x y)) + tail K r s.
Proof.
  set (T := expan (K - r) (fun x l => U x (r + l)%nat) (fun l => s (r + l)%nat) (fun y l => V y (r + l)%nat)).
  unfold tail. rewrite <- (expan_norm m n (K - r) (fun x l => U x (r + l)%nat) (fun l => s (r + l)%nat) (fun y l => V y (r + l)%nat));
    [|now apply ortho_shift..]. fold T.
  unfold sum2. rewrite <- rsum_add. apply rsum_ext. intros x Hx. rewrite <- rsum_add.
  rewrite (rsum_ext n _ (fun y => ((A x y - expan K U s V x y) * (A x y - expan K U s V x y) + T x y * T x y) +
     2 * ((A x y - expan K U s V x y) * T x y))).
  2:{ intros y _. rewrite (expan_split K r) by auto. fold T. ring. }
  rewrite rsum_add, rsum_mul_l.
  assert (E : rsum n (fun y => (A x y - expan K U s V x y) * T x y) = 0); [|rewrite E; ring].
  unfold T. unfold expan at 2.
  rewrite (rsum_ext n _ (fun y => rsum (K - r) (fun l => (U x (r + l)%nat * s (r + l)%nat) *
      ((A x y - expan K U s V x y) * V y (r + l)%nat)))).
  2:{ intros y _. rewrite <- rsum_mul_l. apply rsum_ext. intros; ring. }
  rewrite rsum_swap. apply rsum_0. intros l Hl. rewrite rsum_mul_l, Horth by lia. ring.
Qed.
End Step.

(** *** Optimality *)
Lemma bessel m k q v : ortho m k q -> rsum k (fun l => coef m q v l * coef m q v l) <= rsum m (fun i => v i * v i).
Proof.
  intros H. pose proof (resid_norm m k q v H) as E.
  assert (0 <= rsum m (fun i => resid m k q v i * resid m k q v i)) by (apply rsum_nonneg; intros; nra). lra.
Qed.

Lemma best_approx m k q v c : ortho m k q ->
  rsum m (fun i => v i * v i) - rsum k (fun l => coef m q v l * coef m q v l) <=
  rsum m (fun i => (v i - rsum k (fun l => c l * q i l)) * (v i - rsum k (fun l => c l * q i l))).
Proof.
  intros H. set (w := fun i => rsum k (fun l => c l * q i l)).
  assert (E1 : rsum m (fun i => v i * w i) = rsum k (fun l => c l * coef m q v l)).
  { unfold w. rewrite (rsum_ext m _ (fun i => rsum k (fun l => c l * (q i l * v i)))).
    2:{ intros i _. rewrite <- rsum_mul_l. apply rsum_ext. intros; ring. }
    rewrite rsum_swap. apply rsum_ext. intros l _. now rewrite rsum_mul_l. }
  assert (E2 : rsum m (fun i => w i * w i) = rsum k (fun l => c l * c l)).
  { unfold w. rewrite (rsum_ext m _ (fun i => rsum k (fun l => c l * (rsum k (fun l' => c l' * (q i l * q i l')))))).
    2:{ intros i _. rewrite <- rsum_mul_l. apply rsum_ext. intros l _.
        rewrite <- rsum_mul_r, <- rsum_mul_l. apply rsum_ext. intros; ring. }
    rewrite rsum_swap. apply rsum_ext. intros l Hl. rewrite rsum_mul_l, rsum_swap.
    rewrite (rsum_ext k _ (fun l' => c l' * kron l l')). 2:{ intros l' Hl'. now rewrite rsum_mul_l, H. }
    now rewrite rsum_kron_r. }
  change (rsum m (fun i => v i * v i) - rsum k (fun l => coef m q v l * coef m q v l) <= rsum m (fun i => (v i - w i) * (v i - w i))).
  rewrite (rsum_ext m (fun i => (v i - w i) * (v i - w i)) (fun i => v i * v i - (2 * (v i * w i) - w i * w i))) by (intros; ring).
  rewrite rsum_sub, rsum_sub, rsum_mul_l, E1, E2.
  assert (E3 : 0 <= rsum k (fun l => (coef m q v l - c l) * (coef m q v l - c l))) by (apply rsum_nonneg; intros; apply Rle_0_sqr).
  rewrite (rsum_ext k _ (fun l => coef m q v l * coef m q v l - (2 * (c l * coef m q v l) - c l * c l))) in E3 by (intros; ring).
  rewrite rsum_sub, rsum_sub, rsum_mul_l in E3. lra.
Qed.

Lemma weighted_tail K r s w : (forall a b, (a <= b)%nat -> (b < K)%nat -> 0 <= s b <= s a) ->
  (forall l, (l < K)%nat -> 0 <= w l <= 1) -> rsum K w <= INR r ->
  tail K r s <= rsum K (fun l => s l * s l * (1 - w l)).
Proof.
  intros Hs Hw Hsum.
  destruct (le_lt_dec K r) as [Hle|Hlt].
  - unfold tail. replace (K - r)%nat with 0%nat by lia. cbn [rsum]. change (rsum 0 _) with 0.
    apply rsum_nonneg. intros l Hl. specialize (Hw l Hl). apply Rmult_le_pos; nra.
  - replace K with (r + (K - r))%nat at 2 by lia. replace K with (r + (K - r))%nat in Hsum by lia.
    rewrite rsum_app_range in *. unfold tail. set (z := s r * s r).
    assert (H1 : z * (INR r - rsum r w) <= rsum r (fun l => s l * s l * (1 - w l))).
    { assert (E : INR r - rsum r w = rsum r (fun l => 1 - w l)).
      { now rewrite rsum_sub, rsum_1s. }
      rewrite E, <- rsum_mul_l. apply rsum_le. intros l Hl. pose proof (Hw l ltac:(lia)). pose proof (Hs l r ltac:(lia) Hlt).
      apply Rmult_le_compat_r; [lra|]. unfold z. nra. }
    assert (H2 : rsum (K - r) (fun l => s (r + l)%nat * s (r + l)%nat * w (r + l)%nat) <= z * rsum (K - r) (fun l => w (r + l)%nat)).
    { rewrite <- rsum_mul_l. apply rsum_le. intros l Hl. pose proof (Hw (r + l)%nat ltac:(lia)).
      pose proof (Hs r (r + l)%nat ltac:(lia) ltac:(lia)). apply Rmult_le_compat_r; [lra|]. unfold z. nra. }
    rewrite (rsum_ext (K - r) (fun l => s (r + l)%nat * s (r + l)%nat * (1 - w (r + l)%nat))
       (fun l => s (r + l)%nat * s (r + l)%nat - s (r + l)%nat * s (r + l)%nat * w (r + l)%nat)) by (intros; ring).
    rewrite rsum_sub.
    assert (0 <= z) by (unfold z; nra). nra.
Qed.

Section Best.
Variables m n K r : nat.
Variables (A U V : nat -> nat -> R) (s : nat -> R).
Hypothesis HU : ortho m K U.
Hypothesis HV : ortho n K V.
Hypothesis Hs : forall a b, (a <= b)%nat -> (b < K)%nat -> 0 <= s b <= s a.
Hypothesis Horth : forall x l, (x < m)%nat -> (l < K)%nat -> rsum n (fun y => (A x y - expan K U s V x y) * V y l) = 0.

(** No matrix of rank at most [r] is closer to [A] than the tail of the singular values. *)
Lemma tail_best (P Z : nat -> nat -> R) :
  tail K r s <= sum2 m n (fun x y => (A x y - rsum r (fun c => P x c * Z y c)) * (A x y - rsum r (fun c => P x c * Z y c))).
Proof.
  set (zeta := fun l c => coef n V (fun y => Z y c) l).
  destruct (qr_exists K r zeta) as (q & rho & Hq & Hqo). set (k := Nat.min K r) in *.
  set (w := fun l => rsum k (fun e => q l e * q l e)).
  (* projection on the right vectors *)
  apply Rle_trans with (rsum m (fun x => rsum K (fun l =>
     (U x l * s l - rsum k (fun e => rsum r (fun c => P x c * rho e c) * q l e)) *
     (U x l * s l - rsum k (fun e => rsum r (fun c => P x c * rho e c) * q l e))))).
  2:{ apply rsum_le. intros x Hx.
      pose proof (bessel n K V (fun y => A x y - rsum r (fun c => P x c * Z y c)) HV) as B.
      eapply Rle_trans; [|exact B]. apply Req_le. apply rsum_ext. intros l Hl.
      assert (E : U x l * s l - rsum k (fun e => rsum r (fun c => P x c * rho e c) * q l e) =
                  coef n V (fun y => A x y - rsum r (fun c => P x c * Z y c)) l); [|now rewrite E].
      unfold coef. rewrite (rsum_ext n _ (fun y => (A x y - expan K U s V x y) * V y l +
        (expan K U s V x y * V y l - rsum r (fun c => P x c * (V y l * Z y c))))).
      2:{ intros y _. rewrite (rsum_ext r (fun c => P x c * (V y l * Z y c)) (fun c => P x c * Z y c * V y l)) by (intros; ring).
          rewrite rsum_mul_r. ring. }
      rewrite rsum_add, rsum_sub, Horth, expan_coef by auto.
      rewrite (rsum_swap n r).
      rewrite (rsum_ext r _ (fun c => rsum k (fun e => P x c * rho e c * q l e))).
      2:{ intros c Hc. rewrite rsum_mul_l. change (rsum n (fun i => V i l * Z i c)) with (zeta l c). rewrite (Hq l c Hl Hc).
          fold k. rewrite <- rsum_mul_l. apply rsum_ext. intros; ring. }
      rewrite (rsum_swap r k).
      rewrite (rsum_ext k (fun e => rsum r (fun c => P x c * rho e c) * q l e) (fun j => rsum r (fun i => P x i * rho j i * q l j))).
      2:{ intros e _. now rewrite rsum_mul_r. }
      ring. }
  apply Rle_trans with (rsum K (fun l => s l * s l * (1 - w l))).
  - apply weighted_tail; auto.
    + intros l Hl. split; [apply rsum_nonneg; intros; nra|].
      pose proof (bessel K k q (kron l) Hqo) as B. rewrite (rsum_kron_l K l (kron l) Hl), kron_same in B.
      eapply Rle_trans; [|exact B]. apply Req_le. apply rsum_ext. intros e _. unfold coef.
      now rewrite (rsum_kron_r K l (fun i => q i e)) by auto.
    + unfold w. rewrite rsum_swap. rewrite (rsum_ext k _ (fun _ => 1)).
      2:{ intros e He. rewrite Hqo by auto. apply kron_same. }
      apply Rle_trans with (INR k); [|apply le_INR; unfold k; lia].
      rewrite rsum_1s. lra.
  - apply Rle_trans with (rsum m (fun x => rsum K (fun l => (U x l * s l) * (U x l * s l)) -
       rsum k (fun e => coef K q (fun l => U x l * s l) e * coef K q (fun l => U x l * s l) e))).
    2:{ apply rsum_le. intros x Hx. apply (best_approx K k q (fun l => U x l * s l) (fun e => rsum r (fun c => P x c * rho e c)) Hqo). }
    apply Req_le. rewrite rsum_sub, !(rsum_swap m).
    rewrite (rsum_ext K (fun j => rsum m (fun i => U i j * s j * (U i j * s j))) (fun l => s l * s l)).
    2:{ intros l Hl. rewrite (rsum_ext m _ (fun x => (s l * s l) * (U x l * U x l))) by (intros; ring).
        rewrite rsum_mul_l, HU, kron_same by auto. ring. }
    rewrite (rsum_ext k _ (fun e => rsum K (fun l => s l * s l * (q l e * q l e)))).
    2:{ intros e He. unfold coef.
        rewrite (rsum_ext m _ (fun x => rsum K (fun l => rsum K (fun l' => (q l e * s l * (q l' e * s l')) * (U x l * U x l'))))).
        2:{ intros x _. rewrite <- rsum_mul_r. apply rsum_ext. intros l _. rewrite <- rsum_mul_l. apply rsum_ext. intros; ring. }
        rewrite rsum_swap. apply rsum_ext. intros l Hl. rewrite rsum_swap.
        rewrite (rsum_ext K _ (fun l' => (q l e * s l * (q l' e * s l')) * kron l l')).
        2:{ intros l' Hl'. now rewrite rsum_mul_l, HU. }
        rewrite rsum_kron_r by auto. ring. }
    rewrite (rsum_swap k K). rewrite <- rsum_sub. apply rsum_ext. intros l Hl. rewrite rsum_mul_l. unfold w. ring.
Qed.
End Best.

(** A tail with nothing cut off. *)
Lemma tail_full K r s : (K <= r)%nat -> tail K r s = 0.
Proof. intros H. unfold tail. now replace (K - r)%nat with 0%nat by lia. Qed.

Lemma tail_mono K s p q : (p <= q)%nat -> tail K q s <= tail K p s.
Proof.
  intros H. unfold tail. destruct (le_lt_dec K q) as [Hq|Hq].
  - replace (K - q)%nat with 0%nat by lia. change (rsum 0 _) with 0. apply rsum_nonneg. intros. apply Rle_0_sqr.
  - replace (K - p)%nat with ((q - p) + (K - q))%nat by lia. rewrite rsum_app_range.
    assert (0 <= rsum (q - p) (fun l => s (p + l)%nat * s (p + l)%nat)) by (apply rsum_nonneg; intros; apply Rle_0_sqr).
    rewrite (rsum_ext (K - q) (fun l => s (p + (q - p + l))%nat * s (p + (q - p + l))%nat) (fun l => s (q + l)%nat * s (q + l)%nat)); [lra|].
    intros l _. now replace (p + (q - p + l))%nat with (q + l)%nat by lia.
Qed.
