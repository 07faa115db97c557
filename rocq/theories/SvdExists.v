(** A singular value decomposition exists for every real matrix, hence the contract [svd_ok] can
    be met.  The first singular vector maximizes |Ax|^2 - |x|^4 / 2. *)
From Coq Require Import List Arith ZArith Lia Lra Bool Reals IndefiniteDescription.
From Verif Require Import Scalar Tensor TensorLemmas TensorLemmas2 Base Spec BaseLemmas OpsR DecompSpec QRExists Trunc.
Import ListNotations.
Local Open Scope R_scope.

(** * Maximum of a Lipschitz function over a box. *)
Definition vec := nat -> R.
Definition dist1 (n : nat) (x y : vec) : R := rsum n (fun i => Rabs (x i - y i)).
Definition setc (n : nat) (x : vec) (c : R) : vec := fun i => if Nat.eqb i n then c else x i.
Definition inbox (n : nat) (M : R) (x : vec) : Prop := forall i, (i < n)%nat -> - M <= x i <= M.

Lemma dist1_nonneg n x y : 0 <= dist1 n x y.
Proof. apply rsum_nonneg. intros. apply Rabs_pos. Qed.

Lemma lip_max M L n : 0 <= M -> 0 <= L -> forall f : vec -> R, (forall x y, Rabs (f x - f y) <= L * dist1 n x y) ->
  exists x, inbox n M x /\ forall y, inbox n M y -> f y <= f x.
Proof.
  intros HM HL. induction n as [|n IH]; intros f Hf.
  - exists (fun _ => 0). split; [intros i Hi; lia|]. intros y _. specialize (Hf y (fun _ => 0)).
    unfold dist1 in Hf. change (rsum 0 _) with 0 in Hf. rewrite Rmult_0_r in Hf.
    pose proof (Rle_abs (f y - f (fun _ => 0))). lra.
  - assert (HS : forall c, {x | inbox n M x /\ forall y, inbox n M y -> f (setc n y c) <= f (setc n x c)}).
    { intros c. apply constructive_indefinite_description. apply (IH (fun x => f (setc n x c))). intros x y.
      eapply Rle_trans; [apply Hf|]. apply Rmult_le_compat_l; [auto|]. unfold dist1. rewrite rsum_S.
      unfold setc at 3 4. rewrite Nat.eqb_refl, Rminus_diag_eq, Rabs_R0, Rplus_0_r by auto.
      apply rsum_le. intros i Hi. unfold setc. destruct (Nat.eqb_spec i n); [lia|lra]. }
    set (g := fun c => f (setc n (proj1_sig (HS c)) c)).
    assert (Hc : forall x c c', dist1 (S n) (setc n x c) (setc n x c') = Rabs (c - c')).
    { intros x c c'. unfold dist1. rewrite rsum_S, rsum_0.
      - unfold setc. rewrite Nat.eqb_refl. lra.
      - intros i Hi. unfold setc. destruct (Nat.eqb_spec i n); [lia|]. rewrite Rminus_diag_eq by auto. apply Rabs_R0. }
    assert (Hg1 : forall c c', g c - g c' <= L * Rabs (c - c')).
    { intros c c'. unfold g. destruct (HS c) as (x & Bx & Mx), (HS c') as (y & By & My). cbn [proj1_sig].
      specialize (My x Bx). pose proof (Hf (setc n x c) (setc n x c')) as H. rewrite Hc in H.
      pose proof (Rle_abs (f (setc n x c) - f (setc n x c'))). lra. }
    assert (Hg : forall c c', Rabs (g c - g c') <= L * Rabs (c - c')).
    { intros c c'. apply Rabs_le. pose proof (Hg1 c c'). pose proof (Hg1 c' c) as H2. rewrite Rabs_minus_sym in H2. lra. }
    destruct (continuity_ab_maj g (- M) M) as (c & Hc1 & Hc2); [lra| |].
    { intros c _ eps He. exists (eps / (L + 1)). split; [apply Rdiv_lt_0_compat; lra|]. intros x [_ Hx].
      cbn in Hx |- *. unfold R_dist in *. eapply Rle_lt_trans; [apply Hg|].
      apply Rle_lt_trans with (L * (eps / (L + 1))); [apply Rmult_le_compat_l; lra|].
      apply Rmult_lt_reg_r with (L + 1); [lra|]. unfold Rdiv. rewrite !Rmult_assoc, Rinv_l by lra. nra. }
    exists (setc n (proj1_sig (HS c)) c). split.
    + intros i Hi. unfold setc. destruct (Nat.eqb_spec i n); [lra|]. destruct (HS c) as (x & Bx & Mx). cbn. apply Bx. lia.
    + intros y By. fold (g c). apply Rle_trans with (g (y n)); [|apply Hc1; apply By; lia].
      unfold g. destruct (HS (y n)) as (x & Bx & Mx). cbn [proj1_sig].
      assert (E : f y = f (setc n y (y n))).
      { assert (Z : Rabs (f y - f (setc n y (y n))) <= 0).
        { eapply Rle_trans; [apply Hf|]. apply Req_le. unfold dist1. rewrite rsum_0; [lra|]. intros i Hi. unfold setc.
          destruct (Nat.eqb_spec i n) as [->|]; rewrite Rminus_diag_eq by auto; apply Rabs_R0. }
        pose proof (Rabs_pos (f y - f (setc n y (y n)))). destruct (Req_dec (f y - f (setc n y (y n))) 0) as [|Hn]; [lra|].
        apply Rabs_pos_lt in Hn. lra. }
      rewrite E. apply Mx. intros i Hi. apply By. lia.
Qed.

(** * Bounded Lipschitz functions. *)
Definition blip (n : nat) (f : vec -> R) : Prop :=
  exists L B, 0 <= L /\ 0 <= B /\ (forall x, Rabs (f x) <= B) /\ forall x y, Rabs (f x - f y) <= L * dist1 n x y.

Lemma blip_const n c : blip n (fun _ => c).
Proof.
  exists 0, (Rabs c). split; [lra|]. split; [apply Rabs_pos|]. split; [intros; lra|]. intros. rewrite Rminus_diag_eq by auto. rewrite Rabs_R0. lra.
Qed.
Lemma blip_add n f g : blip n f -> blip n g -> blip n (fun x => f x + g x).
Proof.
  intros (L & B & HL & HB & B1 & L1) (L' & B' & HL' & HB' & B2 & L2). exists (L + L'), (B + B'). repeat split; try lra.
  - intros x. eapply Rle_trans; [apply Rabs_triang|]. specialize (B1 x). specialize (B2 x). lra.
  - intros x y. replace (f x + g x - (f y + g y)) with ((f x - f y) + (g x - g y)) by ring.
    eapply Rle_trans; [apply Rabs_triang|]. specialize (L1 x y). specialize (L2 x y). lra.
Qed.
Lemma blip_mul n f g : blip n f -> blip n g -> blip n (fun x => f x * g x).
Proof.
  intros (L & B & HL & HB & B1 & L1) (L' & B' & HL' & HB' & B2 & L2). exists (B * L' + B' * L), (B * B'). repeat split; try nra.
  - intros x. rewrite Rabs_mult. apply Rmult_le_compat; auto using Rabs_pos.
  - intros x y. replace (f x * g x - f y * g y) with (f x * (g x - g y) + g y * (f x - f y)) by ring.
    eapply Rle_trans; [apply Rabs_triang|]. rewrite !Rabs_mult, Rmult_plus_distr_r, !Rmult_assoc.
    apply Rplus_le_compat; apply Rmult_le_compat; auto using Rabs_pos.
Qed.
Lemma blip_sum n m (f : nat -> vec -> R) : (forall i, (i < m)%nat -> blip n (f i)) -> blip n (fun x => rsum m (fun i => f i x)).
Proof.
  induction m as [|m IH]; intros H; [apply (blip_const n 0)|].
  apply (blip_add n (fun x => rsum m (fun i => f i x)) (f m)); [apply IH; intros; apply H; lia|apply H; lia].
Qed.

Definition clamp (M c : R) : R := Rmax (- M) (Rmin c M).
Lemma clamp_in M c : 0 <= M -> - M <= clamp M c <= M.
Proof. intros H. unfold clamp. split; [apply Rmax_l|]. apply Rmax_lub; [lra|apply Rmin_r]. Qed.
Lemma clamp_id M c : - M <= c <= M -> clamp M c = c.
Proof. intros H. unfold clamp. rewrite Rmin_left by lra. apply Rmax_right. lra. Qed.
Lemma clamp_lip M a b : 0 <= M -> Rabs (clamp M a - clamp M b) <= Rabs (a - b).
Proof.
  intros HM. unfold clamp, Rmax, Rmin. repeat destruct (Rle_dec _ _); unfold Rabs; repeat destruct (Rcase_abs _); lra.
Qed.
Lemma blip_coord n i M : (i < n)%nat -> 0 <= M -> blip n (fun x => clamp M (x i)).
Proof.
  intros Hi HM. exists 1, M. repeat split; try lra.
  - intros x. apply Rabs_le. apply clamp_in. auto.
  - intros x y. rewrite Rmult_1_l. eapply Rle_trans; [apply clamp_lip; auto|]. unfold dist1.
    clear - Hi. induction n as [|n IH]; [lia|]. rewrite rsum_S. destruct (Nat.eq_dec i n) as [->|].
    + assert (0 <= rsum n (fun i => Rabs (x i - y i))) by (apply rsum_nonneg; intros; apply Rabs_pos). lra.
    + pose proof (Rabs_pos (x n - y n)). specialize (IH ltac:(lia)). lra.
Qed.

(** * Matrices. *)
Definition ip (n : nat) (x y : vec) : R := rsum n (fun i => x i * y i).
Definition app_m (n : nat) (A : nat -> nat -> R) (x : vec) : vec := fun i => rsum n (fun j => A i j * x j).
Definition goal_f (m n : nat) (A : nat -> nat -> R) (x : vec) : R :=
  ip m (app_m n A x) (app_m n A x) + (- (1/2)) * (ip n x x * ip n x x).

Lemma ip_sym n x y : ip n x y = ip n y x. Proof. apply rsum_ext. intros. ring. Qed.
Lemma ip_lin n x y z c : ip n (fun i => x i + c * y i) z = ip n x z + c * ip n y z.
Proof. unfold ip. rewrite <- rsum_mul_l, <- rsum_add. apply rsum_ext. intros; ring. Qed.
Lemma ip_sub n x y z c : ip n (fun i => x i - c * y i) z = ip n x z - c * ip n y z.
Proof. unfold ip. rewrite <- rsum_mul_l, <- rsum_sub. apply rsum_ext. intros; ring. Qed.
Lemma ip_pos n x : 0 <= ip n x x. Proof. apply rsum_nonneg. intros. apply Rle_0_sqr. Qed.
Lemma ip_ext n x y x' y' : (forall i, (i < n)%nat -> x i = x' i) -> (forall i, (i < n)%nat -> y i = y' i) -> ip n x y = ip n x' y'.
Proof. intros H1 H2. apply rsum_ext. intros i Hi. now rewrite H1, H2. Qed.
Lemma app_lin n A x y c i : app_m n A (fun i => x i + c * y i) i = app_m n A x i + c * app_m n A y i.
Proof. unfold app_m. rewrite <- rsum_mul_l, <- rsum_add. apply rsum_ext. intros; ring. Qed.
Lemma app_sub n A x y c i : app_m n A (fun i => x i - c * y i) i = app_m n A x i - c * app_m n A y i.
Proof. unfold app_m. rewrite <- rsum_mul_l, <- rsum_sub. apply rsum_ext. intros; ring. Qed.
(** <Ax, u> = <x, A^T u>. *)
Lemma adjoint m n A x u : ip m (app_m n A x) u = ip n x (app_m m (fun j i => A i j) u).
Proof.
  unfold ip, app_m. rewrite (rsum_ext m _ (fun i => rsum n (fun j => A i j * x j * u i))) by (intros; now rewrite rsum_mul_r).
  rewrite rsum_swap. apply rsum_ext. intros j Hj. rewrite <- rsum_mul_l. apply rsum_ext. intros; ring.
Qed.

Lemma cauchy n x y : ip n x y * ip n x y <= ip n x x * ip n y y.
Proof.
  pose proof (ip_pos n y) as Hy. destruct (Req_dec (ip n y y) 0) as [E|E].
  - assert (Z : forall i, (i < n)%nat -> y i * y i = 0) by (apply (rsum_zero_each n (fun i => y i * y i)); [intros; apply Rle_0_sqr|exact E]).
    replace (ip n x y) with 0; [rewrite E; lra|]. symmetry. apply rsum_0. intros i Hi. specialize (Z i Hi). apply Rmult_integral in Z. destruct Z as [->| ->]; ring.
  - set (c := ip n x y / ip n y y). pose proof (ip_pos n (fun i => x i - c * y i)) as P.
    rewrite ip_sub, (ip_sym n x), (ip_sym n y (fun i => x i - c * y i)), !ip_sub in P. rewrite (ip_sym n y x) in P.
    assert (Hc : c * ip n y y = ip n x y) by (unfold c; field; auto).
    assert (P2 : 0 <= ip n x x - c * ip n x y) by (replace (ip n x x - c * ip n x y) with (ip n x x - c * ip n x y - c * (ip n x y - c * ip n y y)) by (rewrite Hc; ring); exact P).
    apply Rmult_le_compat_r with (r := ip n y y) in P2; [|auto]. rewrite Rmult_0_l in P2.
    replace ((ip n x x - c * ip n x y) * ip n y y) with (ip n x x * ip n y y - (c * ip n y y) * ip n x y) in P2 by ring. rewrite Hc in P2. lra.
Qed.
Definition frob2 (m n : nat) (A : nat -> nat -> R) : R := rsum m (fun i => ip n (A i) (A i)).
Lemma frob_bound m n A x : ip m (app_m n A x) (app_m n A x) <= frob2 m n A * ip n x x.
Proof.
  unfold frob2. rewrite <- rsum_mul_r. apply rsum_le. intros i Hi. apply (cauchy n (A i) x).
Qed.

(** Behaviour of a quartic near zero. *)
Lemma quartic_neg c1 c2 c3 c4 : (forall t, t * c1 + t * t * c2 + t * t * t * c3 + t * t * t * t * c4 <= 0) -> c1 = 0 /\ c2 <= 0.
Proof.
  assert (A : forall c1 c2 c3 c4, (forall t, t * c1 + t * t * c2 + t * t * t * c3 + t * t * t * t * c4 <= 0) -> c1 <= 0).
  { clear. intros c1 c2 c3 c4 H. destruct (Rle_or_lt c1 0) as [|P]; [auto|exfalso].
    set (S := Rabs c2 + Rabs c3 + Rabs c4 + c1). pose proof (Rabs_pos c2). pose proof (Rabs_pos c3). pose proof (Rabs_pos c4).
    assert (HS : 0 < S) by (unfold S; lra). set (t := c1 / (2 * S)).
    assert (Ht : t * (2 * S) = c1) by (unfold t; field; lra).
    assert (Ht0 : 0 < t) by (unfold t; apply Rdiv_lt_0_compat; lra).
    assert (Ht1 : t <= 1) by (assert (t * (2 * S) <= 1 * (2 * S)) by (rewrite Ht; unfold S; lra); apply Rmult_le_reg_r with (2 * S); lra).
    specialize (H t). assert (Q : c1 + t * c2 + t * t * c3 + t * t * t * c4 <= 0).
    { apply Rmult_le_reg_l with t; [auto|]. rewrite Rmult_0_r. eapply Rle_trans; [|exact H]. apply Req_le. ring. }
    assert (t * t <= t) by nra. assert (0 < t * t) by nra. assert (t * t * t <= t) by nra. assert (0 < t * t * t) by nra.
    assert (B2 : - (t * Rabs c2) <= t * c2) by (pose proof (Rle_abs (- c2)) as Z; rewrite Rabs_Ropp in Z; nra).
    assert (B3 : - (t * Rabs c3) <= t * t * c3) by (pose proof (Rle_abs (- c3)) as Z; rewrite Rabs_Ropp in Z; nra).
    assert (B4 : - (t * Rabs c4) <= t * t * t * c4) by (pose proof (Rle_abs (- c4)) as Z; rewrite Rabs_Ropp in Z; nra).
    assert (t * S = c1 / 2) by lra. unfold S in *. nra. }
  intros H. assert (E1 : c1 <= 0) by now apply (A c1 c2 c3 c4).
  assert (E2 : - c1 <= 0) by (apply (A (- c1) c2 (- c3) c4); intros t; specialize (H (- t)); lra).
  split; [lra|]. assert (c1 = 0) by lra. subst c1. destruct (Rle_or_lt c2 0) as [|P]; [auto|exfalso].
  set (S := Rabs c3 + Rabs c4 + c2). pose proof (Rabs_pos c3). pose proof (Rabs_pos c4).
  assert (HS : 0 < S) by (unfold S; lra). set (t := c2 / (2 * S)).
  assert (Ht : t * (2 * S) = c2) by (unfold t; field; lra).
  assert (H0' : 0 < t) by (unfold t; apply Rdiv_lt_0_compat; lra).
  assert (H1' : t <= 1) by (assert (t * (2 * S) <= 1 * (2 * S)) by (rewrite Ht; unfold S; lra); apply Rmult_le_reg_r with (2 * S); lra).
  specialize (H t). assert (Q : c2 + t * c3 + t * t * c4 <= 0).
  { apply Rmult_le_reg_l with (t * t); [nra|]. rewrite Rmult_0_r. eapply Rle_trans; [|exact H]. apply Req_le. ring. }
  assert (t * t <= t) by nra. assert (0 < t * t) by nra.
  assert (B3 : - (t * Rabs c3) <= t * c3) by (pose proof (Rle_abs (- c3)) as Z; rewrite Rabs_Ropp in Z; nra).
  assert (B4 : - (t * Rabs c4) <= t * t * c4) by (pose proof (Rle_abs (- c4)) as Z; rewrite Rabs_Ropp in Z; nra).
  assert (t * S = c2 / 2) by lra. unfold S in *. nra.
Qed.

(** * The first singular value. *)
Lemma goal_max m n A : exists x, forall y, goal_f m n A y <= goal_f m n A x.
Proof.
  set (a := frob2 m n A). assert (Ha : 0 <= a) by (apply rsum_nonneg; intros; apply ip_pos).
  set (M := 2 * a + 1).
  assert (BL : blip n (fun x => goal_f m n A (fun i => clamp M (x i)))).
  { unfold goal_f, ip, app_m.
    assert (C : forall j, (j < n)%nat -> blip n (fun x => clamp M (x j))) by (intros; apply blip_coord; [auto|unfold M; lra]).
    apply blip_add.
    - apply (blip_sum n m (fun i x => rsum n (fun j => A i j * clamp M (x j)) * rsum n (fun j => A i j * clamp M (x j)))). intros i Hi.
      assert (blip n (fun x => rsum n (fun j => A i j * clamp M (x j)))); [|now apply blip_mul].
      apply (blip_sum n n (fun j x => A i j * clamp M (x j))). intros j Hj. apply (blip_mul n (fun _ => A i j)); [apply blip_const|auto].
    - apply (blip_mul n (fun _ => - (1/2))); [apply blip_const|].
      assert (blip n (fun x => rsum n (fun i => clamp M (x i) * clamp M (x i)))); [|now apply blip_mul].
      apply (blip_sum n n (fun i x => clamp M (x i) * clamp M (x i))). intros i Hi. apply (blip_mul n (fun x => clamp M (x i)) (fun x => clamp M (x i))); auto. }
  destruct BL as (L & B & HL & _ & _ & HLip).
  destruct (lip_max M L n ltac:(unfold M; lra) HL _ HLip) as (x & Bx & Mx). cbv beta in Mx.
  assert (E : forall y, inbox n M y -> goal_f m n A (fun i => clamp M (y i)) = goal_f m n A y).
  { intros y By. assert (forall i, (i < n)%nat -> clamp M (y i) = y i) by (intros; apply clamp_id; now apply By).
    unfold goal_f. rewrite (ip_ext n (fun i => clamp M (y i)) (fun i => clamp M (y i)) y y) by auto. f_equal.
    apply ip_ext; intros i _; apply rsum_ext; intros j Hj; now rewrite H. }
  exists x. intros y. rewrite <- (E x Bx).
  destruct (Rle_or_lt (ip n y y) (2 * a)) as [H|H].
  - assert (By : inbox n M y).
    { intros i Hi. assert (y i * y i <= 2 * a).
      { eapply Rle_trans; [|exact H]. clear - Hi. unfold ip. induction n as [|n IH]; [lia|]. rewrite rsum_S. destruct (Nat.eq_dec i n) as [->|].
        - pose proof (ip_pos n y). unfold ip in H. lra.
        - specialize (IH ltac:(lia)). pose proof (Rle_0_sqr (y n)). unfold Rsqr in *. lra. }
      unfold M. split; nra. }
    rewrite <- (E y By). now apply Mx.
  - apply Rle_trans with (goal_f m n A (fun _ => 0)).
    + unfold goal_f at 2. assert (Z1 : ip n (fun _ => 0) (fun _ => 0) = 0) by (apply rsum_0; intros; ring).
      assert (Z2 : ip m (app_m n A (fun _ => 0)) (app_m n A (fun _ => 0)) = 0).
      { apply rsum_0. intros i _. replace (app_m n A (fun _ => 0) i) with 0; [ring|]. symmetry. apply rsum_0. intros; ring. }
      rewrite Z1, Z2. unfold goal_f. pose proof (frob_bound m n A y) as F. fold a in F. nra.
    + rewrite <- (E (fun _ => 0)); [apply Mx|]; intros i Hi; unfold M; lra.
Qed.

Lemma top_vector m n A : exists x,
  (forall y, ip m (app_m n A x) (app_m n A y) = ip n x x * ip n x y) /\
  (forall y, ip m (app_m n A y) (app_m n A y) <= ip n x x * ip n y y).
Proof.
  destruct (goal_max m n A) as (x & Hx). exists x.
  assert (K : forall y, ip m (app_m n A x) (app_m n A y) - ip n x x * ip n x y = 0 /\
     ip m (app_m n A y) (app_m n A y) - ip n x x * ip n y y - 2 * (ip n x y * ip n x y) <= 0).
  { intros y. set (l := ip n x x). set (p := ip n x y). set (q := ip n y y).
    set (b := ip m (app_m n A x) (app_m n A y)). set (h := ip m (app_m n A y) (app_m n A y)).
    cut (2 * (b - l * p) = 0 /\ h - l * q - 2 * (p * p) <= 0); [intros []; split; lra|].
    apply (quartic_neg _ _ (- 2 * (p * q)) (- (1/2) * (q * q))). intros t.
    specialize (Hx (fun i => x i + t * y i)). unfold goal_f in Hx.
    rewrite (ip_ext m (app_m n A (fun i => x i + t * y i)) (app_m n A (fun i => x i + t * y i))
       (fun i => app_m n A x i + t * app_m n A y i) (fun i => app_m n A x i + t * app_m n A y i)) in Hx by (intros; apply app_lin).
    assert (D : forall k (u v : vec), ip k (fun i => u i + t * v i) (fun i => u i + t * v i) = ip k u u + 2 * t * ip k u v + t * t * ip k v v).
    { intros k u v. rewrite ip_lin, (ip_sym k u), (ip_sym k v), !ip_lin. rewrite (ip_sym k v u). ring. }
    rewrite !D in Hx. fold l p q b h in Hx. nra. }
  split; [intros y; destruct (K y); lra|].
  intros y. pose proof (ip_pos n x) as Hl. destruct (Req_dec (ip n x x) 0) as [E|E].
  - destruct (K y) as [_ K2]. pose proof (cauchy n x y) as C. rewrite E in *. rewrite !Rmult_0_l in *. pose proof (Rle_0_sqr (ip n x y)). unfold Rsqr in *. lra.
  - set (l := ip n x x) in *. set (c := ip n x y / l). set (z := fun i => y i - c * x i).
    assert (Hc : c * l = ip n x y) by (unfold c; field; auto).
    assert (Oz : ip n x z = 0) by (rewrite ip_sym; unfold z; rewrite ip_sub; fold l; rewrite (ip_sym n y x); lra).
    destruct (K z) as [K1 K2]. destruct (K x) as [K3 _]. rewrite Oz in K1, K2. fold l in K1, K2, K3.
    assert (Ay : forall i, app_m n A y i = app_m n A z i + c * app_m n A x i) by (intros i; unfold z; rewrite app_sub; ring).
    assert (E1 : ip m (app_m n A y) (app_m n A y) = ip m (app_m n A z) (app_m n A z) + c * c * (l * l)).
    { rewrite (ip_ext m _ _ (fun i => app_m n A z i + c * app_m n A x i) (fun i => app_m n A z i + c * app_m n A x i)) by auto.
      rewrite ip_lin, (ip_sym m (app_m n A z)), (ip_sym m (app_m n A x) (fun i => _)), !ip_lin. rewrite (ip_sym m (app_m n A z) (app_m n A x)).
      replace (ip m (app_m n A x) (app_m n A z)) with 0 by lra. replace (ip m (app_m n A x) (app_m n A x)) with (l * l) by lra. ring. }
    assert (E2 : ip n y y = ip n z z + c * c * l).
    { rewrite (ip_ext n y y (fun i => z i + c * x i) (fun i => z i + c * x i)) by (intros; unfold z; ring).
      rewrite ip_lin, (ip_sym n z), (ip_sym n x (fun i => _)), !ip_lin. rewrite (ip_sym n z x), Oz. fold l. ring. }
    rewrite E1, E2. lra.
Qed.

Lemma app_col n A j : (j < n)%nat -> forall i, app_m n A (kron j) i = A i j.
Proof. intros Hj i. unfold app_m. now rewrite rsum_kron_r. Qed.

(** One singular triple. *)
Lemma top_singular m n A : (exists i j, (i < m)%nat /\ (j < n)%nat /\ A i j <> 0) ->
  exists s u v, 0 < s /\ ip m u u = 1 /\ ip n v v = 1 /\
    (forall i, (i < m)%nat -> app_m n A v i = s * u i) /\
    (forall j, (j < n)%nat -> app_m m (fun j i => A i j) u j = s * v j) /\
    (forall y, ip m (app_m n A y) (app_m n A y) <= s * s * ip n y y).
Proof.
  intros (i0 & j0 & Hi0 & Hj0 & HA). destruct (top_vector m n A) as (x & H1 & H2). set (l := ip n x x) in *.
  assert (Hl : 0 < l).
  { pose proof (ip_pos n x) as P. fold l in P. destruct (Req_dec l 0) as [E|]; [exfalso|lra].
    specialize (H2 (kron j0)). rewrite E, Rmult_0_l in H2.
    assert (Z : ip m (app_m n A (kron j0)) (app_m n A (kron j0)) = 0) by (pose proof (ip_pos m (app_m n A (kron j0))); lra).
    pose proof (rsum_zero_each m _ (fun i _ => Rle_0_sqr _) Z i0 Hi0) as Q. cbv beta in Q. rewrite app_col in Q by auto.
    apply Rmult_integral in Q. destruct Q; contradiction. }
  set (s := sqrt l). assert (Hs : 0 < s) by now apply sqrt_lt_R0. assert (Hss : s * s = l) by (apply sqrt_sqrt; lra).
  set (v := fun i => / s * x i). set (u := fun i => / s * app_m n A v i).
  assert (Av : forall i, app_m n A v i = / s * app_m n A x i).
  { intros i. unfold app_m, v. rewrite <- rsum_mul_l. apply rsum_ext. intros; ring. }
  assert (SC : forall k c (a b : vec), ip k (fun i => c * a i) b = c * ip k a b).
  { intros k c a b. unfold ip. rewrite <- rsum_mul_l. apply rsum_ext. intros; ring. }
  assert (Hu : forall y, ip m u (app_m n A y) = s * ip n v y).
  { intros y. unfold u. rewrite (ip_ext m _ (app_m n A y) (fun i => (/ s * / s) * app_m n A x i) (app_m n A y)) by (intros; rewrite ?Av; ring).
    rewrite SC, H1. unfold v. rewrite SC. fold l. rewrite <- Hss. field. lra. }
  exists s, u, v. split; [auto|].
  assert (Nv : ip n v v = 1). { unfold v. rewrite SC, ip_sym, SC. fold l. rewrite <- Hss. field. lra. }
  split; [|split; [exact Nv|]].
  { unfold u at 2. rewrite ip_sym, SC, ip_sym, Hu, Nv. field. lra. }
  split; [intros i _; unfold u; field; lra|]. split.
  - intros j Hj. specialize (Hu (kron j)). rewrite ip_sym, adjoint in Hu.
    unfold ip in Hu at 1. rewrite rsum_kron_l in Hu by auto. rewrite Hu. f_equal. unfold ip. now rewrite rsum_kron_r.
  - intros y. rewrite Hss. apply H2.
Qed.

(** * Deflation. *)
Definition rest (k : nat) (A U : nat -> nat -> R) (s : nat -> R) (V : nat -> nat -> R) : nat -> nat -> R :=
  fun i j => A i j - expan k U s V i j.
Definition setv (k : nat) (s : nat -> R) (c : R) : nat -> R := fun l => if Nat.eqb l k then c else s l.

Record deflated (m n : nat) (A : nat -> nat -> R) (k : nat) (U : nat -> nat -> R) (s : nat -> R) (V : nat -> nat -> R) : Prop := {
  df_U : ortho m k U;
  df_V : ortho n k V;
  df_pos : forall l, (l < k)%nat -> 0 <= s l;
  df_sort : forall a b, (a <= b)%nat -> (b < k)%nat -> s b <= s a;
  df_RV : forall i l, (i < m)%nat -> (l < k)%nat -> app_m n (rest k A U s V) (fun j => V j l) i = 0;
  df_RU : forall j l, (j < n)%nat -> (l < k)%nat -> app_m m (fun j i => rest k A U s V i j) (fun i => U i l) j = 0;
  df_norm : forall y, (0 < k)%nat -> ip m (app_m n (rest k A U s V) y) (app_m n (rest k A U s V) y) <= s (k - 1)%nat * s (k - 1)%nat * ip n y y }.

Lemma addcol_new k q u i : addcol k q u i k = u i.
Proof. unfold addcol. now rewrite Nat.eqb_refl. Qed.
Lemma addcol_old k q u i l : (l < k)%nat -> addcol k q u i l = q i l.
Proof. intros. unfold addcol. destruct (Nat.eqb_spec l k); [lia|auto]. Qed.
Lemma setv_new k s c : setv k s c k = c.
Proof. unfold setv. now rewrite Nat.eqb_refl. Qed.
Lemma setv_old k s c l : (l < k)%nat -> setv k s c l = s l.
Proof. intros. unfold setv. destruct (Nat.eqb_spec l k); [lia|auto]. Qed.

Lemma rest_S k A U s V u v c i j :
  rest (S k) A (addcol k U u) (setv k s c) (addcol k V v) i j = rest k A U s V i j - c * (u i * v j).
Proof.
  unfold rest, expan. rewrite rsum_S, !addcol_new, setv_new.
  rewrite (rsum_ext k _ (fun l => U i l * s l * V j l)) by (intros; now rewrite !addcol_old, setv_old by auto). ring.
Qed.

Lemma app_rest1 n (R' : nat -> nat -> R) (u v : vec) c y i :
  app_m n (fun i j => R' i j - c * (u i * v j)) y i = app_m n R' y i - c * u i * ip n v y.
Proof. unfold app_m, ip. rewrite <- rsum_mul_l, <- rsum_sub. apply rsum_ext. intros; ring. Qed.

Lemma addcol_ortho1 m k q u : ortho m k q -> ip m u u = 1 -> (forall a, (a < k)%nat -> ip m (fun i => q i a) u = 0) -> ortho m (S k) (addcol k q u).
Proof.
  intros H Hu Ho a b Ha Hb. destruct (Nat.eq_dec a k) as [->|Na], (Nat.eq_dec b k) as [->|Nb].
  - rewrite kron_same. rewrite <- Hu. apply rsum_ext. intros. now rewrite !addcol_new.
  - rewrite kron_diff by lia. rewrite <- (Ho b) by lia. apply rsum_ext. intros. rewrite addcol_new, addcol_old by lia. ring.
  - rewrite kron_diff by lia. rewrite <- (Ho a) by lia. apply rsum_ext. intros. rewrite addcol_new, addcol_old by lia. ring.
  - rewrite <- H by lia. apply rsum_ext. intros. now rewrite !addcol_old by lia.
Qed.

Lemma deflate_step m n A k U s V : deflated m n A k U s V -> (k < Nat.min m n)%nat -> exists U' s' V', deflated m n A (S k) U' s' V'.
Proof.
  intros [HU HV Hp Hs HRV HRU HN] Hk. set (R0 := rest k A U s V) in *.
  assert (T : exists c u v, 0 <= c /\ ip m u u = 1 /\ ip n v v = 1 /\
     (forall a, (a < k)%nat -> ip m (fun i => U i a) u = 0) /\ (forall a, (a < k)%nat -> ip n (fun i => V i a) v = 0) /\
     (forall i, (i < m)%nat -> app_m n R0 v i = c * u i) /\
     (forall j, (j < n)%nat -> app_m m (fun j i => R0 i j) u j = c * v j) /\
     (forall y, ip m (app_m n R0 y) (app_m n R0 y) <= c * c * ip n y y)).
  { destruct (find_nonzero m (fun i => ip n (R0 i) (R0 i))) as [(i0 & Hi0 & H0)|Hz].
    - destruct (find_nonzero n (R0 i0)) as [(j0 & Hj0 & Hn0)|Hz'].
      2:{ exfalso. apply H0. apply rsum_0. intros j Hj. rewrite Hz' by auto. ring. }
      destruct (top_singular m n R0) as (c & u & v & Hc & Nu & Nv & H1 & H2 & H3); [eauto 6|].
      exists c, u, v. split; [lra|]. split; [auto|]. split; [auto|].
      assert (X : forall a b, a * b = 0 -> 0 < a -> b = 0) by (intros a b E P; apply Rmult_integral in E; destruct E; lra).
      split.
      { intros a Ha. apply (X c); auto. rewrite ip_sym. transitivity (ip m (app_m n R0 v) (fun i => U i a)).
        - unfold ip. rewrite <- rsum_mul_l. apply rsum_ext. intros i Hi. rewrite H1 by auto. ring.
        - rewrite adjoint. apply rsum_0. intros j Hj. rewrite HRU by auto. ring. }
      split; [|auto].
      intros a Ha. apply (X c); auto. transitivity (ip n (fun i => V i a) (app_m m (fun j i => R0 i j) u)).
      + unfold ip. rewrite <- rsum_mul_l. apply rsum_ext. intros i Hi. rewrite H2 by auto. ring.
      + rewrite <- adjoint. apply rsum_0. intros j Hj. rewrite HRV by auto. ring.
    - assert (Z : forall i j, (i < m)%nat -> (j < n)%nat -> R0 i j = 0).
      { intros i j Hi Hj. pose proof (rsum_zero_each n _ (fun i _ => Rle_0_sqr _) (Hz i Hi) j Hj) as Q. cbv beta in Q. apply Rmult_integral in Q. destruct Q; auto. }
      assert (ZA : forall y i, (i < m)%nat -> app_m n R0 y i = 0) by (intros y i Hi; apply rsum_0; intros; rewrite Z by auto; ring).
      destruct (extra_column m k U HU ltac:(lia)) as (wu & Pu & Ou). destruct (extra_column n k V HV ltac:(lia)) as (wv & Pv & Ov).
      exists 0, (unit_of m wu), (unit_of n wv). split; [lra|]. split; [now apply unit_norm|]. split; [now apply unit_norm|].
      split; [intros a Ha; now apply (unit_orth m wu U a), Ou|]. split; [intros a Ha; now apply (unit_orth n wv V a), Ov|].
      split; [intros i Hi; rewrite ZA by auto; ring|]. split.
      + intros j Hj. rewrite Rmult_0_l. apply rsum_0. intros i Hi. rewrite Z by auto. ring.
      + intros y. apply Req_le. rewrite !Rmult_0_l. apply rsum_0. intros i Hi. rewrite ZA by auto. ring. }
  destruct T as (c & u & v & Hc & Nu & Nv & Ou & Ov & H1 & H2 & H3).
  assert (Hcs : (0 < k)%nat -> c <= s (k - 1)%nat).
  { intros Hk0. specialize (HN v Hk0). rewrite Nv in HN.
    assert (E : ip m (app_m n R0 v) (app_m n R0 v) = c * c).
    { transitivity (c * c * ip m u u); [|rewrite Nu; ring]. unfold ip. rewrite <- rsum_mul_l. apply rsum_ext. intros i Hi. rewrite H1 by auto. ring. }
    rewrite E in HN. specialize (Hp (k - 1)%nat ltac:(lia)). nra. }
  exists (addcol k U u), (setv k s c), (addcol k V v).
  assert (RA : forall y i, app_m n (rest (S k) A (addcol k U u) (setv k s c) (addcol k V v)) y i = app_m n R0 y i - c * u i * ip n v y).
  { intros y i. rewrite <- app_rest1. apply rsum_ext. intros j _. now rewrite rest_S. }
  assert (RB : forall y j, app_m m (fun j i => rest (S k) A (addcol k U u) (setv k s c) (addcol k V v) i j) y j =
     app_m m (fun j i => R0 i j) y j - c * v j * ip m u y).
  { intros y j. rewrite <- app_rest1. apply rsum_ext. intros i _. rewrite rest_S. fold R0. ring. }
  constructor.
  - now apply addcol_ortho1.
  - now apply addcol_ortho1.
  - intros l Hl. destruct (Nat.eq_dec l k) as [->|]; [now rewrite setv_new|]. rewrite setv_old by lia. apply Hp. lia.
  - intros a b Hab Hb. destruct (Nat.eq_dec b k) as [->|].
    + rewrite setv_new. destruct (Nat.eq_dec a k) as [->|]; [rewrite setv_new; lra|]. rewrite setv_old by lia.
      eapply Rle_trans; [apply Hcs; lia|]. apply Hs; lia.
    + rewrite !setv_old by lia. apply Hs; lia.
  - intros i l Hi Hl. rewrite RA. destruct (Nat.eq_dec l k) as [->|].
    + replace (app_m n R0 (fun j => addcol k V v j k) i) with (app_m n R0 v i) by (apply rsum_ext; intros; now rewrite addcol_new).
      rewrite H1 by auto. replace (ip n v (fun j => addcol k V v j k)) with 1; [ring|]. rewrite <- Nv. apply rsum_ext. intros. now rewrite addcol_new.
    + replace (app_m n R0 (fun j => addcol k V v j l) i) with (app_m n R0 (fun j => V j l) i) by (apply rsum_ext; intros; now rewrite addcol_old by lia).
      rewrite HRV by (auto; lia). replace (ip n v (fun j => addcol k V v j l)) with 0; [ring|]. rewrite <- (Ov l) by lia. rewrite ip_sym. apply rsum_ext. intros. now rewrite addcol_old by lia.
  - intros j l Hj Hl. rewrite RB. destruct (Nat.eq_dec l k) as [->|].
    + replace (app_m m (fun j i => R0 i j) (fun i => addcol k U u i k) j) with (app_m m (fun j i => R0 i j) u j) by (apply rsum_ext; intros; now rewrite addcol_new).
      rewrite H2 by auto. replace (ip m u (fun i => addcol k U u i k)) with 1; [ring|]. rewrite <- Nu. apply rsum_ext. intros. now rewrite addcol_new.
    + replace (app_m m (fun j i => R0 i j) (fun i => addcol k U u i l) j) with (app_m m (fun j i => R0 i j) (fun i => U i l) j) by (apply rsum_ext; intros; now rewrite addcol_old by lia).
      rewrite HRU by (auto; lia). replace (ip m u (fun i => addcol k U u i l)) with 0; [ring|]. rewrite <- (Ou l) by lia. rewrite ip_sym. apply rsum_ext. intros. now rewrite addcol_old by lia.
  - intros y _. replace (S k - 1)%nat with k by lia. rewrite setv_new.
    set (z := fun i => y i - ip n v y * v i).
    apply Rle_trans with (ip m (app_m n R0 z) (app_m n R0 z)).
    + apply Req_le. apply ip_ext; intros i Hi; rewrite RA; unfold z; rewrite app_sub, H1 by auto; ring.
    + eapply Rle_trans; [apply H3|]. apply Rmult_le_compat_l; [nra|]. unfold z.
      rewrite ip_sub, (ip_sym n y (fun i => y i - ip n v y * v i)), (ip_sym n v (fun i => y i - ip n v y * v i)), !ip_sub, Nv, (ip_sym n y v). pose proof (Rle_0_sqr (ip n v y)). unfold Rsqr in *. lra.
Qed.

(** A square orthonormal system is complete. *)
Lemma complete m q : ortho m m q -> forall e i, (e < m)%nat -> (i < m)%nat -> rsum m (fun l => q e l * q i l) = kron e i.
Proof.
  intros H e i He Hi. pose proof (trace_identity m m q H) as T. rewrite Rminus_diag_eq in T by auto.
  pose proof (rsum_zero_each m _ (fun e _ => rsum_nonneg m _ (fun i _ => Rle_0_sqr _)) T e He) as T1. cbv beta in T1.
  pose proof (rsum_zero_each m _ (fun i _ => Rle_0_sqr _) T1 i Hi) as T2. cbv beta in T2.
  assert (Z : resid m m q (kron e) i = 0) by (apply Rmult_integral in T2; destruct T2; auto). unfold resid in Z.
  rewrite (rsum_ext m _ (fun l => q e l * q i l)) in Z; [lra|]. intros l Hl. f_equal. unfold coef. now rewrite rsum_kron_r.
Qed.

Definition svd_spec (m n : nat) (A U : nat -> nat -> R) (s : nat -> R) (V : nat -> nat -> R) : Prop :=
  let k := Nat.min m n in
  (forall i j, (i < m)%nat -> (j < n)%nat -> A i j = expan k U s V i j) /\ ortho m k U /\ ortho n k V /\
  (forall l, (l < k)%nat -> 0 <= s l) /\ (forall a b, (a <= b)%nat -> (b < k)%nat -> s b <= s a).

Theorem svd_exists m n A : exists U s V, svd_spec m n A U s V.
Proof.
  assert (D : forall k, (k <= Nat.min m n)%nat -> exists U s V, deflated m n A k U s V).
  { induction k as [|k IH]; intros Hk.
    - exists (fun _ _ => 0), (fun _ => 0), (fun _ _ => 0). constructor; try (intros; lia); intros a b Ha; lia.
    - destruct (IH ltac:(lia)) as (U & s & V & H). now apply (deflate_step m n A k U s V). }
  destruct (D (Nat.min m n) (le_n _)) as (U & s & V & [HU HV Hp Hs HRV HRU HN]). exists U, s, V.
  split; [|auto]. intros i j Hi Hj. set (k := Nat.min m n) in *.
  assert (Z : rest k A U s V i j = 0); [|unfold rest in Z; lra].
  destruct (Nat.min_spec m n) as [[Hmn Ek]|[Hmn Ek]]; fold k in Ek.
  - rewrite Ek in *. transitivity (rsum m (fun i' => rest m A U s V i' j * kron i i')); [now rewrite rsum_kron_r|].
    rewrite (rsum_ext m _ (fun i' => rsum m (fun l => U i l * (rest m A U s V i' j * U i' l)))).
    2:{ intros i' Hi'. rewrite <- (complete m U HU i i') by auto. rewrite <- rsum_mul_l. apply rsum_ext. intros; ring. }
    rewrite rsum_swap. apply rsum_0. intros l Hl. rewrite rsum_mul_l. pose proof (HRU j l Hj Hl) as Z. unfold app_m in Z. rewrite Z. ring.
  - rewrite Ek in *. transitivity (rsum n (fun j' => rest n A U s V i j' * kron j j')); [now rewrite rsum_kron_r|].
    rewrite (rsum_ext n _ (fun j' => rsum n (fun l => V j l * (rest n A U s V i j' * V j' l)))).
    2:{ intros j' Hj'. rewrite <- (complete n V HV j j') by auto. rewrite <- rsum_mul_l. apply rsum_ext. intros; ring. }
    rewrite rsum_swap. apply rsum_0. intros l Hl. rewrite rsum_mul_l. pose proof (HRV i l Hi Hl) as Z. unfold app_m in Z. rewrite Z. ring.
Qed.

(** * A routine meeting the contract. *)
Lemma svd_sig m n A : {w : (nat -> nat -> R) * (nat -> R) * (nat -> nat -> R) | svd_spec m n A (fst (fst w)) (snd (fst w)) (snd w)}.
Proof.
  apply constructive_indefinite_description. destruct (svd_exists m n A) as (U & s & V & H). now exists (U, s, V).
Qed.
Definition tens1 (pre : list nat) (n : nat) (f : list nat -> nat -> R) : rtensor :=
  mk (K := Rring) (pre ++ [n]) (fun idx => f (firstn (length pre) idx) (nth (length pre) idx 0%nat)).
Lemma get_tens1 pre n f p i : vidx pre p -> (i < n)%nat -> get (tens1 pre n f) (p ++ [i]) = f p i.
Proof.
  intros Hp Hi. unfold tens1. rewrite get_mk by (apply vidx_app; [auto|vsolve]).
  rewrite <- (vidx_length _ _ Hp). rewrite firstn_app, firstn_all, Nat.sub_diag, app_nil_r. now rewrite nth_middle.
Qed.
Definition some_svd (x : rtensor) : rtensor * rtensor * rtensor :=
  let '(pre, m, n) := split2 (shape x) in
  (tens1 pre (Nat.min m n) (fun p => snd (fst (proj1_sig (svd_sig m n (mat_of x p))))),
   tens2 pre m (Nat.min m n) (fun p => fst (fst (proj1_sig (svd_sig m n (mat_of x p))))),
   tens2 pre n (Nat.min m n) (fun p => snd (proj1_sig (svd_sig m n (mat_of x p))))).

Theorem some_svd_ok : svd_ok some_svd.
Proof.
  intros pre m n x Wx Sx Pos. unfold some_svd. rewrite Sx, split2_app. cbv zeta.
  split; [apply wft_mk|]. split; [reflexivity|]. split; [apply wft_mk|]. split; [reflexivity|]. split; [apply wft_mk|]. split; [reflexivity|].
  intros p Hp. destruct (svd_sig m n (mat_of x p)) as (w & H1 & H2 & H3 & H4 & H5) eqn:E.
  split; [|split; [|split; [|split]]].
  - intros i j Hi Hj. change (get x (p ++ [i; j])) with (mat_of x p i j). rewrite H1 by auto. apply (sumn_ext Rring). intros l Hl.
    rewrite !get_tens2, get_tens1 by auto. rewrite E. reflexivity.
  - intros a b Ha Hb. rewrite <- H2 by auto. apply (sumn_ext Rring). intros i Hi. rewrite !get_tens2 by auto. rewrite E. reflexivity.
  - intros a b Ha Hb. rewrite <- H3 by auto. apply (sumn_ext Rring). intros i Hi. rewrite !get_tens2 by auto. rewrite E. reflexivity.
  - intros a Ha. rewrite get_tens1 by auto. rewrite E. now apply H4.
  - intros a b Hab Hb. rewrite !get_tens1 by (auto; lia). rewrite E. now apply H5.
Qed.
