(** Matrices with any finite index sets as functions; Frobenius norms, orthonormal columns, projections. *)
From Coq Require Import List Arith Lia Lra Reals.
From Verif Require Import Scalar Tensor TensorLemmas OpsR DecompSpec QRExists Trunc.
Import ListNotations.
Local Open Scope R_scope.

Definition lsum {A} (l : list A) (f : A -> R) : R := fold_right (fun a s => f a + s) 0 l.
Lemma lsum_nil {A} (f : A -> R) : lsum [] f = 0. Proof. reflexivity. Qed.
Lemma lsum_cons {A} (a : A) l f : lsum (a :: l) f = f a + lsum l f. Proof. reflexivity. Qed.

Section Sums.
Context {A B : Type}.
Implicit Types (l : list A) (m : list B).
Lemma lsum_ext l f g : (forall a, In a l -> f a = g a) -> lsum l f = lsum l g.
Proof. induction l as [|a l IH]; intros H; rewrite ?lsum_nil, ?lsum_cons; auto. rewrite H, IH; cbn; auto. intros; apply H; now right. Qed.
Lemma lsum_add l f g : lsum l (fun a => f a + g a) = lsum l f + lsum l g.
Proof. induction l as [|a l IH]; rewrite ?lsum_nil, ?lsum_cons; [ring|rewrite IH; ring]. Qed.
Lemma lsum_mul_l l c f : lsum l (fun a => c * f a) = c * lsum l f.
Proof. induction l as [|a l IH]; rewrite ?lsum_nil, ?lsum_cons; [ring|rewrite IH; ring]. Qed.
Lemma lsum_mul_r l c f : lsum l (fun a => f a * c) = lsum l f * c.
Proof. induction l as [|a l IH]; rewrite ?lsum_nil, ?lsum_cons; [ring|rewrite IH; ring]. Qed.
Lemma lsum_0 l f : (forall a, In a l -> f a = 0) -> lsum l f = 0.
Proof. induction l as [|a l IH]; intros H; rewrite ?lsum_nil, ?lsum_cons; auto. rewrite H, IH; cbn; auto; [ring|]. intros; apply H; now right. Qed.
Lemma lsum_le l f g : (forall a, In a l -> f a <= g a) -> lsum l f <= lsum l g.
Proof. induction l as [|a l IH]; intros H; rewrite ?lsum_nil, ?lsum_cons; [lra|]. apply Rplus_le_compat; [apply H; now left|apply IH; intros; apply H; now right]. Qed.
Lemma lsum_nonneg l f : (forall a, In a l -> 0 <= f a) -> 0 <= lsum l f.
Proof. induction l as [|a l IH]; intros H; rewrite ?lsum_nil, ?lsum_cons; [lra|]. apply Rplus_le_le_0_compat; [apply H; now left|apply IH; intros; apply H; now right]. Qed.
End Sums.
Lemma lsum_swap {A B} (l : list A) (m : list B) (f : A -> B -> R) : lsum l (fun a => lsum m (fun b => f a b)) = lsum m (fun b => lsum l (fun a => f a b)).
Proof.
  induction l as [|a l IH]; rewrite ?lsum_nil, ?lsum_cons; [symmetry; now apply lsum_0|]. rewrite IH. symmetry. apply (lsum_add m).
Qed.
Lemma lsum_app {A} (l1 l2 : list A) f : lsum (l1 ++ l2) f = lsum l1 f + lsum l2 f.
Proof. induction l1 as [|a l IH]; cbn [app]; rewrite ?lsum_nil, ?lsum_cons; [ring|rewrite IH; ring]. Qed.
Lemma lsum_map {A B} (g : A -> B) l f : lsum (map g l) f = lsum l (fun a => f (g a)).
Proof. induction l as [|a l IH]; cbn [map]; rewrite ?lsum_nil, ?lsum_cons; auto. now rewrite IH. Qed.
Lemma lsum_prod {A B} (l : list A) (m : list B) f : lsum (list_prod l m) f = lsum l (fun a => lsum m (fun b => f (a, b))).
Proof. induction l as [|a l IH]; cbn [list_prod]; rewrite ?lsum_nil, ?lsum_cons; auto. now rewrite lsum_app, lsum_map, IH. Qed.
Lemma lsum_seq n f : lsum (seq 0 n) f = rsum n f.
Proof. induction n as [|n IH]; [reflexivity|]. rewrite seq_S, lsum_app, rsum_S, IH. cbn. ring. Qed.
Lemma lsum_rsum {A} (l : list A) n (f : A -> nat -> R) : lsum l (fun a => rsum n (f a)) = rsum n (fun i => lsum l (fun a => f a i)).
Proof.
  rewrite <- lsum_seq. rewrite <- (lsum_swap l (seq 0 n) f). apply lsum_ext. intros; now rewrite lsum_seq.
Qed.
Lemma lsum_nth {A} (l : list A) d f : lsum l f = rsum (length l) (fun i => f (nth i l d)).
Proof.
  rewrite <- lsum_seq, <- (lsum_map (fun i => nth i l d)). f_equal. apply nth_ext with (d := d) (d' := nth (length l) l d).
  - now rewrite map_length, seq_length.
  - intros n H. rewrite (map_nth (fun i => nth i l d) (seq 0 (length l)) (length l)), seq_nth by auto. reflexivity.
Qed.

(** ** Norms *)
Definition nrm {A} (l : list A) (f : A -> R) : R := sqrt (lsum l (fun a => f a * f a)).
Lemma sq_sum_nonneg {A} (l : list A) f : 0 <= lsum l (fun a => f a * f a).
Proof. apply lsum_nonneg. intros. apply Rle_0_sqr. Qed.
Lemma nrm_nonneg {A} (l : list A) f : 0 <= nrm l f. Proof. apply sqrt_pos. Qed.
Lemma nrm_sq {A} (l : list A) f : nrm l f * nrm l f = lsum l (fun a => f a * f a).
Proof. apply sqrt_sqrt, sq_sum_nonneg. Qed.
Lemma nrm_ext {A} (l : list A) f g : (forall a, In a l -> f a = g a) -> nrm l f = nrm l g.
Proof. intros H. unfold nrm. f_equal. apply lsum_ext. intros a Ha. now rewrite H. Qed.

Lemma cauchy {A} (l : list A) f g : lsum l (fun a => f a * g a) <= nrm l f * nrm l g.
Proof.
  set (F := lsum l (fun a => f a * f a)). set (G := lsum l (fun a => g a * g a)). set (P := lsum l (fun a => f a * g a)).
  assert (HF : 0 <= F) by apply sq_sum_nonneg. assert (HG : 0 <= G) by apply sq_sum_nonneg.
  assert (Q : forall x y, 0 <= x * x * F + 2 * (x * y) * P + y * y * G).
  { intros x y. replace (x * x * F + 2 * (x * y) * P + y * y * G) with (lsum l (fun a => (x * f a + y * g a) * (x * f a + y * g a))); [apply sq_sum_nonneg|].
    unfold F, G, P. rewrite <- !lsum_mul_l, <- !lsum_add. apply lsum_ext. intros; ring. }
  assert (D : P * P <= F * G).
  { destruct (Req_dec G 0) as [E|E].
    - assert (P = 0) as ->; [|rewrite E; lra]. destruct (Req_dec P 0) as [|N]; auto. exfalso.
      specialize (Q 1 (- (F + 1) / P)). rewrite E in Q. replace (2 * (1 * (- (F + 1) / P)) * P) with (- 2 * (F + 1)) in Q by (field; auto). lra.
    - specialize (Q G (- P)). assert (0 < G) by lra. apply Rmult_le_reg_l with G; auto. nra. }
  unfold nrm. fold F G. rewrite <- sqrt_mult by auto. apply Rle_trans with (Rabs P); [apply Rle_abs|]. rewrite <- sqrt_Rsqr_abs. apply sqrt_le_1_alt. exact D.
Qed.
Lemma nrm_tri {A} (l : list A) f g : nrm l (fun a => f a + g a) <= nrm l f + nrm l g.
Proof.
  pose proof (nrm_nonneg l f). pose proof (nrm_nonneg l g). pose proof (nrm_nonneg l (fun a => f a + g a)).
  apply Rsqr_incr_0; auto; [|lra]. unfold Rsqr. rewrite nrm_sq.
  replace (lsum l (fun a => (f a + g a) * (f a + g a))) with (lsum l (fun a => f a * f a) + 2 * lsum l (fun a => f a * g a) + lsum l (fun a => g a * g a)).
  2:{ rewrite <- lsum_mul_l, <- !lsum_add. apply lsum_ext. intros; ring. }
  rewrite <- !nrm_sq. pose proof (cauchy l f g). nra.
Qed.

Definition frob {A B} (la : list A) (lb : list B) (F : A -> B -> R) : R := nrm (list_prod la lb) (fun p => F (fst p) (snd p)).
Definition frob2 {A B} (la : list A) (lb : list B) (F : A -> B -> R) : R := lsum la (fun a => lsum lb (fun b => F a b * F a b)).

Section Frob.
Context {A B : Type} (la : list A) (lb : list B).
Implicit Types F G H : A -> B -> R.
Lemma frob_sq F : frob la lb F * frob la lb F = frob2 la lb F.
Proof. unfold frob. rewrite nrm_sq, lsum_prod. reflexivity. Qed.
Lemma frob_sqrt F : frob la lb F = sqrt (frob2 la lb F).
Proof. unfold frob, nrm. now rewrite lsum_prod. Qed.
Lemma frob_nonneg F : 0 <= frob la lb F. Proof. apply nrm_nonneg. Qed.
Lemma frob2_nonneg F : 0 <= frob2 la lb F. Proof. rewrite <- frob_sq. apply Rle_0_sqr. Qed.
Lemma frob_ext F G : (forall a b, In a la -> In b lb -> F a b = G a b) -> frob la lb F = frob la lb G.
Proof. intros E. apply nrm_ext. intros [a b] I. apply in_prod_iff in I. cbn. now apply E. Qed.
Lemma frob2_ext F G : (forall a b, In a la -> In b lb -> F a b = G a b) -> frob2 la lb F = frob2 la lb G.
Proof. intros E. rewrite <- !frob_sq. now rewrite (frob_ext F G). Qed.
Lemma frob_tri F G : frob la lb (fun a b => F a b + G a b) <= frob la lb F + frob la lb G.
Proof. unfold frob. apply nrm_tri. Qed.
Lemma frob_opp F : frob la lb (fun a b => - F a b) = frob la lb F.
Proof. rewrite !frob_sqrt. f_equal. unfold frob2. apply lsum_ext. intros. apply lsum_ext. intros. ring. Qed.
Lemma frob_sub F G H : frob la lb (fun a b => F a b - H a b) <= frob la lb (fun a b => F a b - G a b) + frob la lb (fun a b => G a b - H a b).
Proof. eapply Rle_trans; [|apply frob_tri]. apply Req_le, frob_ext. intros; ring. Qed.
Lemma frob_sym F G : frob la lb (fun a b => F a b - G a b) = frob la lb (fun a b => G a b - F a b).
Proof. rewrite <- frob_opp. apply frob_ext. intros; ring. Qed.
Lemma frob_near F G : frob la lb F <= frob la lb G + frob la lb (fun a b => F a b - G a b).
Proof. eapply Rle_trans; [|apply frob_tri]. apply Req_le, frob_ext. intros; ring. Qed.
Lemma frob_le_sq F x : 0 <= x -> frob2 la lb F <= x * x -> frob la lb F <= x.
Proof. intros Hx H. rewrite <- frob_sq in H. apply Rsqr_incr_0; auto. apply frob_nonneg. Qed.
Lemma frob_cols F : frob2 la lb F = lsum lb (fun b => lsum la (fun a => F a b * F a b)).
Proof. apply lsum_swap. Qed.
End Frob.

(** The product over an index below [k], and U^T X. *)
Definition mm {A C} (k : nat) (F : A -> nat -> R) (G : nat -> C -> R) : A -> C -> R := fun a c => rsum k (fun b => F a b * G b c).
Definition pr {A C} (la : list A) (U : A -> nat -> R) (X : A -> C -> R) : nat -> C -> R := fun l c => lsum la (fun a => U a l * X a c).
Definition orth {A} (la : list A) (k : nat) (U : A -> nat -> R) : Prop :=
  forall l l', (l < k)%nat -> (l' < k)%nat -> lsum la (fun a => U a l * U a l') = kron l l'.

Lemma mm_frob {A C} (la : list A) (lc : list C) k F G : frob la lc (mm k F G) <= frob la (seq 0 k) F * frob (seq 0 k) lc G.
Proof.
  apply frob_le_sq; [apply Rmult_le_pos; apply frob_nonneg|].
  replace (frob la (seq 0 k) F * frob (seq 0 k) lc G * (frob la (seq 0 k) F * frob (seq 0 k) lc G)) with (frob2 la (seq 0 k) F * frob2 (seq 0 k) lc G) by (rewrite <- !frob_sq; ring).
  rewrite (frob_cols (seq 0 k) lc). unfold frob2. rewrite <- lsum_mul_r. apply lsum_le. intros a _. rewrite <- lsum_mul_l. apply lsum_le. intros c _.
  unfold mm. rewrite <- lsum_seq. set (x := nrm (seq 0 k) (F a)). set (y := nrm (seq 0 k) (fun b => G b c)).
  assert (X : lsum (seq 0 k) (fun b => F a b * F a b) = x * x) by (symmetry; apply nrm_sq). assert (Y : lsum (seq 0 k) (fun b => G b c * G b c) = y * y) by (symmetry; apply nrm_sq).
  rewrite X, Y. pose proof (cauchy (seq 0 k) (F a) (fun b => G b c)) as H1. pose proof (cauchy (seq 0 k) (fun b => - F a b) (fun b => G b c)) as H2. cbv beta in H1, H2.
  rewrite (lsum_ext (seq 0 k) (fun b => - F a b * G b c) (fun b => -1 * (F a b * G b c))), lsum_mul_l in H2 by (intros; ring).
  replace (nrm (seq 0 k) (fun b => - F a b)) with x in H2 by (unfold x, nrm; f_equal; apply lsum_ext; intros; ring). fold x y in H1, H2.
  set (q := lsum (seq 0 k) (fun b => F a b * G b c)) in *. assert (0 <= x * y) by (apply Rmult_le_pos; apply nrm_nonneg). replace (x * x * (y * y)) with ((x * y) * (x * y)) by ring. nra.
Qed.

Section Orth.
Context {A C : Type} (la : list A) (lc : list C) (k : nat) (U : A -> nat -> R).
Hypothesis HU : orth la k U.

Lemma orth_sq y : lsum la (fun a => rsum k (fun l => U a l * y l) * rsum k (fun l => U a l * y l)) = rsum k (fun l => y l * y l).
Proof.
  rewrite (lsum_ext la _ (fun a => rsum k (fun l => rsum k (fun l' => (y l * y l') * (U a l * U a l'))))).
  2:{ intros a _. rewrite <- rsum_mul_r. apply rsum_ext. intros l _. rewrite <- rsum_mul_l. apply rsum_ext. intros; ring. }
  rewrite lsum_rsum. apply rsum_ext. intros l Hl. rewrite lsum_rsum.
  rewrite (rsum_ext k _ (fun l' => (y l * y l') * kron l l')) by (intros l' Hl'; now rewrite lsum_mul_l, HU). now rewrite rsum_kron_r.
Qed.
Lemma orth_iso2 Y : frob2 la lc (mm k U Y) = frob2 (seq 0 k) lc Y.
Proof. rewrite !frob_cols. apply lsum_ext. intros c _. rewrite lsum_seq. apply (orth_sq (fun l => Y l c)). Qed.
Lemma orth_iso Y : frob la lc (mm k U Y) = frob (seq 0 k) lc Y.
Proof. rewrite !frob_sqrt. now rewrite orth_iso2. Qed.

Lemma pythagoras (X : A -> C -> R) : frob2 la lc X = frob2 (seq 0 k) lc (pr la U X) + frob2 la lc (fun a c => X a c - mm k U (pr la U X) a c).
Proof.
  rewrite !frob_cols, <- lsum_add. apply lsum_ext. intros c _. rewrite lsum_seq.
  set (y := fun l => pr la U X l c). unfold mm.
  rewrite (lsum_ext la (fun a => _ * (X a c - _)) (fun a => X a c * X a c + (-2 * rsum k (fun l => y l * (U a l * X a c)) + rsum k (fun l => U a l * y l) * rsum k (fun l => U a l * y l)))).
  2:{ intros a _. rewrite (rsum_ext k (fun l => y l * (U a l * X a c)) (fun l => (U a l * y l) * X a c)) by (intros; ring). rewrite rsum_mul_r. unfold y. ring. }
  rewrite !lsum_add, lsum_mul_l, orth_sq, lsum_rsum.
  rewrite (rsum_ext k (fun i => lsum la _) (fun l => y l * y l)) by (intros l _; now rewrite lsum_mul_l).
  change (rsum k (fun l => pr la U X l c * pr la U X l c)) with (rsum k (fun l => y l * y l)). ring.
Qed.
Lemma pr_le (X : A -> C -> R) : frob (seq 0 k) lc (pr la U X) <= frob la lc X.
Proof. rewrite !frob_sqrt. apply sqrt_le_1_alt. rewrite pythagoras. pose proof (frob2_nonneg la lc (fun a c => X a c - mm k U (pr la U X) a c)). lra. Qed.
Lemma rest_le (X : A -> C -> R) : frob la lc (fun a c => X a c - mm k U (pr la U X) a c) <= frob la lc X.
Proof. rewrite !frob_sqrt. apply sqrt_le_1_alt. rewrite (pythagoras X). pose proof (frob2_nonneg (seq 0 k) lc (pr la U X)). lra. Qed.
Lemma pr_mm (Y : nat -> C -> R) l c : (l < k)%nat -> pr la U (mm k U Y) l c = Y l c.
Proof.
  intros Hl. unfold pr, mm. rewrite (lsum_ext la _ (fun a => rsum k (fun l' => Y l' c * (U a l * U a l')))).
  2:{ intros a _. rewrite <- rsum_mul_l. apply rsum_ext. intros; ring. }
  rewrite lsum_rsum, (rsum_ext k _ (fun l' => Y l' c * kron l l')) by (intros l' Hl'; now rewrite lsum_mul_l, HU). now rewrite rsum_kron_r.
Qed.
End Orth.

Lemma pr_sub {A C} (la : list A) U (X Y : A -> C -> R) l c : pr la U (fun a c => X a c - Y a c) l c = pr la U X l c - pr la U Y l c.
Proof.
  unfold pr. rewrite (lsum_ext la _ (fun a => U a l * X a c + -1 * (U a l * Y a c))) by (intros; ring). rewrite lsum_add, lsum_mul_l. ring.
Qed.
Lemma orth_le {A} (la : list A) k r U : orth la k U -> (r <= k)%nat -> orth la r U.
Proof. intros H Hr l l' Hl Hl'. apply H; lia. Qed.

(** A bound on columns is a bound on matrices. *)
Lemma op_cols {A C} (la : list A) (lc : list C) k (D : A -> nat -> R) e : 0 <= e ->
  (forall y : nat -> R, nrm la (fun a => rsum k (fun l => D a l * y l)) <= e * nrm (seq 0 k) y) ->
  forall Y, frob la lc (mm k D Y) <= e * frob (seq 0 k) lc Y.
Proof.
  intros He H Y. apply frob_le_sq; [apply Rmult_le_pos; [auto|apply frob_nonneg]|].
  replace (e * frob (seq 0 k) lc Y * (e * frob (seq 0 k) lc Y)) with (e * e * frob2 (seq 0 k) lc Y) by (rewrite <- frob_sq; ring).
  rewrite !frob_cols, <- lsum_mul_l. apply lsum_le. intros c _. pose proof (H (fun l => Y l c)) as Hc.
  rewrite <- (nrm_sq (seq 0 k) (fun l => Y l c)). rewrite <- (nrm_sq la (fun a => mm k D Y a c)).
  pose proof (nrm_nonneg la (fun a => mm k D Y a c)). pose proof (nrm_nonneg (seq 0 k) (fun l => Y l c)). unfold mm at 1 2. cbv beta in Hc.
  set (p := nrm la _) in *. set (q := nrm (seq 0 k) (fun l => Y l c)) in *.
  replace (e * e * (q * q)) with ((e * q) * (e * q)) by ring. apply Rmult_le_compat; auto; apply nrm_nonneg.
Qed.

(** ** Truncated singular value decompositions *)
Section Trunc.
Context {A B : Type} (la : list A) (lb : list B) (K : nat) (u : A -> nat -> R) (s : nat -> R) (v : B -> nat -> R) (M : A -> B -> R).
Hypothesis Hu : orth la K u.
Hypothesis Hv : orth lb K v.
Hypothesis Hs : forall a b, (a <= b)%nat -> (b < K)%nat -> 0 <= s b <= s a.
Hypothesis HM : forall a b, In a la -> In b lb -> M a b = rsum K (fun l => u a l * s l * v b l).

Lemma svd_pr l b : In b lb -> (l < K)%nat -> pr la u M l b = s l * v b l.
Proof.
  intros Hb Hl. rewrite <- (pr_mm la K u Hu (fun l b => s l * v b l)) by auto. apply lsum_ext. intros a Ha. rewrite HM by auto. unfold mm. f_equal. apply rsum_ext. intros; ring.
Qed.
Lemma svd_frob2 : frob2 la lb M = rsum K (fun l => s l * s l).
Proof.
  rewrite (frob2_ext la lb M (mm K u (fun l b => s l * v b l))) by (intros a b Ha Hb; rewrite HM by auto; apply rsum_ext; intros; ring).
  rewrite orth_iso2 by auto. unfold frob2. rewrite lsum_seq. apply rsum_ext. intros l Hl.
  rewrite (lsum_ext lb _ (fun b => (s l * s l) * (v b l * v b l))) by (intros; ring). rewrite lsum_mul_l, Hv by auto. unfold kron. rewrite Nat.eqb_refl. cbn. ring.
Qed.

Lemma eckart bound r q (P : A -> nat -> R) (Z : B -> nat -> R) : r = Nat.min bound K -> (q <= bound)%nat ->
  frob la lb (fun a b => M a b - mm r u (pr la u M) a b) <= frob la lb (fun a b => M a b - rsum q (fun c => P a c * Z b c)).
Proof.
  intros Hr Hq. destruct la as [|a0 la'] eqn:Ea.
  { rewrite !frob_sqrt. apply Req_le. reflexivity. }
  destruct lb as [|b0 lb'] eqn:Eb.
  { apply Req_le. apply frob_ext. intros a b _ []. }
  rewrite <- Ea, <- Eb in *. rewrite !frob_sqrt. apply sqrt_le_1_alt.
  set (m := length la). set (n := length lb). set (nU := fun i l => u (nth i la a0) l). set (nV := fun j l => v (nth j lb b0) l). set (nA := fun i j => M (nth i la a0) (nth j lb b0)).
  assert (OU : ortho m K nU). { intros l l' Hl Hl'. rewrite <- Hu by auto. now rewrite (lsum_nth la a0). }
  assert (OV : ortho n K nV). { intros l l' Hl Hl'. rewrite <- Hv by auto. now rewrite (lsum_nth lb b0). }
  assert (S2 : forall F : A -> B -> R, frob2 la lb F = sum2 m n (fun i j => F (nth i la a0) (nth j lb b0) * F (nth i la a0) (nth j lb b0))).
  { intros F. unfold frob2, sum2. rewrite (lsum_nth la a0). apply rsum_ext. intros i _. now rewrite (lsum_nth lb b0). }
  assert (EA : forall i j, (i < m)%nat -> (j < n)%nat -> nA i j = expan K nU s nV i j). { intros i j Hi Hj. unfold nA. rewrite HM by (apply nth_In; auto). reflexivity. }
  assert (OR : forall x l, (x < m)%nat -> (l < K)%nat -> rsum n (fun y => (nA x y - expan K nU s nV x y) * nV y l) = 0).
  { intros x l Hx Hl. apply rsum_0. intros y Hy. rewrite EA by auto. ring. }
  assert (HrK : (r <= K)%nat) by lia.
  assert (TE : frob2 la lb (fun a b => M a b - mm r u (pr la u M) a b) = tail K r s).
  { rewrite S2. rewrite <- (Rplus_0_l (tail K r s)). replace 0 with (sum2 m n (fun x y => (nA x y - expan K nU s nV x y) * (nA x y - expan K nU s nV x y))).
    - rewrite <- (trunc_error m n K r nA nU nV s OU OV HrK OR). apply sum2_ext. intros i j Hi Hj. fold (nA i j).
      replace (mm r u (pr la u M) (nth i la a0) (nth j lb b0)) with (expan r nU s nV i j); [reflexivity|].
      unfold mm, expan. apply rsum_ext. intros l Hl. rewrite svd_pr by (try apply nth_In; auto; lia). unfold nU, nV. ring.
    - unfold sum2. apply rsum_0. intros i Hi. apply rsum_0. intros j Hj. rewrite EA by auto. ring. }
  rewrite TE, S2. destruct (le_lt_dec K bound) as [Hk|Hk].
  - rewrite tail_full by lia. apply sum2_nonneg. intros. apply Rle_0_sqr.
  - apply Rle_trans with (tail K q s); [apply tail_mono; lia|].
    apply (tail_best m n K q nA nU nV s OU OV Hs OR (fun i c => P (nth i la a0) c) (fun j c => Z (nth j lb b0) c)).
Qed.
End Trunc.
