(** Norms of trains of matrices, and what one step of an orthogonalization with an inexact QR
    decomposition does to the represented tensor.  No tensors or code here, only trains [chain]. *)
From Coq Require Import List Arith ZArith Lia Lra Bool Ring Reals.
From Verif Require Import Scalar Tensor TensorLemmas Base Spec Chain Sweep OpsR DecompSpec GaugeProofs QRExists Trunc TruncChain FMat NearStep NearChain.
Import ListNotations.
Local Open Scope R_scope.

(** Rows (rank, mode) of core [k]. *)
Definition grows (ms : nat -> list nat) (r : nat -> nat) (k : nat) : list (nat * list nat) := list_prod (seq 0 (r k)) (RI (ms k)).
Definition gmat (G : mtrain) (k : nat) : nat * list nat -> nat -> R := fun q b => G k (fst q) (snd q) b.
Definition gnorm (ms : nat -> list nat) (r : nat -> nat) (G : mtrain) (k : nat) : R := frob (grows ms r k) (seq 0 (r (S k))) (gmat G k).
Definition gorth (ms : nat -> list nat) (r : nat -> nat) (G : mtrain) (k : nat) : Prop := orth (grows ms r k) (r (S k)) (gmat G k).
(** Product of [f k], ..., [f (k + n - 1)]. *)
Fixpoint rprod (f : nat -> R) (k n : nat) : R := match n with 0 => 1 | S m => f k * rprod f (S k) m end.

Lemma rprod_ext f g k n : (forall i, (k <= i < k + n)%nat -> f i = g i) -> rprod f k n = rprod g k n.
Proof. revert k; induction n; intros k H; [reflexivity|]. cbn [rprod]. rewrite H by lia. f_equal. apply IHn. intros; apply H; lia. Qed.
Lemma rprod_nonneg f k n : (forall i, 0 <= f i) -> 0 <= rprod f k n.
Proof. intros H. revert k; induction n; intros k; cbn [rprod]; [lra|]. apply Rmult_le_pos; auto. Qed.
Lemma rprod_snoc f k n : rprod f k (S n) = rprod f k n * f (k + n)%nat.
Proof.
  revert k; induction n; intros k; [cbn [rprod]; rewrite Nat.add_0_r; ring|].
  change (f k * rprod f (S k) (S n) = f k * rprod f (S k) n * f (k + S n)%nat). rewrite IHn. replace (k + S n)%nat with (S k + n)%nat by lia. ring.
Qed.
Lemma rprod_app f k n m : rprod f k (n + m) = rprod f k n * rprod f (k + n)%nat m.
Proof.
  revert k; induction n; intros k; [cbn [rprod Nat.add]; rewrite Nat.add_0_r; ring|].
  cbn [rprod Nat.add]. rewrite IHn. replace (S k + n)%nat with (k + S n)%nat by lia. ring.
Qed.
Lemma gnorm_nonneg ms r G k : 0 <= gnorm ms r G k. Proof. apply frob_nonneg. Qed.
Lemma in_grows ms r k q : In q (grows ms r k) -> (fst q < r k)%nat /\ vidx (ms k) (snd q).
Proof. destruct q as [a j]. unfold grows. intros H. apply in_prod_iff in H as [H1 H2]. apply in_seq in H1. split; [cbn; lia|now apply in_RI]. Qed.
Lemma gnorm_ext ms r r' G G' k : r' k = r k -> r' (S k) = r (S k) ->
  (forall a j b, (a < r k)%nat -> vidx (ms k) j -> (b < r (S k))%nat -> G' k a j b = G k a j b) -> gnorm ms r' G' k = gnorm ms r G k.
Proof.
  intros H1 H2 H. unfold gnorm, grows. rewrite H1, H2. apply frob_ext. intros q b Hq Hb. apply in_grows in Hq as [Q1 Q2]. apply in_seq in Hb.
  apply H; auto. lia.
Qed.
Lemma gorth_ext ms r r' G G' k : r' k = r k -> r' (S k) = r (S k) ->
  (forall a j b, (a < r k)%nat -> vidx (ms k) j -> (b < r (S k))%nat -> G' k a j b = G k a j b) -> gorth ms r G k -> gorth ms r' G' k.
Proof.
  intros H1 H2 H O. unfold gorth, grows in *. rewrite H1, H2. intros l l' Hl Hl'. rewrite <- (O l l' Hl Hl'). apply lsum_ext. intros q Hq.
  apply in_grows in Hq as [Q1 Q2]. unfold gmat. now rewrite !H.
Qed.

(** The right product of cores k, ... is bounded by the product of their norms. *)
Lemma rvec_norm ms r G n : forall k, r (k + n)%nat = 1%nat ->
  frob (seq 0 (r k)) (RJ (map ms (seq k n))) (fun a J => rvec G r k J a) <= rprod (gnorm ms r G) k n.
Proof.
  induction n as [|n IH]; intros k Hk.
  - rewrite Nat.add_0_r in Hk. rewrite Hk. apply Req_le. cbn [seq map rprod]. rewrite frob_sqrt. unfold frob2.
    change (RJ []) with [@nil (list nat)]. rewrite lsum_cons, lsum_nil, lsum_cons, lsum_nil.
    replace (rvec G r k [] 0) with 1 by reflexivity. replace (1 * 1 + 0 + 0) with 1 by ring. apply sqrt_1.
  - cbn [seq map rprod]. rewrite (rei_cols' _ _ _ (rei_cons (ms k) (map ms (seq (S k) n)))), frob_swap_rows'.
    eapply Rle_trans; [|apply Rmult_le_compat_l; [apply gnorm_nonneg|apply (IH (S k)); rewrite <- Hk; f_equal; lia]].
    eapply Rle_trans; [|apply mm_frob]. apply Req_le. apply frob_ext. intros p b _ _. cbn [fst snd]. unfold rvec at 1. rewrite rchain_cons. reflexivity.
Qed.

(** Left products of orthonormal cores are orthonormal. *)
Lemma lvec_orth ms r G k : r 0%nat = 1%nat -> (forall m, (m < k)%nat -> (0 < r (S m))%nat) -> (forall m, (m < k)%nat -> gorth ms r G m) ->
  orth (RJ (map ms (seq 0 k))) (r k) (fun J a => lvec G r J a).
Proof.
  intros R0. induction k as [|k IH]; intros HP HO.
  - rewrite R0. intros l l' Hl Hl'. cbn [seq map]. change (RJ []) with [@nil (list nat)]. rewrite lsum_cons, lsum_nil.
    assert (l = 0%nat) by lia. assert (l' = 0%nat) by lia. subst. unfold lvec, lv. cbn. unfold kron. cbn. lra.
  - rewrite seq_S, map_app. cbn [Nat.add map]. apply (rei_orth _ _ _ (rei_snoc (map ms (seq 0 k)) (ms k))).
    intros l l' Hl Hl'.
    rewrite <- (near_orth (RJ (map ms (seq 0 k))) (RI (ms k)) (r k) (r (S k)) (r (S k)) (fun J a => lvec G r J a) (gmat G k) (le_n _)
      (IH ltac:(intros; apply HP; lia) ltac:(intros; apply HO; lia)) (HO k ltac:(lia)) l l' Hl Hl').
    apply lsum_ext. intros [J j] Hp. apply in_prod_iff in Hp as [H1 _]. apply in_RJ, vjdx_length in H1. rewrite map_length, seq_length in H1. cbn [fst snd].
    rewrite !lvec_snoc by (rewrite ?R0, ?H1; auto; lia). rewrite H1. reflexivity.
Qed.

(** Orthonormal cores replaced by cores within [de] of them. *)
Lemma lvec_near ms r G G' de k : 0 <= de -> r 0%nat = 1%nat -> (forall m, (m < k)%nat -> (0 < r (S m))%nat) -> (forall m, (m < k)%nat -> gorth ms r G m) ->
  (forall m, (m < k)%nat -> frob (grows ms r m) (seq 0 (r (S m))) (fun q b => gmat G' m q b - gmat G m q b) <= de) ->
  forall y : nat -> R, nrm (RJ (map ms (seq 0 k))) (fun J => rsum (r k) (fun c => (lvec G r J c - lvec G' r J c) * y c)) <= ((1 + de) ^ k - 1) * nrm (seq 0 (r k)) y.
Proof.
  intros Hde R0. induction k as [|k IH]; intros HP HO HD y.
  - cbn [pow]. apply Req_le. transitivity 0; [|ring]. unfold nrm. rewrite lsum_0; [apply sqrt_0|]. intros J HJ. cbn [seq map] in HJ. destruct HJ as [<-|[]].
    rewrite rsum_0; [ring|]. intros c Hc. unfold lvec, lv. cbn. ring.
  - rewrite seq_S, map_app. cbn [Nat.add map]. rewrite (rei_nrm _ _ _ (rei_snoc (map ms (seq 0 k)) (ms k))).
    assert (P1 : 1 <= (1 + de) ^ k) by (apply pow_R1_Rle; lra).
    pose proof (near_left (RJ (map ms (seq 0 k))) (RI (ms k)) (r k) (r (S k)) (r (S k)) (fun J a => lvec G r J a) (fun J a => lvec G' r J a) (gmat G' k) (gmat G k) de
      ((1 + de) ^ k - 1) ltac:(lra) (le_n _) (lvec_orth ms r G k R0 ltac:(intros; apply HP; lia) ltac:(intros; apply HO; lia))
      (IH ltac:(intros; apply HP; lia) ltac:(intros; apply HO; lia) ltac:(intros; apply HD; lia)) (HO k ltac:(lia)) (HD k ltac:(lia)) y) as H.
    eapply Rle_trans; [|eapply Rle_trans; [exact H|]].
    + apply Req_le, nrm_ext. intros [J j] Hp. apply in_prod_iff in Hp as [H1 _]. apply in_RJ, vjdx_length in H1. rewrite map_length, seq_length in H1. cbn [fst snd].
      apply rsum_ext. intros l Hl. rewrite !lvec_snoc by (rewrite ?R0, ?H1; auto; lia). rewrite H1. reflexivity.
    + apply Req_le. cbn [pow]. ring.
Qed.

(** ** One step of the sweep from left to right *)
Section QStep.
Variables (ms : nat -> list nat) (d i : nat) (G G' : mtrain) (r r' : nat -> nat) (Rf : nat -> nat -> R) (e : R).
Hypothesis Hi : (S i < d)%nat.
Hypothesis R0 : r 0%nat = 1%nat.
Hypothesis Rd : r d = 1%nat.
Hypothesis Hr : forall k, k <> S i -> r' k = r k.
Hypothesis HP : forall m, (m <= d)%nat -> (0 < r m)%nat.
Hypothesis HO : forall m, (m < i)%nat -> gorth ms r G m.
Hypothesis Hsame : forall k a j b, (k < d)%nat -> k <> i -> k <> S i -> (a < r k)%nat -> (b < r (S k))%nat -> vidx (ms k) j -> G' k a j b = G k a j b.
Hypothesis Hnext : forall l j c, (l < r' (S i))%nat -> vidx (ms (S i)) j -> (c < r (S (S i)))%nat ->
  G' (S i) l j c = rsum (r (S i)) (fun b => Rf l b * G (S i) b j c).
Hypothesis He : frob (grows ms r i) (seq 0 (r (S i))) (fun q b => mm (r' (S i)) (gmat G' i) Rf q b - gmat G i q b) <= e.

Lemma q_right J l : vjdx (map ms (seq (S i) (d - S i))) J -> (l < r' (S i))%nat ->
  rvec G' r' (S i) J l = rsum (r (S i)) (fun b => Rf l b * rvec G r (S i) J b).
Proof.
  intros HJ Hl. replace (d - S i)%nat with (S (d - S (S i))) in HJ by lia. cbn [seq map] in HJ. inversion HJ as [|? j ? J' Hj HJ']; subst.
  apply vjdx_seq in HJ' as [V L].
  unfold rvec. rewrite rchain_cons, Hr by lia.
  rewrite (rsum_ext (r (S (S i))) _ (fun c => rsum (r (S i)) (fun b => Rf l b * (G (S i) b j c * rchain G r (S (S i)) J' (fun _ => 1) c)))).
  2:{ intros c Hc. rewrite Hnext by auto. rewrite <- rsum_mul_r. apply rsum_ext. intros b _.
      replace (rchain G' r' (S (S i)) J' (fun _ => 1) c) with (rchain G r (S (S i)) J' (fun _ => 1) c); [ring|].
      apply (chain_ext2 Rring ms); auto.
      - symmetry. apply Hr. lia.
      - intros m Hm. symmetry. apply Hr. lia.
      - intros m a0 j0 b0 Hm Ha0 Hb0 Hj0. symmetry. apply Hsame; auto; lia. }
  rewrite rsum_swap. apply rsum_ext. intros b Hb. rewrite rchain_cons, rsum_mul_l. reflexivity.
Qed.
Lemma q_left J a : vjdx (map ms (seq 0 i)) J -> (a < r i)%nat -> lvec G' r' J a = lvec G r J a.
Proof.
  intros HJ Ha. apply vjdx_seq in HJ as [V L]. symmetry. unfold lvec, lv. apply (chain_ext2 Rring ms); auto.
  - lia.
  - symmetry. apply Hr. lia.
  - intros m Hm. symmetry. apply Hr. lia.
  - intros m a0 j0 b0 Hm Ha0 Hb0 Hj0. symmetry. apply Hsame; auto; lia.
Qed.

Lemma q_step : nrm (RJ (map ms (seq 0 d))) (fun J => rchain G' r' 0 J (fun _ => 1) 0 - rchain G r 0 J (fun _ => 1) 0) <=
  e * rprod (gnorm ms r G) (S i) (d - S i).
Proof.
  rewrite (seq_cut i d) by lia. rewrite map_app, (rei_nrm _ _ _ (rei_app (map ms (seq 0 i)) (map ms (seq i (d - i))))).
  change (nrm (list_prod ?a ?b) (fun p => @?f p)) with (nrm (list_prod a b) f).
  set (D := fun q b => mm (r' (S i)) (gmat G' i) Rf q b - gmat G i q b).
  set (Rt := fun b J => rvec G r (S i) J b).
  apply Rle_trans with (frob (RJ (map ms (seq 0 i))) (list_prod (RI (ms i)) (RJ (map ms (seq (S i) (d - S i)))))
    (mm (r i) (fun J a => lvec G r J a) (fun a p => mm (r (S i)) D Rt (a, fst p) (snd p)))).
  - apply Req_le. replace (d - i)%nat with (S (d - S i)) by lia. cbn [seq map].
    transitivity (frob (RJ (map ms (seq 0 i))) (RJ (ms i :: map ms (seq (S i) (d - S i)))) (fun J1 J2 => rchain G' r' 0 (J1 ++ J2) (fun _ => 1) 0 - rchain G r 0 (J1 ++ J2) (fun _ => 1) 0)); [reflexivity|].
    rewrite (rei_cols' _ _ _ (rei_cons (ms i) (map ms (seq (S i) (d - S i))))). apply frob_ext. intros J1 [j J2] H1 H2. cbn [fst snd].
    apply in_prod_iff in H2 as [Hj H2]. apply in_RJ in H1, H2. apply in_RI in Hj. pose proof (vjdx_length _ _ H1) as L1. rewrite map_length, seq_length in L1.
    rewrite !cut by (rewrite ?Hr, ?R0 by lia; lia). rewrite L1, Hr by lia. unfold mm at 1. rewrite <- rsum_sub. apply rsum_ext. intros a Ha.
    rewrite q_left by auto. unfold rvec at 1 2. rewrite !rchain_cons.
    assert (E : rsum (r' (S i)) (fun b => G' i a j b * rchain G' r' (S i) J2 (fun _ => 1) b) = rsum (r (S i)) (fun b => mm (r' (S i)) (gmat G' i) Rf (a, j) b * Rt b J2)).
    { rewrite (rsum_ext (r' (S i)) _ (fun l => rsum (r (S i)) (fun b => G' i a j l * Rf l b * Rt b J2))).
      2:{ intros l Hl. change (rchain G' r' (S i) J2 (fun _ => 1) l) with (rvec G' r' (S i) J2 l). rewrite q_right by auto. rewrite <- rsum_mul_l. apply rsum_ext. intros b _. unfold Rt. ring. }
      rewrite rsum_swap. apply rsum_ext. intros b _. unfold mm. rewrite <- rsum_mul_r. reflexivity. }
    rewrite E. unfold mm at 2. unfold D. cbn [fst snd].
    assert (E2 : rsum (r (S i)) (fun b => (mm (r' (S i)) (gmat G' i) Rf (a, j) b - gmat G i (a, j) b) * Rt b J2) =
      rsum (r (S i)) (fun b => mm (r' (S i)) (gmat G' i) Rf (a, j) b * Rt b J2) - rsum (r (S i)) (fun b => G i a j b * rchain G r (S i) J2 (fun _ => 1) b)).
    { rewrite <- rsum_sub. apply rsum_ext. intros b _. unfold gmat at 2, Rt, rvec. cbn [fst snd]. ring. }
    rewrite E2. ring.
  - rewrite orth_iso by (apply lvec_orth; auto; intros; apply HP; lia). rewrite frob_swap_rows'.
    eapply Rle_trans; [|apply Rmult_le_compat; [apply (frob_nonneg (grows ms r i) (seq 0 (r (S i))) D)|apply (frob_nonneg (seq 0 (r (S i))) (RJ (map ms (seq (S i) (d - S i)))) Rt)|exact He|apply (rvec_norm ms r G (d - S i) (S i)); replace (S i + (d - S i))%nat with d by lia; exact Rd]].
    eapply Rle_trans; [|apply mm_frob]. apply Req_le. apply frob_ext. intros [a j] J _ _. reflexivity.
Qed.
End QStep.

(** Train with core [i] replaced. *)
Definition gset (G : mtrain) (i : nat) (Q : nat -> list nat -> nat -> R) : mtrain := fun k => if Nat.eqb k i then Q else G k.
(** Cores 0, ..., i - 1 of [Q], the others of [G]. *)
Definition gmix (i : nat) (Q G : mtrain) : mtrain := fun k => if Nat.ltb k i then Q k else G k.

(** State of the sweep before step [i]: [G], [r] are the present cores and ranks, [G0], [r0] the given
    ones, [Q] orthonormal cores near the finished ones. *)
Record lrn (ms : nat -> list nat) (d : nat) (de : R) (G0 : mtrain) (r0 : nat -> nat) (G : mtrain) (r : nat -> nat) (Q : mtrain) (i : nat) : Prop := {
  ln_orth : forall k, (k < i)%nat -> gorth ms r Q k;
  ln_near : forall k, (k < i)%nat -> frob (grows ms r k) (seq 0 (r (S k))) (fun q b => gmat G k q b - gmat Q k q b) <= de;
  ln_norm : gnorm ms r G i <= (1 + de) ^ i * rprod (gnorm ms r0 G0) 0 (S i);
  ln_rank : forall k, (i < k <= d)%nat -> r k = r0 k;
  ln_rest : forall k a j b, (i < k < d)%nat -> (a < r0 k)%nat -> vidx (ms k) j -> (b < r0 (S k))%nat -> G k a j b = G0 k a j b;
  ln_dist : nrm (RJ (map ms (seq 0 d))) (fun J => rchain (gmix i Q G) r 0 J (fun _ => 1) 0 - rchain G0 r0 0 J (fun _ => 1) 0) <=
    ((1 + de) ^ i - 1) * rprod (gnorm ms r0 G0) 0 d }.

Lemma nrm_tri' {A} (l : list A) f g h : nrm l (fun a => f a - h a) <= nrm l (fun a => f a - g a) + nrm l (fun a => g a - h a).
Proof. eapply Rle_trans; [|apply nrm_tri]. apply Req_le, nrm_ext. intros; ring. Qed.
Lemma gnorm_rows ms r G k : gnorm ms r G k = frob (seq 0 (r k)) (list_prod (RI (ms k)) (seq 0 (r (S k)))) (fun a p => G k a (fst p) (snd p)).
Proof. rewrite frob_swap_rows'. reflexivity. Qed.

Lemma lrn_init ms d de G0 r0 Q : lrn ms d de G0 r0 G0 r0 Q 0.
Proof.
  constructor; try (intros; lia); auto.
  - cbn [pow rprod]. apply Req_le. ring.
  - cbn [pow]. apply Req_le. transitivity 0; [|ring]. unfold nrm. rewrite lsum_0; [apply sqrt_0|]. intros J HJ. change (gmix 0 Q G0) with G0. ring.
Qed.

Lemma rprod_gnorm_ext ms r r0 G G0 k n : (forall m, (k <= m <= k + n)%nat -> r m = r0 m) ->
  (forall m a j b, (k <= m < k + n)%nat -> (a < r0 m)%nat -> vidx (ms m) j -> (b < r0 (S m))%nat -> G m a j b = G0 m a j b) ->
  rprod (gnorm ms r G) k n = rprod (gnorm ms r0 G0) k n.
Proof.
  intros Hr HG. apply rprod_ext. intros m Hm. apply gnorm_ext; try (apply Hr; lia). intros. apply HG; auto.
Qed.

Lemma lrn_step ms d de G0 r0 G r Q i G' r' (q : nat -> list nat -> nat -> R) Rf : 0 <= de -> (S i < d)%nat -> r 0%nat = 1%nat -> r d = 1%nat ->
  (forall k, k <> S i -> r' k = r k) -> (forall m, (m <= d)%nat -> (0 < r m)%nat) ->
  (forall k a j b, (k < d)%nat -> k <> i -> k <> S i -> (a < r k)%nat -> (b < r (S k))%nat -> vidx (ms k) j -> G' k a j b = G k a j b) ->
  (forall l j c, (l < r' (S i))%nat -> vidx (ms (S i)) j -> (c < r (S (S i)))%nat ->
     G' (S i) l j c = rsum (r (S i)) (fun b => Rf l b * G (S i) b j c)) ->
  orth (grows ms r i) (r' (S i)) (fun p b => q (fst p) (snd p) b) ->
  frob (grows ms r i) (seq 0 (r (S i))) (fun p b => mm (r' (S i)) (fun p b => q (fst p) (snd p) b) Rf p b - gmat G i p b) <= de * gnorm ms r G i ->
  frob (grows ms r i) (seq 0 (r' (S i))) (fun p b => gmat G' i p b - q (fst p) (snd p) b) <= de ->
  lrn ms d de G0 r0 G r Q i -> lrn ms d de G0 r0 G' r' (gset Q i q) (S i).
Proof.
  intros Hde Hi R0 Rd Hr HP Hsame Hnext Oq Eq Nq [LO LN LM LR LG LD].
  set (P := rprod (gnorm ms r0 G0) 0 d) in *.
  assert (Pp : 1 <= (1 + de) ^ i) by (apply pow_R1_Rle; lra).
  assert (NR : rprod (gnorm ms r G) (S i) (d - S i) = rprod (gnorm ms r0 G0) (S i) (d - S i)).
  { apply rprod_gnorm_ext; intros; [apply LR; lia|apply LG; auto; lia]. }
  assert (PP : P = rprod (gnorm ms r0 G0) 0 (S i) * rprod (gnorm ms r0 G0) (S i) (d - S i)).
  { unfold P. replace d with (S i + (d - S i))%nat at 1 by lia. apply rprod_app. }
  assert (gsame : forall k, gset Q i q k = if Nat.eqb k i then q else Q k) by reflexivity.
  constructor.
  - intros k Hk. destruct (Nat.eq_dec k i) as [->|Hne].
    + unfold gorth, grows. rewrite (Hr i) by lia. intros l l' Hl Hl'. rewrite <- (Oq l l' Hl Hl'). apply lsum_ext. intros p _. unfold gmat. rewrite gsame, Nat.eqb_refl. reflexivity.
    + apply (gorth_ext ms r r' Q); try (apply Hr; lia); [|apply LO; lia]. intros. rewrite gsame. apply Nat.eqb_neq in Hne. now rewrite Hne.
  - intros k Hk. destruct (Nat.eq_dec k i) as [->|Hne].
    + eapply Rle_trans; [|exact Nq]. apply Req_le. unfold grows. rewrite (Hr i) by lia. apply frob_ext. intros p b _ _. unfold gmat at 2. rewrite gsame, Nat.eqb_refl. reflexivity.
    + eapply Rle_trans; [|apply (LN k); lia]. apply Req_le. unfold grows. rewrite !Hr by lia. apply frob_ext. intros p b Hp Hb.
      change (list_prod (seq 0 (r k)) (RI (ms k))) with (grows ms r k) in Hp. apply in_grows in Hp as [Q1 Q2]. apply in_seq in Hb.
      unfold gmat. rewrite gsame, Hsame by (auto; lia). apply Nat.eqb_neq in Hne. now rewrite Hne.
  - (* the carried factor *)
    assert (NF : frob (seq 0 (r' (S i))) (seq 0 (r (S i))) Rf <= (1 + de) * gnorm ms r G i).
    { rewrite <- (orth_iso (grows ms r i) (seq 0 (r (S i))) (r' (S i)) (fun p b => q (fst p) (snd p) b) Oq Rf).
      eapply Rle_trans; [apply (frob_near _ _ (mm (r' (S i)) (fun p b => q (fst p) (snd p) b) Rf) (gmat G i))|]. fold (gnorm ms r G i). lra. }
    rewrite rprod_snoc. cbn [Nat.add].
    assert (N1 : gnorm ms r' G' (S i) <= frob (seq 0 (r' (S i))) (seq 0 (r (S i))) Rf * gnorm ms r G (S i)).
    { rewrite !gnorm_rows, (Hr (S (S i))) by lia.
      eapply Rle_trans; [|apply mm_frob]. apply Req_le, frob_ext. intros l [j c] Hl Hp. apply in_prod_iff in Hp as [Hj Hc]. apply in_RI in Hj. apply in_seq in Hc, Hl.
      cbn [fst snd]. rewrite Hnext by (auto; lia). reflexivity. }
    assert (N2 : gnorm ms r G (S i) = gnorm ms r0 G0 (S i)) by (apply gnorm_ext; intros; [apply LR; lia|apply LR; lia|apply LG; auto; lia]).
    eapply Rle_trans; [exact N1|]. rewrite N2.
    eapply Rle_trans; [apply Rmult_le_compat_r; [apply gnorm_nonneg|exact NF]|].
    eapply Rle_trans; [apply Rmult_le_compat_r; [apply gnorm_nonneg|apply Rmult_le_compat_l; [lra|exact LM]]|]. cbn [pow]. apply Req_le. ring.
  - intros k Hk. rewrite Hr by lia. apply LR. lia.
  - intros k a j b Hk Ha Hj Hb. rewrite Hsame by (auto; try rewrite LR by lia; auto; lia). apply LG; auto. lia.
  - pose proof (q_step ms d i (gmix i Q G) (gmix (S i) (gset Q i q) G') r r' Rf (de * gnorm ms r G i) Hi R0 Rd Hr HP) as ST.
    assert (A1 : forall m, (m < i)%nat -> gorth ms r (gmix i Q G) m).
    { intros m Hm. apply (gorth_ext ms r r Q); auto. intros. unfold gmix. apply Nat.ltb_lt in Hm. now rewrite Hm. }
    specialize (ST A1).
    assert (A2 : forall k a j b, (k < d)%nat -> k <> i -> k <> S i -> (a < r k)%nat -> (b < r (S k))%nat -> vidx (ms k) j -> gmix (S i) (gset Q i q) G' k a j b = gmix i Q G k a j b).
    { intros k a j b Hk N1 N2 Ha Hb Hj. unfold gmix, gset. destruct (Nat.ltb_spec k (S i)); destruct (Nat.ltb_spec k i); try lia.
      - apply Nat.eqb_neq in N1. now rewrite N1.
      - now apply Hsame. }
    specialize (ST A2).
    assert (A3 : forall l j c, (l < r' (S i))%nat -> vidx (ms (S i)) j -> (c < r (S (S i)))%nat ->
      gmix (S i) (gset Q i q) G' (S i) l j c = rsum (r (S i)) (fun b => Rf l b * gmix i Q G (S i) b j c)).
    { intros l j c Hl Hj Hc. unfold gmix. rewrite Nat.ltb_irrefl. replace (Nat.ltb (S i) i) with false by (symmetry; apply Nat.ltb_ge; lia). now apply Hnext. }
    specialize (ST A3).
    assert (B1 : forall k p b, (i <= k)%nat -> gmat (gmix i Q G) k p b = gmat G k p b).
    { intros k p b Hk. unfold gmat, gmix. apply Nat.ltb_ge in Hk. now rewrite Hk. }
    assert (A4 : frob (grows ms r i) (seq 0 (r (S i))) (fun p b => mm (r' (S i)) (gmat (gmix (S i) (gset Q i q) G') i) Rf p b - gmat (gmix i Q G) i p b) <= de * gnorm ms r G i).
    { eapply Rle_trans; [|exact Eq]. apply Req_le, frob_ext. intros p b _ _. rewrite B1 by lia. f_equal. unfold mm. apply rsum_ext. intros l _. f_equal.
      unfold gmat, gmix, gset. rewrite Nat.eqb_refl. now replace (Nat.ltb i (S i)) with true by (symmetry; apply Nat.ltb_lt; lia). }
    specialize (ST A4).
    replace (rprod (gnorm ms r (gmix i Q G)) (S i) (d - S i)) with (rprod (gnorm ms r0 G0) (S i) (d - S i)) in ST.
    2:{ rewrite <- NR. apply rprod_ext. intros k Hk. unfold gnorm. apply frob_ext. intros p b _ _. symmetry. apply B1. lia. }
    assert (Q0 : 0 <= rprod (gnorm ms r0 G0) (S i) (d - S i)) by (apply rprod_nonneg; intros; apply gnorm_nonneg).
    assert (X : de * gnorm ms r G i * rprod (gnorm ms r0 G0) (S i) (d - S i) <= de * (1 + de) ^ i * P).
    { rewrite PP. rewrite <- !Rmult_assoc. apply Rmult_le_compat_r; [exact Q0|]. rewrite Rmult_assoc. apply Rmult_le_compat_l; [exact Hde|exact LM]. }
    eapply Rle_trans; [apply (nrm_tri' _ _ (fun J => rchain (gmix i Q G) r 0 J (fun _ => 1) 0) _)|].
    eapply Rle_trans; [apply Rplus_le_compat; [eapply Rle_trans; [exact ST|exact X]|exact LD]|]. apply Req_le. cbn [pow]. fold P. ring.
Qed.

(** ** After the sweep *)
Section Done.
Variables (ms : nat -> list nat) (d e : nat) (de : R) (G0 : mtrain) (r0 : nat -> nat) (G : mtrain) (r : nat -> nat) (Q : mtrain).
Hypothesis Hde : 0 <= de.
Hypothesis Ed : d = S e.
Hypothesis R0 : r 0%nat = 1%nat.
Hypothesis Rd : r d = 1%nat.
Hypothesis HP : forall m, (m <= d)%nat -> (0 < r m)%nat.
Hypothesis HL : lrn ms d de G0 r0 G r Q e.

Lemma snoc_entry (H : mtrain) J j : length J = e -> rchain H r 0 (J ++ [j]) (fun _ => 1) 0 = mm (r e) (fun J a => lvec H r J a) (fun a j => H e a j 0%nat) J j.
Proof.
  intros L. rewrite cut by (rewrite R0; lia). rewrite L. unfold mm. apply rsum_ext. intros a _. f_equal. unfold rvec. rewrite rchain_cons. rewrite <- Ed, Rd. unfold rsum. rewrite (sumn_1 Rring).
  replace (rchain H r d [] (fun _ => 1) 0) with 1 by reflexivity. change (@eq R (H e a j 0%nat * 1) (H e a j 0%nat)). ring.
Qed.
Lemma mix_left J a : vjdx (map ms (seq 0 e)) J -> (a < r e)%nat -> lvec (gmix e Q G) r J a = lvec Q r J a.
Proof.
  intros HJ Ha. apply vjdx_seq in HJ as [V L]. unfold lvec, lv. apply (chain_ext2 Rring ms); auto.
  - lia.
  - intros m a0 j0 b0 Hm Ha0 Hb0 Hj0. unfold gmix. replace (Nat.ltb m e) with true by (symmetry; apply Nat.ltb_lt; lia). reflexivity.
Qed.
Lemma mix_last : gmix e Q G e = G e. Proof. unfold gmix. now rewrite Nat.ltb_irrefl. Qed.
Lemma last_norm : frob (seq 0 (r e)) (RI (ms e)) (fun a j => G e a j 0%nat) = gnorm ms r G e.
Proof.
  rewrite gnorm_rows. rewrite <- Ed, Rd. cbn [seq].
  rewrite !frob_sqrt. f_equal. unfold frob2. apply lsum_ext. intros a _. rewrite lsum_prod. apply lsum_ext. intros j _. rewrite lsum_cons, lsum_nil. cbn [fst snd]. ring.
Qed.
Lemma done_orth : orth (RJ (map ms (seq 0 e))) (r e) (fun J a => lvec Q r J a).
Proof. apply lvec_orth; auto; [intros; apply HP; lia|apply (ln_orth _ _ _ _ _ _ _ _ _ HL)]. Qed.

Lemma done_norm : nrm (RJ (map ms (seq 0 d))) (fun J => rchain (gmix e Q G) r 0 J (fun _ => 1) 0) = gnorm ms r G e.
Proof.
  rewrite Ed, seq_S, map_app. cbn [Nat.add map]. rewrite (rei_nrm _ _ _ (rei_snoc (map ms (seq 0 e)) (ms e))).
  rewrite <- last_norm, <- (orth_iso _ (RI (ms e)) (r e) _ done_orth). unfold frob. apply nrm_ext. intros [J j] Hp. apply in_prod_iff in Hp as [HJ Hj]. apply in_RJ in HJ.
  cbn [fst snd]. pose proof (vjdx_length _ _ HJ) as L. rewrite map_length, seq_length in L. rewrite snoc_entry by auto. unfold mm. apply rsum_ext. intros a Ha.
  rewrite mix_last, mix_left by auto. reflexivity.
Qed.
Lemma done_diff : nrm (RJ (map ms (seq 0 d))) (fun J => rchain G r 0 J (fun _ => 1) 0 - rchain (gmix e Q G) r 0 J (fun _ => 1) 0) <= ((1 + de) ^ e - 1) * gnorm ms r G e.
Proof.
  rewrite Ed, seq_S, map_app. cbn [Nat.add map]. rewrite (rei_nrm _ _ _ (rei_snoc (map ms (seq 0 e)) (ms e))). rewrite <- last_norm.
  assert (P1 : 1 <= (1 + de) ^ e) by (apply pow_R1_Rle; lra).
  eapply Rle_trans; [|apply (op_cols (RJ (map ms (seq 0 e))) (RI (ms e)) (r e) (fun J c => lvec Q r J c - lvec G r J c) ((1 + de) ^ e - 1))].
  - rewrite <- frob_opp. apply Req_le. unfold frob. apply nrm_ext. intros [J j] Hp. apply in_prod_iff in Hp as [HJ Hj]. apply in_RJ in HJ.
    cbn [fst snd]. pose proof (vjdx_length _ _ HJ) as L. rewrite map_length, seq_length in L. rewrite !snoc_entry by auto. rewrite mix_last. unfold mm.
    rewrite (rsum_ext (r e) (fun b => lvec (gmix e Q G) r J b * G e b j 0%nat) (fun b => lvec Q r J b * G e b j 0%nat)) by (intros; now rewrite mix_left).
    rewrite (rsum_ext (r e) (fun b => (lvec Q r J b - lvec G r J b) * G e b j 0%nat) (fun b => lvec Q r J b * G e b j 0%nat - lvec G r J b * G e b j 0%nat)) by (intros; ring).
    rewrite rsum_sub. ring.
  - lra.
  - apply (lvec_near ms r Q G de e); auto; [intros; apply HP; lia|apply (ln_orth _ _ _ _ _ _ _ _ _ HL)|apply (ln_near _ _ _ _ _ _ _ _ _ HL)].
Qed.

Let P := rprod (gnorm ms r0 G0) 0 d.
Lemma done_P : 0 <= P. Proof. apply rprod_nonneg. intros; apply gnorm_nonneg. Qed.
Lemma done_last : gnorm ms r G e <= (1 + de) ^ e * P.
Proof. unfold P. rewrite Ed. apply (ln_norm _ _ _ _ _ _ _ _ _ HL). Qed.

(** The norm of the last core, and the represented tensor. *)
Lemma done_frobenius : Rabs (gnorm ms r G e - nrm (RJ (map ms (seq 0 d))) (fun J => rchain G0 r0 0 J (fun _ => 1) 0)) <= ((1 + de) ^ e - 1) * P.
Proof.
  rewrite <- done_norm. pose proof (ln_dist _ _ _ _ _ _ _ _ _ HL) as D. fold P in D.
  set (f := fun J => rchain (gmix e Q G) r 0 J (fun _ => 1) 0) in *. set (g := fun J => rchain G0 r0 0 J (fun _ => 1) 0) in *.
  pose proof (nrm_tri (RJ (map ms (seq 0 d))) g (fun J => f J - g J)) as T1. pose proof (nrm_tri (RJ (map ms (seq 0 d))) f (fun J => - (f J - g J))) as T2.
  rewrite (nrm_ext _ (fun a => g a + (f a - g a)) f) in T1 by (intros; ring). rewrite (nrm_ext _ (fun a => f a + - (f a - g a)) g) in T2 by (intros; ring).
  replace (nrm (RJ (map ms (seq 0 d))) (fun J => - (f J - g J))) with (nrm (RJ (map ms (seq 0 d))) (fun J => f J - g J)) in T2 by (unfold nrm; f_equal; apply lsum_ext; intros; ring).
  change (nrm (RJ (map ms (seq 0 d))) (fun J => f J - g J) <= ((1 + de) ^ e - 1) * P) in D.
  apply Rabs_le. lra.
Qed.
Lemma done_dist : nrm (RJ (map ms (seq 0 d))) (fun J => rchain G r 0 J (fun _ => 1) 0 - rchain G0 r0 0 J (fun _ => 1) 0) <= ((1 + de) ^ (2 * e) - 1) * P.
Proof.
  eapply Rle_trans; [apply (nrm_tri' _ _ (fun J => rchain (gmix e Q G) r 0 J (fun _ => 1) 0) _)|].
  eapply Rle_trans; [apply Rplus_le_compat; [exact done_diff|exact (ln_dist _ _ _ _ _ _ _ _ _ HL)]|]. fold P.
  assert (P1 : 1 <= (1 + de) ^ e) by (apply pow_R1_Rle; lra).
  replace (2 * e)%nat with (e + e)%nat by lia. rewrite pow_add.
  assert (((1 + de) ^ e - 1) * gnorm ms r G e <= ((1 + de) ^ e - 1) * ((1 + de) ^ e * P)) by (apply Rmult_le_compat_l; [lra|exact done_last]). lra.
Qed.
End Done.

Lemma nrm_prod_le ms d G r : r 0%nat = 1%nat -> r d = 1%nat -> nrm (RJ (map ms (seq 0 d))) (fun J => rchain G r 0 J (fun _ => 1) 0) <= rprod (gnorm ms r G) 0 d.
Proof.
  intros R0 Rd. eapply Rle_trans; [|apply (rvec_norm ms r G d 0); exact Rd]. rewrite R0. cbn [seq]. apply Req_le. rewrite frob_sqrt. unfold nrm. f_equal. unfold frob2. rewrite lsum_cons, lsum_nil, Rplus_0_r. reflexivity.
Qed.
