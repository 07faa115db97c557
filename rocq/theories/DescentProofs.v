(** Second order accuracy of rounding along a tangent direction. *)
From Coq Require Import String List Arith ZArith Lia Lra Bool Reals.
From Verif Require Import Scalar Tensor TensorLemmas TensorLemmas2 Base Spec Chain BaseLemmas Ops FullProofs ResultLemmas Dense
  OpsR ScaleProofs Decomp DecompSpec RoundProofs RoundThms SvdSpec RankArgs Riem RiemSpec RiemProofs TangentSpace RiemFull Vars VarSpec VarProofs Tutorial TutorialSpec TutorialProofs.
Import ListNotations.
Local Open Scope nat_scope.
Local Notation get := (@get Rring).
Local Notation core0 := (core0 Rring).
Local Ltac req := match goal with |- @eq _ ?u ?v => change (@eq R u v) end.
Local Notation rs := (sumn (K := Rring)).

(** [f t = f0 + t f1 + O(t^2)] *)
Definition O2 (f : R -> R) (f0 f1 : R) : Prop := exists C, (0 <= C)%R /\ forall t, (Rabs t <= 1)%R -> (Rabs (f t - f0 - t * f1) <= C * (t * t))%R.

Lemma sq_abs t : (t * t = Rabs t * Rabs t)%R.
Proof. unfold Rabs. destruct (Rcase_abs t); lra. Qed.
Lemma O2_ext f g a b a' b' : O2 f a b -> (forall t, f t = g t) -> a = a' -> b = b' -> O2 g a' b'.
Proof. intros (C & HC & H) E -> ->. exists C. split; [exact HC|]. intros t Ht. rewrite <- E. auto. Qed.
Lemma O2_const c : O2 (fun _ => c) c 0.
Proof. exists 0%R. split; [lra|]. intros t _. replace (c - c - t * 0)%R with 0%R by ring. rewrite Rabs_R0. lra. Qed.
Lemma O2_lin c d : O2 (fun t => c + t * d)%R c d.
Proof. exists 0%R. split; [lra|]. intros t _. replace (c + t * d - c - t * d)%R with 0%R by ring. rewrite Rabs_R0. lra. Qed.
Lemma O2_add f g a b a' b' : O2 f a b -> O2 g a' b' -> O2 (fun t => f t + g t)%R (a + a')%R (b + b')%R.
Proof.
  intros (C & HC & H) (C' & HC' & H'). exists (C + C')%R. split; [lra|]. intros t Ht.
  replace (f t + g t - (a + a') - t * (b + b'))%R with ((f t - a - t * b) + (g t - a' - t * b'))%R by ring.
  eapply Rle_trans; [apply Rabs_triang|]. specialize (H t Ht). specialize (H' t Ht). lra.
Qed.
Lemma O2_bound f a b : O2 f a b -> exists B, (0 <= B)%R /\ forall t, (Rabs t <= 1)%R -> (Rabs (f t) <= B)%R.
Proof.
  intros (C & HC & H). exists (C + Rabs a + Rabs b)%R. pose proof (Rabs_pos a). pose proof (Rabs_pos b). split; [lra|]. intros t Ht.
  replace (f t) with ((f t - a - t * b) + (a + t * b))%R by ring. eapply Rle_trans; [apply Rabs_triang|]. specialize (H t Ht).
  pose proof (Rabs_triang a (t * b)) as T. rewrite Rabs_mult in T. pose proof (Rabs_pos t). rewrite (sq_abs t) in H.
  assert (Rabs t * Rabs t <= 1)%R by nra. assert (C * (Rabs t * Rabs t) <= C)%R by nra. assert (Rabs t * Rabs b <= Rabs b)%R by nra. lra.
Qed.
Lemma O2_mul f g a b a' b' : O2 f a b -> O2 g a' b' -> O2 (fun t => f t * g t)%R (a * a')%R (a * b' + b * a')%R.
Proof.
  intros Hf Hg. destruct (O2_bound g a' b' Hg) as (B & HB & Hb). destruct Hf as (C & HC & H), Hg as (C' & HC' & H').
  exists (C * B + (Rabs a + Rabs b) * C' + Rabs b * Rabs b')%R. pose proof (Rabs_pos a). pose proof (Rabs_pos b). pose proof (Rabs_pos b'). split; [nra|].
  intros t Ht. replace (f t * g t - a * a' - t * (a * b' + b * a'))%R with ((f t - a - t * b) * g t + ((a + t * b) * (g t - a' - t * b') + t * t * (b * b')))%R by ring.
  specialize (H t Ht). specialize (H' t Ht). specialize (Hb t Ht). rewrite (sq_abs t) in *. pose proof (Rabs_pos t). pose proof (Rabs_pos (g t)).
  eapply Rle_trans; [apply Rabs_triang|]. rewrite Rabs_mult. pose proof (Rabs_triang ((a + t * b) * (g t - a' - t * b')) (Rabs t * Rabs t * (b * b'))) as T.
  rewrite !Rabs_mult, Rabs_Rabsolu in T. pose proof (Rabs_triang a (t * b)) as T2. rewrite Rabs_mult in T2.
  set (u := Rabs t) in *. set (e := Rabs (f t - a - t * b)) in *. set (e' := Rabs (g t - a' - t * b')) in *. pose proof (Rabs_pos (f t - a - t * b)). pose proof (Rabs_pos (g t - a' - t * b')). fold e e' in H5, H6.
  assert (P1 : (e * Rabs (g t) <= C * (u * u) * B)%R) by (apply Rmult_le_compat; auto).
  assert (P0 : (Rabs (a + t * b) <= Rabs a + Rabs b)%R) by nra.
  assert (P2 : (Rabs (a + t * b) * e' <= (Rabs a + Rabs b) * (C' * (u * u)))%R) by (apply Rmult_le_compat; auto using Rabs_pos).
  nra.
Qed.
Lemma O2_sumn n (f : nat -> R -> R) (a b : nat -> R) : (forall k, k < n -> O2 (f k) (a k) (b k)) -> O2 (fun t => rs n (fun k => f k t)) (rs n a) (rs n b).
Proof.
  induction n as [|n IH]; intros H; cbn [sumn].
  - apply O2_const.
  - apply (O2_add (fun t => rs n (fun k => f k t)) (f n)); [apply IH; intros; apply H; lia|apply H; lia].
Qed.

(** The derivative of a train. *)
Lemma O2_chain (G D : nat -> nat -> list nat -> nat -> R) r J v : forall k a,
  O2 (fun t => chain (K := Rring) (fun k a j b => G k a j b + t * D k a j b)%R r k J v a) (chain (K := Rring) G r k J v a)
     (rs (length J) (fun m => chain (K := Rring) (fun k' => if Nat.eqb k' (k + m) then D (k + m)%nat else G k') r k J v a)).
Proof.
  induction J as [|j J IH]; intros k a; cbn [chain length].
  - apply O2_const.
  - eapply O2_ext; [apply (O2_sumn (r (S k)) (fun b t => (G k a j b + t * D k a j b) * chain (K := Rring) (fun k a j b => G k a j b + t * D k a j b)%R r (S k) J v b)%R)| | |].
    + intros b _. apply (O2_mul (fun t => G k a j b + t * D k a j b)%R); [apply O2_lin|apply IH].
    + reflexivity.
    + reflexivity.
    + rewrite (sumn_S_l Rring). rewrite Nat.add_0_r.
      assert (E0 : forall b, chain (K := Rring) (fun k' => if Nat.eqb k' k then D k else G k') r (S k) J v b = chain (K := Rring) G r (S k) J v b).
      { assert (L : forall J k', k < k' -> forall b, chain (K := Rring) (fun q => if Nat.eqb q k then D k else G q) r k' J v b = chain (K := Rring) G r k' J v b).
        { induction J0 as [|j0 J0 IH0]; intros k' Hk b; cbn [chain]; auto. apply (sumn_ext Rring). intros c _. rewrite IH0 by lia. destruct (Nat.eqb_spec k' k); [lia|]. reflexivity. }
        intros b. apply L. lia. }
      transitivity (rs (r (S k)) (fun b => G k a j b * rs (length J) (fun m => chain (K := Rring) (fun k' => if Nat.eqb k' (S k + m) then D (S k + m)%nat else G k') r (S k) J v b) +
        D k a j b * chain (K := Rring) G r (S k) J v b)%R); [reflexivity|].
      etransitivity; [apply (sumn_add Rring)|]. req. rewrite Rplus_comm. apply f_equal2.
      * apply (sumn_ext Rring). intros b _. rewrite Nat.eqb_refl, E0. reflexivity.
      * transitivity (rs (r (S k)) (fun b => rs (length J) (fun m => G k a j b * chain (K := Rring) (fun k' => if Nat.eqb k' (S k + m) then D (S k + m)%nat else G k') r (S k) J v b)%R)).
        { apply (sumn_ext Rring). intros b _. symmetry. apply (sumn_mul_l Rring). }
        etransitivity; [apply (sumn_swap Rring)|]. apply (sumn_ext Rring). intros m _. replace (k + S m) with (S k + m) by lia.
        apply (sumn_ext Rring). intros b _. destruct (Nat.eqb_spec k (S k + m)); [lia|]. reflexivity.
Qed.

(** Sums of terms of order t^4. *)
Definition O4 (f : R -> R) : Prop := exists C, (0 <= C)%R /\ forall t, (Rabs t <= 1)%R -> (f t <= C * (t * t * (t * t)))%R.
Lemma O4_sumn n (f : nat -> R -> R) : (forall k, k < n -> O4 (f k)) -> O4 (fun t => rs n (fun k => f k t)).
Proof.
  induction n as [|n IH]; intros H; cbn [sumn].
  - exists 0%R. split; [lra|]. intros t _. change (0 <= 0 * (t * t * (t * t)))%R. lra.
  - destruct (IH ltac:(intros; apply H; lia)) as (C & HC & H1). destruct (H n ltac:(lia)) as (C' & HC' & H2). exists (C + C')%R. split; [lra|].
    intros t Ht. specialize (H1 t Ht). specialize (H2 t Ht). change (rs n (fun k => f k t) + f n t <= (C + C') * (t * t * (t * t)))%R. lra.
Qed.
Lemma O4_isum sh : forall (f : list nat -> R -> R), (forall i, vidx sh i -> O4 (f i)) -> O4 (fun t => isum (K := Rring) sh (fun i => f i t)).
Proof.
  induction sh as [|n sh IH]; intros f H; cbn [isum].
  - apply H. apply vidx_nil.
  - apply O4_sumn. intros k Hk. apply (IH (fun i => f (k :: i))). intros i Hi. apply H. now constructor.
Qed.
Lemma O2_sq f a b : O2 f a b -> O4 (fun t => (a + t * b - f t) * (a + t * b - f t))%R.
Proof.
  intros (C & HC & H). exists (C * C)%R. split; [nra|]. intros t Ht. specialize (H t Ht). replace ((a + t * b - f t) * (a + t * b - f t))%R with ((f t - a - t * b) * (f t - a - t * b))%R by ring.
  rewrite (sq_abs (f t - a - t * b)). pose proof (Rabs_pos (f t - a - t * b)). assert (0 <= t * t)%R by (apply Rle_0_sqr).
  replace (C * C * (t * t * (t * t)))%R with (C * (t * t) * (C * (t * t)))%R by ring. apply Rmult_le_compat; auto.
Qed.

(** ** The object with moved cores *)
Definition mid (idx : list nat) : list nat := removelast (tl idx).
Definition moved (x : rtt) (D : nat -> nat -> list nat -> nat -> R) (t : R) : rtt :=
  TT (map (fun k => mk (K := Rring) (shape (core x k)) (fun idx => get (core x k) idx + t * D k (hd O idx) (mid idx) (last idx O))%R) (seq 0 (ndims x))) (rshape x) (rks x) (bsz x).
Lemma moved_ndims x D t : ndims (moved x D t) = ndims x.
Proof. unfold ndims at 1, moved. cbn [cores]. now rewrite map_length, seq_length. Qed.
Lemma moved_core x D t k : k < ndims x -> core (moved x D t) k = mk (K := Rring) (shape (core x k)) (fun idx => get (core x k) idx + t * D k (hd O idx) (mid idx) (last idx O))%R.
Proof. intros Hk. unfold core at 1, moved. cbn [cores]. rewrite (nth_map_default _ _ _ 0) by (rewrite seq_length; auto). now rewrite seq_nth. Qed.
Lemma moved_wf x D t : wf x -> wf (moved x D t).
Proof.
  intros W. constructor; rewrite ?moved_ndims; try apply W. intros k Hk. rewrite moved_core by auto. split; [apply wft_mk|]. rewrite shape_mk. apply (core_shape _ x k W Hk).
Qed.
Lemma moved_G x D t k a j b : wf x -> bsz x = None -> k < ndims x -> a < rk x k -> b < rk x (S k) -> vidx (modes x k) j ->
  coreG (moved x D t) [] k a j b = (coreG x [] k a j b + t * D k a j b)%R.
Proof.
  intros W B Hk Ha Hb Hj. unfold coreG. rewrite moved_core by auto. cbn [app]. rewrite (get_mk Rring).
  - unfold mid. cbn [hd tl]. rewrite removelast_last. replace (last (a :: j ++ [b]) 0) with b; [reflexivity|]. change (a :: j ++ [b]) with ((a :: j) ++ [b]). now rewrite last_last.
  - rewrite (core_shape _ x k W Hk). unfold bpre. rewrite B. cbn [app]. constructor; [exact Ha|]. apply vidx_app; [exact Hj|]. constructor; [exact Hb|constructor].
Qed.
Lemma moved_at x D t i : wf x -> bsz x = None -> vidx (ishape x) i ->
  tt_at (moved x D t) i = chain (K := Rring) (fun k a j b => coreG x [] k a j b + t * D k a j b)%R (rk x) 0 (split_idx x i) (fun _ => 1%R) 0.
Proof.
  intros W B Hi. unfold tt_at, moved. cbn [bsz]. rewrite B. fold (moved x D t). destruct (split_idx_valid _ x i W Hi) as [V L]. change (split_idx (TT _ (rshape x) (rks x) None) i) with (split_idx x i).
  unfold tt_entry. apply (chain_ext Rring (modes x)); [exact V| | |reflexivity].
  - change (0 < rk x 0). rewrite (wf_first W). lia.
  - intros m a j b Hm Ha Hb Hj. rewrite <- B. change (TT _ (rshape x) (rks x) (bsz x)) with (moved x D t). apply moved_G; auto. lia.
Qed.

(** Close to x + t T there is an object with the ranks of x. *)
Lemma moved_close (x : rtt) T : wf x -> bsz x = None -> tangent x T -> exists C, (0 <= C)%R /\ forall t, (Rabs t <= 1)%R ->
  exists b : rtt, wf b /\ rshape b = rshape x /\ bsz b = None /\ ndims b = ndims x /\ rks b = rks x /\
    (isum (K := Rring) (ishape x) (fun i => (tt_at x i + t * T i - tt_at b i) * (tt_at x i + t * T i - tt_at b i))%R <= C * (t * t * (t * t)))%R.
Proof.
  intros W B (D & HD).
  destruct (O4_isum (ishape x) (fun i t => (tt_at x i + t * T i - tt_at (moved x D t) i) * (tt_at x i + t * T i - tt_at (moved x D t) i))%R) as (C & HC & H).
  { intros i Hi. apply O2_sq. destruct (split_idx_valid _ x i W Hi) as [V L]. eapply O2_ext; [apply (O2_chain (coreG x []) D (rk x) (split_idx x i) (fun _ => 1%R) 0 0)| | |].
    - intros t. symmetry. now apply moved_at.
    - unfold tt_at. now rewrite B.
    - rewrite (HD i Hi), L. reflexivity. }
  exists C. split; [exact HC|]. intros t Ht. exists (moved x D t). split; [now apply moved_wf|]. split; [reflexivity|]. split; [exact B|]. split; [apply moved_ndims|]. split; [reflexivity|]. exact (H t Ht).
Qed.
