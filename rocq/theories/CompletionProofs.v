(** Gradients of the losses of tensor completion. *)
From Coq Require Import String List Arith ZArith Lia Lra Bool Reals.
From Verif Require Import Scalar Tensor TensorLemmas TensorLemmas2 Base Spec Chain BaseLemmas Ops FullProofs ResultLemmas Dense
  OpsR Decomp DecompSpec Riem RiemSpec RiemProofs Vars VarSpec VarProofs AssignProofs AutoSpec AutoProofs GradExists GatherProofs DescentProofs CompressProofs Completion CompletionSpec.
Import ListNotations.
Local Open Scope nat_scope.
Local Notation get := (@get Rring).
Local Notation core0 := (core0 Rring).
Local Ltac req := match goal with |- @eq _ ?u ?v => change (@eq R u v) end.
Local Notation rs := (sumn (K := Rring)).

(** ** Derivatives *)
Lemma O2_at0 f a b : O2 f a b -> f 0%R = a.
Proof.
  intros (C & HC & H). specialize (H 0%R ltac:(rewrite Rabs_R0; lra)). replace (f 0 - a - 0 * b)%R with (f 0 - a)%R in H by ring. replace (C * (0 * 0))%R with 0%R in H by ring.
  pose proof (Rabs_pos (f 0 - a)%R). destruct (Req_dec (f 0 - a)%R 0) as [E|N]; [lra|]. pose proof (Rabs_pos_lt _ N). lra.
Qed.
Lemma O2_deriv f a b : O2 f a b -> derivable_pt_lim f 0%R b.
Proof.
  intros HO. pose proof (O2_at0 _ _ _ HO) as E0. destruct HO as (C & HC & H). intros eps He.
  assert (Hd : (0 < Rmin 1 (eps / (C + 1)))%R). { apply Rmin_glb_lt; [lra|]. apply Rdiv_lt_0_compat; lra. }
  exists (mkposreal _ Hd). intros h Hh Hl. cbn [pos] in Hl. rewrite Rplus_0_l, E0.
  assert (L1 : (Rabs h <= 1)%R) by (pose proof (Rmin_l 1 (eps / (C + 1))); lra). assert (L2 : (Rabs h < eps / (C + 1))%R) by (pose proof (Rmin_r 1 (eps / (C + 1))); lra).
  specialize (H h L1). replace ((f h - a) / h - b)%R with ((f h - a - h * b) * / h)%R by (field; auto). rewrite Rabs_mult, Rabs_inv.
  pose proof (Rabs_pos_lt h Hh) as P. rewrite (sq_abs h) in H. apply Rle_lt_trans with (C * (Rabs h * Rabs h) * / Rabs h)%R.
  - apply Rmult_le_compat_r; [left; now apply Rinv_0_lt_compat|exact H].
  - replace (C * (Rabs h * Rabs h) * / Rabs h)%R with (C * Rabs h)%R by (field; lra). apply Rle_lt_trans with ((C + 1) * Rabs h)%R; [nra|].
    apply Rmult_lt_compat_l with (r := (C + 1)%R) in L2; [|lra]. replace ((C + 1) * (eps / (C + 1)))%R with eps in L2 by (field; lra). exact L2.
Qed.

(** ** A train is linear in each core *)
Lemma chain_other (G D : nat -> nat -> list nat -> nat -> R) r v k : forall J k', k < k' -> forall b,
  chain (K := Rring) (fun q => if Nat.eqb q k then D q else G q) r k' J v b = chain (K := Rring) G r k' J v b.
Proof.
  induction J as [|j J IH]; intros k' Hk b; cbn [chain]; auto. apply (sumn_ext Rring). intros c _. rewrite IH by lia. destruct (Nat.eqb_spec k' k); [lia|]. reflexivity.
Qed.
Lemma chain_core_isum (G : nat -> nat -> list nat -> nat -> R) r v k ns (c : list nat -> R) (U : list nat -> nat -> list nat -> nat -> R) : forall J k0 a, k0 <= k < k0 + length J ->
  chain (K := Rring) (fun q => if Nat.eqb q k then (fun a j b => isum (K := Rring) ns (fun idx => c idx * U idx a j b)%R) else G q) r k0 J v a =
  isum (K := Rring) ns (fun idx => c idx * chain (K := Rring) (fun q => if Nat.eqb q k then U idx else G q) r k0 J v a)%R.
Proof.
  induction J as [|j J IH]; intros k0 a Hk; cbn [length] in Hk; [lia|]. cbn [chain].
  transitivity (rs (r (S k0)) (fun b => isum (K := Rring) ns (fun idx => c idx * ((if Nat.eqb k0 k then U idx else G k0) a j b * chain (K := Rring) (fun q => if Nat.eqb q k then U idx else G q) r (S k0) J v b))%R)).
  - apply (sumn_ext Rring). intros b _. destruct (Nat.eqb_spec k0 k) as [->|N].
    + rewrite (chain_other G (fun _ => _) r v k J (S k)) by lia. change cmul with Rmult. rewrite Rmult_comm. rewrite <- (isum_mul_l Rring). apply (isum_ext Rring). intros idx _.
      rewrite (chain_other G (fun _ => _) r v k J (S k)) by lia. cbn; req; ring.
    + rewrite IH by lia. change cmul with Rmult. rewrite <- (isum_mul_l Rring). apply (isum_ext Rring). intros idx _. cbn; req; ring.
  - rewrite <- (isum_sumn_swap Rring). apply (isum_ext Rring). intros idx _. apply (sumn_mul_l Rring).
Qed.
Lemma isum_pick ns (f : list nat -> R) : forall p, vidx ns p -> isum (K := Rring) ns (fun q => f q * (if list_eqb p q then 1 else 0))%R = f p.
Proof.
  revert f. induction ns as [|n ns IH]; intros f p Hp; inversion Hp as [|i ? p' ? Hi Hp']; subst; cbn [isum].
  - cbn; req; ring.
  - transitivity (rs n (fun k => f (k :: p') * delta (K := Rring) i k)%R).
    + apply (sumn_ext Rring). intros k Hk. cbn [list_eqb]. unfold delta. rewrite (Nat.eqb_sym k i). destruct (Nat.eqb_spec i k) as [->|N]; cbn [andb].
      * rewrite (IH (fun q => f (k :: q))) by auto. cbn; req; ring.
      * transitivity (isum (K := Rring) ns (fun _ => 0%R)); [apply (isum_ext Rring); intros; req; ring|]. rewrite (isum_zero Rring) by reflexivity. cbn; req; ring.
    + exact (sumn_deltar Rring n i (fun k => f (k :: p')) Hi).
Qed.

(** The train with core k replaced, by the derivatives with respect to the entries of core k. *)
Lemma replaced_sum (x : rtt) k (h : rtensor) i : wf x -> bsz x = None -> k < ndims x -> shape h = shape (core x k) -> vidx (ishape x) i ->
  chain (K := Rring) (fun q => if Nat.eqb q k then (fun a j b => get h (a :: j ++ [b])) else coreG x [] q) (rk x) 0 (split_idx x i) (fun _ => 1%R) 0 =
  isum (K := Rring) (shape h) (fun idx => get h idx * partial_entry x k idx i)%R.
Proof.
  intros W B Hk Sh Hi. destruct (split_idx_valid _ x i W Hi) as [V L]. unfold partial_entry. rewrite <- chain_core_isum by lia.
  apply (chain_ext Rring (modes x)); [exact V|rewrite (wf_first W); lia| |reflexivity]. intros m a j b Hm Ha Hb Hj. destruct (Nat.eqb_spec m k) as [->|]; [|reflexivity].
  symmetry. unfold unit_core. apply (isum_pick (shape h) (get h)). rewrite Sh, (core_shape _ x k W Hk). unfold bpre. rewrite B. cbn [app]. constructor; [exact Ha|]. apply vidx_app; [exact Hj|]. constructor; [exact Hb|constructor].
Qed.

(** ** Sums of squares of entries *)
Definition cell_loss (n : nat) (c : nat -> R) (I : nat -> list nat) (v : nat -> R) (t : rtt) : R := rs n (fun m => c m * sq (tt_at t (I m) - v m))%R.
Definition cell_grads (n : nat) (c : nat -> R) (I : nat -> list nat) (v : nat -> R) (x : rtt) : list rtensor :=
  map (fun k => mk (K := Rring) (shape (core x k)) (fun idx => rs n (fun m => 2 * c m * (tt_at x (I m) - v m) * partial_entry x k idx (I m))%R)) (seq 0 (ndims x)).

Lemma rejoin_idx idx : 2 <= length idx -> hd 0 idx :: mid idx ++ [last idx 0] = idx.
Proof. intros H. destruct idx as [|a idx]; cbn in H; [lia|]. unfold mid. cbn [hd tl]. f_equal. destruct idx as [|b idx]; cbn in H; [lia|]. change (last (a :: b :: idx) 0) with (last (b :: idx) 0). symmetry. now apply app_removelast_last. Qed.

Lemma move_length t : forall ds hs : list rtensor, length hs = length ds -> length (move t ds hs) = length ds.
Proof. unfold move. induction ds as [|d ds IH]; intros [|h hs] L; cbn in L |- *; try lia. now rewrite IH by lia. Qed.
Lemma move_cores (x : rtt) hs t : wf x -> bsz x = None -> same_shapes (cores x) hs ->
  move t (cores x) hs = cores (moved x (fun k a j b => get (nth k hs rzero) (a :: j ++ [b])) t).
Proof.
  intros W B HS. pose proof (same_shapes_len _ _ HS) as L. unfold moved. cbn [cores].
  apply nth_ext with (d := rzero) (d' := rzero); [rewrite move_length, map_length, seq_length by auto; reflexivity|].
  intros k Hk. rewrite move_length in Hk by auto.
  rewrite (nth_map_default _ _ _ 0) by (rewrite seq_length; auto). rewrite seq_nth by auto. cbn [Nat.add].
  assert (E : nth k (move t (cores x) hs) rzero = mk (K := Rring) (shape (core x k)) (fun i => get (core x k) i + t * get (nth k hs rzero) i)%R).
  { unfold move, core. clear -Hk L. revert hs k Hk L. induction (cores x) as [|c cs IH]; intros [|h hs] k Hk L; cbn in Hk, L; try lia. destruct k; [reflexivity|]. cbn. apply IH; lia. }
  rewrite E. apply (mk_ext Rring). intros idx Hidx. rewrite rejoin_idx; [reflexivity|]. apply vidx_length in Hidx. rewrite Hidx, (core_shape _ x k W Hk), app_length. cbn. rewrite app_length. cbn. lia.
Qed.

Lemma O2_scale c f a b : O2 f a b -> O2 (fun t => c * f t)%R (c * a)%R (c * b)%R.
Proof. intros H. eapply O2_ext; [exact (O2_mul (fun _ => c) f c 0 a b (O2_const c) H)| | |]; intros; cbv beta; ring. Qed.
Lemma O2_sqd f a b w : O2 f a b -> O2 (fun t => sq (f t - w))%R (sq (a - w)) (2 * (a - w) * b)%R.
Proof.
  intros H. assert (H' : O2 (fun t => f t + - w)%R (a + - w)%R (b + 0)%R) by (apply (O2_add f (fun _ => - w)%R); [exact H|apply O2_const]).
  eapply O2_ext; [exact (O2_mul _ _ _ _ _ _ H' H')| | |]; intros; unfold sq; cbv beta; ring.
Qed.

Lemma nth_core (x : rtt) k : k < ndims x -> nth k (cores x) rzero = core x k.
Proof. intros Hk. unfold core. now apply nth_indep. Qed.

Lemma cell_gradient n c I v (x : rtt) (f : list rtensor -> res R) : wf x -> bsz x = None -> (forall m, m < n -> vidx (ishape x) (I m)) ->
  (forall t, wf t -> rshape t = rshape x -> rks t = rks x -> bsz t = None -> f (cores t) = Ok (cell_loss n c I v t)) ->
  is_gradient f (cores x) (cell_grads n c I v x).
Proof.
  intros W B HI Hf. split.
  { apply same_shapes_of; [unfold cell_grads; now rewrite map_length, seq_length|]. intros k Hk. change (k < ndims x) in Hk. unfold cell_grads. rewrite (nth_map_default _ _ _ 0) by (rewrite seq_length; auto). rewrite seq_nth by auto.
    rewrite nth_core by auto. split; [apply wft_mk|reflexivity]. }
  intros hs HS. set (D := fun k a j b => get (nth k hs rzero) (a :: j ++ [b])).
  exists (fun t => cell_loss n c I v (moved x D t)). split.
  { exists 1%R. split; [lra|]. intros t _. rewrite move_cores by auto. apply Hf; [now apply moved_wf|reflexivity|reflexivity|exact B]. }
  apply (O2_deriv _ (rs n (fun m => c m * sq (tt_at x (I m) - v m))%R)).
  set (T := fun i => rs (ndims x) (fun k => isum (K := Rring) (shape (core x k)) (fun idx => get (nth k hs rzero) idx * partial_entry x k idx i)%R)).
  assert (HT : forall i, vidx (ishape x) i -> O2 (fun t => tt_at (moved x D t) i) (tt_at x i) (T i)).
  { intros i Hi. destruct (split_idx_valid _ x i W Hi) as [V L]. eapply O2_ext; [apply (O2_chain (coreG x []) D (rk x) (split_idx x i) (fun _ => 1%R) 0 0)| | |].
    - intros t. symmetry. now apply moved_at.
    - unfold tt_at. now rewrite B.
    - rewrite L. unfold T. apply (sumn_ext Rring). intros k Hk. cbn [Nat.add]. destruct (same_shapes_nth _ _ k HS Hk) as [_ Sk]. rewrite nth_core in Sk by auto.
      rewrite <- Sk. apply (replaced_sum x k (nth k hs rzero) i); auto. }
  eapply O2_ext; [apply (O2_sumn n (fun m t => c m * sq (tt_at (moved x D t) (I m) - v m))%R (fun m => c m * sq (tt_at x (I m) - v m))%R (fun m => c m * (2 * (tt_at x (I m) - v m) * T (I m)))%R)| | |].
  - intros m Hm. apply O2_scale. apply O2_sqd. now apply HT, HI.
  - reflexivity.
  - reflexivity.
  - rewrite inners_sum by (unfold cell_grads; rewrite map_length, seq_length; symmetry; apply (same_shapes_len _ _ HS)).
    replace (length (cell_grads n c I v x)) with (ndims x) by (unfold cell_grads; now rewrite map_length, seq_length).
    transitivity (rs n (fun m => rs (ndims x) (fun k => isum (K := Rring) (shape (core x k)) (fun idx => 2 * c m * (tt_at x (I m) - v m) * partial_entry x k idx (I m) * get (nth k hs rzero) idx)%R))).
    + apply (sumn_ext Rring). intros m Hm. unfold T. transitivity ((2 * c m * (tt_at x (I m) - v m)) * rs (ndims x) (fun k => isum (K := Rring) (shape (core x k)) (fun idx => get (nth k hs rzero) idx * partial_entry x k idx (I m))%R))%R; [req; ring|].
      symmetry. etransitivity; [|apply (sumn_mul_l Rring)]. apply (sumn_ext Rring). intros k Hk. etransitivity; [|apply (isum_mul_l Rring)]. apply (isum_ext Rring). intros idx _. cbn; req; ring.
    + etransitivity; [apply (sumn_swap Rring)|]. apply (sumn_ext Rring). intros k Hk.
      unfold cell_grads. rewrite (nth_map_default _ _ _ 0) by (rewrite seq_length; auto). rewrite seq_nth by auto. cbn [Nat.add]. rewrite shape_mk. unfold inner.
      etransitivity; [symmetry; apply (isum_sumn_swap Rring)|]. apply (isum_ext Rring). intros idx Hidx. rewrite get_mk by auto. apply (sumn_mul_r Rring).
Qed.
