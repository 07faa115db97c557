(** Orthonormal frames, and the QR-based Frobenius norm. *)
From Coq Require Import String Ascii List Arith ZArith Lia Lra Bool Ring Reals.
From Verif Require Import Scalar Tensor TensorLemmas TensorLemmas2 Base Spec Chain BaseLemmas Ops
  FullProofs ResultLemmas Dense AddProofs MulProofs MatmulProofs DenseMatmul Sweep FlatProofs NormProofs OpsR ScaleProofs
  Decomp DecompSpec GaugeProofs OrthProofs.
Import ListNotations.
Local Open Scope nat_scope.
Local Notation get := (@get Rring).
Local Notation RT := (@Tensor Rring).
Local Notation core0 := (core0 Rring).
Add Ring Rring' : (cth Rring).

Lemma kron_delta a b : kron a b = @delta Rring a b.
Proof. unfold kron, delta. rewrite Nat.eqb_sym. reflexivity. Qed.

(** Left products of left-orthonormal cores are orthonormal. *)
Lemma penv_orth (ms : nat -> list nat) (G : nat -> nat -> list nat -> nat -> Rring) (r : nat -> nat) k :
  r 0 = 1 ->
  (forall m b b', m < k -> b < r (S m) -> b' < r (S m) ->
     sumn (K := Rring) (r m) (fun a => isum (ms m) (fun j => G m a j b * G m a j b'))%K = kron b b') ->
  forall b b', b < r k -> b' < r k -> penv ms G r G r k b b' = kron b b'.
Proof.
  intros H0. induction k as [|k IH]; intros H b b' Hb Hb'.
  - rewrite H0 in *. assert (b = 0) by lia. assert (b' = 0) by lia. subst. rewrite penv_0. reflexivity.
  - rewrite penv_S by lia. rewrite <- (H k b b') by auto.
    apply sumn_ext. intros a Ha.
    rewrite (sumn_ext Rring _ _ (fun c => @delta Rring a c * isum (ms k) (fun j => G k a j b * G k c j b'))%K).
    2:{ intros c Hc. rewrite <- isum_mul_l. apply isum_ext. intros j _. rewrite IH by auto. now rewrite kron_delta. }
    now rewrite sumn_deltal by auto.
Qed.

Lemma left_orth_G (t : rtt) p k : left_orthonormal t p k -> forall b b', b < rk t (S k) -> b' < rk t (S k) ->
  sumn (K := Rring) (rk t k) (fun a => isum (modes t k) (fun j => coreG t p k a j b * coreG t p k a j b'))%K = kron b b'.
Proof. intros H b b' Hb Hb'. rewrite <- (H b b' Hb Hb'). reflexivity. Qed.

(** The squared norm of a left-orthogonalized object is that of its last core. *)
Lemma norm_last_core (t : rtt) p : wf t -> vidx (bpre t) p ->
  (forall k, k < ndims t - 1 -> left_orthonormal t p k) ->
  jsum (all_modes t) (fun J => tt_entry t p J * tt_entry t p J)%K =
  isum (rk t (ndims t - 1) :: modes t (ndims t - 1) ++ [1])
    (fun x => get (core t (ndims t - 1)) (p ++ x) * get (core t (ndims t - 1)) (p ++ x))%K.
Proof.
  intros Hw Hp Ho. pose proof (wf_d Hw) as Hd. set (e := ndims t - 1) in *.
  assert (R0 : 0 < rk t 0) by (rewrite (wf_first Hw); lia).
  transitivity (penv (modes t) (coreG t p) (rk t) (coreG t p) (rk t) (S e) 0 0).
  { unfold penv, all_modes. replace (S e) with (ndims t) by (unfold e; lia).
    apply jsum_ext. intros J HJ. apply vjdx_seq in HJ as [HJ HL]. unfold tt_entry.
    rewrite !lv_last; auto; rewrite HL; apply (wf_last Hw). }
  assert (RL : rk t (S e) = 1) by (replace (S e) with (ndims t) by (unfold e; lia); apply (wf_last Hw)).
  rewrite penv_S by (auto; lia). cbn [isum]. apply sumn_ext. intros a Ha.
  rewrite (sumn_ext Rring _ _ (fun c => @delta Rring a c * isum (modes t e) (fun j => coreG t p e a j O * coreG t p e c j O))%K).
  2:{ intros c Hc. rewrite <- isum_mul_l. apply isum_ext. intros j _.
      rewrite penv_orth; auto; [now rewrite kron_delta|apply (wf_first Hw)|].
      intros m b b' Hm Hb Hb'. now apply left_orth_G; [apply Ho|..]. }
  rewrite sumn_deltal by auto. rewrite isum_app. apply isum_ext. intros j _. cbn [isum]. now rewrite sumn_1.
Qed.

Lemma sqrt_sq x : (0 <= x -> sqrt x * sqrt x = x)%R.
Proof. apply sqrt_sqrt. Qed.

Lemma sumn_nonneg (n : nat) (f : nat -> R) : (forall i, (i < n)%nat -> 0 <= f i)%R -> (0 <= sumn (K := Rring) n f)%R.
Proof.
  induction n; intros H; cbn; [lra|]. assert (0 <= f n)%R by (apply H; lia).
  assert (0 <= sumn (K := Rring) n f)%R by (apply IHn; intros; apply H; lia). cbn in *. lra.
Qed.

Lemma sum_sq_nonneg (n : nat) (f : nat -> R) : (0 <= sumn (K := Rring) n (fun i => f i * f i)%R)%R.
Proof. apply sumn_nonneg. intros. nra. Qed.

(** *** Dense level: same elements *)
Lemma orth_ok qr (t : rtt) left_to_right : qr_ok qr -> wf t -> (left_to_right = false -> bsz t = None) ->
  exists o, orthogonalize_tt_cores qr t left_to_right = Ok o /\ wf o /\ rshape o = rshape t /\ bsz o = bsz t /\
    ndims o = ndims t /\
    (forall p J, vidx (bpre t) p -> vchain (modes t) 0 J -> length J = ndims t -> tt_entry o p J = tt_entry t p J) /\
    (left_to_right = true ->
      (forall k, k < ndims t - 1 -> rk o (S k) = Nat.min (rk o k * prodn (modes t k)) (rk t (S k))) /\
      (forall p k, vidx (bpre t) p -> k < ndims t - 1 -> left_orthonormal o p k)) /\
    (left_to_right = false ->
      (forall k, 0 < k < ndims t -> rk o k = Nat.min (rk t k) (prodn (modes t k) * rk o (S k))) /\
      (forall k, 0 < k < ndims t -> right_orthonormal o [] k)).
Proof.
  intros Hq Hw Hb. destruct left_to_right.
  - destruct (orth_lr_ok qr Hq t Hw) as (o & Eo & Wo & Ro & Bo & Do & Ko & Ent & Orth).
    exists o. split; [unfold orthogonalize_tt_cores; unfold bpre in Eo; destruct (bsz t); exact Eo|].
    split; auto. split; auto. split; auto. split; auto. split; auto. split; auto. discriminate.
  - specialize (Hb eq_refl). destruct (orth_rl_ok qr Hq t Hw Hb) as (o & Eo & Wo & Ro & Bo & Do & Ko & Ent & Orth).
    exists o. split; [unfold orthogonalize_tt_cores; rewrite Hb; exact Eo|].
    split; auto. split; auto. split; auto. split; auto. split; [|split; auto; discriminate].
    intros p J Hp. unfold bpre in Hp. rewrite Hb in Hp. inversion Hp; subst. auto.
Qed.

(** *** The QR-based norm *)
Lemma vchain_ext (ms ms' : nat -> list nat) k J : (forall i, ms i = ms' i) -> vchain ms k J -> vchain ms' k J.
Proof. intros E. revert k. induction J as [|j J IH]; intros k; cbn; auto. rewrite E. intros [? ?]; split; auto. Qed.

Lemma isum_nonneg ms (f : list nat -> R) : (forall i, vidx ms i -> (0 <= f i)%R) -> (0 <= isum (K := Rring) ms f)%R.
Proof.
  revert f; induction ms as [|n ms IH]; intros f H; cbn [isum]; [apply H; constructor|].
  apply sumn_nonneg. intros i Hi. apply IH. intros I HI. apply H. now constructor.
Qed.

Lemma tf_norm_sq (x : rtensor) : wft x -> (tf_norm x * tf_norm x)%R = isum (K := Rring) (shape x) (fun i => get x i * get x i)%K.
Proof.
  intros Wx. unfold tf_norm. rewrite reduce_sum_all_isum by now apply wft_tmap. cbn [tmap shape].
  rewrite (isum_ext Rring _ _ (fun i => get x i * get x i)%K).
  2:{ intros i Hi. now rewrite get_tmap. }
  apply sqrt_sq. apply isum_nonneg. intros i _. cbn. nra.
Qed.

Lemma frobenius_qr_full qr (t : rtt) : qr_ok qr -> wf t -> exists r d, frobenius_norm_squared_qr qr t = Ok r /\ wft r /\
  shape r = bpre t /\ full t = Ok d /\ forall o, inrange (bsz t) o -> get r (bo (bsz t) o) = sum_squares t d o.
Proof.
  intros Hq Hw. pose proof (wf_d Hw) as Hd.
  destruct (orth_ok qr t true Hq Hw ltac:(discriminate)) as (o & Eo & Wo & Ro & Bo & Do & Ent & Orth & _).
  destruct (Orth eq_refl) as [_ Ort]. clear Orth.
  destruct (full_correct Rring t Hw) as (d & Fd & _).
  assert (Em : forall k, modes o k = modes t k) by (intros; unfold modes; now rewrite Ro).
  assert (Ep : bpre o = bpre t) by (unfold bpre; now rewrite Bo).
  assert (V : forall x, inrange (bsz t) x -> vidx (bpre t) (bo (bsz t) x)).
  { intros x Hx. unfold bpre, bo, inrange in *. destruct (bsz t); [vsolve|apply vidx_nil]. }
  assert (N : forall x, inrange (bsz t) x -> sum_squares t d x =
     isum (K := Rring) (rk o (ndims t - 1) :: modes t (ndims t - 1) ++ [1])
       (fun i => get (core o (ndims t - 1)) (bo (bsz t) x ++ i) * get (core o (ndims t - 1)) (bo (bsz t) x ++ i))%K).
  { intros x Hx. rewrite (entry_squares Rring t d x Hw Fd Hx).
    rewrite <- Em, <- Do, <- norm_last_core; auto.
    - unfold all_modes. rewrite Do. rewrite (map_ext (modes t) (modes o)) by auto. apply jsum_ext. intros J HJ.
      apply vjdx_seq in HJ as [HJ HL]. rewrite Ent; auto.
      apply (vchain_ext _ _ _ _ Em HJ).
    - rewrite Ep; auto.
    - intros k Hk. apply Ort; [auto|lia]. }
  unfold frobenius_norm_squared_qr. rewrite Eo. cbn [bind].
  rewrite (lastr_last _ core0) by (intros E; assert (ndims o = 0) by (unfold ndims; now rewrite E); lia). cbn [bind].
  rewrite last_nth. replace (nth (length (cores o) - 1) (cores o) core0) with (core o (ndims t - 1)) by (rewrite <- Do; reflexivity).
  pose proof (core_shape _ o (ndims t - 1) Wo ltac:(lia)) as Sc. pose proof (core_wft _ o (ndims t - 1) Wo ltac:(lia)) as Wc.
  replace (S (ndims t - 1)) with (ndims o) in Sc by lia. rewrite (wf_last Wo), Em, Ep in Sc.
  set (lc := core o (ndims t - 1)) in *. set (ms := rk o (ndims t - 1) :: modes t (ndims t - 1) ++ [1]) in *.
  unfold bpre, bo, inrange in *. destruct (bsz t) as [b|] eqn:Eb.
  - cbn [app] in Sc. change [Some b; None] with (map Some [b] ++ None :: map Some []).
    assert (Pb : 0 < b) by (pose proof (wf_bpos Hw) as P; unfold bpre in P; rewrite Eb in P; now inversion P).
    rewrite (reshape_infer _ _ _ _ (prodn ms)).
    2:{ pns. lia. } 2:{ pns. lia. }
    2:{ unfold size. rewrite Sc. pns. lia. }
    cbn [bind app]. set (lr := RT [b; prodn ms] (data lc)).
    eexists _, d. split; [reflexivity|].
    assert (G : forall i, i < b -> (get (tf_norm_rows lr) [i] * get (tf_norm_rows lr) [i])%R = sum_squares t d i).
    { intros i Hi. unfold tf_norm_rows. cbn [lr shape firstn nth]. rewrite get_mk by vsolve. cbn [app].
      rewrite sqrt_sq by apply sum_sq_nonneg. rewrite N by auto. rewrite sumn_ravel. apply (isum_ext Rring). intros I HI.
      assert (E : get lr [i; ravel ms I] = get lc ([i] ++ I)).
      { unfold get. rewrite Sc. cbn [lr shape data app]. f_equal. cbn [ravel]. pns. lia. }
      now rewrite E. }
    split; [apply wft_tmap; apply wft_mk|]. split; [reflexivity|]. split; [exact Fd|].
    intros i Hi. rewrite get_tmap; [apply G; auto| apply wft_mk|]. cbn. vsolve.
  - cbn [app] in Sc. eexists _, d. split; [reflexivity|]. split; [reflexivity|]. split; [reflexivity|]. split; [exact Fd|].
    intros i Hi. rewrite (N i I). cbn [app]. rewrite <- Sc, <- tf_norm_sq by auto. reflexivity.
Qed.
