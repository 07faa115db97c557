(** Objects whose cores are rescaled: multiplication by a number, subtraction, weights along
    the batch dimension, renormalization. *)
From Coq Require Import String List Arith ZArith Lia Bool Ring Reals Lra.
From Verif Require Import Scalar Tensor TensorLemmas TensorLemmas2 Base Spec Chain BaseLemmas Ops
  FullProofs ResultLemmas Dense OpsR BatchOps AddFull.
Import ListNotations.

Section WithK.
Variable K : cring.
Add Ring Kring : (cth K).
Implicit Types t : tt K.

(** New cores of the same shapes can be put in place of the old ones. *)
Lemma rebuild_ok t cs : wf t -> length cs = ndims t ->
  (forall k, k < ndims t -> wft (nth k cs (core0 K)) /\ shape (nth k cs (core0 K)) = shape (core t k)) ->
  wf (TT cs (rshape t) (rks t) (bsz t)) /\
  construct cs (rshape t) (rks t) (bsz t) = Ok (TT cs (rshape t) (rks t) (bsz t)) /\
  (bsz t = None -> TensorTrain cs SNone None = Ok (TT cs (rshape t) (rks t) (bsz t))) /\
  (forall b, bsz t = Some b -> TensorTrainBatch cs SNone None None = Ok (TT cs (rshape t) (rks t) (bsz t))).
Proof.
  intros Hw Hl H.
  assert (Sh : shaped (bpre t) (rshape t) (rks t) cs).
  { intros k Hk. rewrite Hl in Hk. rewrite (proj2 (H k Hk)). apply (wf_core Hw k Hk). }
  assert (Ne : rshape t <> []) by (destruct (wf_kind Hw) as [E|E]; intros X; rewrite X in E; discriminate).
  split; [|split; [|split]].
  - apply wf_intro; rewrite ?Hl; try apply Hw; [exact Sh|]. intros k Hk. now apply H.
  - unfold construct, bpre in *. destruct (bsz t).
    + apply TensorTrainBatch_ok; rewrite ?Hl; try apply Hw; auto.
    + apply TensorTrain_ok; rewrite ?Hl; try apply Hw; auto.
  - intros Hb. unfold bpre in Sh. rewrite Hb in *. apply TensorTrain_infer_ok; rewrite ?Hl; try apply Hw; auto.
  - intros b Hb. unfold bpre in Sh. rewrite Hb in *. apply TensorTrainBatch_infer_ok; rewrite ?Hl; try apply Hw; auto.
Qed.

Lemma scaled_entry t (c : tt K) (s : nat -> K) pre J : wf t -> rks c = rks t ->
  vchain (modes t) 0 J -> length J = ndims t ->
  (forall k a j b, k < ndims t -> a < rk t k -> vidx (modes t k) j -> b < rk t (S k) ->
     coreG c pre k a j b = (s k * coreG t pre k a j b)%K) ->
  tt_entry c pre J = (prodK (map s (seq 0 (ndims t))) * tt_entry t pre J)%K.
Proof.
  intros Hw Hr HJ Hl H. unfold tt_entry.
  rewrite (chain_ext_r K (coreG c pre) (rk c) (rk t)) by (intros; unfold rk; now rewrite Hr).
  rewrite <- Hl. apply (chain_scale K (modes t)); auto; [rewrite (wf_first Hw); lia|].
  intros m a j b Hm Ha Hb Hj. apply H; auto. lia.
Qed.

Lemma vidx_core t k pre a j b : wf t -> k < ndims t -> vidx (bpre t) pre -> a < rk t k -> vidx (modes t k) j -> b < rk t (S k) ->
  vidx (shape (core t k)) (pre ++ a :: j ++ [b]).
Proof.
  intros Hw Hk Hp Ha Hj Hb. rewrite (proj2 (wf_core Hw k Hk)). apply vidx_app; auto. apply vidx_cons; auto.
  apply vidx_app; auto. vsolve.
Qed.

Lemma prodK_one l : Forall (fun x : K => x = c1) l -> prodK l = c1.
Proof. induction 1; cbn; auto. subst. rewrite IHForall. ring. Qed.

Lemma prodK_first (x : K) n : prodK (map (fun k => if Nat.eqb k 0 then x else c1) (seq 0 (S n))) = x.
Proof.
  cbn [seq map prodK Nat.eqb]. rewrite prodK_one; [ring|]. apply Forall_forall. intros y Hy.
  apply in_map_iff in Hy as (k & <- & Hk). apply in_seq in Hk. destruct k; [lia|reflexivity].
Qed.

(** *** weights along the batch dimension *)
Lemma bcast_rev_ones n s x y z : length s = n -> bcast_rev x y = Some z ->
  bcast_rev (repeat 1 n ++ x) (s ++ y) = Some (s ++ z) /\ bcast_rev (s ++ y) (repeat 1 n ++ x) = Some (s ++ z) \/ bcast_rev y x <> Some z.
Proof.
  intros Hl Hz. destruct (bcast_rev y x) as [z'|] eqn:E; [|right; discriminate].
  destruct (list_eq_dec Nat.eq_dec z' z) as [->|Hne]; [left|right; congruence].
  revert n Hl. induction s as [|m s IH]; intros n Hl; subst n; cbn [repeat length app bcast_rev]; auto.
  destruct (IH (length s) eq_refl) as [-> ->]. split.
  - destruct (Nat.eqb_spec 1 m) as [<-|]; reflexivity.
  - destruct (Nat.eqb_spec m 1) as [->|]; [reflexivity|]. reflexivity.
Qed.

Lemma bcast_tail b s : bcast (b :: repeat 1 (length s)) (b :: s) = Some (b :: s) /\
  bcast (b :: s) (b :: repeat 1 (length s)) = Some (b :: s).
Proof.
  unfold bcast. cbn [rev].
  assert (E : rev (repeat 1 (length s)) = repeat 1 (length (rev s))).
  { rewrite rev_length. generalize (length s). clear. intros n. induction n; cbn; auto. rewrite IHn.
    clear. induction n; cbn; auto. now rewrite IHn. }
  assert (Eb : bcast_rev [b] [b] = Some [b]) by (cbn; now rewrite Nat.eqb_refl).
  rewrite E. destruct (bcast_rev_ones (length (rev s)) (rev s) [b] [b] [b] eq_refl Eb) as [[H1 H2]|H]; [|contradiction].
  rewrite H1, H2. rewrite rev_app_distr, rev_involutive. split; reflexivity.
Qed.

Lemma bidx_ones n b o (idx : list nat) : length idx = n -> o < b -> bidx (b :: repeat 1 n) (o :: idx) = o :: repeat 0 n.
Proof.
  intros <- Ho. unfold bidx. cbn [length]. rewrite repeat_length, Nat.sub_diag. cbn [skipn map2].
  f_equal.
  - destruct (Nat.eqb_spec b 1); [lia|reflexivity].
  - induction idx; cbn; auto. now f_equal.
Qed.

Lemma bidx_self sh idx : vidx sh idx -> bidx sh idx = idx.
Proof.
  intros H. unfold bidx. rewrite (vidx_length _ _ H), Nat.sub_diag. cbn [skipn].
  induction H; cbn; auto. rewrite IHForall2. destruct (Nat.eqb_spec y 1); [|reflexivity]. f_equal. lia.
Qed.

Lemma ewise_tail (F : K -> K -> K) (w x : tensor K) b s : shape w = b :: repeat 1 (length s) -> shape x = b :: s ->
  (exists r, ewise F w x = Ok r /\ wft r /\ shape r = b :: s /\
    forall o idx, o < b -> vidx s idx -> get r (o :: idx) = F (get w (o :: repeat 0 (length s))) (get x (o :: idx))) /\
  (exists r, ewise F x w = Ok r /\ wft r /\ shape r = b :: s /\
    forall o idx, o < b -> vidx s idx -> get r (o :: idx) = F (get x (o :: idx)) (get w (o :: repeat 0 (length s)))).
Proof.
  intros Sw Sx. unfold ewise. rewrite Sw, Sx. destruct (bcast_tail b s) as [-> ->]. split.
  - eexists. split; [reflexivity|]. split; [apply wft_mk|]. split; [reflexivity|]. intros o idx Ho Hi.
    rewrite get_mk by (apply vidx_cons; auto). rewrite bidx_ones by (auto; now rewrite (vidx_length _ _ Hi)).
    now rewrite bidx_self by (apply vidx_cons; auto).
  - eexists. split; [reflexivity|]. split; [apply wft_mk|]. split; [reflexivity|]. intros o idx Ho Hi.
    rewrite get_mk by (apply vidx_cons; auto). rewrite bidx_ones by (auto; now rewrite (vidx_length _ _ Hi)).
    now rewrite bidx_self by (apply vidx_cons; auto).
Qed.

Lemma prodn_ones n : prodn (repeat 1 n) = 1.
Proof. induction n; auto. cbn [repeat]. rewrite prodn_cons, IHn. reflexivity. Qed.
Lemma ravel_zeros1 n : ravel (repeat 1 n) (repeat 0 n) = 0.
Proof. induction n; cbn in *; auto. Qed.
Lemma ravel_zeros o b n : ravel (b :: repeat 1 n) (o :: repeat 0 n) = o.
Proof. cbn [ravel]. rewrite prodn_ones, ravel_zeros1. lia. Qed.

Lemma multiply_along_full t b w : wf t -> bsz t = Some b -> wft w -> shape w = [b] ->
  exists c, multiply_along_batch_dim t w = Ok c /\ wf c /\ rshape c = rshape t /\ rks c = rks t /\ bsz c = bsz t /\
    exists d dc, full t = Ok d /\ full c = Ok dc /\ shape dc = shape d /\
      forall o i, vidx (shape d) (o :: i) -> get dc (o :: i) = (get w [o] * get d (o :: i))%K.
Proof.
  intros Hw Hb Ww Sw. unfold multiply_along_batch_dim, add_axes. rewrite Sw. cbn [bind].
  pose proof (wf_d Hw) as Hd. rewrite (nthr_nth (cores t) 0 (core0 K)) by exact Hd. cbn [bind].
  pose proof (core_shape _ t 0 Hw Hd) as S0. unfold bpre in S0. rewrite Hb in S0. cbn [app] in S0.
  set (s := rk t 0 :: modes t 0 ++ [rk t 1]) in *.
  assert (Ls : length s = if is_tt_matrix t then 4 else 3).
  { unfold s. cbn [length]. rewrite app_length, modes_length. cbn [length].
    destruct (wf_kind_cases _ t Hw) as [(E & Hl & _)|(E & Hl & _)]; rewrite E, Hl; reflexivity. }
  rewrite <- Ls. set (w' := Tensor (b :: repeat 1 (length s)) (data w) : tensor K).
  destruct (ewise_tail cmul w' (core t 0) b s eq_refl S0) as [(r & Er & Wr & Sr & Gr) _].
  fold (core t 0). change (nth 0 (cores t) (core0 K)) with (core t 0). rewrite Er. cbn [bind].
  assert (Hcs : forall k, k < ndims t -> wft (nth k (r :: tl (cores t)) (core0 K)) /\
     shape (nth k (r :: tl (cores t)) (core0 K)) = shape (core t k)).
  { intros [|k] Hk; cbn [nth]; [split; [auto|congruence]|].
    assert (E : nth k (tl (cores t)) (core0 K) = core t (S k)) by (unfold core, core0; destruct (cores t); [destruct k; reflexivity|reflexivity]).
    rewrite E. split; [now apply core_wft|reflexivity]. }
  assert (Hl : length (r :: tl (cores t)) = ndims t) by (unfold ndims in *; destruct (cores t); cbn in *; lia).
  destruct (rebuild_ok t _ Hw Hl Hcs) as (Wc & Ec & _). unfold construct in Ec. rewrite Hb in Ec, Wc. rewrite Hb. rewrite Ec.
  set (c := TT _ _ _ _) in *. exists c. split; [reflexivity|]. split; [exact Wc|]. do 3 (split; [reflexivity|]).
  destruct (full_correct K t Hw) as (d & Fd & Wd & Sd & Gd).
  destruct (full_correct K c Wc) as (dc & Fc & Wdc & Sdc & Gdc).
  assert (GS : get_shape c = get_shape t) by (unfold get_shape, is_tt_matrix; cbn; now rewrite Hb).
  exists d, dc. do 2 (split; [assumption|]). split; [congruence|]. intros o i Hi. rewrite Sd in Hi.
  rewrite Gdc by now rewrite GS. rewrite Gd by auto. unfold tt_at. rewrite Hb. cbn [bsz c nth tl].
  rewrite get_shape_ishape in Hi. unfold bpre in Hi. rewrite Hb in Hi. apply vidx_cons_inv in Hi as [Ho Hi].
  assert (Es : split_idx c i = split_idx t i) by reflexivity. rewrite Es.
  destruct (split_idx_valid _ t i Hw Hi) as [V1 V2].
  rewrite (scaled_entry t c (fun k => if Nat.eqb k 0 then get w [o] else c1) [o]); auto.
  - destruct (ndims t) as [|n]; [lia|]. now rewrite prodK_first.
  - intros k a j b' Hk Ha Hj Hb'. unfold coreG. destruct k as [|k]; cbn [Nat.eqb].
    + change (core c 0) with r. cbn [app]. rewrite Gr; auto.
      * f_equal. unfold get, w'. cbn [shape data]. rewrite ravel_zeros. rewrite Sw. cbn [ravel]. f_equal. rewrite prodn_nil. lia.
      * unfold s. apply vidx_cons; auto. apply vidx_app; auto. vsolve.
    + assert (E : core c (S k) = core t (S k)).
      { unfold core, c. cbn [cores nth]. destruct (cores t); [destruct k; reflexivity|reflexivity]. }
      rewrite E. ring.
Qed.

Lemma bcast_rev_none n s m b : length s = n -> m <> b -> m <> 1 -> b <> 1 ->
  bcast_rev (repeat 1 n ++ [m]) (s ++ [b]) = None.
Proof.
  intros Hl H1 H2 H3. revert n Hl. induction s as [|x s IH]; intros n Hl; subst n; cbn [repeat length app bcast_rev].
  - apply Nat.eqb_neq in H1, H2, H3. now rewrite H1, H2, H3.
  - now rewrite IH.
Qed.

Lemma rev_repeat {A} (x : A) n : rev (repeat x n) = repeat x n.
Proof.
  induction n; cbn; auto. rewrite IHn. clear. induction n; cbn; auto. now rewrite IHn.
Qed.

Lemma multiply_along_err t b m w : wf t -> bsz t = Some b -> shape w = [m] -> m <> b -> m <> 1 -> b <> 1 ->
  multiply_along_batch_dim t w = Err TFError.
Proof.
  intros Hw Hb Sw H1 H2 H3. unfold multiply_along_batch_dim, add_axes. rewrite Sw. cbn [bind].
  pose proof (wf_d Hw) as Hd. rewrite (nthr_nth (cores t) 0 (core0 K)) by exact Hd. cbn [bind].
  pose proof (core_shape _ t 0 Hw Hd) as S0. unfold bpre in S0. rewrite Hb in S0. cbn [app] in S0.
  change (nth 0 (cores t) (core0 K)) with (core t 0). unfold ewise. rewrite S0. cbn [shape]. unfold bcast. cbn [rev].
  rewrite rev_repeat. change (rev (modes t 0 ++ [rk t 1]) ++ [rk t 0]) with (rev (rk t 0 :: modes t 0 ++ [rk t 1])).
  rewrite bcast_rev_none; auto. rewrite rev_length. cbn [length]. rewrite app_length, modes_length. cbn [length].
  destruct (wf_kind_cases _ t Hw) as [(E & Hl & _)|(E & Hl & _)]; rewrite E, Hl; reflexivity.
Qed.

End WithK.

(** *** multiplication by a number *)
Local Open Scope R_scope.

Ltac rchange := match goal with |- @eq _ ?a ?b => change (@eq R a b) end;
  cbn [cmul cadd copp csub Scalar.c0 Scalar.c1 car Rring].
Ltac rring := rchange; ring.

Lemma tf_pow_root c n : (0 < n)%nat -> 0 <= c -> tf_pow c (1 / INR n) ^ n = c.
Proof.
  intros Hn Hc. unfold tf_pow. assert (0 < INR n) by now apply lt_0_INR.
  destruct (Req_EM_T c 0) as [->|Hne].
  - destruct (Req_EM_T (1 / INR n) 0) as [E|E].
    + assert (0 < 1 / INR n) by (apply Rdiv_lt_0_compat; lra). lra.
    + destruct n; [lia|]. cbn. ring.
  - rewrite <- Rpower_pow by apply exp_pos. rewrite Rpower_mult. unfold Rdiv. rewrite Rmult_1_l, Rinv_l by lra.
    apply Rpower_1. lra.
Qed.

Lemma tf_sign_abs c : tf_sign c * Rabs c = c.
Proof.
  unfold tf_sign. destruct (Rlt_dec 0 c); [rewrite Rabs_right; lra|].
  destruct (Rlt_dec c 0); [rewrite Rabs_left; lra|]. assert (c = 0) by lra. subst. rewrite Rabs_R0. ring.
Qed.

Lemma prodK_pow n (f s : R) : (prodK (K := Rring) (map (fun k => if Nat.eqb k 0 then s * f else f) (seq 0 (S n))) = s * f ^ S n)%R.
Proof.
  assert (H : forall k n, (0 < k)%nat -> (prodK (K := Rring) (map (fun k => if Nat.eqb k 0 then s * f else f) (seq k n)) = f ^ n)%R).
  { clear n. intros k n. revert k. induction n; intros k Hk; [reflexivity|]. cbn [seq map prodK pow].
    destruct (Nat.eqb_spec k 0); [lia|]. rewrite IHn by lia. reflexivity. }
  cbn [seq map prodK Nat.eqb]. rewrite H by lia. change (s * f * f ^ n = s * (f * f ^ n)). ring.
Qed.

Lemma multiply_num_full (t : rtt) (c : R) : wf t ->
  exists r, multiply_num t c = Ok r /\ wf r /\ rshape r = rshape t /\ rks r = rks t /\ bsz r = bsz t /\
    elementwise1 (K := Rring) (L := Rring) (fun x => c * x) t r.
Proof.
  intros Hw. unfold multiply_num. pose proof (wf_d Hw) as Hd.
  set (fact := tf_pow (Rabs c) (1 / INR (ndims t))). set (sg := tf_sign c).
  set (cs := map _ (cores t)).
  assert (Lc : length cs = ndims t) by (unfold cs; now rewrite map_length).
  assert (Nc : forall k, (k < ndims t)%nat -> nth k cs (core0 Rring) = tmap (K := Rring) (fun e => fact * e) (core t k)).
  { intros k Hk. unfold cs. now rewrite (nth_map_default _ (cores t) k (core0 Rring)). }
  rewrite (nthr_nth cs 0 (core0 Rring)) by lia. cbn [bind]. rewrite Nc by auto.
  set (c0' := tmap _ (tmap _ _)). set (cs' := c0' :: tl cs).
  assert (Nc' : forall k, (k < ndims t)%nat -> nth k cs' (core0 Rring) =
     if Nat.eqb k 0 then c0' else tmap (K := Rring) (fun e => fact * e) (core t k)).
  { intros [|k] Hk; cbn [Nat.eqb cs' nth]; [reflexivity|]. rewrite <- (Nc (S k) Hk). destruct cs; [destruct k; reflexivity|reflexivity]. }
  assert (Hcs : forall k, (k < ndims t)%nat -> wft (nth k cs' (core0 Rring)) /\ shape (nth k cs' (core0 Rring)) = shape (core t k)).
  { intros k Hk. rewrite Nc' by auto. pose proof (core_wft _ t k Hw Hk). destruct (Nat.eqb_spec k 0) as [->|].
    - split; [|reflexivity]. unfold c0'. now do 2 apply wft_tmap.
    - split; [|reflexivity]. now apply wft_tmap. }
  assert (Hl : length cs' = ndims t) by (unfold cs'; destruct cs; cbn in *; lia).
  destruct (rebuild_ok Rring t cs' Hw Hl Hcs) as (Wc & Ec & _).
  set (r := TT cs' (rshape t) (rks t) (bsz t)) in *. exists r. split; [exact Ec|]. split; [exact Wc|].
  do 3 (split; [reflexivity|]). apply elementwise1_intro; auto.
  intros pre J Hp HJ HlJ.
  rewrite (scaled_entry Rring t r (fun k => if Nat.eqb k 0 then sg * fact else fact) pre); auto.
  - cbn [cmul Rring]. f_equal. destruct (ndims t) as [|n] eqn:En; [lia|].
    transitivity (sg * fact ^ S n); [exact (prodK_pow n fact sg)|].
    unfold fact. rewrite tf_pow_root; [apply tf_sign_abs|lia|apply Rabs_pos].
  - intros k a j b Hk Ha Hj Hb. unfold coreG. pose proof (vidx_core Rring t k pre a j b Hw Hk Hp Ha Hj Hb) as V.
    unfold core at 1. cbn [cores r]. change (Tensor [] []) with (core0 Rring). rewrite Nc' by auto.
    pose proof (core_wft _ t k Hw Hk) as Wk. destruct (Nat.eqb_spec k 0) as [->|].
    + unfold c0'. rewrite get_tmap by (auto; now apply wft_tmap). rewrite get_tmap by auto. rring.
    + now rewrite get_tmap by auto.
Qed.

Lemma tt_neg_full (t : rtt) : wf t ->
  exists r, tt_neg t = Ok r /\ wf r /\ rshape r = rshape t /\ rks r = rks t /\ bsz r = bsz t /\
    elementwise1 (K := Rring) (L := Rring) Ropp t r.
Proof.
  intros Hw. destruct (multiply_num_full t (-1) Hw) as (r & E & W & R & Rk & B & (d & dr & F1 & F2 & S & G)).
  exists r. repeat (split; [assumption|]). exists d, dr. repeat (split; [assumption|]). intros i Hi. rewrite G by auto. rring.
Qed.

(** Composition of an elementwise operation with a map on its second argument. *)
Lemma elementwise2_map2 (F G : R -> R -> R) (h : R -> R) (a b nb c : rtt) : wf b -> wf nb -> wf c ->
  rshape nb = rshape b -> rshape c = rshape b -> bsz nb = bsz b ->
  (match bsz c with None => bsz b = None | Some B => compat b B end) ->
  (forall x y, F x (h y) = G x y) ->
  elementwise1 (K := Rring) (L := Rring) h b nb -> elementwise2 (K := Rring) F a nb c ->
  elementwise2 (K := Rring) G a b c.
Proof.
  intros Wb Wn Wc Rn Rc Bn Hc HF (d & dn & F1 & F2 & S1 & G1) (da & dn' & dc & Fa & Fn & Fc & Sc & G2).
  replace dn' with dn in * by congruence.
  exists da, d, dc. repeat (split; [assumption|]).
  destruct (full_correct _ nb Wn) as (x & Fx & _ & Sx & _). replace x with dn in * by congruence.
  assert (Ii : ishape nb = ishape c) by (unfold ishape, is_tt_matrix; now rewrite Rn, Rc).
  destruct (bsz c) as [B|] eqn:EB.
  - intros o i Hi. rewrite G2 by auto. rewrite Bn. rewrite G1.
    + apply HF.
    + rewrite Sx. rewrite get_shape_ishape, Ii, opidx_bsel. rewrite Sc, get_shape_ishape in Hi. unfold bpre in Hi at 1. rewrite EB in Hi.
      apply vidx_cons_inv in Hi as [Ho Hi]. apply vidx_app; auto.
      assert (Eb : bpre nb = bpre b) by (unfold bpre; now rewrite Bn). rewrite Eb. eapply bsel_valid; eauto.
  - intros i Hi. rewrite G2 by auto. rewrite G1; [apply HF|]. rewrite Sx, get_shape_ishape, Ii. rewrite Sc, get_shape_ishape in Hi.
    unfold bpre in *. rewrite EB in Hi. now rewrite Bn, Hc.
Qed.

Lemma tt_sub_full (a b : rtt) : wf a -> wf b -> rshape a = rshape b -> (2 <= ndims a)%nat ->
  bsz a = None -> bsz b = None ->
  exists c, tt_sub a b = Ok c /\ wf c /\ rshape c = rshape a /\ bsz c = None /\
    rks c = (1 :: map (fun i => rk a i + rk b i) (seq 1 (ndims a - 1)) ++ [1])%nat /\ elementwise2 (K := Rring) Rminus a b c.
Proof.
  intros Wa Wb Hr Hd Ba Bb. unfold tt_sub, multiply.
  destruct (multiply_num_full b (-1) Wb) as (nb & -> & Wn & Rn & Kn & Bn & En). cbn [bind].
  destruct (add_full Rring a nb Wa Wn ltac:(congruence) Hd Ba ltac:(congruence)) as (c & Ec & Wc & Rc & Bc & Kc & E2).
  unfold rk at 2 in Kc. rewrite Kn in Kc. exists c. repeat (split; [assumption|]). eapply (elementwise2_map2 Rplus Rminus (fun x => -1 * x) a b nb c); eauto; try congruence.
  - now rewrite Bc.
  - intros; ring.
Qed.

(** For batches the operand that decides the batch size must be the left one; otherwise
    add raises (see C04). *)
Lemma tt_sub_batch_full (a b : rtt) B : wf a -> wf b -> rshape a = rshape b -> (2 <= ndims a)%nat ->
  bc_ok (bsz a) (bsz b) -> add_batch_size a b = Ok B -> is_batch a || is_batch b = true ->
  exists c, tt_sub a b = Ok c /\ wf c /\ rshape c = rshape a /\ bsz c = Some B /\
    rks c = (1 :: map (fun i => rk a i + rk b i) (seq 1 (ndims a - 1)) ++ [1])%nat /\ elementwise2 (K := Rring) Rminus a b c.
Proof.
  intros Wa Wb Hr Hd Hbc HB Hany. unfold tt_sub, multiply.
  destruct (multiply_num_full b (-1) Wb) as (nb & -> & Wn & Rn & Kn & Bn & En). cbn [bind].
  apply bc_ok_possible in Hbc.
  assert (P : is_batch_broadcasting_possible a nb = true) by (unfold is_batch_broadcasting_possible in *; now rewrite Bn).
  assert (HB' : add_batch_size a nb = Ok B) by (unfold add_batch_size, lazy_batch_size in *; now rewrite Bn).
  assert (Hany' : is_batch a || is_batch nb = true) by (unfold is_batch in *; now rewrite Bn).
  destruct (add_batch_full Rring a nb B Wa Wn ltac:(congruence) Hd P HB' Hany') as (c & Ec & Wc & Rc & Bc & Kc & E2).
  unfold rk at 2 in Kc. rewrite Kn in Kc. exists c. repeat (split; [assumption|]). eapply (elementwise2_map2 Rplus Rminus (fun x => -1 * x) a b nb c); eauto; try congruence.
  - rewrite Bc. unfold compat. unfold add_batch_size, lazy_batch_size, is_batch_broadcasting_possible in HB, Hbc.
    destruct (bsz b) as [y|]; auto. destruct (bsz a) as [x|]; [|discriminate].
    apply orb_prop in Hbc as [Hbc|Hbc]; [apply orb_prop in Hbc as [Hbc|Hbc]|]; apply Nat.eqb_eq in Hbc; subst; auto.
    + right. destruct y as [|[|y]]; congruence.
    + injection HB as <-. auto.
  - intros; ring.
Qed.

(** *** renormalize *)
Lemma exp_mean_prod (l : list R) n : (0 < n)%nat -> length l = n -> Forall (fun x => 0 < x) l -> forall a,
  exp (fold_left (fun acc x => acc + ln x) l a / INR n) ^ n = exp a * fold_right Rmult 1 l.
Proof.
  intros Hn Hl Hp a. assert (0 < INR n) by now apply lt_0_INR.
  assert (E : forall x m, exp x ^ m = exp (INR m * x)).
  { intros x m. induction m; [cbn; now rewrite Rmult_0_l, exp_0|]. rewrite S_INR. cbn [pow]. rewrite IHm, <- exp_plus. f_equal. ring. }
  rewrite E. replace (INR n * (fold_left (fun acc x => acc + ln x) l a / INR n)) with (fold_left (fun acc x => acc + ln x) l a) by (field; lra).
  clear - Hp. revert a. induction Hp; intros a; cbn [fold_left fold_right]; [ring|].
  rewrite IHHp, exp_plus, exp_ln by auto. ring.
Qed.

(** Squared Frobenius norm of core [k] (of batch element [pre]). *)
Definition core_sumsq (t : rtt) (pre : list nat) (k : nat) : R :=
  isum (K := Rring) (rk t k :: modes t k ++ [rk t (S k)])
    (fun I => get (core t k) (pre ++ I) * get (core t k) (pre ++ I)).

Lemma fold_right_sumn (l : list R) : fold_right Rplus 0 l = sumn (K := Rring) (length l) (fun k => nth k l 0).
Proof. induction l; [reflexivity|]. cbn [length fold_right]. rewrite sumn_S_l. cbn [nth]. now rewrite IHl. Qed.

Lemma reduce_sum_all_isum (x : rtensor) : wft x -> reduce_sum_all x = isum (K := Rring) (shape x) (get x).
Proof.
  intros W. rewrite (isum_unravel Rring). unfold reduce_sum_all.
  rewrite fold_right_sumn. rewrite W. apply (sumn_ext Rring). intros k Hk. unfold get. rewrite ravel_unravel by auto. reflexivity.
Qed.

(** Norms and scale factor used by the code, per batch element. *)
Definition rnorm (t : rtt) eps pre k : R := sqrt (Rmax (core_sumsq t pre k) eps).
Definition rnorms t eps pre := map (rnorm t eps pre) (seq 0 (ndims t)).
Definition rfact t eps pre : R :=
  exp (fold_left (fun acc n => acc + ln n) (rnorms t eps pre) 0 / INR (ndims t)).

Lemma prod_ratio f (l : list nat) (N : nat -> R) : Forall (fun k => 0 < N k) l ->
  prodK (K := Rring) (map (fun k => f / N k) l) * fold_right Rmult 1 (map N l) = f ^ length l.
Proof.
  induction 1 as [|k l Hk _ IH]; [cbn; ring|]. cbn [map prodK fold_right length pow]. rewrite <- IH.
  cbn [cmul Rring]. set (p := prodK _). field. lra.
Qed.

Lemma fold_mult_pos l : Forall (fun x => 0 < x) l -> 0 < fold_right Rmult 1 l.
Proof. induction 1; cbn; [lra|]. now apply Rmult_lt_0_compat. Qed.

Lemma renorm_spec (t r : rtt) eps : wf t -> wf r -> rshape r = rshape t -> rks r = rks t -> bsz r = bsz t ->
  (forall pre k, vidx (bpre t) pre -> (k < ndims t)%nat -> 0 < Rmax (core_sumsq t pre k) eps) ->
  (forall pre k I, vidx (bpre t) pre -> (k < ndims t)%nat -> vidx (rk t k :: modes t k ++ [rk t (S k)]) I ->
     get (core r k) (pre ++ I) = rfact t eps pre / rnorm t eps pre k * get (core t k) (pre ++ I)) ->
  elementwise1 (K := Rring) (L := Rring) (fun x => x) t r /\
  ((forall pre k, vidx (bpre t) pre -> (k < ndims t)%nat -> eps <= core_sumsq t pre k) ->
   forall pre k k', vidx (bpre t) pre -> (k < ndims t)%nat -> (k' < ndims t)%nat -> core_sumsq r pre k = core_sumsq r pre k').
Proof.
  intros Hw Wr R Rk B Hpos HG. pose proof (wf_d Hw) as Hd.
  assert (Np : forall pre k, vidx (bpre t) pre -> (k < ndims t)%nat -> 0 < rnorm t eps pre k) by (intros; now apply sqrt_lt_R0, Hpos).
  split.
  - apply elementwise1_intro; auto. intros pre J Hp HJ Hl.
    rewrite (scaled_entry Rring t r (fun k => rfact t eps pre / rnorm t eps pre k) pre); auto.
    + transitivity (1 * tt_entry t pre J)%R; [|rring]. rchange. f_equal.
      assert (F : Forall (fun k => 0 < rnorm t eps pre k) (seq 0 (ndims t))).
      { apply Forall_forall. intros k Hk. apply in_seq in Hk. apply Np; auto. lia. }
      pose proof (prod_ratio (rfact t eps pre) (seq 0 (ndims t)) (rnorm t eps pre) F) as P.
      assert (Q : Forall (fun x => 0 < x) (rnorms t eps pre)).
      { apply Forall_forall. intros x Hx. apply in_map_iff in Hx as (k & <- & Hk). apply in_seq in Hk. apply Np; auto. lia. }
      rewrite seq_length in P. unfold rfact at 2 in P. rewrite exp_mean_prod in P; auto.
      2:{ unfold rnorms. now rewrite map_length, seq_length. }
      rewrite exp_0, Rmult_1_l in P. fold (rnorms t eps pre) in P. pose proof (fold_mult_pos _ Q).
      apply (Rmult_eq_reg_r (fold_right Rmult 1 (rnorms t eps pre))); [|lra]. rewrite P. ring.
    + intros k a j b Hk Ha Hj Hb. unfold coreG. rewrite HG; auto. apply vidx_cons; auto. apply vidx_app; auto. vsolve.
  - intros Heps pre.
    assert (E : forall k, vidx (bpre t) pre -> (k < ndims t)%nat -> core_sumsq r pre k = rfact t eps pre * rfact t eps pre).
    { intros k Hp Hk. unfold core_sumsq at 1.
      assert (Er : forall m, rk r m = rk t m) by (intros; unfold rk; now rewrite Rk).
      assert (Em : modes r k = modes t k) by (unfold modes; now rewrite R). rewrite !Er, Em.
      set (q := rfact t eps pre / rnorm t eps pre k).
      transitivity (q * q * core_sumsq t pre k).
      - unfold core_sumsq. etransitivity; [|exact (isum_mul_l Rring _ (q * q)%R _)]. apply (isum_ext Rring). intros I HI.
        rewrite HG by auto. fold q. rring.
      - pose proof (Np pre k Hp Hk) as HN.
        assert (S : rnorm t eps pre k * rnorm t eps pre k = core_sumsq t pre k).
        { unfold rnorm. rewrite Rmax_left by now apply Heps. apply sqrt_sqrt.
          unfold rnorm in HN. rewrite Rmax_left in HN by now apply Heps. destruct (Rle_lt_dec 0 (core_sumsq t pre k)); auto.
          rewrite sqrt_neg_0 in HN by lra. lra. }
        rewrite <- S. unfold q. field. lra. }
    intros k k' Hp Hk Hk'. now rewrite !E.
Qed.

Lemma core_norm_eq (t : rtt) eps k : wf t -> bsz t = None -> (k < ndims t)%nat -> core_norm eps (core t k) = rnorm t eps [] k.
Proof.
  intros Hw Hb Hk. unfold core_norm, rnorm. f_equal. f_equal. pose proof (core_wft _ t k Hw Hk) as W.
  rewrite reduce_sum_all_isum by now apply wft_tmap. unfold core_sumsq. cbn [tmap shape].
  rewrite (core_shape _ t k Hw Hk). unfold bpre. rewrite Hb. cbn [app]. apply (isum_ext Rring). intros I HI.
  rewrite get_tmap; auto. rewrite (core_shape _ t k Hw Hk). unfold bpre. now rewrite Hb.
Qed.

Lemma nth_map2 {A B C} (f : A -> B -> C) l m i d d1 d2 : (i < length l)%nat -> (i < length m)%nat ->
  nth i (map2 f l m) d = f (nth i l d1) (nth i m d2).
Proof. revert m i. induction l; intros [|y m] [|i] H1 H2; cbn in *; try lia; auto. apply IHl; lia. Qed.

Lemma renorm_single (t : rtt) eps : wf t -> bsz t = None ->
  exists r, renormalize_tt_cores t eps = Ok r /\ wf r /\ rshape r = rshape t /\ rks r = rks t /\ bsz r = bsz t /\
  forall pre k I, vidx (bpre t) pre -> (k < ndims t)%nat -> vidx (rk t k :: modes t k ++ [rk t (S k)]) I ->
     get (core r k) (pre ++ I) = rfact t eps pre / rnorm t eps pre k * get (core t k) (pre ++ I).
Proof.
  intros Hw Hb. unfold renormalize_tt_cores. rewrite Hb.
  assert (En : map (core_norm eps) (cores t) = rnorms t eps []).
  { apply (nth_ext _ _ 0 0); [unfold rnorms; now rewrite !map_length, seq_length|]. rewrite map_length. intros k Hk.
    unfold rnorms. rewrite (nth_map_default _ (cores t) k (core0 Rring)) by auto.
    rewrite (nth_map_default _ (seq 0 (ndims t)) k O) by now rewrite seq_length. rewrite seq_nth by auto. now apply core_norm_eq. }
  rewrite En. fold (rfact t eps []). set (cs := map2 _ _ _).
  assert (Ln : length (rnorms t eps []) = ndims t) by (unfold rnorms; now rewrite map_length, seq_length).
  assert (Nc : forall k, (k < ndims t)%nat -> nth k cs (core0 Rring) = tmap (K := Rring) (fun e => e * rfact t eps [] / rnorm t eps [] k) (core t k)).
  { intros k Hk. unfold cs. rewrite (nth_map2 _ _ _ k _ (core0 Rring) 0) by (rewrite ?Ln; auto).
    unfold rnorms. rewrite (nth_map_default _ (seq 0 (ndims t)) k O) by now rewrite seq_length. now rewrite seq_nth by auto. }
  assert (Lc : length cs = ndims t) by (unfold cs; rewrite length_map2, Ln; apply Nat.min_id).
  destruct (rebuild_ok Rring t cs Hw Lc) as (Wc & _ & Ec & _).
  { intros k Hk. rewrite Nc by auto. split; [|reflexivity]. apply wft_tmap. now apply core_wft. }
  rewrite Ec by auto. eexists. split; [reflexivity|]. split; [exact Wc|]. do 3 (split; [cbn [rshape rks bsz]; congruence|]).
  intros pre k I Hp Hk HI. unfold bpre in Hp. rewrite Hb in Hp. inversion Hp; subst pre. cbn [app].
  unfold core at 1. cbn [cores]. change (Tensor [] []) with (core0 Rring). rewrite Nc by auto.
  rewrite get_tmap; [rchange; unfold Rdiv; ring|now apply core_wft|].
  rewrite (core_shape _ t k Hw Hk). unfold bpre. now rewrite Hb.
Qed.

Lemma vidx_zeros n : vidx (repeat 1%nat n) (repeat 0%nat n).
Proof. induction n; constructor; auto. Qed.

Lemma batch_norm_ok (t : rtt) eps b k : wf t -> bsz t = Some b -> (k < ndims t)%nat ->
  let n := S (length (modes t k) + 1) in let x := batch_core_norm eps (core t k) in
  wft x /\ shape x = b :: repeat 1%nat n /\ forall o, (o < b)%nat -> get x (o :: repeat O n) = rnorm t eps [o] k.
Proof.
  intros Hw Hb Hk n x. pose proof (core_wft _ t k Hw Hk) as W. pose proof (core_shape _ t k Hw Hk) as Sh.
  unfold bpre in Sh. rewrite Hb in Sh. cbn [app] in Sh.
  assert (Ln : length (rk t k :: modes t k ++ [rk t (S k)]) = n) by (cbn [length]; rewrite app_length; reflexivity).
  set (sq := tmap (K := Rring) (fun e => e * e) (core t k)).
  assert (Er : reduce_sum_tail sq = mk (K := Rring) (b :: repeat 1%nat n)
     (fun idx => isum (K := Rring) (rk t k :: modes t k ++ [rk t (S k)]) (fun I => get sq (nth 0 idx O :: I)))).
  { unfold reduce_sum_tail, sq. cbn [tmap shape]. rewrite Sh. rewrite Ln. reflexivity. }
  unfold x, batch_core_norm. fold sq. rewrite Er. split; [do 2 apply wft_tmap; apply wft_mk|]. split; [reflexivity|].
  intros o Ho. assert (V : vidx (b :: repeat 1%nat n) (o :: repeat O n)) by (apply vidx_cons; [auto|apply vidx_zeros]).
  rewrite get_tmap by (try apply wft_tmap; try apply wft_mk; exact V).
  rewrite get_tmap by (try apply wft_mk; exact V). rewrite get_mk by exact V. cbn [nth].
  unfold rnorm. f_equal. rewrite Rmax_comm. f_equal. unfold core_sumsq. apply (isum_ext Rring). intros I HI.
  unfold sq. rewrite get_tmap; [reflexivity|auto|]. rewrite Sh. now apply vidx_cons.
Qed.

Lemma logs_ok b n (l : list rtensor) : Forall (fun x : rtensor => wft x /\ shape x = b :: repeat 1%nat n) l ->
  forall acc : rtensor, shape acc = b :: repeat 1%nat n -> wft acc ->
  exists r, foldM (fun n acc => ewise (K := Rring) Rplus acc (tmap (K := Rring) ln n)) l acc = Ok r /\ wft r /\
    shape r = b :: repeat 1%nat n /\
    forall o, (o < b)%nat -> get r (o :: repeat O n) =
      fold_left (fun a x => a + ln x) (map (fun x : rtensor => get x (o :: repeat O n)) l) (get acc (o :: repeat O n)).
Proof.
  induction 1 as [|x l [Wx Sx] _ IH]; intros acc Sa Wa.
  - exists acc. repeat (split; [auto|]). reflexivity.
  - cbn [foldM map fold_left].
    pose proof (ewise_tail Rring Rplus acc (tmap (K := Rring) ln x) b (repeat 1%nat n)) as H. rewrite repeat_length in H.
    destruct (H Sa Sx) as [(r & Er & Wr & Sr & Gr) _]. rewrite Er. cbn [bind].
    destruct (IH r Sr Wr) as (r' & Er' & Wr' & Sr' & Gr'). exists r'. repeat (split; [assumption|]).
    intros o Ho. rewrite Gr' by auto. f_equal. rewrite Gr by (auto; apply vidx_zeros). f_equal.
    rewrite get_tmap; auto. rewrite Sx. apply vidx_cons; [auto|apply vidx_zeros].
Qed.

Lemma renorm_batch (t : rtt) eps b : wf t -> bsz t = Some b ->
  exists r, renormalize_tt_cores t eps = Ok r /\ wf r /\ rshape r = rshape t /\ rks r = rks t /\ bsz r = bsz t /\
  forall pre k I, vidx (bpre t) pre -> (k < ndims t)%nat -> vidx (rk t k :: modes t k ++ [rk t (S k)]) I ->
     get (core r k) (pre ++ I) = rfact t eps pre / rnorm t eps pre k * get (core t k) (pre ++ I).
Proof.
  intros Hw Hb. unfold renormalize_tt_cores. rewrite Hb. pose proof (wf_d Hw) as Hd.
  rewrite (nthr_nth (cores t) 0 (core0 Rring)) by exact Hd. cbn [bind].
  set (n := S (length (rshape t) + 1)).
  assert (Hn : forall k, S (length (modes t k) + 1) = n) by (intros; now rewrite modes_length).
  assert (Er0 : (rank (nth 0 (cores t) (core0 Rring)) - 1)%nat = n).
  { change (nth 0 (cores t) (core0 Rring)) with (core t 0). unfold rank. rewrite (core_shape _ t 0 Hw Hd).
    unfold bpre. rewrite Hb. cbn [app length]. rewrite app_length, modes_length. cbn. lia. }
  rewrite Er0. set (norms := map (batch_core_norm eps) (cores t)).
  assert (Nn : forall k, (k < ndims t)%nat -> nth k norms (Tensor [] []) = batch_core_norm eps (core t k)).
  { intros k Hk. unfold norms. now rewrite (nth_map_default _ (cores t) k (core0 Rring)). }
  assert (Ln : length norms = ndims t) by (unfold norms; now rewrite map_length).
  assert (FN : Forall (fun x : rtensor => wft x /\ shape x = b :: repeat 1%nat n) norms).
  { apply Forall_forall. intros x Hx. apply (In_nth _ _ (Tensor [] [])) in Hx as (k & Hk & <-). rewrite Ln in Hk. rewrite Nn by auto.
    destruct (batch_norm_ok t eps b k Hw Hb Hk) as (A & B & _). rewrite Hn in B. auto. }
  destruct (logs_ok b n norms FN (zeros (b :: repeat 1%nat n)) eq_refl (wft_mk _ _ _)) as (logs & -> & Wl & Sl & Gl). cbn [bind].
  assert (Gl' : forall o, (o < b)%nat -> exp (get logs (o :: repeat O n) / INR (ndims t)) = rfact t eps [o]).
  { intros o Ho. rewrite Gl by auto. unfold rfact. do 2 f_equal.
    rewrite get_zeros by (apply vidx_cons; [auto|apply vidx_zeros]). change (@Scalar.c0 Rring) with 0. f_equal.
    apply (nth_ext _ _ 0 0); [unfold rnorms; now rewrite !map_length, seq_length|]. rewrite map_length. rewrite Ln. intros k Hk.
    rewrite (nth_map_default _ norms k (Tensor [] [])) by lia. unfold rnorms.
    rewrite (nth_map_default _ (seq 0 (ndims t)) k O) by now rewrite seq_length. rewrite seq_nth, Nn by auto.
    destruct (batch_norm_ok t eps b k Hw Hb Hk) as (_ & _ & C). rewrite Hn in C. now apply C. }
  set (ef := tmap _ logs).
  destruct (mapM_seq_ok (fun i => do q <- ewise (K := Rring) Rdiv ef (nth i norms (Tensor [] [])); ewise (K := Rring) Rmult (core t i) q) (ndims t) 0)
    as (cs & Ecs & Lcs & Ncs).
  { intros k [_ Hk]. cbn in Hk. rewrite Nn by auto. destruct (batch_norm_ok t eps b k Hw Hb Hk) as (A & B & C). rewrite Hn in B, C.
    pose proof (ewise_tail Rring Rdiv ef (batch_core_norm eps (core t k)) b (repeat 1%nat n)) as H. rewrite repeat_length in H.
    destruct (H Sl B) as [(q & Eq & Wq & Sq & Gq) _]. rewrite Eq. cbn [bind].
    pose proof (core_shape _ t k Hw Hk) as Sh. unfold bpre in Sh. rewrite Hb in Sh. cbn [app] in Sh.
    assert (Lk : length (rk t k :: modes t k ++ [rk t (S k)]) = n) by (cbn [length]; rewrite app_length, modes_length; reflexivity).
    pose proof (ewise_tail Rring Rmult q (core t k) b (rk t k :: modes t k ++ [rk t (S k)])) as H2. rewrite Lk in H2.
    destruct (H2 Sq Sh) as [_ (r & Er & _)]. eauto. }
  assert (Hcs : forall k, (k < ndims t)%nat -> wft (nth k cs (core0 Rring)) /\ shape (nth k cs (core0 Rring)) = shape (core t k) /\
     forall o I, (o < b)%nat -> vidx (rk t k :: modes t k ++ [rk t (S k)]) I ->
       get (nth k cs (core0 Rring)) (o :: I) = rfact t eps [o] / rnorm t eps [o] k * get (core t k) (o :: I)).
  { intros k Hk. specialize (Ncs k (core0 Rring) Hk). cbn [Nat.add] in Ncs. rewrite Nn in Ncs by auto.
    destruct (batch_norm_ok t eps b k Hw Hb Hk) as (A & B & C). rewrite Hn in B, C.
    pose proof (ewise_tail Rring Rdiv ef (batch_core_norm eps (core t k)) b (repeat 1%nat n)) as H. rewrite repeat_length in H.
    destruct (H Sl B) as [(q & Eq & Wq & Sq & Gq) _]. rewrite Eq in Ncs. cbn [bind] in Ncs.
    pose proof (core_shape _ t k Hw Hk) as Sh. unfold bpre in Sh. rewrite Hb in Sh. cbn [app] in Sh.
    assert (Lk : length (rk t k :: modes t k ++ [rk t (S k)]) = n) by (cbn [length]; rewrite app_length, modes_length; reflexivity).
    pose proof (ewise_tail Rring Rmult q (core t k) b (rk t k :: modes t k ++ [rk t (S k)])) as H2. rewrite Lk in H2.
    destruct (H2 Sq Sh) as [_ (r & Er & Wr & Sr & Gr)]. rewrite Er in Ncs. injection Ncs as Ncs. rewrite <- Ncs.
    split; [auto|]. split; [congruence|]. intros o I Ho HI. rewrite Gr by auto. rewrite Gq by (auto; apply vidx_zeros).
    rewrite C by auto. unfold ef. rewrite get_tmap; [|auto|rewrite Sl; apply vidx_cons; [auto|apply vidx_zeros]].
    rewrite Gl' by auto. apply Rmult_comm. }
  rewrite Ecs. cbn [bind].
  destruct (rebuild_ok Rring t cs Hw Lcs) as (Wc & _ & _ & Ec).
  { intros k Hk. destruct (Hcs k Hk) as (A & B & _). auto. }
  rewrite (Ec b) by auto. eexists. split; [reflexivity|]. split; [exact Wc|]. do 3 (split; [cbn [rshape rks bsz]; congruence|]).
  intros pre k I Hp Hk HI. unfold bpre in Hp. rewrite Hb in Hp. apply vidx_1_inv in Hp as (o & -> & Ho). cbn [app].
  unfold core at 1. cbn [cores]. change (Tensor [] []) with (core0 Rring). now apply Hcs.
Qed.

Lemma renormalize_full (t : rtt) eps : wf t ->
  (forall pre k, vidx (bpre t) pre -> (k < ndims t)%nat -> 0 < Rmax (core_sumsq t pre k) eps) ->
  exists r, renormalize_tt_cores t eps = Ok r /\ wf r /\ rshape r = rshape t /\ rks r = rks t /\ bsz r = bsz t /\
    elementwise1 (K := Rring) (L := Rring) (fun x => x) t r /\
    ((forall pre k, vidx (bpre t) pre -> (k < ndims t)%nat -> eps <= core_sumsq t pre k) ->
     forall pre k k', vidx (bpre t) pre -> (k < ndims t)%nat -> (k' < ndims t)%nat -> core_sumsq r pre k = core_sumsq r pre k').
Proof.
  intros Hw Hpos.
  assert (H : exists r, renormalize_tt_cores t eps = Ok r /\ wf r /\ rshape r = rshape t /\ rks r = rks t /\ bsz r = bsz t /\
    forall pre k I, vidx (bpre t) pre -> (k < ndims t)%nat -> vidx (rk t k :: modes t k ++ [rk t (S k)]) I ->
      get (core r k) (pre ++ I) = rfact t eps pre / rnorm t eps pre k * get (core t k) (pre ++ I)).
  { destruct (bsz t) as [b|] eqn:E; [destruct (renorm_batch t eps b Hw E) as (r & H)|destruct (renorm_single t eps Hw E) as (r & H)];
      rewrite E in H; exists r; exact H. }
  destruct H as (r & E & W & R & Rk & B & G). exists r. repeat (split; [assumption|]). now apply renorm_spec.
Qed.
