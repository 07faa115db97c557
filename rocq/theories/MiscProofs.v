(** cast, expand_batch_dim and squeeze_batch_dim. *)
From Coq Require Import String List Arith ZArith Lia Bool Ring.
From Verif Require Import Scalar Tensor TensorLemmas TensorLemmas2 Base Spec Chain BaseLemmas Ops
  FullProofs ResultLemmas Dense AddProofs MulProofs MatmulProofs GatherProofs SliceProofs.
Import ListNotations.

Section Cast.
Variables K L : cring.
Variable f : K -> L.

Definition map_tensor (x : tensor K) : tensor L := Tensor (shape x) (map f (data x)).

Lemma wft_map x : wft x -> wft (map_tensor x).
Proof. unfold wft, map_tensor. cbn. now rewrite map_length. Qed.

Lemma get_map x idx : wft x -> vidx (shape x) idx -> get (map_tensor x) idx = f (get x idx).
Proof.
  intros W H. unfold get, map_tensor. cbn [shape data].
  rewrite (nth_indep _ c0 (f c0)) by (rewrite map_length, W; now apply ravel_lt). apply map_nth.
Qed.

Lemma cast_ok (t : tt K) : wf t -> exists c, cast f t = Ok c /\ wf c /\
  rshape c = rshape t /\ rks c = rks t /\ bsz c = bsz t /\ ndims c = ndims t /\
  forall k, k < ndims t -> core c k = map_tensor (core t k).
Proof.
  intros Hw. unfold cast. set (cs := map _ (seq 0 (ndims t))).
  assert (Lc : length cs = ndims t) by (unfold cs; now rewrite map_length, seq_length).
  assert (Nc : forall k, k < ndims t -> nth k cs (core0 L) = map_tensor (core t k)).
  { intros k Hk. unfold cs. rewrite (nth_map_default _ (seq 0 (ndims t)) k 0) by (now rewrite seq_length).
    now rewrite seq_nth. }
  assert (Sh : shaped (bpre t) (rshape t) (rks t) cs).
  { intros k Hk. rewrite Lc in Hk. rewrite Nc by auto. cbn [map_tensor shape]. apply (wf_core Hw k Hk). }
  assert (Ne : rshape t <> []) by (destruct (wf_kind Hw) as [E|E]; intros X; rewrite X in E; discriminate).
  assert (W : wf (TT cs (rshape t) (rks t) (bsz t))).
  { apply wf_intro; rewrite ?Lc; try apply Hw; [exact Sh|]. intros k Hk. rewrite Nc by auto. apply wft_map. apply (wf_core Hw k Hk). }
  exists (TT cs (rshape t) (rks t) (bsz t)).
  split.
  { unfold bpre in Sh. destruct (bsz t).
    - apply TensorTrainBatch_ok; rewrite ?Lc; try apply Hw; auto.
    - apply TensorTrain_ok; rewrite ?Lc; try apply Hw; auto. }
  split; [exact W|]. do 3 (split; [reflexivity|]). split; [exact Lc|]. intros k Hk. apply (Nc k Hk).
Qed.

(** A conversion that respects the arithmetic commutes with everything else. *)
Hypothesis f0 : f c0 = c0.
Hypothesis f1 : f c1 = c1.
Hypothesis fadd : forall x y, f (x + y)%K = (f x + f y)%K.
Hypothesis fmul : forall x y, f (x * y)%K = (f x * f y)%K.

Lemma f_sumn n g : f (sumn n g) = sumn n (fun i => f (g i)).
Proof. induction n; cbn [sumn]; [exact f0|]. now rewrite fadd, IHn. Qed.

Lemma f_chain ms G G' r k J a :
  vchain ms k J -> a < r k ->
  (forall m a j b, k <= m < k + length J -> a < r m -> b < r (S m) -> vidx (ms m) j -> G' m a j b = f (G m a j b)) ->
  chain G' r k J (fun _ => c1) a = f (chain G r k J (fun _ => c1) a).
Proof.
  revert k a; induction J as [|j J IH]; intros k a HJ Ha HG; cbn [chain length] in *; [now rewrite f1|].
  rewrite f_sumn. destruct HJ as [HJ1 HJ2]. apply sumn_ext. intros b Hb. rewrite fmul.
  rewrite HG by (auto; lia). f_equal. apply IH; auto. intros. apply HG; auto. lia.
Qed.

Lemma cast_full (t : tt K) : wf t -> exists c, cast f t = Ok c /\ elementwise1 f t c.
Proof.
  intros Hw. destruct (cast_ok t Hw) as (c & E & Wc & R & Rk & B & N & C). exists c. split; [exact E|].
  destruct (full_correct K t Hw) as (d & Fd & Wd & Sd & Gd).
  destruct (full_correct L c Wc) as (dc & Fc & Wdc & Sdc & Gdc).
  assert (GS : get_shape c = get_shape t) by (unfold get_shape, is_tt_matrix; now rewrite R, B).
  exists d, dc. do 2 (split; [assumption|]). split; [congruence|]. intros i Hi. rewrite Sdc in Hi.
  rewrite Gdc by auto. rewrite GS in Hi. rewrite Gd by auto.
  rewrite get_shape_ishape in Hi. apply vidx_app_inv in Hi as (pre & I & -> & Hp & HI).
  assert (Bp : bpre c = bpre t) by (unfold bpre; now rewrite B).
  rewrite !tt_at_entry by (rewrite ?Bp; auto).
  assert (Es : split_idx c I = split_idx t I) by (unfold split_idx, is_tt_matrix; now rewrite R). rewrite Es.
  destruct (split_idx_valid _ t I Hw HI) as [V1 V2]. unfold tt_entry.
  rewrite (chain_ext_r L (coreG c pre) (rk c) (rk t)) by (intros; unfold rk; now rewrite Rk).
  eapply (f_chain (modes t)); eauto; [rewrite (wf_first Hw); lia|].
  intros m a j b Hm Ha Hb Hj. unfold coreG. rewrite C by lia. destruct (wf_core Hw m ltac:(lia)) as [W S].
  apply get_map; auto. rewrite S. apply vidx_app; auto. apply vidx_cons; auto. apply vidx_app; auto. vsolve.
Qed.
End Cast.

Section Squeeze.
Variable K : cring.
Implicit Types t : tt K.

Lemma expand_get (t : tt K) : wf t -> bsz t = None ->
  exists e, expand_batch_dim t = Ok e /\ wf e /\ bsz e = Some 1 /\ is_tt_matrix e = is_tt_matrix t /\ rshape e = rshape t /\ rks e = rks t /\
    (exists d de, full t = Ok d /\ full e = Ok de /\ shape de = 1 :: shape d /\ forall i, vidx (shape d) i -> get de (0 :: i) = get d i) /\
    squeeze_batch_dim e = Ok t.
Proof.
  intros Hw Hb. destruct (expand_ok K t Hw Hb) as (e & E & We & R & Rk & B & N & C).
  exists e. do 3 (split; [assumption|]). split; [unfold is_tt_matrix; now rewrite R|]. do 2 (split; [assumption|]). split.
  - destruct (full_correct K t Hw) as (d & Fd & Wd & Sd & Gd).
    destruct (full_correct K e We) as (de & Fe & Wde & Sde & Gde).
    exists d, de. do 2 (split; [assumption|]).
    assert (GS : get_shape e = 1 :: get_shape t) by (unfold get_shape, is_tt_matrix; now rewrite R, B, Hb).
    split; [congruence|]. intros i Hi. rewrite Sd in Hi. rewrite Gd by auto.
    rewrite Gde by (rewrite GS; apply vidx_cons; auto). unfold tt_at. rewrite B, Hb. cbn [nth tl].
    assert (Es : split_idx e i = split_idx t i) by (unfold split_idx, is_tt_matrix; now rewrite R). rewrite Es.
    unfold tt_entry. rewrite (chain_ext_r K (coreG e [0]) (rk e) (rk t)) by (intros; unfold rk; now rewrite Rk).
    rewrite get_shape_ishape in Hi. unfold bpre in Hi. rewrite Hb in Hi. cbn [app] in Hi.
    destruct (split_idx_valid _ t i Hw Hi) as [V1 V2].
    eapply (chain_ext _ (modes t)); eauto; [rewrite (wf_first Hw); lia|].
    intros m a j b Hm _ _ _. unfold coreG. cbn [app]. apply C. lia.
  - unfold squeeze_batch_dim. rewrite B.
    destruct (batch_getitem_int K e 1 0 We B ltac:(lia)) as (u & Eu & Wu & R' & Rk' & B' & N' & C').
    rewrite Eu. f_equal. destruct u as [cu su ru bu], t as [ct st rt bt]. unfold ndims in *. cbn [cores rshape rks bsz] in *.
    assert (EC : cu = ct).
    { apply (nth_ext _ _ (core0 K) (core0 K)); [congruence|]. intros k Hk.
      destruct (wf_core Wu k Hk) as [Wk Sk].
      destruct (wf_core Hw k ltac:(unfold ndims; cbn [cores]; lia)) as [Wk' Sk']. unfold core, bpre, rk, modes in *. cbn [cores bsz rks rshape] in *.
      fold (core0 K) in *. rewrite B' in Sk. rewrite Hb in Sk'. cbn [app] in *. apply tensor_ext; auto.
      - now rewrite Sk, Sk', R', R, Rk', Rk.
      - intros idx Hi. rewrite Sk in Hi.
        destruct idx as [|a idx]; [inversion Hi|]. apply vidx_cons_inv in Hi as [Ha Hi].
        apply vidx_app_inv in Hi as (j & b' & -> & Hj & Hb'). apply vidx_1_inv in Hb' as (b & -> & Hb1).
        specialize (C' k a j b ltac:(lia)). unfold coreG, core, rk, modes in C'. cbn [cores rks rshape app Z.to_nat] in C'.
        fold (core0 K) in C'. rewrite C'; [|rewrite <- Rk'; auto|rewrite <- R'; auto|rewrite <- Rk'; auto].
        apply (C k (a :: j ++ [b])). lia. }
    subst cu. congruence.
Qed.

Lemma squeeze_full t : wf t -> bsz t = Some 1 ->
  exists e d de, squeeze_batch_dim t = Ok e /\ wf e /\ bsz e = None /\ rshape e = rshape t /\ rks e = rks t /\ full t = Ok d /\ full e = Ok de /\
    shape d = 1 :: shape de /\ forall i, vidx (shape de) i -> get de i = get d (0 :: i).
Proof.
  intros Hw Hb. unfold squeeze_batch_dim. rewrite Hb.
  destruct (batch_dim_getitem_full K t (IInt 0) 1 [0] false Hw Hb eq_refl ltac:(discriminate)) as (c & d & dc & E & Wc & B & R & Rk & Fd & Fc & G).
  exists c, d, dc. do 7 (split; [assumption|]).
  destruct (full_correct K t Hw) as (d' & Fd' & Wd & Sd & Gd). replace d' with d in * by congruence.
  destruct (full_correct K c Wc) as (dc' & Fc' & Wdc & Sdc & Gdc). replace dc' with dc in * by congruence.
  assert (GS : shape d = 1 :: shape dc) by (rewrite Sd, Sdc; unfold get_shape, is_tt_matrix; now rewrite R, B, Hb).
  split; [exact GS|]. unfold getitem in G. rewrite GS in G. cbn [length resolve] in G.
  rewrite Nat.sub_succ, Nat.sub_0_r, resolve_fulls in G. cbn [resolve1 Z.ltb Z.compare Z.leb Z.of_nat andb bind sel_shape] in G.
  injection G as G. intros i Hi. rewrite <- G. rewrite get_mk by (rewrite sel_shape_fulls; auto).
  cbn [sel_idx]. now rewrite sel_idx_fulls.
Qed.

Lemma squeeze_id t : bsz t <> Some 1 -> squeeze_batch_dim t = Ok t.
Proof. intros H. unfold squeeze_batch_dim. destruct (bsz t) as [[|[|x]]|]; auto. contradiction. Qed.
Lemma expand_id t : bsz t <> None -> expand_batch_dim t = Ok t.
Proof. intros H. unfold expand_batch_dim. now destruct (bsz t). Qed.
End Squeeze.
