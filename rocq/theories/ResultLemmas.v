(** Assembling a TT object from cores computed in a loop; broadcasting of batches. *)
From Coq Require Import String List Arith ZArith Lia Bool Ring.
From Verif Require Import Scalar Tensor TensorLemmas TensorLemmas2 Base Spec Chain BaseLemmas Ops FullProofs.
Import ListNotations.
Ltac pns := repeat (progress pn).

(** Axes of a multi-index [pre ++ a :: j ++ [b]]. *)
Lemma nth_right {A} (pre : list A) a j b d : nth (length pre + S (length j)) (pre ++ a :: j ++ [b]) d = b.
Proof. rewrite app_nth2_plus. cbn [nth]. apply nth_middle. Qed.

Lemma upd_app {A} (pre l : list A) k x : upd (length pre + k) x (pre ++ l) = pre ++ upd k x l.
Proof. induction pre; cbn; auto. now rewrite IHpre. Qed.

Lemma upd_right {A} (pre : list A) a j b x :
  upd (length pre + S (length j)) x (pre ++ a :: j ++ [b]) = pre ++ a :: j ++ [x].
Proof.
  rewrite upd_app. cbn [upd]. rewrite <- (Nat.add_0_r (length j)). now rewrite upd_app.
Qed.

Lemma nth_left {A} (pre : list A) a l d : nth (length pre) (pre ++ a :: l) d = a.
Proof. apply nth_middle. Qed.

Lemma upd_left {A} (pre : list A) a l x : upd (length pre) x (pre ++ a :: l) = pre ++ x :: l.
Proof. rewrite <- (Nat.add_0_r (length pre)). now rewrite upd_app. Qed.

Section WithK.
Variable K : cring.
Add Ring Kring : (cth K).
Implicit Types t : tt K.

Definition construct (cs : list (tensor K)) (rsh : list (list nat)) (ranks : list nat) (bs : option nat) :=
  match bs with
  | None => TensorTrain cs (STuple rsh) (Some ranks)
  | Some b => TensorTrainBatch cs (STuple rsh) (Some ranks) (Some b)
  end.

Lemma build_ok (f : nat -> res (tensor K)) (P : nat -> tensor K -> Prop) d bs rsh ranks :
  0 < d -> length rsh = 1 \/ length rsh = 2 ->
  Forall (fun s => length s = d) rsh -> length ranks = S d ->
  nth 0 ranks 0 = 1 -> nth d ranks 0 = 1 ->
  Forall (Forall (fun n => 0 < n)) rsh -> Forall (fun n => 0 < n) ranks ->
  Forall (fun n => 0 < n) (pre_of bs) ->
  (forall i, i < d -> exists c, f i = Ok c /\ wft c /\
     shape c = pre_of bs ++ nth i ranks 0 :: map (fun s => nth i s 0) rsh ++ [nth (S i) ranks 0] /\ P i c) ->
  exists cs, mapM f (seq 0 d) = Ok cs /\ length cs = d /\
    construct cs rsh ranks bs = Ok (TT cs rsh ranks bs) /\ wf (TT cs rsh ranks bs) /\
    forall i, i < d -> P i (nth i cs (core0 K)).
Proof.
  intros Hd Hk Hr Hl H0 Hdd Hp1 Hp2 Hp3 Hf.
  destruct (mapM_seq_ok f d 0) as (cs & Hcs & Hlen & Hn).
  { intros i [_ Hi]. destruct (Hf i Hi) as (c & Hc & _). eauto. }
  assert (Hall : forall i, i < d -> wft (nth i cs (core0 K)) /\
     shape (nth i cs (core0 K)) = pre_of bs ++ nth i ranks 0 :: map (fun s => nth i s 0) rsh ++ [nth (S i) ranks 0]
     /\ P i (nth i cs (core0 K))).
  { intros i Hi. destruct (Hf i Hi) as (c & Hc & H). specialize (Hn i (core0 K) Hi). cbn in Hn.
    rewrite Hc in Hn. injection Hn as <-. exact H. }
  assert (Hs : shaped (pre_of bs) rsh ranks cs).
  { intros k Hkk. apply Hall. lia. }
  assert (Hne : rsh <> []) by (destruct rsh; cbn in Hk; [lia|discriminate]).
  exists cs. split; auto. split; auto. split; [|split].
  - unfold construct. destruct bs; [apply TensorTrainBatch_ok|apply TensorTrain_ok]; rewrite ?Hlen; auto.
  - apply wf_intro; rewrite ?Hlen; auto. intros k Hkk. now apply Hall.
  - intros i Hi. now apply Hall.
Qed.

(** Entries of an object given by its cores. *)
Lemma tt_entry_cores (c : tt K) pre J Gs :
  wf c -> vchain (modes c) 0 J -> length J = ndims c ->
  (forall i a j b, i < ndims c -> a < rk c i -> vidx (modes c i) j -> b < rk c (S i) ->
     coreG c pre i a j b = Gs i a j b) ->
  tt_entry c pre J = chain Gs (rk c) 0 J (fun _ => c1) 0.
Proof.
  intros Hw HJ Hl H. unfold tt_entry. eapply chain_ext; eauto.
  - rewrite (wf_first Hw). lia.
  - intros. apply H; auto. lia.
Qed.

(** *** Lifting from physical entries to dense elements *)

(** Batch index read by an operand for element [o] of the result. *)
Definition bsel t (o : nat) : list nat :=
  match bsz t with None => [] | Some 1 => [0] | Some _ => [o] end.

(** Result batch size of two broadcast operands. *)
Definition bbs (a b : tt K) : option nat :=
  match bsz a, bsz b with
  | None, None => None
  | Some x, None => Some x
  | None, Some y => Some y
  | Some x, Some y => Some (if Nat.eqb x 1 then y else x)
  end.

(** The dense index of an operand corresponding to a dense index of the result. *)
Definition bdense t (res : tt K) (idx : list nat) : list nat :=
  match bsz res with
  | None => idx
  | Some _ => bsel t (nth 0 idx 0) ++ tl idx
  end.

Lemma tt_at_entry t pre idx : vidx (bpre t) pre -> tt_at t (pre ++ idx) = tt_entry t pre (split_idx t idx).
Proof.
  intros Hpre. unfold tt_at, bpre in *. destruct (bsz t).
  - apply vidx_1_inv in Hpre as (o & -> & _). reflexivity.
  - inversion Hpre; subst. reflexivity.
Qed.

End WithK.

Arguments construct {K} _ _ _ _. Arguments bsel {K} _ _. Arguments bbs {K} _ _. Arguments bdense {K} _ _ _.

Section Bcast.
Variable K : cring.
Add Ring Kring : (cth K).
Implicit Types t : tt K.

(** [t] can be broadcast to a batch of size [B]. *)
Definition compat t (B : nat) : Prop := match bsz t with None => True | Some x => x = 1 \/ x = B end.

Lemma bsel_valid t B o : compat t B -> o < B -> vidx (bpre t) (bsel t o).
Proof.
  unfold compat, bpre, bsel. destruct (bsz t) as [[|[|x]]|]; intros H Ho; [apply vidx_cons; [lia|constructor]..|constructor].
Qed.

Lemma bsel_some t B o : bsz t = Some B -> o < B -> bsel t o = [o].
Proof.
  intros H Ho. unfold bsel. rewrite H. destruct B as [|[|B]]; auto. now replace o with 0 by lia.
Qed.

Lemma broadcasting_compat a b B : is_batch_broadcasting_possible a b = true -> @bbs K a b = Some B ->
  compat a B /\ compat b B.
Proof.
  unfold is_batch_broadcasting_possible, bbs, compat.
  destruct (bsz a) as [x|], (bsz b) as [y|]; try discriminate; intros H E; injection E as <-; auto.
  apply orb_prop in H as [H|H]; [apply orb_prop in H as [H|H]|];
    apply Nat.eqb_eq in H; subst; cbn; auto; match goal with |- context [?x =? 1] => destruct (Nat.eqb_spec x 1) end; auto.
Qed.

(** Dense elements from physical entries. *)
Lemma lift_entries (c a b : tt K) (F : K -> K -> K) :
  wf a -> wf b -> wf c -> rshape c = rshape a -> rshape c = rshape b ->
  (match bsz c with None => bsz a = None /\ bsz b = None | Some B => compat a B /\ compat b B end) ->
  (forall o J, vchain (modes c) 0 J -> length J = ndims c ->
     (match bsz c with Some B => o < B | None => True end) ->
     tt_entry c (match bsz c with Some _ => [o] | None => [] end) J =
     F (tt_entry a (bsel a o) J) (tt_entry b (bsel b o) J)) ->
  forall idx, vidx (get_shape c) idx -> tt_at c idx = F (tt_at a (bdense a c idx)) (tt_at b (bdense b c idx)).
Proof.
  intros Ha Hb Hc Ra Rb Hbs H idx Hidx.
  rewrite get_shape_ishape in Hidx. apply vidx_app_inv in Hidx as (pre & I & -> & Hpre & HI).
  destruct (split_idx_valid _ c I Hc HI) as [V1 V2].
  rewrite tt_at_entry by auto.
  unfold bdense, bpre in *. destruct (bsz c) as [B|] eqn:Eb.
  - apply vidx_1_inv in Hpre as (o & -> & Ho). cbn [app nth tl]. destruct Hbs as [Ca Cb].
    rewrite !tt_at_entry by (eapply bsel_valid; eauto).
    rewrite (H o) by auto. now rewrite (split_idx_ext _ a c), (split_idx_ext _ b c) by congruence.
  - inversion Hpre; subst. cbn [app]. destruct Hbs as [Ea Eb'].
    pose proof (tt_at_entry K a [] I) as Ta. pose proof (tt_at_entry K b [] I) as Tb.
    unfold bpre in Ta, Tb. rewrite Ea in Ta. rewrite Eb' in Tb. cbn [app] in *.
    rewrite Ta, Tb by constructor.
    rewrite (H 0) by auto. unfold bsel. rewrite Ea, Eb'.
    now rewrite (split_idx_ext _ a c), (split_idx_ext _ b c) by congruence.
Qed.

(** *** tile along the batch axis *)
Lemma tile_batch (c : tensor K) s B : wft c -> shape c = 1 :: s ->
  exists (t : tensor K), tile c (B :: repeat 1 (length s)) = Ok t /\ wft t /\ shape t = B :: s /\
    forall o idx, o < B -> vidx s idx -> get t (o :: idx) = get c (0 :: idx).
Proof.
  intros Hw Hs. unfold tile, rank. rewrite Hs. cbn [length]. rewrite repeat_length, Nat.eqb_refl.
  eexists. split; [reflexivity|]. split; [apply wft_mk|].
  assert (E : map2 Nat.mul (1 :: s) (B :: repeat 1 (length s)) = B :: s).
  { cbn. rewrite Nat.add_0_r. f_equal. clear. induction s; cbn; auto. rewrite Nat.mul_1_r. now f_equal. }
  rewrite shape_mk, E. split; auto.
  intros o idx Ho Hidx. rewrite get_mk by (apply vidx_cons; auto).
  f_equal. cbn [map2]. rewrite Nat.mod_1_r. f_equal.
  clear - Hidx. induction Hidx; cbn; auto. rewrite Nat.mod_small by auto. now f_equal.
Qed.

(** *** expand_batch_dim *)
Lemma get_expand0 (c : tensor K) idx : get (expand_dims c 0) (0 :: idx) = get c idx.
Proof. unfold get, expand_dims. cbn [firstn skipn app shape data ravel]. reflexivity. Qed.

Lemma expand_ok t : wf t -> bsz t = None ->
  exists e, expand_batch_dim t = Ok e /\ wf e /\ rshape e = rshape t /\ rks e = rks t /\
    bsz e = Some 1 /\ ndims e = ndims t /\
    forall i idx, i < ndims t -> get (core e i) (0 :: idx) = get (core t i) idx.
Proof.
  intros Hw Hb. unfold expand_batch_dim. rewrite Hb.
  set (cs := map (fun i => expand_dims (core t i) 0) (seq 0 (ndims t))).
  assert (Hl : length cs = ndims t) by (unfold cs; now rewrite map_length, seq_length).
  assert (Hn : forall i, i < ndims t -> nth i cs (core0 K) = expand_dims (core t i) 0).
  { intros i Hi. unfold cs.
    rewrite (nth_map_default _ (seq 0 (ndims t)) i 0) by (now rewrite seq_length).
    now rewrite seq_nth by lia. }
  assert (Hs : shaped [1] (rshape t) (rks t) cs).
  { intros k Hk. rewrite Hl in Hk. rewrite Hn by auto. unfold expand_dims. cbn [shape firstn skipn app].
    rewrite core_shape by auto. unfold bpre. rewrite Hb. reflexivity. }
  exists (TT cs (rshape t) (rks t) (Some 1)).
  assert (Hw' : wf (TT cs (rshape t) (rks t) (Some 1))).
  { apply wf_intro; rewrite ?Hl; auto; try apply Hw.
    - cbn. repeat constructor.
    - intros k Hk. rewrite Hn by auto. unfold wft, expand_dims. cbn [shape data firstn skipn app].
      pn. rewrite Nat.mul_1_l. apply (core_wft _ t k Hw Hk). }
  split; [|split; [exact Hw'|]].
  - apply TensorTrainBatch_ok; rewrite ?Hl; auto; try apply Hw.
    destruct (wf_kind Hw); destruct (rshape t); cbn in *; try lia; discriminate.
  - repeat split; auto. intros i idx Hi. unfold core; cbn [cores]. change (Tensor [] []) with (core0 K).
    rewrite Hn by auto. apply get_expand0.
Qed.

(** *** squeeze_batch_dim / batch_dim_getitem with an integer *)
Lemma getitem_first (c : tensor K) n s z full :
  wft c -> shape c = n :: s -> (0 <= z < Z.of_nat n)%Z -> full = repeat full_slice (length s) ->
  exists (t : tensor K), getitem c (IInt z :: full) = Ok t /\ wft t /\ shape t = s /\
    forall idx, vidx s idx -> get t idx = get c (Z.to_nat z :: idx).
Proof.
  intros Hw Hs Hz ->. unfold getitem. rewrite Hs. cbn [resolve resolve1 bind].
  assert (E1 : (z <? 0)%Z = false) by (apply Z.ltb_ge; lia). rewrite E1.
  assert (E2 : ((0 <=? z) && (z <? Z.of_nat n))%Z = true).
  { apply andb_true_intro; split; [apply Z.leb_le|apply Z.ltb_lt]; lia. }
  rewrite E2. cbn [bind].
  assert (E3 : resolve (repeat full_slice (length s)) s = Ok (map (fun n => (seq 0 n, true)) s)).
  { clear. induction s; cbn [repeat length resolve map]; auto.
    cbn [resolve1 full_slice]. unfold slice_positions. cbn [Z.eqb Z.ltb Z.compare].
    replace (Z.to_nat (Z.max 0 ((Z.of_nat a - 0 + 1 - 1) / 1))) with a by (rewrite Z.div_1_r; lia).
    cbn [bind]. rewrite IHs. cbn [bind]. f_equal. f_equal. f_equal.
    transitivity (map (fun k => k) (seq 0 a)); [|apply map_id]. apply map_ext. intros; lia. }
  rewrite E3. cbn [bind sel_shape].
  assert (E4 : sel_shape (map (fun n => (seq 0 n, true)) s) = s).
  { clear. induction s; cbn; auto. now rewrite seq_length, IHs. }
  rewrite E4. eexists. split; [reflexivity|]. split; [apply wft_mk|]. split; [reflexivity|].
  intros idx Hidx. rewrite get_mk by auto. f_equal. cbn [sel_idx nth]. f_equal.
  clear - Hidx. induction Hidx; cbn; auto. rewrite seq_nth by auto. now f_equal.
Qed.

Lemma batch_getitem_int t B z : wf t -> bsz t = Some B -> (0 <= z < Z.of_nat B)%Z ->
  exists e, batch_dim_getitem t (IInt z) = Ok e /\ wf e /\ rshape e = rshape t /\ rks e = rks t /\
    bsz e = None /\ ndims e = ndims t /\
    forall i a j b, i < ndims t -> a < rk t i -> vidx (modes t i) j -> b < rk t (S i) ->
      coreG e [] i a j b = coreG t [Z.to_nat z] i a j b.
Proof.
  intros Hw Hb Hz. unfold batch_dim_getitem. cbn [is_slice].
  destruct (build_ok K (fun i =>
      if is_tt_matrix t
      then getitem (core t i) [IInt z; full_slice; full_slice; full_slice; full_slice]
      else getitem (core t i) [IInt z; full_slice; full_slice; full_slice])
    (fun i c => forall a j b, a < rk t i -> vidx (modes t i) j -> b < rk t (S i) ->
      get c (a :: j ++ [b]) = coreG t [Z.to_nat z] i a j b)
    (ndims t) None (rshape t) (rks t)) as (cs & Hcs & Hl & Hcon & Hwc & HP); try apply Hw.
  - constructor.
  - intros i Hi. pose proof (core_shape _ t i Hw Hi) as Hs. unfold bpre in Hs. rewrite Hb in Hs.
    cbn [app] in Hs.
    destruct (getitem_first (core t i) B _ z (repeat full_slice (length (rk t i :: modes t i ++ [rk t (S i)])))
      (core_wft _ t i Hw Hi) Hs Hz eq_refl) as (c & Hc & Hwc & Hsc & Hg).
    exists c. split; [|split; [auto|split; [exact Hsc|]]].
    + rewrite <- Hc. cbn [length]. rewrite app_length, modes_length. cbn [length].
      destruct (wf_kind_cases _ t Hw) as [(E & Hl & Hm)|(E & Hl & Hm)]; rewrite E, Hl; reflexivity.
    + intros a j b Ha Hj Hbb. rewrite Hg; [reflexivity|].
      apply vidx_cons; auto. apply vidx_app; auto. vsolve.
  - rewrite Hcs. cbn [bind]. unfold construct in Hcon. rewrite Hcon.
    eexists. split; [reflexivity|]. split; [exact Hwc|]. repeat split; auto.
    intros i a j b Hi Ha Hj Hbb. unfold coreG at 1, core. cbn [cores app]. apply HP; auto.
Qed.

Lemma squeeze_ok t : wf t ->
  exists e, squeeze_batch_dim t = Ok e /\ wf e /\ rshape e = rshape t /\ rks e = rks t /\
    bsz e = (match bsz t with Some 1 => None | x => x end) /\ ndims e = ndims t /\
    forall o i a j b, i < ndims t -> a < rk t i -> vidx (modes t i) j -> b < rk t (S i) ->
      coreG e (bsel e o) i a j b = coreG t (bsel t o) i a j b.
Proof.
  intros Hw. unfold squeeze_batch_dim. destruct (bsz t) as [[|[|B]]|] eqn:Eb.
  2:{ destruct (batch_getitem_int t 1 0 Hw Eb ltac:(lia)) as (e & He & Hwe & H1 & H2 & H3 & H4 & H5).
      exists e. repeat (split; [assumption|]). intros. unfold bsel. rewrite H3, Eb. now apply H5. }
  all: exists t; repeat (split; [first [assumption|reflexivity]|]); auto.
Qed.

End Bcast.

Arguments compat {K} _ _.
