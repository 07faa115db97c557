(** C19, C20 with the elements spelled out: which element of full(t) every element of full(t[spec]) is, for python's ints and slices
    as described in [IndexSpec.v]. *)
From Coq Require Import List Arith ZArith Lia Bool Sorted.
From Verif Require Import Scalar Tensor TensorLemmas Base Spec BaseLemmas Ops FullProofs ResultLemmas Dense MatmulProofs Sweep GatherProofs SliceProofs EmptySlice IndexSpec IndexThms Samples.
From Verif Require Import Properties_Index.
Import ListNotations.

(** Indexing of dense tensors ([tf.strided_slice]): every slice with a step other than 0 selects one list of positions; an index list
    is accepted iff it reads existing positions on every axis; the elements. *)
Theorem C19_python_slices : forall n start stop step,
  (step <> Some 0%Z -> exists l, selects n start stop step l) /\
  (forall l m, selects n start stop step l -> selects n start stop step m -> l = m) /\
  (forall l, ~ selects n start stop (Some 0%Z) l).
Proof.
  intros n a b s. split; [|split].
  - intros H. destruct (slice_positions n a b s) as [l|] eqn:E; [exists l; now apply slice_selects|]. now apply slice_none in E.
  - apply selects_unique.
  - intros l (H & _). lia.
Qed.
Print Assumptions C19_python_slices.

Theorem C19_dense_indexing : forall (K : cring) (d : tensor K) spec,
  (forall ls, reads_all spec (shape d) ls ->
    exists ds, getitem d spec = Ok ds /\ wft ds /\ shape ds = sliced_shape spec ls /\
      forall I, vidx (sliced_shape spec ls) I -> get ds I = get d (source spec ls I)) /\
  ((forall ls, ~ reads_all spec (shape d) ls) -> exists e, getitem d spec = Err e).
Proof.
  intros K d spec. split; [intros ls; apply getitem_reads|].
  intros H. unfold getitem. destruct (resolve spec (shape d)) as [ps|e] eqn:E; [|now exists e].
  destruct (resolve_some _ _ _ E) as (ls & R & _). now apply H in R.
Qed.
Print Assumptions C19_dense_indexing.

(** 0:7 [1:6:2] = 1 3 5; [::-3] = 6 3 0; [-3:] = 4 5 6; [5:-9:-2] = 5 3 1; [3:3] is empty. *)
Example C19_selects_ex : selects 7 (Some 1%Z) (Some 6%Z) (Some 2%Z) [1;3;5] /\ selects 7 None None (Some (-3)%Z) [6;3;0] /\
  selects 7 (Some (-3)%Z) None None [4;5;6] /\ selects 7 (Some 5%Z) (Some (-9)%Z) (Some (-2)%Z) [5;3;1] /\ selects 7 (Some 3%Z) (Some 3%Z) None [].
Proof. do 4 (split; [apply slice_selects; reflexivity|]). apply slice_selects; reflexivity. Qed.

(** The case of every tuple that keeps an axis and selects something. *)
Theorem C19_slicing_elements_partial : forall (K : cring) (t : tt K) spec ls d,
  wf t -> bsz t = None -> is_tt_matrix t = false -> full t = Ok d -> reads_all spec (shape d) ls ->
  existsb is_slice spec = true -> Forall (fun l => l <> []) ls ->
  exists c dc, tt_getitem t spec = Ok c /\ wf c /\ bsz c = None /\ rshape c = [sliced_shape spec ls] /\ rks c = slice_ranks spec (rks t) /\
    full c = Ok dc /\ shape dc = sliced_shape spec ls /\
    forall I, vidx (sliced_shape spec ls) I -> get dc I = get d (source spec ls I).
Proof.
  intros K t spec ls d Hw Hb Hm Fd R Hs Hne. destruct (getitem_reads K d spec ls R) as (ds & G & _ & S & V).
  destruct (C19_slicing_partial K t spec d ds Hw Hb Hm Fd G) as (c & E & Wc & Bc & Rc & Kc & Fc).
  - rewrite S. clear - R Hs. induction R as [|[z|a b s] n l spec sh ls _ _ IH]; cbn [existsb is_slice orb sliced_shape] in *; auto; discriminate.
  - rewrite S. clear - R Hne. induction R as [|[z|a b s] n l spec sh ls _ _ IH]; cbn [sliced_shape] in *; try constructor;
      apply Forall_cons_iff in Hne as [H1 H2]; auto. destruct l; [contradiction|]. cbn; lia.
  - exists c, ds. rewrite <- S. repeat (split; [assumption|]). split; [reflexivity|]. rewrite S. exact V.
Qed.
Print Assumptions C19_slicing_elements_partial.

(** A call that succeeds reads existing positions only; any other raises. *)
Theorem C19_out_of_range : forall (K : cring) (t : tt K) spec d, wf t -> bsz t = None -> is_tt_matrix t = false -> full t = Ok d ->
  (forall ls, ~ reads_all spec (shape d) ls) -> exists e, tt_getitem t spec = Err e.
Proof.
  intros K t spec d Hw Hb Hm Fd H. destruct (tt_getitem t spec) as [c|e] eqn:E; [exfalso|now exists e].
  destruct (full_tensor K t Hw Hm) as (d' & Fd' & _ & Sd & _). replace d' with d in * by congruence.
  unfold bpre in Sd. rewrite Hb in Sd. cbn [app] in Sd. rewrite Sd in H.
  unfold tt_getitem in E. destruct (Nat.eqb_spec (length spec) (ndims t)) as [L|]; [|discriminate]. cbn [negb] in E.
  destruct (foldM _ (seq 0 (ndims t)) ([], None)) as [st|] eqn:Ef; [|discriminate]. clear E.
  destruct (wf_kind_cases K t Hw) as [Kd|(Kd & _)]; [|congruence].
  assert (Hk : forall i, i < ndims t -> exists l k, resolve1 (nth i spec full_slice) (mode t 0 i) = Ok (l, k)).
  { intros i Hi. destruct (foldM_ok_each _ _ _ _ i Ef) as (s1 & s2 & Es); [apply in_seq; lia|].
    rewrite Hm in Es. rewrite (nthr_nth spec i full_slice) in Es by lia. cbn [bind] in Es.
    destruct (getitem (core t i) [full_slice; nth i spec full_slice; full_slice]) as [y|] eqn:Eg; [|discriminate]. clear Es.
    unfold getitem in Eg. pose proof (core_shape K t i Hw Hi) as Sc. unfold bpre in Sc. rewrite Hb, (proj2 (proj2 Kd)) in Sc. cbn [app] in Sc. rewrite Sc in Eg.
    cbn [resolve] in Eg. rewrite !resolve1_full in Eg. cbn [bind] in Eg.
    destruct (resolve1 (nth i spec full_slice) (mode t 0 i)) as [[l k]|]; [eauto|discriminate]. }
  assert (Ln : length (nth 0 (rshape t) []) = ndims t) by (apply (Forall_nth' _ _ 0 [] (wf_rlen Hw)); destruct (wf_kind Hw) as [Q|Q]; rewrite Q; lia).
  revert Hk H. unfold mode. rewrite <- Ln in *. clear - L. revert L. generalize (nth 0 (rshape t) []). induction spec as [|x spec IH]; intros [|n ns] L Hk H; try discriminate.
  - apply (H []). constructor.
  - destruct (Hk 0 ltac:(cbn; lia)) as (l & k & E). cbn [nth] in E. apply resolve1_reads in E.
    apply (IH ns ltac:(cbn in L; lia)).
    + intros i Hi. apply (Hk (Datatypes.S i)). cbn; lia.
    + intros ls R. apply (H (l :: ls)). now constructor.
Qed.
Print Assumptions C19_out_of_range.

(** t[1, ::-2, :] of a 2 x 3 x 2 tensor: element (i, j) is t[1, 2 - 2 i, j]. *)
Example C19_elements_ex : exists d, full s_a = Ok d /\ reads_all s_spec1 (shape d) [[1]; [2;0]; [0;1]]%nat /\
  source s_spec1 [[1]; [2;0]; [0;1]]%nat [1;0] = [1;0;0]%nat /\ sliced_shape s_spec1 [[1]; [2;0]; [0;1]]%nat = [2;2] /\
  (forall ls, ~ reads_all [IInt 2; full_slice; full_slice] (shape d) ls).
Proof.
  eexists. split; [vm_compute; reflexivity|]. split; [|split; [reflexivity|split; [reflexivity|]]].
  - unfold s_spec1. cbn [shape]. constructor; [exists 1%nat; split; [reflexivity|split; [lia|left; reflexivity]]|].
    constructor; [apply slice_selects; reflexivity|]. constructor; [apply slice_selects; reflexivity|constructor].
  - cbn [shape]. intros ls H. inversion H; subst. match goal with Hr : reads _ _ _ |- _ => destruct Hr as (x & _ & ? & ?) end. lia.
Qed.

Lemma ishape_pos' (K : cring) (t : tt K) : wf t -> Forall (fun n => 0 < n) (ishape t).
Proof.
  intros Hw. pose proof (wf_rpos Hw) as P. unfold ishape.
  assert (Q : forall k, Forall (fun n => 0 < n) (nth k (rshape t) [])).
  { intros k. destruct (Nat.lt_ge_cases k (length (rshape t))) as [H|H]; [now apply (Forall_nth' _ _ k [] P)|rewrite nth_overflow by lia; constructor]. }
  destruct (is_tt_matrix t); [|apply Q]. repeat constructor; apply prodn_pos, Q.
Qed.

(** C20: one index on the batch axis. *)
Theorem C20_batch_elements : forall (K : cring) (t : tt K) B ix l d,
  wf t -> bsz t = Some B -> full t = Ok d -> reads ix B l -> l <> [] ->
  exists c dc, batch_dim_getitem t ix = Ok c /\ wf c /\ is_batch c = is_slice ix /\ rshape c = rshape t /\ rks c = rks t /\ full c = Ok dc /\
    match ix with
    | IInt _ => shape dc = tl (shape d) /\ forall I, vidx (tl (shape d)) I -> get dc I = get d (hd 0 l :: I)
    | ISlice _ _ _ => shape dc = length l :: tl (shape d) /\ forall m I, m < length l -> vidx (tl (shape d)) I -> get dc (m :: I) = get d (nth m l 0 :: I)
    end.
Proof.
  intros K t B ix l d Hw HB Fd R Hl.
  destruct (FullProofs.full_correct K t Hw) as (d' & Fd' & _ & Sd & _). replace d' with d in * by congruence.
  assert (Sd' : shape d = B :: ishape t) by (rewrite Sd, get_shape_ishape; unfold bpre; now rewrite HB). clear Sd. rename Sd' into Sd.
  assert (P : Forall (fun n => 0 < n) (ishape t)) by (now apply ishape_pos').
  set (sh := ishape t) in *.
  assert (RA : reads_all (ix :: repeat full_slice (length sh)) (shape d) (l :: map (fun n => seq 0 n) sh)).
  { rewrite Sd. constructor; [assumption|]. clear. induction sh as [|n sh IH]; cbn [length repeat map]; constructor; auto.
    apply slice_selects. apply slice_full. }
  assert (SS : sliced_shape (repeat full_slice (length sh)) (map (fun n => seq 0 n) sh) = sh).
  { clear. induction sh as [|n sh IH]; cbn [length repeat map sliced_shape full_slice]; auto. now rewrite seq_length, IH. }
  assert (SI : forall I, vidx sh I -> source (repeat full_slice (length sh)) (map (fun n => seq 0 n) sh) I = I).
  { clear. induction sh as [|n sh IH]; intros [|i I] H; try (inversion H; fail); auto.
    inversion H; subst. cbn [length repeat map source full_slice hd tl]. rewrite seq_nth, IH by assumption. reflexivity. }
  destruct (getitem_reads K d _ _ RA) as (ds & G & _ & S & V).
  destruct (C20_batch_index K t B ix d ds Hw HB Fd) as (c & E & Wc & Bc & Rc & Kc & Fc).
  - rewrite Sd. cbn [length]. rewrite Nat.sub_succ, Nat.sub_0_r. exact G.
  - rewrite S. destruct ix; cbn [sliced_shape]; rewrite SS; [assumption|]. constructor; [destruct l; [contradiction|cbn; lia]|assumption].
  - exists c, ds. repeat (split; [assumption|]). rewrite Sd. cbn [tl]. destruct ix as [z|a b s]; cbn [sliced_shape source] in S, V; rewrite SS in S, V.
    + split; [assumption|]. intros I HI. rewrite V, SI by assumption. reflexivity.
    + split; [assumption|]. intros m I Hm HI. rewrite V by (now constructor). cbn [hd tl]. now rewrite SI.
Qed.
Print Assumptions C20_batch_elements.

(** An index for every axis, the batch first. *)
Theorem C20_full_elements_partial : forall (K : cring) (t : tt K) B b0 spec ls d,
  wf t -> bsz t = Some B -> is_tt_matrix t = false -> full t = Ok d -> reads_all (b0 :: spec) (shape d) ls ->
  existsb is_slice spec = true -> Forall (fun l => l <> []) ls ->
  exists c dc, ttb_getitem t (b0 :: spec) = Ok c /\ wf c /\ is_batch c = is_slice b0 /\ rks c = slice_ranks spec (rks t) /\
    full c = Ok dc /\ shape dc = sliced_shape (b0 :: spec) ls /\
    forall I, vidx (sliced_shape (b0 :: spec) ls) I -> get dc I = get d (source (b0 :: spec) ls I).
Proof.
  intros K t B b0 spec ls d Hw HB Hm Fd R Hs Hne. destruct (getitem_reads K d _ ls R) as (ds & G & _ & S & V).
  destruct (C20_batch_full_index_partial K t B b0 spec d ds Hw HB Hm Fd G Hs) as (c & E & Wc & Bc & _ & Kc & Fc).
  - rewrite S. clear - R Hne. induction R as [|[z|a b s] n l spec' sh ls _ _ IH]; cbn [sliced_shape] in *; try constructor;
      apply Forall_cons_iff in Hne as [H1 H2]; auto. destruct l; [contradiction|]. cbn; lia.
  - exists c, ds. repeat (split; [assumption|]). split; [unfold is_batch; rewrite Bc; now destruct (is_slice b0)|].
    repeat (split; [assumption|]). exact V.
Qed.
Print Assumptions C20_full_elements_partial.

(** b[::-1, 0, :] of a batch of three 2 x 2 matrices. *)
Example C20_elements_ex : exists d, full s_b3 = Ok d /\
  reads_all [ISlice None None (Some (-1)); IInt 0; full_slice]%Z (shape d) [[2;1;0]; [0]; [0;1]]%nat /\
  source [ISlice None None (Some (-1)); IInt 0; full_slice]%Z [[2;1;0]; [0]; [0;1]]%nat [0;1] = [2;0;1]%nat.
Proof.
  eexists. split; [vm_compute; reflexivity|]. split; [|reflexivity]. cbn [shape].
  constructor; [apply slice_selects; reflexivity|]. constructor; [exists 0%nat; split; [reflexivity|split; [lia|left; reflexivity]]|].
  constructor; [apply slice_selects; reflexivity|constructor].
Qed.

(** * Slices that select nothing
    The same without the condition that every kept axis is nonempty.  [C19_all_integers_raise] is the remaining case. *)
Theorem C19_slicing_any_partial : forall (K : cring) (t : tt K) (spec : list pyindex) (d ds : tensor K),
  wf t -> bsz t = None -> is_tt_matrix t = false -> full t = Ok d -> getitem d spec = Ok ds -> shape ds <> [] ->
  exists c, tt_getitem t spec = Ok c /\ bsz c = None /\ rshape c = [shape ds] /\ rks c = slice_ranks spec (rks t) /\ full c = Ok ds.
Proof.
  intros K t spec d ds Hw Hb Hm Fd G Hne.
  destruct (full_tensor K t Hw Hm) as (d' & Fd' & _ & Sd & _). replace d' with d in * by congruence.
  unfold bpre in Sd. rewrite Hb in Sd. cbn [app] in Sd.
  pose proof G as G'. unfold getitem in G'. rewrite Sd in G'. destruct (resolve spec (nth 0 (rshape t) [])) as [ps|] eqn:Hps; [|discriminate].
  cbn [bind] in G'. injection G' as E. assert (Es : shape ds = sel_shape ps) by now rewrite <- E. rewrite Es in *.
  now apply (tt_getitem_any K t spec ps Hw Hm Hps Hne d ds).
Qed.
Print Assumptions C19_slicing_any_partial.

(** ... and for batches, if the slice of the batch axis is not empty ... *)
Theorem C20_full_index_any_partial : forall (K : cring) (t : tt K) B b0 (spec : list pyindex) (d ds : tensor K),
  wf t -> bsz t = Some B -> is_tt_matrix t = false -> full t = Ok d -> getitem d (b0 :: spec) = Ok ds ->
  existsb is_slice spec = true -> (is_slice b0 = true -> 0 < hd 0 (shape ds)) ->
  exists c, ttb_getitem t (b0 :: spec) = Ok c /\
    bsz c = (if is_slice b0 then Some (hd 0 (shape ds)) else None) /\ rshape c = [if is_slice b0 then tl (shape ds) else shape ds] /\
    rks c = slice_ranks spec (rks t) /\ full c = Ok ds.
Proof.
  intros K t B b0 spec d ds Hw HB Hm Fd G Hs Hpos.
  destruct (full_tensor K t Hw Hm) as (d' & Fd' & _ & Sd & _). replace d' with d in * by congruence.
  unfold bpre in Sd. rewrite HB in Sd. cbn [app] in Sd.
  pose proof G as G'. unfold getitem in G'. rewrite Sd in G'. cbn [resolve] in G'.
  destruct (resolve1 b0 B) as [[bl bk]|] eqn:E; [|discriminate]. cbn [bind] in G'.
  destruct (resolve spec (nth 0 (rshape t) [])) as [ps|] eqn:Hps; [|discriminate]. cbn [bind] in G'. injection G' as G'.
  assert (Es : shape ds = sel_shape ((bl, bk) :: ps)) by now rewrite <- G'.
  assert (P3 : sel_shape ps <> []).
  { clear - Hps Hs. revert Hps Hs. generalize (nth 0 (rshape t) []). revert ps. induction spec as [|x spec IH]; intros ps [|n sh] H Hs; try discriminate.
    cbn [resolve] in H. destruct (resolve1 x n) as [[l k]|] eqn:E; [|discriminate]. cbn [bind] in H.
    destruct (resolve spec sh) as [ps'|] eqn:E2; [|discriminate]. cbn [bind] in H. injection H as <-.
    apply resolve1_range in E as (_ & -> & _). cbn [existsb] in Hs. cbn [sel_shape]. destruct (is_slice x); [discriminate|].
    cbn [orb] in Hs. now apply (IH ps' sh). }
  pose proof (resolve1_range _ _ _ _ E) as (_ & Ek & _). rewrite <- Ek in Hpos |- *. rewrite Es in Hpos |- *.
  destruct (ttb_getitem_any K t spec ps Hw Hm Hps P3 B b0 bl bk d ds HB E) as (c & Ec & Bc & Rc & Kc & Fc); auto.
  { intros ->. now apply Hpos. }
  exists c. split; [exact Ec|]. split; [rewrite Bc; now destruct bk|]. split; [rewrite Rc; now destruct bk|]. now split.
Qed.
Print Assumptions C20_full_index_any_partial.

(** ... while a batch without elements can be made but, with two or more cores, not expanded. *)
Theorem C20_empty_batch_raises : forall (K : cring) (t : tt K), bsz t = Some 0 -> 2 <= ndims t -> full t = Err TFError.
Proof.
  intros K t B D. unfold full. rewrite B. unfold full_tt_batch, lazy_batch_size. rewrite B. cbn [bind].
  destruct (ndims t) as [|[|n]] eqn:E; try lia. replace (S (S n) - 1) with (S n) by lia. reflexivity.
Qed.
Print Assumptions C20_empty_batch_raises.

Theorem C20_empty_batch_refuted : exists (t c : tt Zring) ix d ds, wf t /\ is_batch t = true /\ full t = Ok d /\
  getitem d (ix :: repeat full_slice (length (shape d) - 1)) = Ok ds /\ shape ds = 0 :: tl (shape d) /\
  batch_dim_getitem t ix = Ok c /\ full c = Err TFError.
Proof.
  exists s_b3. do 1 eexists. exists (ISlice (Some 2) (Some 2) None)%Z. do 2 eexists. split; [exact s_b3_wf|]. split; [reflexivity|].
  split; [vm_compute; reflexivity|]. split; [vm_compute; reflexivity|]. split; [reflexivity|]. split; [vm_compute; reflexivity|]. vm_compute; reflexivity.
Qed.
Print Assumptions C20_empty_batch_refuted.

(** t[:, 5:, 1] and b[0:2, :, 0:0] *)
Example C19_C20_empty_ex : wf s_a /\ wf s_b3 /\
  (exists d ds, full s_a = Ok d /\ getitem d [full_slice; ISlice (Some 5) None None; IInt 1]%Z = Ok ds /\ shape ds = [2; 0]) /\
  (exists d ds, full s_b3 = Ok d /\ getitem d [ISlice (Some 0) (Some 2) None; full_slice; ISlice (Some 0) (Some 0) None]%Z = Ok ds /\ shape ds = [2; 2; 0]).
Proof.
  split; [exact s_a_wf|]. split; [exact s_b3_wf|]. split; do 2 eexists; (split; [vm_compute; reflexivity|]); (split; [vm_compute; reflexivity|reflexivity]).
Qed.
