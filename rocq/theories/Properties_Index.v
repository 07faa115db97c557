(** C15, C18, C19, C20, C41: reading elements and parts of TT objects. *)
From Coq Require Import String List Arith ZArith Lia Bool Ring.
From Verif Require Import Scalar Tensor TensorLemmas Base Spec BaseLemmas Ops ResultLemmas Dense
  MatmulProofs GatherProofs SliceProofs MiscProofs Samples.
Import ListNotations.

(** Every row of the index array [ix] is a position inside shape [sh]; the position itself. *)
Definition in_range (ix : itensor) (sh : list nat) : Prop :=
  forall m k, m < nth 0 (shape ix) 0 -> k < length sh -> (0 <= get ix [m; k] < Z.of_nat (nth k sh 0%nat))%Z.
Definition position (ix : itensor) (D m : nat) : list nat := map (fun k => Z.to_nat (get ix [m; k])) (seq 0 D).

Definition s_ix : itensor := zt [3;3]%nat [1;2;0; 0;0;1; 1;1;1]%Z.
Definition s_ixb : itensor := zt [3;3]%nat [2;1;0; 0;0;1; 1;1;1]%Z.

(** C41.  [ravel sh I] is the row-major number of position [I] in shape [sh]. *)
Theorem C41_unravel_index : forall (ix : itensor) M sh, shape ix = [M] ->
  exists r, unravel_index ix sh = Ok r /\ shape r = [M; length sh] /\
    forall m I, m < M -> vidx sh I -> get ix [m] = Z.of_nat (ravel sh I) ->
      forall k, k < length sh -> get r [m; k] = Z.of_nat (nth k I 0%nat).
Proof. intros ix M sh H. destruct (unravel_index_spec ix M sh H) as (r & A & _ & B & C). eauto. Qed.
Print Assumptions C41_unravel_index.

(** Every in-range number is the row-major number of a position, so the previous theorem covers
    all of them; and [ravel] counts the positions in row-major order. *)
Theorem C41_row_major : forall sh,
  (forall n, n < prodn sh -> exists I, vidx sh I /\ ravel sh I = n) /\
  (forall I J, vidx sh I -> vidx sh J -> ravel sh I = ravel sh J -> I = J).
Proof.
  intros sh. split.
  - intros n Hn. exists (unravel sh n). split; [now apply unravel_valid|now apply ravel_unravel].
  - intros I J HI HJ E. rewrite <- (unravel_ravel sh I HI), <- (unravel_ravel sh J HJ). now rewrite E.
Qed.
Print Assumptions C41_row_major.

Example C41_ex : exists r, unravel_index (zt [3]%nat [0;7;11]%Z) [2;3;2]%nat = Ok r /\
  data r = [0;0;0; 1;0;1; 1;2;1]%Z /\ ravel [2;3;2] [1;0;1] = 7.
Proof. eexists. vm_compute. repeat split. Qed.

(** C18 *)
Theorem C18_gather_nd_partial : forall (K : cring) (t : tt K) (ix : itensor) M, wf t -> is_tt_matrix t = false ->
  shape ix = [M; length (get_shape t)] -> in_range ix (get_shape t) ->
  exists d r, full t = Ok d /\ gather_nd t ix = Ok r /\ shape r = [M] /\
    forall m, m < M -> get r [m] = get d (position ix (length (get_shape t)) m).
Proof.
  intros K t ix M Hw Hm S Hv. destruct (gather_nd_full K t ix M Hw Hm S Hv) as (d & r & A & B & _ & C & D).
  exists d, r. repeat (split; [assumption|]). exact D.
Qed.
Print Assumptions C18_gather_nd_partial.

Theorem C18_gather_nd_rejects : forall (K : cring) (t : tt K) (ix : itensor), wf t ->
  (is_tt_matrix t = true -> gather_nd t ix = Err NotImplementedError) /\
  (forall l n, is_tt_matrix t = false -> shape ix = l ++ [n] -> n <> length (get_shape t) -> gather_nd t ix = Err ValueError) /\
  (forall M, is_tt_matrix t = false -> shape ix = [M; length (get_shape t)] -> ~ in_range ix (get_shape t) ->
     exists er, gather_nd t ix = Err er).
Proof.
  intros K t ix Hw. split; [|split].
  - apply gather_nd_matrix_err.
  - intros l n Hm S Hn. now apply (gather_nd_last_err K t ix l n).
  - intros M Hm S Hn. now apply (gather_nd_range_err K t ix M).
Qed.
Print Assumptions C18_gather_nd_rejects.

Example C18_ex : wf s_a /\ is_tt_matrix s_a = false /\ shape s_ix = [3; length (get_shape s_a)] /\ in_range s_ix (get_shape s_a) /\
  (exists r, gather_nd s_a s_ix = Ok r /\ data r = [51;15;-20]%Z) /\
  wf s_b3 /\ in_range s_ixb (get_shape s_b3) /\ exists r, gather_nd s_b3 s_ixb = Ok r /\ data r = [16;7;-4]%Z.
Proof.
  assert (R : forall (ix : itensor) (sh : list nat), forallb (fun m => forallb (fun k => (0 <=? get ix [m;k])%Z && (get ix [m;k] <? Z.of_nat (nth k sh 0%nat))%Z)
      (seq 0 (length sh))) (seq 0 (nth 0 (shape ix) 0)) = true -> in_range ix sh).
  { intros ix sh H m k Hm Hk. rewrite forallb_forall in H. specialize (H m ltac:(apply in_seq; lia)).
    rewrite forallb_forall in H. specialize (H k ltac:(apply in_seq; lia)). apply andb_prop in H as [H1 H2].
    apply Z.leb_le in H1. apply Z.ltb_lt in H2. lia. }
  split; [exact s_a_wf|]. do 2 (split; [reflexivity|]). split; [apply R; reflexivity|].
  split; [eexists; vm_compute; split; reflexivity|]. split; [exact s_b3_wf|]. split; [apply R; reflexivity|].
  eexists; vm_compute; split; reflexivity.
Qed.

(** The documentation of gather_nd allows index arrays of more than two dimensions.  For the
    2 x 1 x 2 array [[[0,1]],[[1,0]]] the call fails. *)
Definition s_ix3 : itensor := zt [2;1;2]%nat [0;1; 1;0]%Z.
Theorem C18_gather_nd_3d_refuted : exists (t : tt Zring) (ix : itensor) er, wf t /\ is_tt_matrix t = false /\
  shape ix = [2; 1; length (get_shape t)] /\
  (forall m k, m < 2 -> k < 2 -> (0 <= get ix [m; 0; k]%nat < Z.of_nat (nth k (get_shape t) 0%nat))%Z) /\
  gather_nd t ix = Err er.
Proof.
  exists s_t2, s_ix3. eexists. split; [exact s_t2_wf|]. do 2 (split; [reflexivity|]). split; [|vm_compute; reflexivity].
  intros [|[|m]] [|[|k]] Hm Hk; try lia; vm_compute; split; congruence.
Qed.
Print Assumptions C18_gather_nd_3d_refuted.

(** C15.  [flat_inner] of a TT object with a sparse tensor given by index rows and values. *)
Theorem C15_sparse_flat_inner : forall (K : cring) (a : tt K) (s : sparse K) M, wf a -> bsz a = None ->
  shape (sp_indices s) = [M; length (get_shape a)] -> shape (sp_values s) = [M] -> in_range (sp_indices s) (get_shape a) ->
  exists d r, full a = Ok d /\
    flat_inner_any (ATT a) (ASparse s) = Ok r /\ shape r = [] /\
    get r [] = sumn M (fun m => get d (position (sp_indices s) (length (get_shape a)) m) * get (sp_values s) [m])%K.
Proof.
  intros K a s M Hw Hb S1 S2 Hv. destruct (sparse_inner_full K a s M Hw Hb S1 S2 Hv) as (d & r & A & B & C & D).
  exists d, r. cbn [flat_inner_any]. unfold is_batch. rewrite Hb. repeat (split; [assumption|]). exact D.
Qed.
Print Assumptions C15_sparse_flat_inner.

(** The other argument order is not implemented, and batches are rejected. *)
Theorem C15_sparse_rejects : forall (K : cring) (a : tt K) (s : sparse K),
  (bsz a = None -> flat_inner_any (ASparse s) (ATT a) = Err NotImplementedError) /\
  (bsz a <> None -> flat_inner_any (ATT a) (ASparse s) = Err ValueError /\ flat_inner_any (ASparse s) (ATT a) = Err ValueError).
Proof.
  intros K a s. cbn [flat_inner_any]. unfold is_batch. split; [now intros ->|]. destruct (bsz a); [now split|contradiction].
Qed.
Print Assumptions C15_sparse_rejects.

Definition s_sp : sparse Zring := Sparse s_ix (zt [3]%nat [2;0;-5]%Z) [2;3;2].
Definition s_spm : sparse Zring := Sparse (zt [2;2]%nat [5;3; 2;0]%Z) (zt [2]%nat [2;-5]%Z) [6;4].
Example C15_ex : wf s_a /\ bsz s_a = None /\ shape (sp_indices s_sp) = [3; 3] /\
  (exists r, flat_inner_any (ATT s_a) (ASparse s_sp) = Ok r /\ data r = [202]%Z) /\
  wf s_m /\ (exists r, flat_inner_any (ATT s_m) (ASparse s_spm) = Ok r /\ data r = [29]%Z).
Proof.
  split; [exact s_a_wf|]. do 2 (split; [reflexivity|]). split; [eexists; vm_compute; split; reflexivity|].
  split; [exact s_m_wf|]. eexists; vm_compute; split; reflexivity.
Qed.

(** C19.  [getitem d spec] is python/TensorFlow indexing of the dense tensor; the claim for
    every list of integers and slices with at least one slice and a non-empty selection. *)
Theorem C19_slicing_partial : forall (K : cring) (t : tt K) (spec : list pyindex) (d ds : tensor K),
  wf t -> bsz t = None -> is_tt_matrix t = false -> full t = Ok d -> getitem d spec = Ok ds ->
  shape ds <> [] -> Forall (fun n => 0 < n) (shape ds) ->
  exists c, tt_getitem t spec = Ok c /\ wf c /\ bsz c = None /\ rshape c = [shape ds] /\ rks c = slice_ranks spec (rks t) /\ full c = Ok ds.
Proof.
  intros K t spec d ds Hw Hb Hm Fd G Hne Hpos.
  destruct (full_tensor K t Hw Hm) as (d' & Fd' & _ & Sd & _). replace d' with d in * by congruence.
  unfold bpre in Sd. rewrite Hb in Sd. cbn [app] in Sd.
  pose proof G as G'. unfold getitem in G'. rewrite Sd in G'. destruct (resolve spec (nth 0 (rshape t) [])) as [ps|] eqn:Hps; [|discriminate].
  cbn [bind] in G'. injection G' as <-. change (shape (mk _ _)) with (sel_shape ps) in *.
  destruct (tt_getitem_full K t spec ps Hw Hm Hps Hpos Hb Hne) as (c & d2 & dc & E & Wc & Bc & Rc & Kc & F1 & F2 & G2).
  exists c. repeat (split; [assumption|]). congruence.
Qed.
Print Assumptions C19_slicing_partial.

(** t[1, ::-2, :], t[-1, 0:2, 1] *)
Definition s_spec1 := [IInt 1; ISlice None None (Some (-2)); ISlice None None None]%Z.
Definition s_spec2 := [IInt (-1); ISlice (Some 0) (Some 2) None; IInt 1]%Z.
Example C19_ex : wf s_a /\ exists d, full s_a = Ok d /\
  (exists ds, getitem d s_spec1 = Ok ds /\ shape ds = [2;2] /\ data ds = [51;-30;-64;-25]%Z /\
     (do c <- tt_getitem s_a s_spec1; full c) = Ok ds) /\
  (exists ds, getitem d s_spec2 = Ok ds /\ shape ds = [2] /\ (do c <- tt_getitem s_a s_spec2; full c) = Ok ds).
Proof.
  split; [exact s_a_wf|]. eexists. split; [vm_compute; reflexivity|]. split.
  - eexists. split; [vm_compute; reflexivity|]. repeat split; vm_compute; reflexivity.
  - eexists. split; [vm_compute; reflexivity|]. repeat split; vm_compute; reflexivity.
Qed.

(** With an integer in every position the call fails, although the dense indexing works. *)
Theorem C19_all_integers_raise : forall (K : cring) (t : tt K) (spec : list pyindex) (d ds : tensor K),
  wf t -> bsz t = None -> is_tt_matrix t = false -> full t = Ok d -> getitem d spec = Ok ds -> shape ds = [] ->
  tt_getitem t spec = Err IndexError.
Proof.
  intros K t spec d ds Hw Hb Hm Fd G He.
  destruct (full_tensor K t Hw Hm) as (d' & Fd' & _ & Sd & _). replace d' with d in * by congruence.
  unfold bpre in Sd. rewrite Hb in Sd. cbn [app] in Sd.
  unfold getitem in G. rewrite Sd in G. destruct (resolve spec (nth 0 (rshape t) [])) as [ps|] eqn:Hps; [|discriminate].
  cbn [bind] in G. injection G as <-. now apply (tt_getitem_ints K t spec ps).
Qed.
Print Assumptions C19_all_integers_raise.

Theorem C19_all_integers_refuted : exists (t : tt Zring) spec d ds, wf t /\ bsz t = None /\ is_tt_matrix t = false /\
  full t = Ok d /\ getitem d spec = Ok ds /\ tt_getitem t spec = Err IndexError.
Proof.
  exists s_a, [IInt 1; IInt 0; IInt (-1)]%Z. do 2 eexists. split; [exact s_a_wf|]. do 2 (split; [reflexivity|]). split; [vm_compute; reflexivity|]. split; vm_compute; reflexivity.
Qed.
Print Assumptions C19_all_integers_refuted.

Theorem C19_slicing_rejects : forall (K : cring) (t : tt K) (spec : list pyindex), wf t ->
  (length spec <> ndims t -> tt_getitem t spec = Err ValueError) /\
  (length spec = ndims t -> is_tt_matrix t = true -> tt_getitem t spec = Err NotImplementedError).
Proof.
  intros K t spec Hw. split; [now apply tt_getitem_len_err|]. intros; now apply tt_getitem_matrix_err.
Qed.
Print Assumptions C19_slicing_rejects.

(** C20 *)
Theorem C20_batch_index : forall (K : cring) (t : tt K) B (ix : pyindex) (d ds : tensor K),
  wf t -> bsz t = Some B -> full t = Ok d ->
  getitem d (ix :: repeat full_slice (length (shape d) - 1)) = Ok ds -> Forall (fun n => 0 < n) (shape ds) ->
  exists c, batch_dim_getitem t ix = Ok c /\ wf c /\ is_batch c = is_slice ix /\ rshape c = rshape t /\ rks c = rks t /\
    full c = Ok ds.
Proof.
  intros K t B ix d ds Hw HB Fd G Hpos.
  destruct (FullProofs.full_correct K t Hw) as (d' & Fd' & _ & Sd & _). replace d' with d in * by congruence.
  rewrite get_shape_ishape in Sd. unfold bpre in Sd. rewrite HB in Sd. cbn [app] in Sd.
  pose proof G as G'. unfold getitem in G'. rewrite Sd in G'. cbn [resolve] in G'.
  destruct (resolve1 ix B) as [[bl bk]|] eqn:E; [|discriminate]. cbn [bind] in G'.
  destruct (resolve _ (ishape t)) as [ps|] eqn:E2; [|discriminate]. cbn [bind] in G'. injection G' as <-.
  change (shape (mk _ _)) with (sel_shape ((bl, bk) :: ps)) in Hpos.
  destruct (batch_dim_getitem_full K t ix B bl bk Hw HB E) as (c & d2 & dc & Ec & Wc & Bc & Rc & Kc & F1 & F2 & G2).
  { intros ->. cbn [sel_shape] in Hpos. now apply Forall_cons_iff in Hpos as [? _]. }
  exists c. do 2 (split; [assumption|]). split.
  { apply resolve1_range in E as (_ & <- & _). unfold is_batch. rewrite Bc. now destruct bk. }
  do 2 (split; [assumption|]). congruence.
Qed.
Print Assumptions C20_batch_index.

Theorem C20_batch_full_index_partial : forall (K : cring) (t : tt K) B b0 (spec : list pyindex) (d ds : tensor K),
  wf t -> bsz t = Some B -> is_tt_matrix t = false -> full t = Ok d -> getitem d (b0 :: spec) = Ok ds ->
  existsb is_slice spec = true -> Forall (fun n => 0 < n) (shape ds) ->
  exists c, ttb_getitem t (b0 :: spec) = Ok c /\ wf c /\
    bsz c = (if is_slice b0 then Some (hd 0 (shape ds)) else None) /\ rshape c = [if is_slice b0 then tl (shape ds) else shape ds] /\
    rks c = slice_ranks spec (rks t) /\ full c = Ok ds.
Proof.
  intros K t B b0 spec d ds Hw HB Hm Fd G Hs Hpos.
  destruct (full_tensor K t Hw Hm) as (d' & Fd' & _ & Sd & _). replace d' with d in * by congruence.
  unfold bpre in Sd. rewrite HB in Sd. cbn [app] in Sd.
  pose proof G as G'. unfold getitem in G'. rewrite Sd in G'. cbn [resolve] in G'.
  destruct (resolve1 b0 B) as [[bl bk]|] eqn:E; [|discriminate]. cbn [bind] in G'.
  destruct (resolve spec (nth 0 (rshape t) [])) as [ps|] eqn:Hps; [|discriminate]. cbn [bind] in G'. injection G' as <-.
  change (shape (mk _ _)) with (sel_shape ((bl, bk) :: ps)) in Hpos.
  assert (P1 : bk = true -> 0 < length bl) by (intros ->; cbn [sel_shape] in Hpos; now apply Forall_cons_iff in Hpos as [? _]).
  assert (P2 : Forall (fun n => 0 < n) (sel_shape ps)) by (destruct bk; cbn [sel_shape] in Hpos; [now apply Forall_cons_iff in Hpos as [_ ?]|exact Hpos]).
  assert (P3 : sel_shape ps <> []).
  { clear - Hps Hs. revert Hps Hs. generalize (nth 0 (rshape t) []). revert ps. induction spec as [|x spec IH]; intros ps [|n sh] H Hs; try discriminate.
    cbn [resolve] in H. destruct (resolve1 x n) as [[l k]|] eqn:E; [|discriminate]. cbn [bind] in H.
    destruct (resolve spec sh) as [ps'|] eqn:E2; [|discriminate]. cbn [bind] in H. injection H as <-.
    apply resolve1_range in E as (_ & -> & _). cbn [existsb] in Hs. cbn [sel_shape]. destruct (is_slice x); [discriminate|].
    cbn [orb] in Hs. now apply (IH ps' sh). }
  destruct (full_getitem_full K t spec ps Hw Hm Hps P2 b0 B bl bk HB E P1 P3) as (c & d2 & dc & Ec & Wc & Bc & Rc & Kc & F1 & F2 & G2).
  exists c. do 2 (split; [assumption|]). apply resolve1_range in E as (_ & <- & _). change (shape (mk _ _)) with (sel_shape ((bl, bk) :: ps)).
  split; [rewrite Bc; now destruct bk|]. split; [rewrite Rc; now destruct bk|]. split; [exact Kc|]. congruence.
Qed.
Print Assumptions C20_batch_full_index_partial.

(** b[-1], b[0:3:2], b[2, :, 1], b[::-1, 0, :] *)
Example C20_ex : wf s_b3 /\ exists d, full s_b3 = Ok d /\
  (do c <- batch_dim_getitem s_b3 (IInt (-1)); full c) = getitem d [IInt (-1); full_slice; full_slice] /\
  (do c <- batch_dim_getitem s_b3 (ISlice (Some 0) (Some 3) (Some 2))%Z; full c) =
     getitem d [ISlice (Some 0) (Some 3) (Some 2); full_slice; full_slice]%Z /\
  (do c <- ttb_getitem s_b3 [IInt 2; full_slice; IInt 1]; full c) = getitem d [IInt 2; full_slice; IInt 1] /\
  exists ds, (do c <- ttb_getitem s_b3 [ISlice None None (Some (-1)); IInt 0; full_slice]%Z; full c) = Ok ds /\
     getitem d [ISlice None None (Some (-1)); IInt 0; full_slice]%Z = Ok ds /\ shape ds = [3;2].
Proof.
  split; [exact s_b3_wf|]. eexists. split; [vm_compute; reflexivity|]. do 3 (split; [vm_compute; reflexivity|]).
  eexists. split; [vm_compute; reflexivity|]. split; vm_compute; reflexivity.
Qed.

Theorem C20_all_integers_raise : forall (K : cring) (t : tt K) B b0 (spec : list pyindex) (d ds : tensor K),
  wf t -> bsz t = Some B -> is_tt_matrix t = false -> full t = Ok d -> getitem d (b0 :: spec) = Ok ds ->
  existsb is_slice spec = false -> ttb_getitem t (b0 :: spec) = Err IndexError.
Proof.
  intros K t B b0 spec d ds Hw HB Hm Fd G Hs.
  destruct (full_tensor K t Hw Hm) as (d' & Fd' & _ & Sd & _). replace d' with d in * by congruence.
  unfold bpre in Sd. rewrite HB in Sd. cbn [app] in Sd.
  unfold getitem in G. rewrite Sd in G. cbn [resolve] in G.
  destruct (resolve1 b0 B) as [[bl bk]|] eqn:E; [|discriminate]. cbn [bind] in G.
  destruct (resolve spec (nth 0 (rshape t) [])) as [ps|] eqn:Hps; [|discriminate].
  assert (P3 : sel_shape ps = []).
  { clear - Hps Hs. revert Hps Hs. generalize (nth 0 (rshape t) []). revert ps. induction spec as [|x spec IH]; intros ps [|n sh] H Hs; try discriminate.
    - cbn in H. now injection H as <-.
    - cbn [resolve] in H. destruct (resolve1 x n) as [[l k]|] eqn:E; [|discriminate]. cbn [bind] in H.
      destruct (resolve spec sh) as [ps'|] eqn:E2; [|discriminate]. cbn [bind] in H. injection H as <-.
      apply resolve1_range in E as (_ & -> & _). cbn [existsb] in Hs. cbn [sel_shape]. destruct (is_slice x); [discriminate|].
      cbn [orb] in Hs. now apply (IH ps' sh). }
  eapply (full_getitem_ints K t spec ps); eauto.
Qed.
Print Assumptions C20_all_integers_raise.

Theorem C20_all_integers_refuted : exists (t : tt Zring) b0 spec d ds, wf t /\ is_tt_matrix t = false /\ full t = Ok d /\
  is_slice b0 = true /\ getitem d (b0 :: spec) = Ok ds /\ ttb_getitem t (b0 :: spec) = Err IndexError.
Proof.
  exists s_b3, full_slice, [IInt 1; IInt 0]%Z. do 2 eexists. split; [exact s_b3_wf|]. split; [reflexivity|]. split; [vm_compute; reflexivity|]. split; [reflexivity|]. split; vm_compute; reflexivity.
Qed.
Print Assumptions C20_all_integers_refuted.

Theorem C20_batch_rejects : forall (K : cring) (t : tt K) (spec : list pyindex), wf t ->
  (length spec <> 1 -> length spec <> S (ndims t) -> ttb_getitem t spec = Err ValueError) /\
  (length spec = S (ndims t) -> is_tt_matrix t = true -> ttb_getitem t spec = Err NotImplementedError).
Proof.
  intros K t spec Hw. split; [now apply ttb_getitem_len_err|]. intros; now apply ttb_getitem_matrix_err.
Qed.
Print Assumptions C20_batch_rejects.
