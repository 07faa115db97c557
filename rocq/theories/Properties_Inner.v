(** C13, C14, C17: inner products and bilinear forms. *)
From Coq Require Import String List Arith ZArith Lia Bool Ring.
From Verif Require Import Scalar Tensor TensorLemmas Base Spec BaseLemmas Ops ResultLemmas Dense AddFull
  MatmulProofs FlatProofs BilinearProofs Samples.
Import ListNotations.

(** C13 *)
Theorem C13_flat_inner : forall (K : cring) (a b : tt K), wf a -> wf b -> rshape a = rshape b ->
  bsz a = None -> bsz b = None ->
  exists da db r, full a = Ok da /\ full b = Ok db /\ shape da = shape db /\
    flat_inner_any (ATT a) (ATT b) = Ok r /\ shape r = [] /\
    get r [] = isum (shape da) (fun i => get da i * get db i)%K.
Proof.
  intros K a b Ha Hb R Ba Bb.
  destruct (flat_inner_full K a b Ha Hb R) as (r & H1 & H2 & H3 & da & db & Fa & Fb & H4); [now rewrite Ba|].
  destruct (FullProofs.full_correct K a Ha) as (da' & Fa' & _ & Sa & _).
  destruct (FullProofs.full_correct K b Hb) as (db' & Fb' & _ & Sb & _).
  replace da' with da in * by congruence. replace db' with db in * by congruence.
  assert (E : mm_bs a b = None) by (unfold mm_bs; now rewrite Ba, Bb). rewrite E in *.
  exists da, db, r. repeat (split; [assumption|]).
  split. { rewrite Sa, Sb. unfold get_shape, is_tt_matrix. now rewrite R, Ba, Bb. }
  repeat (split; [assumption|]).
  specialize (H4 0 I). rewrite Ba, Bb in H4. cbn [bo opidx] in H4. rewrite H4.
  rewrite Sa, get_shape_ishape. unfold bpre. now rewrite Ba.
Qed.
Print Assumptions C13_flat_inner.

Example C13_ex : wf s_a /\ wf s_b /\ rshape s_a = rshape s_b /\ bsz s_a = None /\
  exists r, flat_inner_any (ATT s_a) (ATT s_b) = Ok r /\ data r = [(-2717)%Z].
Proof. split; [exact s_a_wf|]. split; [exact s_b_wf|]. repeat (split; [reflexivity|]).
  eexists. split; vm_compute; reflexivity. Qed.

Theorem C13_flat_inner_rejects : forall (K : cring) (a b : tt K), wf a -> wf b ->
  (is_tt_matrix a <> is_tt_matrix b \/ ndims a <> ndims b -> flat_inner_any (ATT a) (ATT b) = Err ValueError) /\
  (rshape a <> rshape b -> exists er, flat_inner_any (ATT a) (ATT b) = Err er).
Proof.
  intros K a b Ha Hb. cbn [flat_inner_any]. split.
  - intros H. apply flat_inner_kind_err. tauto.
  - now apply flat_inner_shape_err.
Qed.
Print Assumptions C13_flat_inner_rejects.

Example C13_rejects_ex : wf s_a /\ wf s_t2 /\ ndims s_a <> ndims s_t2 /\ rshape s_a <> rshape s_t2.
Proof. split; [exact s_a_wf|]. split; [exact s_t2_wf|]. split; discriminate. Qed.

(** C14.  When both operands have at most one element the result is a number, not a vector of
    length 1 ([tf.squeeze], see C14_flat_inner_batch1_refuted). *)
Theorem C14_flat_inner_batch : forall (K : cring) (a b : tt K) B, wf a -> wf b -> rshape a = rshape b ->
  bc_ok (bsz a) (bsz b) -> bc_size (bsz a) (bsz b) = Some B ->
  exists da db r, full a = Ok da /\ full b = Ok db /\ flat_inner_any (ATT a) (ATT b) = Ok r /\
    shape r = (if Nat.eqb B 1 then [] else [B]) /\
    forall o, o < B -> get r (if Nat.eqb B 1 then [] else [o]) =
      isum (ishape a) (fun i => get da (opidx (bsz a) o i) * get db (opidx (bsz b) o i))%K.
Proof.
  intros K a b B Ha Hb R Hc HB.
  destruct (flat_inner_full K a b Ha Hb R Hc) as (r & H1 & H2 & H3 & da & db & Fa & Fb & H4).
  exists da, db, r. repeat (split; [assumption|]).
  assert (E : mm_bs a b = if Nat.eqb B 1 then None else Some B).
  { pose proof (wf_bpos Ha) as P1. pose proof (wf_bpos Hb) as P2. unfold bpre in P1, P2.
    unfold mm_bs, sqb, bc_size, bc_ok in *.
    destruct (bsz a) as [x|], (bsz b) as [y|]; try discriminate; inversion HB; subst;
      repeat match goal with H : Forall _ (_ :: _) |- _ => apply Forall_cons_iff in H as [? _] end.
    - destruct x as [|[|x]], y as [|[|y]]; try lia; cbn [Nat.max Nat.eqb]; try reflexivity. f_equal. lia.
    - destruct B as [|[|B]]; reflexivity.
    - destruct B as [|[|B]]; reflexivity. }
  rewrite E in *. destruct (Nat.eqb_spec B 1).
  - split; [exact H3|]. intros o Ho. replace o with 0 by lia. exact (H4 0 I).
  - split; [exact H3|]. intros o Ho. exact (H4 o Ho).
Qed.
Print Assumptions C14_flat_inner_batch.

Example C14_ex : wf s_b3 /\ wf s_b1 /\ wf s_t2 /\ bc_size (bsz s_b3) (bsz s_b1) = Some 3 /\
  bc_size (bsz s_t2) (bsz s_b3) = Some 3 /\ exists r, flat_inner_any (ATT s_t2) (ATT s_b3) = Ok r /\ shape r = [3].
Proof.
  split; [exact s_b3_wf|]. split; [exact s_b1_wf|]. split; [exact s_t2_wf|]. repeat (split; [reflexivity|]).
  eexists. split; vm_compute; reflexivity.
Qed.

Theorem C14_flat_inner_rejects_batch_sizes : forall (K : cring) (a b : tt K),
  ~ bc_ok (bsz a) (bsz b) -> flat_inner_any (ATT a) (ATT b) = Err ValueError.
Proof. intros K a b H. apply flat_inner_kind_err. auto. Qed.
Print Assumptions C14_flat_inner_rejects_batch_sizes.

(** A batch of one element gives a number although a vector with one number per element is documented. *)
Theorem C14_flat_inner_batch1_refuted : exists (a b : tt Zring) r, wf a /\ wf b /\ rshape a = rshape b /\
  bsz b = Some 1 /\ flat_inner_any (ATT a) (ATT b) = Ok r /\ shape r <> [1].
Proof.
  exists s_t2, s_b1. eexists. split; [exact s_t2_wf|]. split; [exact s_b1_wf|]. do 2 (split; [reflexivity|]).
  split; [vm_compute; reflexivity|]. discriminate.
Qed.
Print Assumptions C14_flat_inner_batch1_refuted.

(** C17.  [b] is N x 1 and [c] is M x 1; both are TensorTrains or both are batches of the same size. *)
Definition column_vector {K : cring} (t : tt K) (n : list nat) : Prop :=
  rshape t = [n; repeat 1 (ndims t)].

Lemma prodn_repeat1 n : prodn (repeat 1 n) = 1.
Proof. induction n; [reflexivity|]. cbn [repeat]. unfold prodn in *. cbn. lia. Qed.

Theorem C17_bilinear_form_partial : forall (K : cring) (A b c : tt K) rows cols, wf A -> wf b -> wf c ->
  rshape A = [rows; cols] -> column_vector b rows -> column_vector c cols -> bsz A = None -> bsz b = bsz c ->
  exists dA db dc r, full A = Ok dA /\ full b = Ok db /\ full c = Ok dc /\ bilinear_form A b c = Ok r /\
    match bsz b with
    | None => shape r = [] /\ get r [] = sumn (prodn rows) (fun i => sumn (prodn cols) (fun j =>
        get db [i; 0%nat] * (get dA [i; j] * get dc [j; 0%nat])))%K
    | Some B => shape r = (if Nat.eqb B 1 then [] else [B]) /\
        forall o, o < B -> get r (if Nat.eqb B 1 then [] else [o]) =
          sumn (prodn rows) (fun i => sumn (prodn cols) (fun j =>
            get db [o; i; 0%nat] * (get dA [i; j] * get dc [o; j; 0%nat])))%K
    end.
Proof.
  intros K A b c rows cols HA Hb Hc RA Rb Rc BA Bbc. unfold column_vector in *.
  assert (Hd : ndims b = ndims c).
  { pose proof (wf_rlen HA) as L1. pose proof (wf_rlen Hb) as L2. pose proof (wf_rlen Hc) as L3.
    rewrite RA in L1. rewrite Rb in L2. rewrite Rc in L3.
    repeat match goal with H : Forall _ (_ :: _) |- _ => apply Forall_cons_iff in H as [? ?] end. congruence. }
  rewrite <- Hd in Rc.
  destruct (bilinear_full K A b c rows cols _ HA Hb Hc RA Rb Rc BA Bbc) as
    (dA & db & dc & r & F1 & F2 & F3 & E & W & S & G).
  exists dA, db, dc, r. repeat (split; [assumption|]).
  rewrite prodn_repeat1 in G.
  assert (G' : forall o, inrange (bsz b) o -> get r (bo (sqb (bsz b)) o) =
      sumn (prodn rows) (fun i => sumn (prodn cols) (fun j =>
        get db (bo (bsz b) o ++ [i; 0%nat]) * (get dA [i; j] * get dc (bo (bsz b) o ++ [j; 0%nat]))))%K).
  { intros o Ho. rewrite G by auto. apply sumn_ext. intros i Hi. now rewrite sumn_1. }
  destruct (bsz b) as [B|] eqn:EB; cbn [sqb bo app inrange] in *.
  - destruct B as [|[|B]]; cbn [Nat.eqb pre_of bo] in *; (split; [exact S|]); intros o Ho; try exact (G' o Ho).
  - split; [exact S|]. exact (G' 0 I).
Qed.
Print Assumptions C17_bilinear_form_partial.

(** Without the restriction to one column the sum runs over the columns as well: trace(b^T A c). *)
Theorem C17_bilinear_form_columns : forall (K : cring) (A b c : tt K) rows cols ks, wf A -> wf b -> wf c ->
  rshape A = [rows; cols] -> rshape b = [rows; ks] -> rshape c = [cols; ks] -> bsz A = None ->
  bsz b = None -> bsz c = None ->
  exists dA db dc r, full A = Ok dA /\ full b = Ok db /\ full c = Ok dc /\ bilinear_form A b c = Ok r /\
    shape r = [] /\
    get r [] = sumn (prodn rows) (fun i => sumn (prodn ks) (fun k => sumn (prodn cols) (fun j =>
        get db [i; k] * (get dA [i; j] * get dc [j; k]))))%K.
Proof.
  intros K A b c rows cols ks HA Hb Hc RA Rb Rc BA Bb Bc.
  destruct (bilinear_full K A b c rows cols ks HA Hb Hc RA Rb Rc BA) as
    (dA & db & dc & r & F1 & F2 & F3 & E & W & S & G); [congruence|].
  exists dA, db, dc, r. rewrite Bb in *. repeat (split; [assumption|]). exact (G 0 I).
Qed.
Print Assumptions C17_bilinear_form_columns.

Definition s_v6 : tt Zring :=
  TT [zt [1;2;1;2]%nat [1;2;0;-1]%Z; zt [2;3;1;1]%nat [1;0;2;-1;3;1]%Z] [[2;3];[1;1]]%nat [1;2;1]%nat None.
Definition s_v4 : tt Zring :=
  TT [zt [1;2;1;1]%nat [1;-3]%Z; zt [1;2;1;1]%nat [2;5]%Z] [[2;2];[1;1]]%nat [1;1;1]%nat None.
Definition s_v6b : tt Zring :=
  TT [zt [2;1;2;1;1]%nat [1;2;0;-1]%Z; zt [2;1;3;1;1]%nat [1;0;2;-1;3;1]%Z] [[2;3];[1;1]]%nat [1;1;1]%nat (Some 2).
Definition s_v4b : tt Zring :=
  TT [zt [2;1;2;1;1]%nat [1;-3;2;2]%Z; zt [2;1;2;1;1]%nat [2;5;1;0]%Z] [[2;2];[1;1]]%nat [1;1;1]%nat (Some 2).
Lemma s_v6_wf : wf s_v6. Proof. apply wfb_wf; vm_compute; reflexivity. Qed.
Lemma s_v4_wf : wf s_v4. Proof. apply wfb_wf; vm_compute; reflexivity. Qed.
Lemma s_v6b_wf : wf s_v6b. Proof. apply wfb_wf; vm_compute; reflexivity. Qed.
Lemma s_v4b_wf : wf s_v4b. Proof. apply wfb_wf; vm_compute; reflexivity. Qed.

Example C17_bilinear_ex : wf s_m /\ wf s_v6b /\ wf s_v4b /\ rshape s_m = [[2;3];[2;2]] /\
  column_vector s_v6b [2;3] /\ column_vector s_v4b [2;2] /\ bsz s_v6b = bsz s_v4b /\
  exists r, bilinear_form s_m s_v6b s_v4b = Ok r /\ shape r = [2].
Proof. split; [exact s_m_wf|]. split; [exact s_v6b_wf|]. split; [exact s_v4b_wf|].
  repeat (split; [reflexivity|]). eexists. split; vm_compute; reflexivity. Qed.

Theorem C17_bilinear_rejects_tensors : forall (K : cring) (A b c : tt K),
  is_tt_matrix A = false \/ is_tt_matrix b = false \/ is_tt_matrix c = false -> bilinear_form A b c = Err ValueError.
Proof. exact bilinear_kind_err. Qed.
Print Assumptions C17_bilinear_rejects_tensors.

(** Whenever exactly one of b, c is a batch, or A is a batch, the call raises, although the
    documentation describes b and c as independently TensorTrain or TensorTrainBatch:
    line 1086 takes c_is_batch from b. *)
Theorem C17_bilinear_mixed_raises : forall (K : cring) (A b c : tt K), wf A -> wf b -> wf c ->
  bsz A <> None \/ bsz b <> bsz c -> exists er, bilinear_form A b c = Err er.
Proof.
  intros K A b c HA Hb Hc H. destruct (bilinear_form A b c) as [r|er] eqn:E; [|eauto].
  apply bilinear_ok_inv in E; auto. tauto.
Qed.
Print Assumptions C17_bilinear_mixed_raises.

Theorem C17_bilinear_mixed_refuted : exists (A b c : tt Zring) rows cols, wf A /\ wf b /\ wf c /\
  rshape A = [rows; cols] /\ column_vector b rows /\ column_vector c cols /\ bsz A = None /\
  bsz b = None /\ bsz c = Some 2 /\ exists er, bilinear_form A b c = Err er.
Proof.
  exists s_m, s_v6, s_v4b, [2;3], [2;2]. split; [exact s_m_wf|]. split; [exact s_v6_wf|]. split; [exact s_v4b_wf|].
  repeat (split; [reflexivity|]). eexists. vm_compute; reflexivity.
Qed.
Print Assumptions C17_bilinear_mixed_refuted.

(** bilinear_form_two_mat on TensorTrains. *)
Theorem C17_two_mat_partial : forall (K : cring) (x A B y : tt K) ls ps os, wf x -> wf A -> wf B -> wf y ->
  column_vector x ls -> rshape A = [ls; ps] -> rshape B = [ps; os] -> column_vector y os ->
  bsz x = None -> bsz A = None -> bsz B = None -> bsz y = None ->
  exists dx dA dB dy r, full x = Ok dx /\ full A = Ok dA /\ full B = Ok dB /\ full y = Ok dy /\
    bilinear_form_two_mat x A B y = Ok r /\ shape r = [] /\
    get r [] = sumn (prodn ls) (fun l => sumn (prodn ps) (fun p => sumn (prodn os) (fun o =>
      get dx [l; 0%nat] * (get dA [l; p] * (get dB [p; o] * get dy [o; 0%nat])))))%K.
Proof.
  intros K x A B y ls ps os Hx HA HB Hy Rx RA RB Ry Bx BA BB By. unfold column_vector in *.
  destruct (two_mat_full K x A B y ls _ ps os _ Hx HA HB Hy Rx RA RB Ry Bx BA BB By) as
    (dx & dA & dB & dy & r & F1 & F2 & F3 & F4 & E & W & S & G).
  exists dx, dA, dB, dy, r. repeat (split; [assumption|]). rewrite G, !prodn_repeat1.
  apply sumn_ext; intros l _. rewrite sumn_1. apply sumn_ext; intros p _. apply sumn_ext; intros o _. now rewrite sumn_1.
Qed.
Print Assumptions C17_two_mat_partial.

Definition s_mb : tt Zring :=
  TT [zt [1;2;2;1]%nat [1;2;0;1]%Z; zt [1;2;2;1]%nat [1;0;2;-1]%Z] [[2;2];[2;2]]%nat [1;1;1]%nat None.
Lemma s_mb_wf : wf s_mb. Proof. apply wfb_wf; vm_compute; reflexivity. Qed.

Example C17_two_mat_ex : wf s_v6 /\ wf s_m /\ wf s_mb /\ wf s_v4 /\ column_vector s_v6 [2;3] /\
  rshape s_m = [[2;3];[2;2]] /\ rshape s_mb = [[2;2];[2;2]] /\ column_vector s_v4 [2;2] /\
  exists r, bilinear_form_two_mat s_v6 s_m s_mb s_v4 = Ok r.
Proof. split; [exact s_v6_wf|]. split; [exact s_m_wf|]. split; [exact s_mb_wf|]. split; [exact s_v4_wf|].
  repeat (split; [reflexivity|]). eexists. vm_compute; reflexivity. Qed.

Theorem C17_two_mat_rejects_tensors : forall (K : cring) (x A B y : tt K),
  is_tt_matrix x = false \/ is_tt_matrix A = false \/ is_tt_matrix B = false \/ is_tt_matrix y = false ->
  bilinear_form_two_mat x A B y = Err ValueError.
Proof. exact two_mat_kind_err. Qed.
Print Assumptions C17_two_mat_rejects_tensors.

(** Batches: the batch label 'p' is also the label of the inner mode, so a batch whose size
    differs from the first inner mode always raises ... *)
Theorem C17_two_mat_batch_raises : forall (K : cring) (x A B y : tt K) P, wf x -> wf A -> wf B -> wf y ->
  bsz x = Some P -> P <> mode A 1 0 -> exists er, bilinear_form_two_mat x A B y = Err er.
Proof.
  intros K x A B y P Hx HA HB Hy Bx HP. destruct (bilinear_form_two_mat x A B y) as [r|er] eqn:E; [|eauto].
  apply two_mat_ok_inv in E; auto. rewrite Bx in E. tauto.
Qed.
Print Assumptions C17_two_mat_batch_raises.

Definition s_x3b : tt Zring :=
  TT [zt [3;1;2;1;1]%nat [1;2;0;-1;1;1]%Z; zt [3;1;3;1;1]%nat [1;0;2;-1;3;1;0;0;1]%Z] [[2;3];[1;1]]%nat [1;1;1]%nat (Some 3).
Definition s_y3b : tt Zring :=
  TT [zt [3;1;2;1;1]%nat [1;-3;2;2;0;1]%Z; zt [3;1;2;1;1]%nat [2;5;1;0;3;3]%Z] [[2;2];[1;1]]%nat [1;1;1]%nat (Some 3).
Lemma s_x3b_wf : wf s_x3b. Proof. apply wfb_wf; vm_compute; reflexivity. Qed.
Lemma s_y3b_wf : wf s_y3b. Proof. apply wfb_wf; vm_compute; reflexivity. Qed.

Theorem C17_two_mat_batch_refuted : exists (x A B y : tt Zring) ls ps os, wf x /\ wf A /\ wf B /\ wf y /\
  column_vector x ls /\ rshape A = [ls; ps] /\ rshape B = [ps; os] /\ column_vector y os /\
  bsz x = Some 3 /\ bsz A = None /\ bsz B = None /\ bsz y = Some 3 /\
  exists er, bilinear_form_two_mat x A B y = Err er.
Proof.
  exists s_x3b, s_m, s_mb, s_y3b, [2;3], [2;2], [2;2].
  split; [exact s_x3b_wf|]. split; [exact s_m_wf|]. split; [exact s_mb_wf|]. split; [exact s_y3b_wf|].
  repeat (split; [reflexivity|]). eexists. vm_compute; reflexivity.
Qed.
Print Assumptions C17_two_mat_batch_refuted.

(** ... and a batch whose size happens to equal the inner modes gives a wrong number silently:
    element 0 of the result is not x_0^T A B y_0. *)
Theorem C17_two_mat_batch_value_refuted : exists (x A B y : tt Zring) dx dA dB dy r,
  wf x /\ wf A /\ wf B /\ wf y /\
  column_vector x [2;3] /\ rshape A = [[2;3]; [2;2]] /\ rshape B = [[2;2]; [2;2]] /\ column_vector y [2;2] /\
  bsz x = Some 2 /\ bsz A = None /\ bsz B = None /\ bsz y = Some 2 /\
  full x = Ok dx /\ full A = Ok dA /\ full B = Ok dB /\ full y = Ok dy /\
  bilinear_form_two_mat x A B y = Ok r /\ shape r = [2] /\
  get r [0] <> sumn 6 (fun l => sumn 4 (fun p => sumn 4 (fun o =>
      get dx [0%nat; l; 0%nat] * (get dA [l; p] * (get dB [p; o] * get dy [0%nat; o; 0%nat])))))%K.
Proof.
  exists s_v6b, s_m, s_mb, s_v4b. do 5 eexists.
  split; [exact s_v6b_wf|]. split; [exact s_m_wf|]. split; [exact s_mb_wf|]. split; [exact s_v4b_wf|].
  do 8 (split; [reflexivity|]). do 5 (split; [vm_compute; reflexivity|]). split; [reflexivity|].
  vm_compute. discriminate.
Qed.
Print Assumptions C17_two_mat_batch_value_refuted.

(** Shapes that are not consistent are not always rejected, contrary to the documentation:
    cores of b and c beyond the number of cores of A are ignored. *)
Definition s_lb : tt Zring :=
  TT [zt [1;2;1;2]%nat [1;2;0;-1]%Z; zt [2;3;1;1]%nat [1;0;2;-1;3;1]%Z; zt [1;7;1;1] [1;1;1;1;1;1;1]%Z]
     [[2;3;7];[1;1;1]]%nat [1;2;1;1]%nat None.
Lemma s_lb_wf : wf s_lb. Proof. apply wfb_wf; vm_compute; reflexivity. Qed.
Theorem C17_bilinear_inconsistent_refuted : exists (A b c : tt Zring) r, wf A /\ wf b /\ wf c /\
  bsz A = None /\ bsz b = None /\ bsz c = None /\
  nth 0 (rshape A) [] <> nth 0 (rshape b) [] /\ bilinear_form A b c = Ok r.
Proof.
  exists s_m, s_lb, s_v4. eexists. split; [exact s_m_wf|]. split; [exact s_lb_wf|]. split; [exact s_v4_wf|].
  repeat (split; [reflexivity|]). split; [discriminate|]. vm_compute; reflexivity.
Qed.
Print Assumptions C17_bilinear_inconsistent_refuted.
