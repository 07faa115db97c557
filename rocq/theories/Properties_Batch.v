(** C24, C26: concatenation of batches, pairwise inner products. *)
From Coq Require Import String List Arith ZArith Lia Bool Ring Reals.
From Verif Require Import Scalar Tensor TensorLemmas Base Spec BaseLemmas Ops ResultLemmas Dense
  BatchOps BatchProofs PairProofs Samples.
Import ListNotations.

(** C24.  [elements l] lists all elements of the batches of [l] in order, as pairs of a batch
    and a position in it. *)
Theorem C24_concat : forall (K : cring) (l : list (tt K)) t0, hd_error l = Some t0 ->
  (forall t, In t l -> wf t /\ is_batch t = true /\ rshape t = rshape t0 /\ rks t = rks t0) ->
  exists c dc, concat_along_batch_dim l = Ok c /\ wf c /\ rshape c = rshape t0 /\ rks c = rks t0 /\
    bsz c = Some (length (elements l)) /\ full c = Ok dc /\ shape dc = get_shape c /\
    forall o t o', nth_error (elements l) o = Some (t, o') -> exists d, full t = Ok d /\
      forall i, vidx (shape dc) (o :: i) -> get dc (o :: i) = get d (o' :: i).
Proof. exact concat_full. Qed.
Print Assumptions C24_concat.

Definition s_b2 : tt Zring :=
  TT [zt [2;1;2;2]%nat [5;0;1;1; 2;2;0;-3]%Z; zt [2;2;2;1]%nat [1;4;0;3; 4;1;0;2]%Z]
     [[2;2]%nat] [1;2;1]%nat (Some 2%nat).
Lemma s_b2_wf : wf s_b2. Proof. apply wfb_wf; vm_compute; reflexivity. Qed.

Example C24_ex : hd_error [s_b3; s_b2; s_b3] = Some s_b3 /\
  (forall t, In t [s_b3; s_b2; s_b3] -> wf t /\ is_batch t = true /\ rshape t = rshape s_b3 /\ rks t = rks s_b3) /\
  nth_error (elements [s_b3; s_b2; s_b3]) 4 = Some (s_b2, 1) /\ length (elements [s_b3; s_b2; s_b3]) = 8.
Proof.
  split; [reflexivity|]. split; [|split; vm_compute; reflexivity].
  intros t [<-|[<-|[<-|[]]]]; (split; [first [exact s_b3_wf | exact s_b2_wf]|]; repeat split).
Qed.

Theorem C24_concat_rejects : forall (K : cring) (l : list (tt K)) t0, hd_error l = Some t0 ->
  (exists t, In t l /\ (bsz t = None \/ rshape t <> rshape t0 \/ rks t <> rks t0)) ->
  concat_along_batch_dim l = Err ValueError.
Proof.
  intros K l t0 Hh (t & Ht & [H|H]).
  - apply concat_tt_err; [destruct l; [discriminate|congruence]|]. apply existsb_exists. exists t. split; auto.
    unfold is_batch. now rewrite H.
  - apply (concat_shape_err K l t0); eauto.
Qed.
Print Assumptions C24_concat_rejects.

(** The claim that TensorTrains in the list count as one element is false: they raise.  A
    single TensorTrain instead of a list raises TypeError although line 21 means to return it. *)
Theorem C24_tensortrain_element_refuted : exists a b : tt Zring, wf a /\ wf b /\ rshape a = rshape b /\ rks a = rks b /\
  concat_along_batch_dim [a; b] = Err ValueError /\ concat_single b = Err TypeError.
Proof. exists s_b1, s_t2. samples. Qed.
Print Assumptions C24_tensortrain_element_refuted.

Theorem C24_concat_single : forall (K : cring) (t : tt K), wf t ->
  concat_single t = match bsz t with Some _ => Ok t | None => Err TypeError end.
Proof.
  intros K t Hw. unfold concat_single. destruct (bsz t) as [b|] eqn:E; [|reflexivity].
  destruct (batch_getitem_int K t b 0 Hw E) as (x & -> & _); [|reflexivity].
  pose proof (wf_bpos Hw) as P. unfold bpre in P. rewrite E in P. inversion P; subst. lia.
Qed.
Print Assumptions C24_concat_single.

(** C26.  [ishape a] is the shape of one element of the batch.  The numbers are right for all
    batch sizes; the shape is right unless a batch has one element. *)
Theorem C26_pairwise_flat_inner : forall (K : cring) (a b : tt K), wf a -> wf b -> rshape a = rshape b ->
  forall P Q, bsz a = Some P -> bsz b = Some Q -> P <> 1 -> Q <> 1 ->
  exists r da db, pairwise_flat_inner a b = Ok r /\ wft r /\ shape r = [P; Q] /\
    full a = Ok da /\ full b = Ok db /\ shape da = P :: ishape a /\ shape db = Q :: ishape a /\
    forall p q, p < P -> q < Q -> get r [p; q] = isum (ishape a) (fun i => get da (p :: i) * get db (q :: i))%K.
Proof.
  intros K a b Ha Hb Hr P Q Ba Bb HP HQ.
  destruct (pairwise_full K a b Ha Hb Hr P Q Ba Bb) as (r & da & db & E & W & S & _ & Fa & Fb & Sa & Sb & G).
  apply Nat.eqb_neq in HP, HQ. cbn [filter] in S. rewrite HP, HQ in S. cbn [negb] in S.
  exists r, da, db. repeat (split; [assumption|]). intros p q Hp Hq. rewrite <- G by auto. symmetry. now apply as_matrix_get.
Qed.
Print Assumptions C26_pairwise_flat_inner.

(** All batch sizes; [as_matrix P Q r] reads the numbers in [r] as a P x Q matrix. *)
Theorem C26_pairwise_values : forall (K : cring) (a b : tt K), wf a -> wf b -> rshape a = rshape b ->
  forall P Q, bsz a = Some P -> bsz b = Some Q ->
  exists r da db, pairwise_flat_inner a b = Ok r /\ wft r /\
    shape r = filter (fun n => negb (Nat.eqb n 1)) [P; Q] /\ length (data r) = P * Q /\
    full a = Ok da /\ full b = Ok db /\ shape da = P :: ishape a /\ shape db = Q :: ishape a /\
    forall p q, p < P -> q < Q -> as_matrix P Q r p q =
      isum (ishape a) (fun i => get da (p :: i) * get db (q :: i))%K.
Proof. exact pairwise_full. Qed.
Print Assumptions C26_pairwise_values.

(** With a TT-matrix in between: [a] and [b] are batches of column vectors, [prodn ks] being
    the number of columns. *)
Theorem C26_pairwise_matrix : forall (K : cring) (a b M : tt K) rows cols ks P Q, wf a -> wf b -> wf M ->
  rshape M = [rows; cols] -> rshape a = [rows; ks] -> rshape b = [cols; ks] -> prodn ks = 1 ->
  bsz M = None -> bsz a = Some P -> bsz b = Some Q ->
  exists r da db dM, pairwise_flat_inner_mat a b M = Ok r /\ wft r /\
    shape r = filter (fun n => negb (Nat.eqb n 1)) [P; Q] /\ length (data r) = P * Q /\
    full a = Ok da /\ full b = Ok db /\ full M = Ok dM /\
    forall p q, p < P -> q < Q -> as_matrix P Q r p q =
      sumn (prodn rows) (fun i => sumn (prodn cols) (fun j =>
        get da [p; i; 0%nat] * (get dM [i; j] * get db [q; j; 0%nat])))%K.
Proof. exact pairwise_mat_full. Qed.
Print Assumptions C26_pairwise_matrix.

Theorem C26_pairwise_matrix_rejects : forall (K : cring) (a b M : tt K),
  is_tt_matrix a && is_tt_matrix b && is_tt_matrix M = false \/
  nth 0 (rshape a) [] <> nth 0 (rshape M) [] \/ nth 0 (rshape b) [] <> nth 1 (rshape M) [] ->
  pairwise_flat_inner_mat a b M = Err ValueError.
Proof. exact pairwise_mat_err. Qed.
Print Assumptions C26_pairwise_matrix_rejects.

(** The Gram matrix, without and with a TT-matrix. *)
Theorem C26_gram_matrix : forall (K : cring) (a : tt K), wf a -> forall P, bsz a = Some P -> P <> 1 ->
  exists r da, gram_matrix a None = Ok r /\ wft r /\ shape r = [P; P] /\ full a = Ok da /\ shape da = P :: ishape a /\
    forall p q, p < P -> q < P -> get r [p; q] = isum (ishape a) (fun i => get da (p :: i) * get da (q :: i))%K.
Proof.
  intros K a Ha P Ba HP.
  destruct (C26_pairwise_flat_inner K a a Ha Ha eq_refl P P Ba Ba HP HP) as (r & da & db & E & W & S & Fa & Fb & Sa & Sb & G).
  assert (db = da) by congruence. subst db. exists r, da. repeat (split; [assumption|]). exact G.
Qed.
Print Assumptions C26_gram_matrix.

Theorem C26_gram_matrix_with_matrix : forall (K : cring) (a M : tt K) rows ks P, wf a -> wf M ->
  rshape M = [rows; rows] -> rshape a = [rows; ks] -> prodn ks = 1 -> bsz M = None -> bsz a = Some P ->
  exists r da dM, gram_matrix a (Some M) = Ok r /\ wft r /\
    shape r = filter (fun n => negb (Nat.eqb n 1)) [P; P] /\ full a = Ok da /\ full M = Ok dM /\
    forall p q, p < P -> q < P -> as_matrix P P r p q =
      sumn (prodn rows) (fun i => sumn (prodn rows) (fun j =>
        get da [p; i; 0%nat] * (get dM [i; j] * get da [q; j; 0%nat])))%K.
Proof.
  intros K a M rows ks P Ha HM RM Ra Hk BM Ba.
  destruct (pairwise_mat_full K a a M rows rows ks P P Ha Ha HM RM Ra Ra Hk BM Ba Ba)
    as (r & da & db & dM & E & W & S & _ & Fa & Fb & FM & G).
  assert (db = da) by congruence. subst db. exists r, da, dM. repeat (split; [assumption|]). exact G.
Qed.
Print Assumptions C26_gram_matrix_with_matrix.

(** Batches of two (2*2) x 1 column vectors and a 4 x 4 TT-matrix. *)
Definition s_v2 : tt Zring :=
  TT [zt [2;1;2;1;2]%nat [5;0;1;1; 2;2;0;-3]%Z; zt [2;2;2;1;1]%nat [1;4;0;3; 4;1;0;2]%Z]
     [[2;2];[1;1]]%nat [1;2;1]%nat (Some 2%nat).
Definition s_m4 : tt Zring :=
  TT [zt [1;2;2;1]%nat [1;2;-1;3]%Z; zt [1;2;2;1]%nat [0;1;5;1]%Z] [[2;2];[2;2]]%nat [1;1;1]%nat None.

Example C26_ex : wf s_b3 /\ wf s_b2 /\ rshape s_b3 = rshape s_b2 /\ bsz s_b3 = Some 3 /\ bsz s_b2 = Some 2 /\
  wf s_v2 /\ wf s_m4 /\ rshape s_m4 = [[2;2];[2;2]] /\ rshape s_v2 = [[2;2];[1;1]] /\ prodn [1;1] = 1 /\
  exists r, gram_matrix s_v2 (Some s_m4) = Ok r /\ shape r = [2;2].
Proof.
  split; [exact s_b3_wf|]. split; [exact s_b2_wf|]. do 3 (split; [reflexivity|]).
  split; [apply wfb_wf; vm_compute; reflexivity|]. split; [apply wfb_wf; vm_compute; reflexivity|].
  do 3 (split; [reflexivity|]). eexists. split; vm_compute; reflexivity.
Qed.

(** "The result is a matrix with batch-size sides" is false for batches of one element:
    [tf.squeeze] also drops the batch axes. *)
Theorem C26_one_element_refuted : exists (a b : tt Zring) r, wf a /\ wf b /\ rshape a = rshape b /\
  bsz a = Some 3 /\ bsz b = Some 1 /\ pairwise_flat_inner a b = Ok r /\ shape r = [3].
Proof. exists s_b3, s_b1. eexists. conj; try (samples; fail); vm_compute; reflexivity. Qed.
Print Assumptions C26_one_element_refuted.

Theorem C26_one_element_gram_refuted : exists (a : tt Zring) r, wf a /\ bsz a = Some 1 /\ gram_matrix a None = Ok r /\ shape r = [].
Proof. exists s_b1. eexists. conj; try (samples; fail); vm_compute; reflexivity. Qed.
Print Assumptions C26_one_element_gram_refuted.

(** Without a matrix the number of cores is not compared: extra cores of the second argument
    are ignored and the result has too many axes. *)
Definition s_b3' : tt Zring :=
  TT [zt [2;1;2;1]%nat [1;2;3;4]%Z] [[2]%nat] [1;1]%nat (Some 2%nat).
Definition s_b3'' : tt Zring :=
  TT [zt [2;1;2;1]%nat [1;2;3;4]%Z; zt [2;1;2;1]%nat [0;0;0;0]%Z] [[2;2]%nat] [1;1;1]%nat (Some 2%nat).
Theorem C26_core_count_unchecked_refuted : exists (a b : tt Zring) r, wf a /\ wf b /\ ndims a <> ndims b /\
  pairwise_flat_inner a b = Ok r /\ shape r = [2; 2] /\ get r [0; 0] <> 0%Z.
Proof.
  exists s_b3', s_b3''. eexists. split; [apply wfb_wf; vm_compute; reflexivity|]. split; [apply wfb_wf; vm_compute; reflexivity|].
  split; [discriminate|]. split; [vm_compute; reflexivity|]. split; [reflexivity|]. vm_compute. discriminate.
Qed.
Print Assumptions C26_core_count_unchecked_refuted.
