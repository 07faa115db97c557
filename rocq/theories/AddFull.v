(** [add]: statements on dense tensors, and the inputs on which it raises. *)
From Coq Require Import String List Arith ZArith Lia Bool Ring.
From Verif Require Import Scalar Tensor TensorLemmas TensorLemmas2 Base Spec Chain BaseLemmas Ops
  FullProofs ResultLemmas Dense AddProofs.
Import ListNotations.

Section Add.
Variable K : cring.
Add Ring Kring : (cth K).
Implicit Types a b e : tt K.

Lemma add_full a b : wf a -> wf b -> rshape a = rshape b -> 2 <= ndims a ->
  bsz a = None -> bsz b = None ->
  exists c, add a b = Ok c /\ wf c /\ rshape c = rshape a /\ bsz c = None /\
    rks c = (1 :: map (fun i => rk a i + rk b i) (seq 1 (ndims a - 1)) ++ [1])%nat /\
    elementwise2 cadd a b c.
Proof.
  intros Ha Hb Hr Hd Ba Bb.
  destruct (add_nonbatch K a b Ha Hb Hr Hd Ba Bb) as (c & Hc & Hw & R & Kc & B & N & E).
  exists c. repeat (split; [assumption|]).
  apply elementwise2_intro; auto; try congruence.
  - rewrite B. auto.
  - intros o J HJ HlJ _. rewrite B. unfold bsel. rewrite Ba, Bb. apply E; [|lia].
    clear - HJ R. revert HJ. generalize 0. induction J; cbn; auto. intros k [H1 H2].
    split; auto. now rewrite (modes_ext _ a c k) by congruence.
Qed.

Lemma add_batch_full a b B : wf a -> wf b -> rshape a = rshape b -> 2 <= ndims a ->
  is_batch_broadcasting_possible a b = true -> add_batch_size a b = Ok B -> is_batch a || is_batch b = true ->
  exists c, add a b = Ok c /\ wf c /\ rshape c = rshape a /\ bsz c = Some B /\
    rks c = (1 :: map (fun i => rk a i + rk b i) (seq 1 (ndims a - 1)) ++ [1])%nat /\
    elementwise2 cadd a b c.
Proof.
  intros Ha Hb Hr Hd Hbc HB Hany.
  destruct (add_batch K a b B Ha Hb Hr Hd Hbc HB Hany) as (c & Hc & Hw & R & Kc & EB & N & CA & CB & E).
  exists c. repeat (split; [assumption|]).
  apply elementwise2_intro; auto; try congruence.
  - rewrite EB. auto.
  - intros o J HJ HlJ Ho. rewrite EB in *. apply E; auto; [|lia].
    clear - HJ R. revert HJ. generalize 0. induction J; cbn; auto. intros k [H1 H2].
    split; auto. now rewrite (modes_ext _ a c k) by congruence.
Qed.

(** Errors *)
Lemma add_shape_err a b : rshape a <> rshape b -> add a b = Err ValueError.
Proof.
  intros H. unfold add. destruct (negb (Bool.eqb (is_tt_matrix a) (is_tt_matrix b))); auto.
  destruct (llist_eqb (rshape a) (rshape b)) eqn:E; auto. apply llist_eqb_eq in E. contradiction.
Qed.

Lemma add_batch_err a b : is_batch_broadcasting_possible a b = false -> add a b = Err ValueError.
Proof.
  intros H. unfold add. destruct (negb (Bool.eqb (is_tt_matrix a) (is_tt_matrix b))); auto.
  destruct (negb (llist_eqb (rshape a) (rshape b))); auto. now rewrite H.
Qed.

Lemma add_asks_tt_err a b x : (bsz a = None /\ bsz b = Some x) \/ (bsz a = Some 1 /\ bsz b = None) ->
  add a b = Err ValueError.
Proof.
  intros H. unfold add. destruct (negb (Bool.eqb (is_tt_matrix a) (is_tt_matrix b))); auto.
  destruct (negb (llist_eqb (rshape a) (rshape b))); auto.
  unfold is_batch_broadcasting_possible, is_batch, add_batch_matrix_cores, add_batch_tensor_cores,
    add_batch_size, lazy_batch_size.
  destruct H as [[-> ->]|[-> ->]]; destruct (is_tt_matrix a); reflexivity.
Qed.

Lemma add_one_core_err a b : wf a -> wf b -> ndims a = 1 -> rshape a = rshape b ->
  bsz a = None -> bsz b = None -> add a b = Err ValueError.
Proof.
  intros Ha Hb Hd Hr Ba Bb. pose proof (same_ndims K a b Ha Hb Hr) as Hdd.
  unfold add.
  assert (Em : is_tt_matrix a = is_tt_matrix b) by (unfold is_tt_matrix; now rewrite Hr).
  rewrite Em, eqb_reflx. rewrite (proj2 (llist_eqb_eq _ _) Hr). unfold is_batch_broadcasting_possible, is_batch.
  rewrite Ba, Bb. cbn [negb orb]. rewrite <- Em, Hd. cbn [seq Nat.sub map app].
  pose proof (core_shape _ a 0 Ha ltac:(lia)) as Sa. pose proof (core_shape _ b 0 Hb ltac:(lia)) as Sb.
  unfold bpre in *. rewrite Ba in Sa. rewrite Bb in Sb. cbn [app] in *.
  pose proof (wf_first Ha) as F1. pose proof (wf_last Ha) as F2. pose proof (wf_first Hb) as F3.
  pose proof (wf_last Hb) as F4. rewrite Hd in F2. rewrite <- Hdd, Hd in F4.
  rewrite F1, F2 in Sa. rewrite F3, F4 in Sb. rewrite <- (modes_ext _ a b) in Sb by auto.
  assert (HT : forall t : tensor K, shape t = 1 :: modes a 0 ++ [2] ->
     TensorTrain [t] (STuple (rshape a)) (Some [1;1]) = Err ValueError).
  { intros t St. unfold TensorTrain.
    assert (Ec : clean_raw_shape (STuple (rshape a)) = Ok (Some (rshape a))).
    { destruct (wf_kind Ha); destruct (rshape a); cbn in *; try lia; reflexivity. }
    rewrite Ec. cbn [bind]. unfold cores_valid. cbn [length seq check_cores]. unfold check_core. cbn [nth].
    rewrite Nat.eqb_refl. cbn [negb bind]. rewrite St.
    match goal with |- context [all_axes ?f 0 ?n] => assert (EA : exists bb : bool, all_axes f 0 n = Ok bb) end.
    { pose proof (wf_rlen Ha) as Hrl. rewrite Hd in Hrl. unfold modes.
      destruct (wf_kind Ha) as [E|E]; destruct (rshape a) as [|[|n [|? ?]] [|[|m [|? ?]] [|? ?]]];
        cbn in E; try lia;
        repeat match goal with H : Forall _ (_ :: _) |- _ => apply Forall_cons_iff in H as [? ?] end;
        cbn in *; try lia; unfold nthr; cbn; rewrite ?Nat.eqb_refl; eexists; reflexivity. }
    destruct EA as (bb & ->). cbn [bind]. destruct bb; cbn [negb bind]; auto.
    unfold nthr at 1 2. cbn [nth_error bind Nat.eqb negb].
    change (1 :: modes a 0 ++ [2]) with ((1 :: modes a 0) ++ [2]). rewrite lastr_app.
    unfold nthr. cbn [nth_error bind Nat.eqb negb]. reflexivity. }
  destruct (concat_right K (core a 0) (core b 0) [] 1 (modes a 0) 1 1 Sa Sb) as (t & Ht & Hw & Hs & _).
  destruct (wf_kind_cases _ a Ha) as [(E & Hl & Hm)|(E & Hl & Hm)]; rewrite E.
  - unfold add_tensor_cores. rewrite Hd. cbn [seq mapM Nat.eqb]. rewrite Hm in Ht. cbn [length Nat.add] in Ht.
    rewrite Ht. cbn [bind]. now apply HT.
  - unfold add_matrix_cores. rewrite Hd. cbn [seq mapM Nat.eqb]. rewrite Hm in Ht. cbn [length Nat.add] in Ht.
    rewrite Ht. cbn [bind]. now apply HT.
Qed.

End Add.
