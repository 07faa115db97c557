(** [concat_along_batch_dim], [pairwise_flat_inner], [gram_matrix]. *)
From Coq Require Import String Ascii List Arith ZArith Lia Bool Ring.
From Verif Require Import Scalar Tensor TensorLemmas TensorLemmas2 Base Spec Chain BaseLemmas Ops
  FullProofs ResultLemmas Dense AddProofs MulProofs MatmulProofs DenseMatmul Sweep FlatProofs BilinearProofs BatchOps.
Import ListNotations.

(** The elements of a list of batches in order: (batch, position in that batch). *)
Definition bsize {K : cring} (t : tt K) : nat := match bsz t with Some b => b | None => 0 end.
Definition elements {K : cring} (l : list (tt K)) : list (tt K * nat) :=
  flat_map (fun t => map (fun o => (t, o)) (seq 0 (bsize t))) l.

Section WithK.
Variable K : cring.
Add Ring Kring : (cth K).
Implicit Types t : tt K.

Lemma elements_length (l : list (tt K)) : length (elements l) = fold_right Nat.add 0 (map bsize l).
Proof.
  induction l as [|t l IH]; cbn [elements flat_map map fold_right]; [reflexivity|].
  rewrite app_length, map_length, seq_length. f_equal. exact IH.
Qed.

Lemma elements_In (l : list (tt K)) o t o' : nth_error (elements l) o = Some (t, o') -> In t l /\ o' < bsize t.
Proof.
  intros H. apply nth_error_In in H. unfold elements in H. apply in_flat_map in H as (x & Hx & H).
  apply in_map_iff in H as (y & E & Hy). injection E as <- <-. apply in_seq in Hy. split; auto. lia.
Qed.

Lemma concat_batches_get (l : list (tt K)) i o rest t o' :
  (forall t, In t l -> wf t /\ is_batch t = true /\ i < ndims t) ->
  nth_error (elements l) o = Some (t, o') ->
  concat_get (map (fun t => core t i) l) 0 (o :: rest) o = get (core t i) (o' :: rest).
Proof.
  intros Hl. assert (G : forall o k, nth_error (elements l) o = Some (t, o') ->
    concat_get (map (fun t => core t i) l) 0 (k :: rest) o = get (core t i) (o' :: rest)).
  2:{ intros H. now apply G. }
  clear o. induction l as [|x l IH]; intros o k H; [destruct o; discriminate|].
  cbn [map concat_get]. destruct (Hl x (or_introl eq_refl)) as (Wx & Bx & Nx).
  assert (E : nth 0 (shape (core x i)) 0 = bsize x).
  { rewrite core_shape by auto. unfold bpre, bsize, is_batch in *. destruct (bsz x); [reflexivity|discriminate]. }
  cbv zeta. rewrite E. cbn [elements flat_map] in H. fold (elements l) in H.
  destruct (Nat.ltb_spec o (bsize x)).
  - rewrite nth_error_app1 in H by (now rewrite map_length, seq_length).
    rewrite nth_error_map in H. destruct (nth_error (seq 0 (bsize x)) o) as [y|] eqn:Ey; [|discriminate].
    injection H as <- <-. apply nth_error_nth with (d := 0) in Ey. rewrite seq_nth in Ey by auto. cbn in Ey. subst y.
    reflexivity.
  - rewrite nth_error_app2 in H by (rewrite map_length, seq_length; auto). rewrite map_length, seq_length in H.
    apply IH; auto. intros t' Ht'. apply Hl. now right.
Qed.

Lemma foldM_checks (l : list (tt K)) (f : tt K -> bool -> res bool) : (forall t b, In t l -> f t b = Ok true) ->
  foldM f l true = Ok true.
Proof.
  induction l as [|t l IH]; intros H; cbn [foldM]; [reflexivity|]. rewrite H by now left. cbn [bind]. apply IH.
  intros; apply H; now right.
Qed.

Lemma concat_ok (l : list (tt K)) t0 : In t0 l -> hd_error l = Some t0 ->
  (forall t, In t l -> wf t /\ is_batch t = true /\ rshape t = rshape t0 /\ rks t = rks t0) ->
  exists c, concat_along_batch_dim l = Ok c /\ wf c /\ rshape c = rshape t0 /\ rks c = rks t0 /\
    bsz c = Some (length (elements l)) /\
    forall o t o' J, nth_error (elements l) o = Some (t, o') -> vchain (modes t0) 0 J -> length J = ndims t0 ->
      tt_entry c [o] J = tt_entry t [o'] J.
Proof.
  intros Hin Hhd Hl. destruct (Hl t0 Hin) as (W0 & B0 & _).
  unfold concat_along_batch_dim. destruct l as [|x l]; [discriminate|]. injection Hhd as ->.
  change (nthr (t0 :: l) 0) with (Ok t0). cbn [bind].
  assert (E1 : forallb is_batch (t0 :: l) = true).
  { apply forallb_forall. intros t Ht. now apply Hl. }
  rewrite E1. cbn [negb tl]. rewrite foldM_checks.
  2:{ intros t b Ht. destruct (Hl t (or_intror Ht)) as (_ & _ & -> & ->). now rewrite llist_eqb_refl, list_eqb_refl. }
  cbn [bind]. set (L := t0 :: l) in *.
  assert (ND : forall t, In t L -> ndims t = ndims t0).
  { intros t Ht. destruct (Hl t Ht) as (Wt & _ & Rt & _). now apply (same_ndims K t t0). }
  set (N := length (elements L)).
  change (fun t : tt K => match bsz t with Some b => b | None => 0 end) with (@bsize K).
  rewrite <- elements_length. fold N.
  assert (NP : 0 < N).
  { unfold N. rewrite elements_length. cbn [map fold_right L]. pose proof (wf_bpos W0) as P. unfold bpre, bsize, is_batch in *.
    destruct (bsz t0); [|discriminate]. inversion P; subst. lia. }
  destruct (build_ok K (fun i => concat (map (fun t => core t i) L) 0)
    (fun i c => forall o rest t o', o < N -> vidx (rk t0 i :: modes t0 i ++ [rk t0 (S i)]) rest ->
       nth_error (elements L) o = Some (t, o') -> get c (o :: rest) = get (core t i) (o' :: rest))
    (ndims t0) (Some N) (rshape t0) (rks t0)) as (cs & Ecs & Lcs & Econ & Wc & Pc).
  - apply (wf_d W0).
  - apply (wf_kind W0).
  - apply (wf_rlen W0).
  - apply (wf_klen W0).
  - apply (wf_first W0).
  - apply (wf_last W0).
  - apply (wf_rpos W0).
  - apply (wf_kpos W0).
  - cbn [pre_of]. auto.
  - intros i Hi.
    assert (SH : forall t, In t L -> shape (core t i) = bsize t :: rk t0 i :: modes t0 i ++ [rk t0 (S i)]).
    { intros t Ht. destruct (Hl t Ht) as (Wt & Bt & Rt & Kt). rewrite core_shape by (rewrite ?ND; auto).
      rewrite (modes_ext _ t t0 i Rt). unfold rk. rewrite Kt. unfold bpre, bsize, is_batch in *.
      destruct (bsz t); [reflexivity|discriminate]. }
    assert (ES : fold_right Nat.add 0 (map (fun x : tensor K => nth 0 (shape x) 0) (map (fun t => core t i) L)) = N).
    { unfold N. rewrite elements_length, map_map. f_equal. apply map_ext_in. intros t Ht. now rewrite SH. }
    assert (EC : concat (map (fun t => core t i) L) 0 = Ok (mk (N :: rk t0 i :: modes t0 i ++ [rk t0 (S i)])
       (fun idx => concat_get (map (fun t => core t i) L) 0 idx (nth 0 idx 0)))).
    { unfold concat. unfold L at 1. cbn [map].
      replace (rank (core t0 i)) with (length (shape (core t0 i))) by reflexivity. rewrite (SH t0 Hin). cbn [length Nat.ltb Nat.leb andb].
      match goal with |- (if ?b then _ else _) = _ => assert (E : b = true) end.
      { apply forallb_forall. intros y Hy. change (In y (map (fun t => core t i) L)) in Hy.
        apply in_map_iff in Hy as (t & <- & Ht). rewrite (SH t Ht). cbn [upd]. apply list_eqb_refl. }
      rewrite E. cbn [upd]. f_equal. f_equal. f_equal. exact ES. }
    eexists. split; [exact EC|]. split; [apply wft_mk|]. split; [reflexivity|].
    intros o rest t o' Ho Hr Hn. rewrite get_mk by (now apply vidx_cons).
    cbn [nth]. apply concat_batches_get; auto. intros t' Ht'. destruct (Hl t' Ht') as (? & ? & _). rewrite ND by auto. auto.
  - rewrite Ecs. cbn [bind]. unfold construct in Econ. rewrite Econ. eexists. split; [reflexivity|]. split; [exact Wc|].
    do 3 (split; [reflexivity|]). set (c := TT cs (rshape t0) (rks t0) (Some N)) in *.
    intros o t o' J Hn HJ HL. destruct (elements_In _ _ _ _ Hn) as [Ht Ho'].
    assert (Ho : o < N). { apply nth_error_Some. congruence. }
    assert (NC : ndims c = ndims t0) by exact Lcs.
    destruct (Hl t Ht) as (Wt & Bt & Rt & Kt).
    rewrite (tt_entry_cores K c [o] J (coreG t [o'])); auto.
    + unfold tt_entry. unfold rk. cbn [rks c]. rewrite Kt. reflexivity.
    + congruence.
    + intros i a j b Hi Ha Hj Hb. unfold coreG. change (core c i) with (nth i cs (core0 K)).
      cbn [app]. apply Pc; auto; [congruence|]. apply vidx_cons; [exact Ha|]. apply vidx_app; [exact Hj|]. vsolve. exact Hb.
Qed.

Lemma concat_full (l : list (tt K)) t0 : hd_error l = Some t0 ->
  (forall t, In t l -> wf t /\ is_batch t = true /\ rshape t = rshape t0 /\ rks t = rks t0) ->
  exists c dc, concat_along_batch_dim l = Ok c /\ wf c /\ rshape c = rshape t0 /\ rks c = rks t0 /\
    bsz c = Some (length (elements l)) /\ full c = Ok dc /\ shape dc = get_shape c /\
    forall o t o', nth_error (elements l) o = Some (t, o') -> exists d, full t = Ok d /\
      forall i, vidx (shape dc) (o :: i) -> get dc (o :: i) = get d (o' :: i).
Proof.
  intros Hhd Hl. assert (Hin : In t0 l) by (destruct l; [discriminate|]; injection Hhd as ->; now left).
  destruct (concat_ok l t0 Hin Hhd Hl) as (c & Ec & Wc & Rc & Kc & Bc & Gc).
  destruct (full_correct K c Wc) as (dc & Fc & Wdc & Sc & Edc).
  exists c, dc. repeat (split; [assumption|]).
  intros o t o' Hn. destruct (elements_In _ _ _ _ Hn) as [Ht Ho']. destruct (Hl t Ht) as (Wt & Bt & Rt & Kt).
  destruct (full_correct K t Wt) as (d & Fd & Wd & Sd & Ed). exists d. split; [exact Fd|].
  intros i Hi. rewrite Sc in Hi. rewrite Edc by auto.
  assert (IS : ishape t = ishape c). { unfold ishape, is_tt_matrix. now rewrite Rt, Rc. }
  rewrite get_shape_ishape in Hi. unfold bpre in Hi. rewrite Bc in Hi. cbn [app] in Hi. apply vidx_cons_inv in Hi as [Ho Hi].
  unfold bsize, is_batch in *. destruct (bsz t) as [b|] eqn:Eb; [|discriminate].
  rewrite Ed. 2:{ rewrite get_shape_ishape, IS. unfold bpre. rewrite Eb. now apply vidx_cons. }
  unfold tt_at. rewrite Bc, Eb. cbn [nth tl]. 
  assert (ES : split_idx c i = split_idx t i) by (unfold split_idx, is_tt_matrix; now rewrite Rt, Rc).
  rewrite ES. rewrite <- IS in Hi. destruct (split_idx_valid _ t i Wt Hi) as [V1 V2].
  apply Gc; auto.
  - eapply vchain_ext; [|exact V1]. intros k. now apply modes_ext.
  - rewrite V2. now apply (same_ndims K t t0); try apply (Hl t0 Hin).
Qed.

(** Errors. *)
Lemma concat_tt_err (l : list (tt K)) : l <> [] -> existsb (fun t => negb (is_batch t)) l = true ->
  concat_along_batch_dim l = Err ValueError.
Proof.
  intros Hne H. unfold concat_along_batch_dim. destruct l as [|x l]; [congruence|].
  change (nthr (x :: l) 0) with (Ok x). cbn [bind].
  destruct (forallb is_batch (x :: l)) eqn:E; [|reflexivity].
  apply existsb_exists in H as (t & Ht & Bt). rewrite forallb_forall in E. rewrite (E t Ht) in Bt. discriminate.
Qed.

Lemma foldM_reject (l : list (tt K)) (f : tt K -> bool -> res bool) : (forall t b, f t b = Ok true \/ f t b = Err ValueError) ->
  (exists t, In t l /\ forall b, f t b = Err ValueError) -> forall b, foldM f l b = Err ValueError.
Proof.
  intros Hf (t & Ht & He). induction l as [|x l IH]; intros b; [destruct Ht|]. cbn [foldM].
  destruct (Hf x b) as [E|E]; rewrite E; cbn [bind]; [|reflexivity].
  destruct Ht as [->|Ht]; [rewrite He in E; discriminate|]. now apply IH.
Qed.

Lemma concat_shape_err (l : list (tt K)) t0 : hd_error l = Some t0 ->
  (exists t, In t l /\ (rshape t <> rshape t0 \/ rks t <> rks t0)) -> concat_along_batch_dim l = Err ValueError.
Proof.
  intros Hhd (t & Ht & H). unfold concat_along_batch_dim. destruct l as [|x l]; [discriminate|]. injection Hhd as ->.
  change (nthr (t0 :: l) 0) with (Ok t0). cbn [bind tl].
  destruct (forallb is_batch (t0 :: l)); cbn [negb]; [|reflexivity].
  rewrite foldM_reject; [reflexivity| |].
  - intros t' _. destruct (negb _); auto. destruct (negb _); auto.
  - destruct Ht as [->|Ht]; [destruct H; congruence|]. exists t. split; auto. intros _.
    destruct (llist_eqb (rshape t) (rshape t0)) eqn:E1; cbn [negb]; auto.
    destruct (list_eqb (rks t) (rks t0)) eqn:E2; cbn [negb]; auto.
    apply list_eqb_eq in E2. apply llist_eqb_eq in E1. destruct H; congruence.
Qed.

End WithK.
