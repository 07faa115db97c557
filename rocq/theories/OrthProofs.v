(** [orthogonalize_tt_cores]. *)
From Coq Require Import String Ascii List Arith ZArith Lia Bool Ring Reals.
From Verif Require Import Scalar Tensor TensorLemmas TensorLemmas2 Base Spec Chain BaseLemmas Ops
  FullProofs ResultLemmas Dense Sweep OpsR Decomp DecompSpec GaugeProofs.
Import ListNotations.
Local Notation get := (@get Rring).
Local Notation RT := (@Tensor Rring).
Local Notation core0 := (core0 Rring).
Add Ring Rring' : (cth Rring).

Lemma last_nth {A} (l : list A) x : last l x = nth (length l - 1) l x.
Proof.
  induction l as [|a l IH]; [reflexivity|]. destruct l as [|b l]; [reflexivity|].
  change (last (a :: b :: l) x) with (last (b :: l) x). rewrite IH. cbn [length].
  replace (S (S (length l)) - 1) with (S (S (length l) - 1)) by lia. reflexivity.
Qed.

(** Constructing with a given shape and inferred ranks. *)
Lemma construct_infer (o : rtt) : wf o ->
  match bpre o with
  | [] => TensorTrain (cores o) (STuple (rshape o)) None
  | b :: _ => TensorTrainBatch (cores o) (STuple (rshape o)) None (Some b)
  end = Ok o.
Proof.
  intros Wv. pose proof (wf_shaped _ _ Wv) as HS.
  assert (Hne : rshape o <> []). { intros E. pose proof (wf_kind Wv) as [H|H]; rewrite E in H; discriminate. }
  assert (HC : clean_raw_shape (STuple (rshape o)) = Ok (Some (rshape o))) by (destruct (rshape o); [congruence|reflexivity]).
  unfold bpre in *. destruct (bsz o) as [B|] eqn:EB.
  - unfold TensorTrainBatch. rewrite HC. cbn [bind].
    pose proof (cores_valid_ok Rring [B] (rshape o) (rks o) (cores o) (Some (rshape o)) None (Some B)) as HV.
    cbn [length] in HV. rewrite HV; try apply Wv; auto.
    + cbn [bind negb]. pose proof (infer_tt_ranks_ok Rring [B] (rshape o) (rks o) (cores o)) as HI. cbn [length] in HI.
      rewrite HI; try apply Wv; auto. destruct o as [cs rs ks bs]. cbn in *. now subst.
    + right. exists B. auto.
  - unfold TensorTrain. rewrite HC. cbn [bind].
    pose proof (cores_valid_ok Rring [] (rshape o) (rks o) (cores o) (Some (rshape o)) None None) as HV.
    cbn [length] in HV. rewrite HV; try apply Wv; auto.
    cbn [bind negb]. pose proof (infer_tt_ranks_ok Rring [] (rshape o) (rks o) (cores o)) as HI. cbn [length] in HI.
    rewrite HI; try apply Wv; auto. destruct o as [cs rs ks bs]. cbn in *. now subst.
Qed.

Lemma core_modes_eq t i : wf t -> core_modes t i = modes t i.
Proof. intros Hw. unfold core_modes. destruct (wf_kind_cases _ t Hw) as [(E & _ & Hm)|(E & _ & Hm)]; now rewrite E, Hm. Qed.

Lemma bpre_len (t : rtt) : length (bpre t) <= 1.
Proof. unfold bpre. destruct (bsz t); cbn; lia. Qed.

Lemma pos_shape (t : rtt) m n : wf t -> 0 < m -> 0 < n -> Forall (fun k => 0 < k) (bpre t ++ [m; n]).
Proof. intros Hw Hm Hn. apply Forall_app. split; [apply (wf_bpos Hw)|]. repeat constructor; auto. Qed.

Lemma good_nth t cs ranks k : good t cs ranks -> k <= ndims t -> 0 < nth k ranks 0.
Proof. intros g Hk. apply (Forall_nth' (fun n => 0 < n)); [apply g|]. rewrite (g_rlen _ _ _ g). lia. Qed.

Lemma modes_prod_pos (t : rtt) k : wf t -> k < ndims t -> 0 < prodn (modes t k).
Proof. intros. apply prodn_pos. now apply modes_pos. Qed.

Lemma modes_idx_len (t : rtt) k j : vidx (modes t k) j -> length j = length (modes t k).
Proof. apply vidx_length. Qed.

(** Orthonormality in terms of the matrix view. *)
Lemma left_orth_view t cs ranks p k (q : rtensor) m : wf t -> k < ndims t -> vidx (bpre t) p ->
  data q = data (nth k cs core0) -> m = nth k ranks 0 * prodn (modes t k) ->
  shape q = bpre t ++ [m; nth (S k) ranks 0] ->
  (forall a b, a < nth (S k) ranks 0 -> b < nth (S k) ranks 0 ->
     sumn (K := Rring) m (fun i => get q (p ++ [i; a]) * get q (p ++ [i; b]))%K = kron a b) ->
  left_orthonormal (vtt t cs ranks) p k.
Proof.
  intros Hw Hk Hp Hq -> Hs H b b' Hb Hb'. rewrite <- H by auto. rewrite sumn_lview.
  change (rk (vtt t cs ranks) k) with (nth k ranks 0). change (modes (vtt t cs ranks) k) with (modes t k).
  apply isum_ext. intros x Hx. rewrite vtt_core by auto. unfold vcore, vshape. rewrite <- Hq.
  destruct x as [|a j]; [inversion Hx|]. apply vidx_cons_inv in Hx as [Ha Hj]. cbn [app nth tl].
  rewrite !lview by (try apply (vidx_length _ _ Hp); apply (vidx_length _ _ Hj)).
  rewrite <- Hs. now destruct q.
Qed.

Section LR.
Variable qr : rtensor -> rtensor * rtensor.
Hypothesis Hqr : qr_ok qr.
Variable t : rtt.
Hypothesis Hw : wf t.
Let d := ndims t.

Definition lr_inv (i : nat) (st : list rtensor * nat) : Prop := exists ranks,
  good t (fst st) ranks /\ nth i ranks 0 = snd st /\
  (forall k, i < k <= d -> nth k ranks 0 = rk t k) /\
  (forall k, k < i -> shape (nth k (fst st) core0) = vshape t ranks k) /\
  (forall k, k < i -> nth (S k) ranks 0 = Nat.min (nth k ranks 0 * prodn (modes t k)) (rk t (S k))) /\
  (forall p J, vidx (bpre t) p -> vchain (modes t) 0 J -> length J = d ->
     tt_entry (vtt t (fst st) ranks) p J = tt_entry t p J) /\
  (forall p k, vidx (bpre t) p -> k < i -> left_orthonormal (vtt t (fst st) ranks) p k).

Lemma left_orth_ext cs cs' ranks ranks' p k : nth k cs core0 = nth k cs' core0 ->
  nth k ranks 0 = nth k ranks' 0 -> nth (S k) ranks 0 = nth (S k) ranks' 0 -> k < d ->
  left_orthonormal (vtt t cs ranks) p k -> left_orthonormal (vtt t cs' ranks') p k.
Proof.
  intros E1 E2 E3 Hk H b b' Hb Hb'.
  change (rk (vtt t cs' ranks') (S k)) with (nth (S k) ranks' 0) in *. change (rk (vtt t cs' ranks') k) with (nth k ranks' 0).
  change (modes (vtt t cs' ranks') k) with (modes t k). rewrite <- E3 in *.
  rewrite <- (H b b' Hb Hb'). change (rk (vtt t cs ranks) k) with (nth k ranks 0). rewrite E2.
  change (modes (vtt t cs ranks) k) with (modes t k).
  apply isum_ext. intros x _. rewrite !vtt_core by auto. unfold vcore, vshape. now rewrite E1, E2, E3.
Qed.

Lemma lr_step i st : S i < d -> lr_inv i st -> exists st', orth_lr_step qr (bpre t) t i st = Ok st' /\ lr_inv (S i) st'.
Proof.
  intros Hi (ranks & g & Hr & Hrest & Hsh & Hmin & Hent & Horth). destruct st as [cs r]. cbn [fst snd] in *. subst r.
  pose proof (wf_d Hw) as Hd.
  assert (Hi' : i < d) by lia.
  pose proof (good_nth _ _ _ i g ltac:(fold d; lia)) as P0. pose proof (good_nth _ _ _ (S i) g ltac:(fold d; lia)) as P1.
  pose proof (good_nth _ _ _ (S (S i)) g ltac:(fold d; lia)) as P2.
  pose proof (modes_prod_pos t i Hw Hi') as Pm. pose proof (modes_prod_pos t (S i) Hw Hi) as Pm1.
  pose proof (prodn_pos _ (wf_bpos Hw)) as Pb.
  unfold orth_lr_step, lazy_tt_ranks. rewrite core_modes_eq by auto.
  rewrite (nthr_nth cs i core0) by (rewrite (g_len _ _ _ g); exact Hi'). cbn [bind].
  rewrite (nthr_nth (rks t) (S i) 0) by (rewrite (wf_klen Hw); fold d; lia). cbn [bind]. cbv zeta.
  change (nth (S i) (rks t) 0) with (rk t (S i)). rewrite <- (Hrest (S i)) by lia.
  set (r0 := nth i ranks 0) in *. set (r1 := nth (S i) ranks 0) in *. set (r2 := nth (S (S i)) ranks 0) in *.
  destruct (g_core _ _ _ g i Hi') as [Wc Sc]. destruct (g_core _ _ _ g (S i) Hi) as [Wn Sn].
  unfold vshape in Sc, Sn. fold r0 r1 r2 in Sc, Sn.
  set (c := nth i cs core0) in *. set (nc := nth (S i) cs core0) in *.
  rewrite reshape_exact. 2:{ unfold size. rewrite Sc. pns. lia. }
  cbn [bind]. set (m := RT (bpre t ++ [r0 * prodn (modes t i); r1]) (data c)).
  assert (Wm : wft m). { apply (wft_reshaped Rring c); auto. rewrite Sc. pns. lia. }
  destruct (Hqr (bpre t) (r0 * prodn (modes t i)) r1 m Wm eq_refl) as (Wq & Sq & Wr & Sr & HQ).
  { apply pos_shape; auto. nia. }
  destruct (qr m) as [q rr]. cbn [fst snd] in *. set (k := Nat.min (r0 * prodn (modes t i)) r1) in *.
  assert (Pk : 0 < k) by (unfold k; nia).
  rewrite (nthr_nth (shape rr) _ 0) by (rewrite Sr, app_length; cbn; lia).
  rewrite (nthr_nth (shape rr) _ 0) by (rewrite Sr, app_length; cbn; lia). cbn [bind].
  rewrite Sr. replace (nth (length (bpre t)) (bpre t ++ [k; r1]) 0) with k by (symmetry; apply nth_middle).
  replace (nth (S (length (bpre t))) (bpre t ++ [k; r1]) 0) with r1.
  2:{ rewrite <- Nat.add_1_r, app_nth2_plus. reflexivity. }
  rewrite reshape_exact. 2:{ unfold size. rewrite Sq. pns. lia. }
  cbn [bind]. set (q' := RT (bpre t ++ r0 :: modes t i ++ [k]) (data q)).
  rewrite (nthr_nth _ (S i) core0) by (rewrite length_upd, (g_len _ _ _ g); exact Hi). cbn [bind].
  rewrite nth_upd_other by lia. fold nc.
  replace (map Some (bpre t ++ [r1]) ++ [None]) with (map Some (bpre t ++ [r1]) ++ None :: map Some []) by reflexivity.
  rewrite (reshape_infer _ _ _ _ (prodn (modes t (S i)) * r2)).
  2:{ pns. nia. } 2:{ pns. lia. } 2:{ unfold size. rewrite Sn. pns. lia. }
  cbn [bind]. rewrite <- app_assoc. cbn [app]. set (n2 := RT (bpre t ++ [r1; prodn (modes t (S i)) * r2]) (data nc)).
  destruct (matmul_pre rr n2 (bpre t) k r1 (prodn (modes t (S i)) * r2) (bpre_len t) Sr eq_refl) as (y & Ey & Wy & Sy & Gy).
  rewrite Ey. cbn [bind]. eexists. split; [reflexivity|].
  exists (upd (S i) k ranks). cbn [fst snd].
  assert (Rl : S i < length ranks) by (rewrite (g_rlen _ _ _ g); fold d; lia).
  assert (Cl : length cs = d) by (apply (g_len _ _ _ g)).
  split.
  { apply good_upd; auto; fold r0 r2; try (unfold q'; cbn [shape]; reflexivity).
    - apply (wft_reshaped Rring q); auto. rewrite Sq. pns. lia.
    - rewrite Sy. pns. lia. }
  split; [now apply nth_upd_same|]. split.
  { intros k' Hk'. rewrite nth_upd_other by lia. apply Hrest. lia. }
  split.
  { intros k' Hk'. rewrite nth_upd_other by lia. destruct (Nat.eq_dec k' i) as [->|Hne].
    - rewrite nth_upd_same by lia. unfold vshape. rewrite nth_upd_same by lia. rewrite nth_upd_other by lia. reflexivity.
    - rewrite nth_upd_other by lia. rewrite Hsh by lia. unfold vshape. now rewrite !nth_upd_other by lia. }
  split.
  { intros k' Hk'. destruct (Nat.eq_dec k' i) as [->|Hne].
    - rewrite nth_upd_same by lia. rewrite nth_upd_other by lia. fold r0. rewrite <- (Hrest (S i)) by lia. reflexivity.
    - rewrite !nth_upd_other by lia. apply Hmin. lia. }
  split.
  { intros p J Hp HJ HL. rewrite entry_upd; auto. clear p J Hp HJ HL.
    intros p a j1 j2 c2 Hp Ha Hj1 Hj2 Hc2. fold r0 in Ha. fold r2 in Hc2. fold r0 r1 r2.
    pose proof (vidx_length _ _ Hp) as Lp. pose proof (vidx_length _ _ Hj1) as L1. pose proof (vidx_length _ _ Hj2) as L2.
    destruct (HQ p Hp) as [HQ1 _].
    set (x1 := a * prodn (modes t i) + ravel (modes t i) j1).
    set (x2 := ravel (modes t (S i)) j2 * r2 + c2).
    assert (B1 : x1 < r0 * prodn (modes t i)) by (apply lview_lt; auto).
    assert (B2 : x2 < prodn (modes t (S i)) * r2) by (apply rview_lt; auto).
    rewrite (sumn_ext Rring r1 _ (fun b => sumn (K := Rring) k (fun l => get q (p ++ [x1; l]) * get rr (p ++ [l; b]) * get n2 (p ++ [b; x2]))%K)).
    2:{ intros b Hb. unfold vcore, vshape. fold r0 r1 r2 c nc. rewrite lview, rview by auto. fold x1 x2 m n2.
        rewrite HQ1 by auto. now rewrite sumn_mul_r. }
    rewrite sumn_swap. apply sumn_ext. intros l Hl.
    unfold q'. cbn [data]. rewrite lview, rview by auto. fold x1 x2.
    replace (RT (bpre t ++ [r0 * prodn (modes t i); k]) (data q)) with q by (rewrite <- Sq; now destruct q).
    replace (RT (bpre t ++ [k; prodn (modes t (S i)) * r2]) (data y)) with y by (rewrite <- Sy; now destruct y).
    rewrite Gy by auto. rewrite <- sumn_mul_l. apply sumn_ext. intros b _. ring. }
  { intros p k' Hp Hk'. destruct (Nat.eq_dec k' i) as [->|Hne].
    - apply left_orth_view with (q := q) (m := r0 * prodn (modes t i)); auto.
      + rewrite nth_upd_other by lia. rewrite nth_upd_same by lia. reflexivity.
      + rewrite nth_upd_other by lia. reflexivity.
      + rewrite nth_upd_same by lia. exact Sq.
      + rewrite nth_upd_same by lia. apply (HQ p Hp).
    - apply (left_orth_ext cs _ ranks _); [| | |lia|apply Horth; auto; lia].
      + now rewrite !nth_upd_other by lia.
      + now rewrite !nth_upd_other by lia.
      + now rewrite !nth_upd_other by lia. }
Qed.

(** Result of left-to-right orthogonalization. *)
Lemma orth_lr_ok : exists o, orth_lr qr (bpre t) t = Ok o /\ wf o /\ rshape o = rshape t /\ bsz o = bsz t /\ ndims o = d /\
  (forall k, k < d - 1 -> rk o (S k) = Nat.min (rk o k * prodn (modes t k)) (rk t (S k))) /\
  (forall p J, vidx (bpre t) p -> vchain (modes t) 0 J -> length J = d -> tt_entry o p J = tt_entry t p J) /\
  (forall p k, vidx (bpre t) p -> k < d - 1 -> left_orthonormal o p k).
Proof.
  pose proof (wf_d Hw) as Hd. fold d in Hd.
  unfold orth_lr, lazy_tt_ranks. rewrite (nthr_nth (rks t) 0 0) by (rewrite (wf_klen Hw); lia). cbn [bind].
  destruct (foldM_seq (orth_lr_step qr (bpre t) t) lr_inv (d - 1) 0 (cores t, rk t 0)) as (st & Est & Hst).
  - exists (rks t). cbn [fst snd]. split; [now apply good_init|]. repeat (split; [reflexivity|]).
    split; [intros; lia|]. split; [intros; lia|]. split; [intros; now rewrite vtt_init|]. intros; lia.
  - intros i s Hi Hs. apply lr_step; auto. lia.
  - change (nth 0 (rks t) 0) with (rk t 0). fold d. rewrite Est. cbn [bind]. cbn [Nat.add] in Hst.
    destruct st as [cs r]. destruct Hst as (ranks & g & Hr & Hrest & Hsh & Hmin & Hent & Horth). cbn [fst snd] in *.
    assert (Cl : length cs = d) by (apply (g_len _ _ _ g)).
    rewrite (lastr_last cs core0) by (intros ->; cbn in Cl; lia). cbn [bind].
    assert (El : last cs core0 = nth (d - 1) cs core0).
    { rewrite <- Cl. apply last_nth. }
    rewrite El. rewrite core_modes_eq by auto.
    destruct (g_core _ _ _ g (d - 1) ltac:(fold d; lia)) as [Wl Sl]. unfold vshape in Sl. rewrite Hr in Sl.
    replace (S (d - 1)) with d in Sl by lia. unfold d at 3 in Sl. rewrite (g_last _ _ _ g) in Sl.
    rewrite reshape_exact by (unfold size; now rewrite Sl). cbn [bind].
    set (lc := RT _ (data (nth (d - 1) cs core0))).
    assert (HV : vtt t (upd (d - 1) lc cs) ranks = vtt t cs ranks).
    { unfold vtt. f_equal. apply map_ext_in. intros k Hk. apply in_seq in Hk. unfold vcore. f_equal.
      destruct (Nat.eq_dec k (d - 1)) as [->|Hne]; [now rewrite nth_upd_same by lia|now rewrite nth_upd_other by lia]. }
    assert (Hcs : upd (d - 1) lc cs = cores (vtt t cs ranks)).
    { unfold vtt. cbn [cores]. apply nth_ext with (d := core0) (d' := core0); [now rewrite length_upd, map_length, seq_length|].
      intros k Hk. rewrite length_upd, Cl in Hk. rewrite (nth_map_default _ _ _ 0) by (now rewrite seq_length).
      rewrite seq_nth by auto. cbn [Nat.add]. unfold vcore.
      destruct (Nat.eq_dec k (d - 1)) as [->|Hne].
      - rewrite nth_upd_same by lia. unfold lc. f_equal. unfold vshape. rewrite Hr. replace (S (d - 1)) with d by lia.
        unfold d at 3. now rewrite (g_last _ _ _ g).
      - rewrite nth_upd_other by lia. rewrite <- Hsh by lia. now destruct (nth k cs core0). }
    pose proof (good_wf t cs ranks Hw g) as Wv.
    exists (vtt t cs ranks).
    assert (HT : (match bpre t with
      | [] => TensorTrain (upd (d - 1) lc cs) (STuple (rshape t)) None
      | b :: _ => TensorTrainBatch (upd (d - 1) lc cs) (STuple (rshape t)) None (Some b)
      end) = Ok (vtt t cs ranks)).
    { rewrite Hcs. apply (construct_infer (vtt t cs ranks) Wv). }
    rewrite HT. split; [reflexivity|]. split; [exact Wv|]. split; [reflexivity|]. split; [reflexivity|].
    split; [apply vtt_ndims|]. split.
    { intros k Hk. apply Hmin. lia. }
    split; [exact Hent|exact Horth].
Qed.
End LR.

(** *** Right to left *)
Lemma foldM_rev_seq1 {S} (f : nat -> S -> res S) (I : nat -> S -> Prop) n s :
  I n s -> (forall i s, 0 < i <= n -> I i s -> exists s', f i s = Ok s' /\ I (i - 1) s') ->
  exists s', foldM f (rev (seq 1 n)) s = Ok s' /\ I 0 s'.
Proof.
  revert s; induction n; intros s Hn H.
  - cbn. eauto.
  - rewrite seq_S, rev_app_distr. cbn [rev app Nat.add foldM]. destruct (H (Datatypes.S n) s ltac:(lia) Hn) as (s1 & E1 & I1). rewrite E1. cbn [bind].
    rewrite Nat.sub_succ, Nat.sub_0_r in I1. apply IHn; auto. intros. apply H; auto. lia.
Qed.

Lemma upd_comm {A} i k (x y : A) l : i <> k -> upd i x (upd k y l) = upd k y (upd i x l).
Proof. revert i k; induction l; intros [|i] [|k] H; cbn; auto; [congruence|]. now rewrite IHl by congruence. Qed.

Lemma right_orth_view t cs ranks p k (q : rtensor) n : wf t -> k < ndims t -> vidx (bpre t) p ->
  data q = data (nth k cs core0) -> n = prodn (modes t k) * nth (S k) ranks 0 ->
  shape q = bpre t ++ [nth k ranks 0; n] ->
  (forall a b, a < nth k ranks 0 -> b < nth k ranks 0 ->
     sumn (K := Rring) n (fun i => get q (p ++ [a; i]) * get q (p ++ [b; i]))%K = kron a b) ->
  right_orthonormal (vtt t cs ranks) p k.
Proof.
  intros Hw Hk Hp Hq -> Hs H a a' Ha Ha'. rewrite <- H by auto. rewrite sumn_rview.
  change (rk (vtt t cs ranks) (S k)) with (nth (S k) ranks 0). change (modes (vtt t cs ranks) k) with (modes t k).
  apply isum_ext. intros x Hx. rewrite vtt_core by auto. unfold vcore, vshape. rewrite <- Hq.
  apply vidx_app_inv in Hx as (j & b & -> & Hj & Hb). apply vidx_1_inv in Hb as (b0 & -> & Hb).
  pose proof (vidx_length _ _ Hj) as Lj. rewrite <- Lj.
  rewrite firstn_app, firstn_all, Nat.sub_diag, app_nil_r, nth_middle.
  rewrite !rview by (try apply (vidx_length _ _ Hp); auto).
  rewrite <- Hs. now destruct q.
Qed.

Section RL.
Variable qr : rtensor -> rtensor * rtensor.
Hypothesis Hqr : qr_ok qr.
Variable t : rtt.
Hypothesis Hw : wf t.
Hypothesis Hb : bsz t = None.
Let d := ndims t.

Lemma right_orth_ext cs cs' ranks ranks' p k : nth k cs core0 = nth k cs' core0 ->
  nth k ranks 0 = nth k ranks' 0 -> nth (S k) ranks 0 = nth (S k) ranks' 0 -> k < d ->
  right_orthonormal (vtt t cs ranks) p k -> right_orthonormal (vtt t cs' ranks') p k.
Proof.
  intros E1 E2 E3 Hk H b b' Hb1 Hb'.
  change (rk (vtt t cs' ranks') (S k)) with (nth (S k) ranks' 0) in *. change (rk (vtt t cs' ranks') k) with (nth k ranks' 0) in *.
  change (modes (vtt t cs' ranks') k) with (modes t k). rewrite <- E3, <- E2 in *.
  rewrite <- (H b b' Hb1 Hb'). change (rk (vtt t cs ranks) (S k)) with (nth (S k) ranks 0).
  change (modes (vtt t cs ranks) k) with (modes t k).
  apply isum_ext. intros x _. rewrite !vtt_core by auto. unfold vcore, vshape. now rewrite E1, E2, E3.
Qed.

Definition rl_inv (i : nat) (st : list rtensor * nat) : Prop := exists ranks,
  good t (fst st) ranks /\ nth (S i) ranks 0 = snd st /\
  (forall k, k <= i -> nth k ranks 0 = rk t k) /\
  (forall k, i < k < d -> shape (nth k (fst st) core0) = vshape t ranks k) /\
  (forall k, i < k < d -> nth k ranks 0 = Nat.min (rk t k) (prodn (modes t k) * nth (S k) ranks 0)) /\
  (forall J, vchain (modes t) 0 J -> length J = d ->
     tt_entry (vtt t (fst st) ranks) [] J = tt_entry t [] J) /\
  (forall k, i < k < d -> right_orthonormal (vtt t (fst st) ranks) [] k).

Lemma bpre_nil : bpre t = [].
Proof. unfold bpre. now rewrite Hb. Qed.

Lemma rl_step i' st : S i' < d -> rl_inv (S i') st -> exists st', orth_rl_step qr t (S i') st = Ok st' /\ rl_inv i' st'.
Proof.
  intros Hi (ranks & g & Hr & Hrest & Hsh & Hmin & Hent & Horth). destruct st as [cs r]. cbn [fst snd] in *. subst r.
  pose proof (wf_d Hw) as Hd. pose proof bpre_nil as Bn.
  assert (Hi' : i' < d) by lia. set (i := S i') in *.
  pose proof (good_nth _ _ _ i' g ltac:(fold d; lia)) as P0. pose proof (good_nth _ _ _ i g ltac:(fold d; lia)) as P1.
  pose proof (good_nth _ _ _ (S i) g ltac:(fold d; lia)) as P2.
  pose proof (modes_prod_pos t i' Hw Hi') as Pm. pose proof (modes_prod_pos t i Hw Hi) as Pm1.
  unfold orth_rl_step, lazy_tt_ranks. rewrite core_modes_eq by auto.
  rewrite (nthr_nth cs i core0) by (rewrite (g_len _ _ _ g); exact Hi). cbn [bind].
  rewrite (nthr_nth (rks t) i 0) by (rewrite (wf_klen Hw); fold d; lia). cbn [bind]. cbv zeta.
  change (nth i (rks t) 0) with (rk t i). rewrite <- (Hrest i) by lia.
  set (r0 := nth i' ranks 0) in *. set (r1 := nth i ranks 0) in *. set (r2 := nth (S i) ranks 0) in *.
  destruct (g_core _ _ _ g i Hi) as [Wc Sc]. destruct (g_core _ _ _ g i' Hi') as [Wn Sn].
  unfold vshape in Sc, Sn. fold i in Sc, Sn. fold r0 r1 r2 in Sc, Sn. rewrite Bn in Sc, Sn. cbn [app] in Sc, Sn.
  set (c := nth i cs core0) in *. set (nc := nth i' cs core0) in *.
  rewrite reshape_exact. 2:{ unfold size. rewrite Sc. pns. lia. }
  cbn [bind]. set (m := RT ([] ++ [r1; prodn (modes t i) * r2]) (data c)). change (RT [r1; prodn (modes t i) * r2] (data c)) with m.
  assert (Wm : wft m). { apply (wft_reshaped Rring c); auto. rewrite Sc. cbn [app]. pns. lia. }
  destruct (swap_last_ok [] m r1 (prodn (modes t i) * r2) ltac:(cbn; lia) Wm eq_refl) as (mt & Emt & Wmt & Smt & Gmt).
  rewrite Emt. cbn [bind].
  destruct (Hqr [] (prodn (modes t i) * r2) r1 mt Wmt Smt) as (Wq & Sq & Wr & Sr & HQ).
  { cbn [app]. repeat constructor; nia. }
  destruct (qr mt) as [q rr]. cbn [fst snd] in *. set (k := Nat.min (prodn (modes t i) * r2) r1) in *.
  assert (Pk : 0 < k) by (unfold k; nia).
  destruct (swap_last_ok [] q _ _ ltac:(cbn; lia) Wq Sq) as (qt & Eqt & Wqt & Sqt & Gqt). rewrite Eqt. cbn [bind].
  destruct (swap_last_ok [] rr _ _ ltac:(cbn; lia) Wr Sr) as (rt & Ert & Wrt & Srt & Grt). rewrite Ert. cbn [bind].
  rewrite Srt. cbn [app].
  change (nthr [r1; k] 1) with (Ok (A := nat) k). change (nthr [r1; k] 0) with (Ok (A := nat) r1). cbn [bind].
  rewrite reshape_exact. 2:{ unfold size. rewrite Sqt. cbn [app]. pns. lia. }
  cbn [bind]. set (q' := RT (k :: modes t i ++ [r2]) (data qt)).
  replace (i - 1) with i' by (unfold i; lia).
  rewrite (nthr_nth _ i' core0) by (rewrite length_upd, (g_len _ _ _ g); exact Hi'). cbn [bind].
  rewrite nth_upd_other by (unfold i; lia). fold nc.
  change [None; Some r1] with (map Some [] ++ None :: map Some [r1]).
  rewrite (reshape_infer _ _ _ _ (r0 * prodn (modes t i'))).
  2:{ pns. nia. } 2:{ pns. lia. } 2:{ unfold size. rewrite Sn. pns. lia. }
  cbn [bind app]. set (n2 := RT ([] ++ [r0 * prodn (modes t i'); r1]) (data nc)).
  change (RT [r0 * prodn (modes t i'); r1] (data nc)) with n2.
  destruct (matmul_pre n2 rt [] (r0 * prodn (modes t i')) r1 k ltac:(cbn; lia) eq_refl Srt) as (y & Ey & Wy & Sy & Gy).
  rewrite Ey. cbn [bind]. eexists. split; [reflexivity|].
  exists (upd i k ranks). cbn [fst snd].
  assert (Rl : i < length ranks) by (rewrite (g_rlen _ _ _ g); fold d; lia).
  assert (Cl : length cs = d) by (apply (g_len _ _ _ g)).
  rewrite upd_comm by (unfold i; lia). 
  split.
  { unfold i. apply good_upd; auto; fold i; fold r0 r2; rewrite ?Bn; cbn [app].
    - rewrite Sy. cbn [app]. pns. lia.
    - apply (wft_reshaped Rring qt); auto. rewrite Sqt. cbn [app]. pns. lia.
    - unfold q'. cbn [shape]. reflexivity. }
  split; [now apply nth_upd_same|]. split.
  { intros k' Hk'. rewrite nth_upd_other by (unfold i; lia). apply Hrest. lia. }
  split.
  { intros k' Hk'. destruct (Nat.eq_dec k' i) as [->|Hne].
    - rewrite nth_upd_same by (rewrite length_upd; lia). unfold vshape. rewrite nth_upd_same by lia. rewrite nth_upd_other by lia.
      rewrite Bn. reflexivity.
    - rewrite !nth_upd_other by lia. rewrite Hsh by lia. unfold vshape. now rewrite !nth_upd_other by lia. }
  split.
  { intros k' Hk'. destruct (Nat.eq_dec k' i) as [->|Hne].
    - rewrite nth_upd_same by lia. rewrite nth_upd_other by lia. fold r2. rewrite <- (Hrest i) by lia. fold r1. unfold k. lia.
    - rewrite !nth_upd_other by lia. apply Hmin. lia. }
  split.
  { intros J HJ HL. unfold i at 1 2. rewrite entry_upd; auto; [|rewrite Bn; constructor]. clear J HJ HL. fold i.
    intros p a j1 j2 c2 Hp Ha Hj1 Hj2 Hc2. fold i in Ha, Hj2, Hc2. fold r0 in Ha. fold i. fold r0 r1 r2. fold r2 in Hc2.
    rewrite Bn in Hp. inversion Hp; subst p. 
    pose proof (vidx_length _ _ Hj1) as L1. pose proof (vidx_length _ _ Hj2) as L2.
    destruct (HQ [] Hp) as [HQ1 _].
    set (x1 := a * prodn (modes t i') + ravel (modes t i') j1).
    set (x2 := ravel (modes t i) j2 * r2 + c2).
    assert (B1 : x1 < r0 * prodn (modes t i')) by (apply lview_lt; auto).
    assert (B2 : x2 < prodn (modes t i) * r2) by (apply rview_lt; auto).
    rewrite (sumn_ext Rring r1 _ (fun b => sumn (K := Rring) k (fun l => get n2 [x1; b] * (get q [x2; l] * get rr [l; b])))%K).
    2:{ intros b Hb'. unfold vcore, vshape. fold i. fold r0 r1 r2 c nc. rewrite Bn. cbn [app].
        pose proof (lview [] [] r0 (modes t i') r1 (data nc) a j1 b eq_refl L1) as V1.
        pose proof (rview [] [] r1 (modes t i) r2 (data c) b j2 c2 eq_refl L2) as V2. cbn [app] in V1, V2. rewrite V1, V2.
        fold x1 x2. change (RT [r0 * prodn (modes t i'); r1] (data nc)) with n2. change (RT [r1; prodn (modes t i) * r2] (data c)) with m.
        rewrite sumn_mul_l. f_equal. specialize (HQ1 x2 b B2 Hb'). cbn [app] in HQ1. rewrite <- HQ1.
        symmetry. apply (Gmt [] b x2); auto. }
    rewrite sumn_swap. apply sumn_ext. intros l Hl. rewrite Bn. cbn [app].
    pose proof (lview [] [] r0 (modes t i') k (data y) a j1 l eq_refl L1) as V1.
    pose proof (rview [] [] k (modes t i) r2 (data q') l j2 c2 eq_refl L2) as V2. cbn [app] in V1, V2. rewrite V1, V2.
    fold x1 x2. unfold q'. cbn [data].
    replace (RT [r0 * prodn (modes t i'); k] (data y)) with y by (cbn [app] in Sy; rewrite <- Sy; now destruct y).
    replace (RT [k; prodn (modes t i) * r2] (data qt)) with qt by (cbn [app] in Sqt; rewrite <- Sqt; now destruct qt).
    pose proof (Gy [] x1 l Hp B1 Hl) as G1. cbn [app] in G1. rewrite G1.
    pose proof (Gqt [] x2 l Hp B2 Hl) as G2. cbn [app] in G2. rewrite G2. rewrite <- sumn_mul_r. apply sumn_ext. intros b Hb'.
    pose proof (Grt [] l b Hp Hl Hb') as G3. cbn [app] in G3. rewrite G3. ring. }
  { intros k' Hk'. destruct (Nat.eq_dec k' i) as [->|Hne].
    - apply right_orth_view with (q := qt) (n := prodn (modes t i) * r2); auto.
      + rewrite Bn. constructor.
      + rewrite nth_upd_same by (rewrite length_upd; lia). reflexivity.
      + rewrite nth_upd_other by lia. reflexivity.
      + rewrite nth_upd_same by lia. rewrite Bn. exact Sqt.
      + rewrite nth_upd_same by lia. intros a b Ha Hb'. destruct (HQ [] ltac:(constructor)) as [_ HQ2].
        rewrite <- HQ2 by auto. apply sumn_ext. intros x Hx. cbn [app].
        pose proof (Gqt [] x a ltac:(constructor) Hx Ha) as G1. pose proof (Gqt [] x b ltac:(constructor) Hx Hb') as G2.
        cbn [app] in G1, G2. now rewrite G1, G2.
    - apply (right_orth_ext cs _ ranks _); [| | |lia|apply Horth; auto; lia].
      + now rewrite !nth_upd_other by lia.
      + now rewrite !nth_upd_other by lia.
      + now rewrite !nth_upd_other by lia. }
Qed.

Lemma orth_rl_ok : exists o, orth_rl qr t = Ok o /\ wf o /\ rshape o = rshape t /\ bsz o = bsz t /\ ndims o = d /\
  (forall k, 0 < k < d -> rk o k = Nat.min (rk t k) (prodn (modes t k) * rk o (S k))) /\
  (forall J, vchain (modes t) 0 J -> length J = d -> tt_entry o [] J = tt_entry t [] J) /\
  (forall k, 0 < k < d -> right_orthonormal o [] k).
Proof.
  pose proof (wf_d Hw) as Hd. fold d in Hd. pose proof bpre_nil as Bn.
  unfold orth_rl, lazy_tt_ranks. rewrite (nthr_nth (rks t) (ndims t) 0) by (rewrite (wf_klen Hw); lia). cbn [bind].
  change (nth (ndims t) (rks t) 0) with (rk t d). fold d.
  destruct (foldM_rev_seq1 (orth_rl_step qr t) rl_inv (d - 1) (cores t, rk t d)) as (st & Est & Hst).
  - exists (rks t). cbn [fst snd]. split; [now apply good_init|]. split; [replace (S (d - 1)) with d by lia; reflexivity|].
    split; [reflexivity|]. split; [intros; lia|]. split; [intros; lia|]. split; [intros; now rewrite vtt_init|]. intros; lia.
  - intros i s Hi Hs. destruct i as [|i']; [lia|]. rewrite Nat.sub_succ, Nat.sub_0_r. apply rl_step; auto. lia.
  - rewrite Est. cbn [bind].
    destruct st as [cs r]. destruct Hst as (ranks & g & Hr & Hrest & Hsh & Hmin & Hent & Horth). cbn [fst snd] in *.
    assert (Cl : length cs = d) by (apply (g_len _ _ _ g)).
    rewrite (nthr_nth cs 0 core0) by lia. cbn [bind]. rewrite core_modes_eq by auto.
    destruct (g_core _ _ _ g 0 Hd) as [Wl Sl]. unfold vshape in Sl. rewrite Bn, Hr, (g_first _ _ _ g) in Sl. cbn [app] in Sl.
    rewrite reshape_exact by (unfold size; now rewrite Sl). cbn [bind].
    set (lc := RT _ (data (nth 0 cs core0))).
    assert (Hcs : upd 0 lc cs = cores (vtt t cs ranks)).
    { unfold vtt. cbn [cores]. apply nth_ext with (d := core0) (d' := core0); [now rewrite length_upd, map_length, seq_length|].
      intros k Hk. rewrite length_upd, Cl in Hk. rewrite (nth_map_default _ _ _ 0) by (now rewrite seq_length).
      rewrite seq_nth by auto. cbn [Nat.add]. unfold vcore.
      destruct (Nat.eq_dec k 0) as [->|Hne].
      - rewrite nth_upd_same by lia. unfold lc. f_equal. unfold vshape. now rewrite Hr, Bn, (g_first _ _ _ g).
      - rewrite nth_upd_other by lia. rewrite <- Hsh by lia. now destruct (nth k cs core0). }
    pose proof (good_wf t cs ranks Hw g) as Wv. pose proof (construct_infer _ Wv) as HT.
    change (bpre (vtt t cs ranks)) with (bpre t) in HT. rewrite Bn in HT.
    exists (vtt t cs ranks). rewrite Hcs. change (rshape t) with (rshape (vtt t cs ranks)) at 1. rewrite HT.
    split; [reflexivity|]. split; [exact Wv|]. split; [reflexivity|]. split; [reflexivity|].
    split; [apply vtt_ndims|]. split; [exact Hmin|]. split; [exact Hent|exact Horth].
Qed.
End RL.
