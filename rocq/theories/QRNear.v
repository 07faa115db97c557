(** Left-to-right orthogonalization with an inexact QR decomposition. *)
From Coq Require Import String Ascii List Arith ZArith Lia Lra Bool Ring Reals.
From Verif Require Import Scalar Tensor TensorLemmas TensorLemmas2 Base Spec Chain BaseLemmas Ops
  FullProofs ResultLemmas Dense AddProofs MulProofs MatmulProofs DenseMatmul Sweep FlatProofs NormProofs OpsR ScaleProofs
  Decomp DecompSpec GaugeProofs OrthProofs OrthNorm QRExists Trunc TruncChain SvdSpec RoundProofs RoundThms FMat NearStep NearChain NearTrain NearSpec QRNearSpec.
Import ListNotations.
Local Open Scope nat_scope.
Local Notation get := (@get Rring).
Local Notation RT := (@Tensor Rring).
Local Notation core0 := (core0 Rring).
Add Ring Rring'' : (cth Rring).

(** Rows of the matrix view of a core. *)
Lemma sum_rows_view r ms (h : nat -> R) :
  lsum (list_prod (seq 0 r) (RI ms)) (fun p => h (fst p * prodn ms + ravel ms (snd p))%nat) = rsum (r * prodn ms) h.
Proof.
  rewrite lsum_prod, lsum_seq. unfold rsum at 2. rewrite (sumn_prod Rring). apply rsum_ext. intros a _. rewrite lsum_RI. unfold ri. cbn [fst snd]. now rewrite (sumn_ravel Rring).
Qed.
Lemma mnorm_view r ms n (f : nat -> nat -> R) :
  frob (list_prod (seq 0 r) (RI ms)) (seq 0 n) (fun p b => f (fst p * prodn ms + ravel ms (snd p))%nat b) = mnorm (r * prodn ms) n f.
Proof.
  rewrite frob_sqrt. unfold mnorm. f_equal. unfold frob2.
  rewrite (lsum_ext _ _ (fun p => rsum n (fun w => f (fst p * prodn ms + ravel ms (snd p))%nat w * f (fst p * prodn ms + ravel ms (snd p))%nat w)%R)) by (intros; now rewrite lsum_seq).
  rewrite (sum_rows_view r ms (fun q => rsum n (fun w => f q w * f q w)%R)). reflexivity.
Qed.

Section LR.
Variable de : R.
Hypothesis Hde : (0 <= de)%R.
Variable qr : rtensor -> rtensor * rtensor.
Hypothesis Hqr : qr_near de qr.
Variable t : rtt.
Hypothesis Hw : wf t.
Let d := ndims t.

Definition lrn_at (cs : list rtensor) (ranks : list nat) (p : list nat) (Q : nat -> nat -> list nat -> nat -> R) (i : nat) : Prop :=
  lrn (modes t) d de (coreG t p) (rk t) (coreG (vtt t cs ranks) p) (fun k => nth k ranks 0) Q i.

Definition lr_ninv (i : nat) (st : list rtensor * nat) : Prop := exists ranks,
  good t (fst st) ranks /\ nth i ranks 0 = snd st /\
  (forall k, i < k <= d -> nth k ranks 0 = rk t k) /\
  (forall k, k < i -> shape (nth k (fst st) core0) = vshape t ranks k) /\
  (forall k, k < i -> nth (S k) ranks 0 = Nat.min (nth k ranks 0 * prodn (modes t k)) (rk t (S k))) /\
  (forall p, vidx (bpre t) p -> exists Q, lrn_at (fst st) ranks p Q i).

Lemma lr_nstep i st : S i < d -> lr_ninv i st -> exists st', orth_lr_step qr (bpre t) t i st = Ok st' /\ lr_ninv (S i) st'.
Proof.
  intros Hi (ranks & g & Hr & Hrest & Hsh & Hmin & HN). destruct st as [cs r]. cbn [fst snd] in *. subst r.
  pose proof (wf_d Hw) as Hd.
  assert (Hi' : i < d) by lia.
  pose proof (good_nth _ _ _ i g ltac:(fold d; lia)) as P0. pose proof (good_nth _ _ _ (S i) g ltac:(fold d; lia)) as P1.
  pose proof (good_nth _ _ _ (S (S i)) g ltac:(fold d; lia)) as P2.
  pose proof (modes_prod_pos t i Hw Hi') as Pm. pose proof (modes_prod_pos t (S i) Hw Hi) as Pm1.
  pose proof (prodn_pos _ (wf_bpos Hw)) as Pb.
  unfold orth_lr_step, lazy_tt_ranks. rewrite core_modes_eq by auto.
  rewrite (nthr_nth cs i core0) by (rewrite (g_len _ _ _ g); exact Hi'). cbn [bind].
  rewrite (nthr_nth (rks t) (S i) 0) by (rewrite (wf_klen Hw); fold d; lia). cbn [bind]. cbv zeta.
  change (nth (S i) (rks t) 0) with (rk t (S i)). rewrite <- (Hrest (S i)) by lia.
  set (r0 := nth i ranks 0) in *. set (r1 := nth (S i) ranks 0) in *. set (r2 := nth (S (S i)) ranks 0) in *.
  destruct (g_core _ _ _ g i Hi') as [Wc Sc]. destruct (g_core _ _ _ g (S i) Hi) as [Wn Sn].
  unfold vshape in Sc, Sn. fold r0 r1 r2 in Sc, Sn.
  set (c := nth i cs core0) in *. set (nc := nth (S i) cs core0) in *.
  rewrite reshape_exact. 2:{ unfold size. rewrite Sc. pns. lia. }
  cbn [bind]. set (m := RT (bpre t ++ [r0 * prodn (modes t i); r1]) (data c)).
  assert (Wm : wft m). { apply (wft_reshaped Rring c); auto. rewrite Sc. pns. lia. }
  pose proof (Hqr (bpre t) (r0 * prodn (modes t i)) r1 m Wm eq_refl ltac:(apply pos_shape; auto; nia)) as HQ0.
  destruct (qr m) as [q rr]. destruct HQ0 as (Wq & Sq & Wr & Sr & HQ). cbv zeta in *. set (k := Nat.min (r0 * prodn (modes t i)) r1) in *.
  assert (Pk : 0 < k) by (unfold k; nia).
  rewrite (nthr_nth (shape rr) _ 0) by (rewrite Sr, app_length; cbn; lia).
  rewrite (nthr_nth (shape rr) _ 0) by (rewrite Sr, app_length; cbn; lia). cbn [bind].
  rewrite Sr. replace (nth (length (bpre t)) (bpre t ++ [k; r1]) 0) with k by (symmetry; apply nth_middle).
  replace (nth (S (length (bpre t))) (bpre t ++ [k; r1]) 0) with r1.
  2:{ rewrite <- Nat.add_1_r, app_nth2_plus. reflexivity. }
  rewrite reshape_exact. 2:{ unfold size. rewrite Sq. pns. lia. }
  cbn [bind]. set (q' := RT (bpre t ++ r0 :: modes t i ++ [k]) (data q)).
  rewrite (nthr_nth _ (S i) core0) by (rewrite length_upd, (g_len _ _ _ g); exact Hi). cbn [bind].
  rewrite nth_upd_other by lia. fold nc.
  replace (map Some (bpre t ++ [r1]) ++ [None]) with (map Some (bpre t ++ [r1]) ++ None :: map Some []) by reflexivity.
  rewrite (reshape_infer _ _ _ _ (prodn (modes t (S i)) * r2)).
  2:{ pns. nia. } 2:{ pns. lia. } 2:{ unfold size. rewrite Sn. pns. lia. }
  cbn [bind]. rewrite <- app_assoc. cbn [app]. set (n2 := RT (bpre t ++ [r1; prodn (modes t (S i)) * r2]) (data nc)).
  destruct (matmul_pre rr n2 (bpre t) k r1 (prodn (modes t (S i)) * r2) (bpre_len t) Sr eq_refl) as (y & Ey & Wy & Sy & Gy).
  rewrite Ey. cbn [bind]. eexists. split; [reflexivity|].
  exists (upd (S i) k ranks). cbn [fst snd].
  assert (Rl : S i < length ranks) by (rewrite (g_rlen _ _ _ g); fold d; lia).
  assert (Cl : length cs = d) by (apply (g_len _ _ _ g)).
  split.
  { apply good_upd; auto; fold r0 r2; try (unfold q'; cbn [shape]; reflexivity).
    - apply (wft_reshaped Rring q); auto. rewrite Sq. pns. lia.
    - rewrite Sy. pns. lia. }
  split; [now apply nth_upd_same|]. split.
  { intros k' Hk'. rewrite nth_upd_other by lia. apply Hrest. lia. }
  split.
  { intros k' Hk'. rewrite nth_upd_other by lia. destruct (Nat.eq_dec k' i) as [->|Hne].
    - rewrite nth_upd_same by lia. unfold vshape. rewrite nth_upd_same by lia. rewrite nth_upd_other by lia. reflexivity.
    - rewrite nth_upd_other by lia. rewrite Hsh by lia. unfold vshape. now rewrite !nth_upd_other by lia. }
  split.
  { intros k' Hk'. destruct (Nat.eq_dec k' i) as [->|Hne].
    - rewrite nth_upd_same by lia. rewrite nth_upd_other by lia. fold r0. rewrite <- (Hrest (S i)) by lia. reflexivity.
    - rewrite !nth_upd_other by lia. apply Hmin. lia. }
  intros p Hp. destruct (HN p Hp) as (Q & LN). destruct (HQ p Hp) as (xq & qq & X1 & X2 & X3 & X4).
  pose proof (vidx_length _ _ Hp) as Lp.
  exists (gset Q i (fun a j b => qq (a * prodn (modes t i) + ravel (modes t i) j)%nat b)).
  assert (KS : nth (S i) (upd (S i) k ranks) 0 = k) by now apply nth_upd_same.
  assert (KO : forall k', k' <> S i -> nth k' (upd (S i) k ranks) 0 = nth k' ranks 0) by (intros; now apply nth_upd_other).
  assert (GM : forall a j b, a < r0 -> vidx (modes t i) j -> b < r1 -> coreG (vtt t cs ranks) p i a j b = get m (p ++ [(a * prodn (modes t i) + ravel (modes t i) j)%nat; b])).
  { intros a j b Ha Hj Hb. rewrite vtt_coreG by auto. unfold vcore, vshape. fold r0 r1 c. rewrite lview by (auto; apply (vidx_length _ _ Hj)). reflexivity. }
  assert (MN : mnorm (r0 * prodn (modes t i)) r1 (fun i j => get m (p ++ [i; j])) = gnorm (modes t) (fun k => nth k ranks 0) (coreG (vtt t cs ranks) p) i).
  { rewrite <- mnorm_view. unfold gnorm, grows. fold r0 r1. apply frob_ext. intros [a j] b Hq Hb. apply in_prod_iff in Hq as [Ha Hj]. apply in_seq in Ha, Hb. apply in_RI in Hj.
    unfold gmat. cbn [fst snd]. symmetry. apply GM; auto; lia. }
  unfold lrn_at. apply (lrn_step _ d de (coreG t p) (rk t) (coreG (vtt t cs ranks) p) (fun k => nth k ranks 0) Q i _ _ _ (fun l b => get rr (p ++ [l; b]))); auto.
  - apply (g_first _ _ _ g).
  - apply (g_last _ _ _ g).
  - intros m' Hm'. apply (good_nth _ _ _ m' g). exact Hm'.
  - intros k' a j b Hk' N1 N2 Ha Hb Hj. rewrite !vtt_coreG by auto. unfold vcore, vshape. rewrite !KO by lia. now rewrite !nth_upd_other by lia.
  - rewrite KS. intros l j cc Hl Hj Hcc. fold r2 in Hcc. fold r1. rewrite vtt_coreG by auto. unfold vcore, vshape. rewrite KS, KO by lia. fold r2. rewrite nth_upd_same by (rewrite length_upd, Cl; exact Hi).
    pose proof (vidx_length _ _ Hj) as Lj. rewrite rview by auto.
    replace (RT (bpre t ++ [k; prodn (modes t (S i)) * r2]) (data y)) with y by (rewrite <- Sy; now destruct y).
    rewrite Gy by (auto; apply rview_lt; auto). apply rsum_ext. intros b Hb. rewrite vtt_coreG by auto. unfold vcore, vshape. fold r1 r2 nc. rewrite rview by auto. reflexivity.
  - rewrite KS. unfold grows. fold r0. intros l l' Hl Hl'. rewrite <- (X2 l l' Hl Hl').
    apply (sum_rows_view r0 (modes t i) (fun q => qq q l * qq q l')%R).
  - rewrite KS. fold r1. rewrite <- MN. eapply Rle_trans; [|exact X3]. apply Req_le. rewrite <- mnorm_view. unfold grows. fold r0. apply frob_ext.
    intros [a j] b Hq Hb. apply in_prod_iff in Hq as [Ha Hj]. apply in_seq in Ha, Hb. apply in_RI in Hj. cbn [fst snd]. unfold gmat. cbn [fst snd].
    rewrite GM by (auto; lia). f_equal. rewrite X1 by (try lia; apply lview_lt; auto; lia). reflexivity.
  - rewrite KS. eapply Rle_trans; [|exact X4]. apply Req_le. rewrite <- mnorm_view. unfold grows. fold r0. apply frob_ext.
    intros [a j] b Hq Hb. apply in_prod_iff in Hq as [Ha Hj]. apply in_seq in Ha, Hb. apply in_RI in Hj. cbn [fst snd]. unfold gmat. cbn [fst snd].
    f_equal. rewrite vtt_coreG by auto. unfold vcore, vshape. rewrite KS, KO by lia. fold r0. rewrite nth_upd_other, nth_upd_same by lia.
    unfold q'. cbn [data]. rewrite lview by (auto; apply (vidx_length _ _ Hj)). rewrite <- Sq. now destruct q.
Qed.

Lemma orth_lr_near : exists o, orth_lr qr (bpre t) t = Ok o /\ wf o /\ rshape o = rshape t /\ bsz o = bsz t /\ ndims o = d /\
  (forall k, k < d - 1 -> rk o (S k) = Nat.min (rk o k * prodn (modes t k)) (rk t (S k))) /\
  (forall p, vidx (bpre t) p -> exists Q, lrn (modes t) d de (coreG t p) (rk t) (coreG o p) (rk o) Q (d - 1)).
Proof.
  pose proof (wf_d Hw) as Hd. fold d in Hd.
  unfold orth_lr, lazy_tt_ranks. rewrite (nthr_nth (rks t) 0 0) by (rewrite (wf_klen Hw); lia). cbn [bind].
  destruct (foldM_seq (orth_lr_step qr (bpre t) t) lr_ninv (d - 1) 0 (cores t, rk t 0)) as (st & Est & Hst).
  - exists (rks t). cbn [fst snd]. split; [now apply good_init|]. repeat (split; [reflexivity|]).
    split; [intros; lia|]. split; [intros; lia|]. intros p Hp. exists (fun _ _ _ _ => 0%R). unfold lrn_at. rewrite vtt_init by auto. apply lrn_init.
  - intros i s Hi Hs. apply lr_nstep; auto. lia.
  - change (nth 0 (rks t) 0) with (rk t 0). fold d. rewrite Est. cbn [bind]. cbn [Nat.add] in Hst.
    destruct st as [cs r]. destruct Hst as (ranks & g & Hr & Hrest & Hsh & Hmin & HN). cbn [fst snd] in *.
    assert (Cl : length cs = d) by (apply (g_len _ _ _ g)).
    rewrite (lastr_last cs core0) by (intros ->; cbn in Cl; lia). cbn [bind].
    assert (El : last cs core0 = nth (d - 1) cs core0).
    { rewrite <- Cl. apply last_nth. }
    rewrite El. rewrite core_modes_eq by auto.
    destruct (g_core _ _ _ g (d - 1) ltac:(fold d; lia)) as [Wl Sl]. unfold vshape in Sl. rewrite Hr in Sl.
    replace (S (d - 1)) with d in Sl by lia. unfold d at 3 in Sl. rewrite (g_last _ _ _ g) in Sl.
    rewrite reshape_exact by (unfold size; now rewrite Sl). cbn [bind].
    set (lc := RT _ (data (nth (d - 1) cs core0))).
    assert (Hcs : upd (d - 1) lc cs = cores (vtt t cs ranks)).
    { unfold vtt. cbn [cores]. apply nth_ext with (d := core0) (d' := core0); [now rewrite length_upd, map_length, seq_length|].
      intros k Hk. rewrite length_upd, Cl in Hk. rewrite (nth_map_default _ _ _ 0) by (now rewrite seq_length).
      rewrite seq_nth by auto. cbn [Nat.add]. unfold vcore.
      destruct (Nat.eq_dec k (d - 1)) as [->|Hne].
      - rewrite nth_upd_same by lia. unfold lc. f_equal. unfold vshape. rewrite Hr. replace (S (d - 1)) with d by lia.
        unfold d at 3. now rewrite (g_last _ _ _ g).
      - rewrite nth_upd_other by lia. rewrite <- Hsh by lia. now destruct (nth k cs core0). }
    pose proof (good_wf t cs ranks Hw g) as Wv.
    exists (vtt t cs ranks).
    assert (HT : (match bpre t with
      | [] => TensorTrain (upd (d - 1) lc cs) (STuple (rshape t)) None
      | b :: _ => TensorTrainBatch (upd (d - 1) lc cs) (STuple (rshape t)) None (Some b)
      end) = Ok (vtt t cs ranks)).
    { rewrite Hcs. apply (construct_infer (vtt t cs ranks) Wv). }
    rewrite HT. split; [reflexivity|]. split; [exact Wv|]. split; [reflexivity|]. split; [reflexivity|].
    split; [apply vtt_ndims|]. split.
    { intros k Hk. apply Hmin. lia. }
    intros p Hp. destruct (HN p Hp) as (Q & LN). exists Q. exact LN.
Qed.
End LR.

(** ** Norms of cores and dense tensors *)
Lemma last_cons_app (a b : nat) j : last (a :: j ++ [b]) 0 = b.
Proof. change (a :: j ++ [b]) with ((a :: j) ++ [b]). apply last_last. Qed.
Lemma gnorm_dist (t : rtt) p k (f : nat -> list nat -> nat -> R) :
  frob (grows (modes t) (rk t) k) (seq 0 (rk t (S k))) (fun q b => gmat (coreG t p) k q b - f (fst q) (snd q) b)%R =
  core_dist t p k (fun x => f (nth 0 x 0) (removelast (tl x)) (last x 0)).
Proof.
  rewrite frob_sqrt. unfold core_dist. f_equal. unfold frob2, grows. rewrite lsum_prod, lsum_seq. cbn [isum]. apply rsum_ext. intros a _.
  rewrite lsum_RI, (isum_app Rring). unfold ri. apply (isum_ext Rring). intros j _. rewrite lsum_seq. cbn [isum]. apply rsum_ext. intros b _.
  unfold gmat, coreG. cbn [fst snd nth tl]. now rewrite last_cons_app, removelast_last.
Qed.
Lemma gnorm_core (t : rtt) p k : gnorm (modes t) (rk t) (coreG t p) k = core_norm t p k.
Proof.
  unfold core_norm. rewrite <- (gnorm_dist t p k (fun _ _ _ => 0%R)). unfold gnorm. apply frob_ext. intros; ring.
Qed.
Lemma rprod_fold f n : forall k, fold_right Rmult 1%R (map f (seq k n)) = rprod f k n.
Proof. induction n; intros k; cbn [seq map fold_right rprod]; [reflexivity|]. now rewrite IHn. Qed.
Lemma cores_norm_rprod (t : rtt) p : cores_norm t p = rprod (gnorm (modes t) (rk t) (coreG t p)) 0 (ndims t).
Proof. unfold cores_norm. rewrite rprod_fold. apply rprod_ext. intros k _. symmetry. apply gnorm_core. Qed.
Lemma norm_at_entries (t : rtt) dt p : wf t -> full t = Ok dt -> vidx (bpre t) p ->
  norm_at (ishape t) dt p = nrm (RJ (map (modes t) (seq 0 (ndims t)))) (fun J => rchain (coreG t p) (rk t) 0 J (fun _ => 1%R) 0).
Proof.
  intros Hw Fd Hp. unfold norm_at, nrm. f_equal. rewrite lsum_RJ. unfold rj. fold (all_modes t). rewrite <- (isum_split Rring) by auto.
  apply (isum_ext Rring). intros i Hi. destruct (full_correct Rring t Hw) as (d' & Fd' & _ & _ & Ea). assert (d' = dt) by congruence. subst d'.
  rewrite Ea by (rewrite get_shape_ishape; now apply vidx_app). now rewrite (tt_at_entry Rring).
Qed.
Lemma dist_at_entries (a b : rtt) da db p : wf a -> wf b -> rshape b = rshape a -> bsz b = bsz a -> full a = Ok da -> full b = Ok db -> vidx (bpre a) p ->
  dist_at (ishape a) da db p = nrm (RJ (map (modes a) (seq 0 (ndims a)))) (fun J => rchain (coreG b p) (rk b) 0 J (fun _ => 1) 0 - rchain (coreG a p) (rk a) 0 J (fun _ => 1) 0)%R.
Proof.
  intros Wa Wb R B Fa Fb Hp. unfold dist_at. rewrite (sq_dist_entries a b da db p) by auto. unfold nrm. f_equal. rewrite lsum_RJ. fold (all_modes a). apply rj_ext. intros J _.
  unfold tt_entry, rchain. cbn. ring.
Qed.

Section Thms.
Variable de : R.
Hypothesis Hde : (0 <= de)%R.
Variable qr : rtensor -> rtensor * rtensor.
Hypothesis Hqr : qr_near de qr.
Variable t : rtt.
Hypothesis Hw : wf t.

Lemma near_orthogonalize : exists o dt dd, orthogonalize_tt_cores qr t true = Ok o /\ wf o /\ rshape o = rshape t /\ bsz o = bsz t /\ ndims o = ndims t /\
  (forall k, k < ndims t - 1 -> rk o (S k) = Nat.min (rk o k * prodn (modes t k)) (rk t (S k))) /\
  full t = Ok dt /\ full o = Ok dd /\
  forall p, vidx (bpre t) p ->
    (dist_at (ishape t) dt dd p <= ((1 + de) ^ (2 * (ndims t - 1)) - 1) * cores_norm t p)%R /\
    (Rabs (core_norm o p (ndims t - 1) - norm_at (ishape t) dt p) <= ((1 + de) ^ (ndims t - 1) - 1) * cores_norm t p)%R /\
    forall k, k < ndims t - 1 -> exists f, orthonormal_core o k f /\ (core_dist o p k f <= de)%R.
Proof.
  pose proof (wf_d Hw) as Hd.
  destruct (orth_lr_near de Hde qr Hqr t Hw) as (o & Eo & Wo & Ro & Bo & Do & Ko & HL).
  destruct (full_correct Rring t Hw) as (dt & Fd & _). destruct (full_correct Rring o Wo) as (dd & Fo & _).
  exists o, dt, dd. split.
  { rewrite <- Eo. unfold orthogonalize_tt_cores, bpre. destruct (bsz t); reflexivity. }
  do 7 (split; [assumption|]). intros p Hp. destruct (HL p Hp) as (Q & L).
  assert (Em : forall k, modes o k = modes t k) by (intros; unfold modes; now rewrite Ro).
  assert (Pk : forall m, m <= ndims t -> 0 < rk o m) by (intros; apply rk_pos; auto; lia).
  assert (E1 : ndims t = S (ndims t - 1)) by lia. assert (E2 : rk o 0 = 1) by apply (wf_first Wo). assert (E3 : rk o (ndims t) = 1) by (rewrite <- Do; apply (wf_last Wo)).
  split; [|split].
  - rewrite (dist_at_entries t o dt dd p) by auto. rewrite cores_norm_rprod. exact (done_dist _ _ _ de _ _ _ _ Q Hde E1 E2 E3 Pk L).
  - rewrite (norm_at_entries t dt p) by auto. rewrite cores_norm_rprod.
    replace (core_norm o p (ndims t - 1)) with (gnorm (modes t) (rk o) (coreG o p) (ndims t - 1)); [exact (done_frobenius _ _ _ de _ _ _ _ Q E1 E2 E3 Pk L)|].
    rewrite <- gnorm_core. unfold gnorm, grows. now rewrite Em.
  - intros k Hk. exists (fun x => Q k (nth 0 x 0) (removelast (tl x)) (last x 0)). split.
    + intros b b' Hb Hb'. rewrite <- (ln_orth _ _ _ _ _ _ _ _ _ L k Hk b b' Hb Hb'). unfold grows. rewrite lsum_prod, lsum_seq. cbn [isum]. rewrite Em. apply rsum_ext. intros a _.
      rewrite lsum_RI. apply (isum_ext Rring). intros j _. unfold gmat. cbn [fst snd app nth tl]. now rewrite !last_cons_app, !removelast_last.
    + rewrite <- gnorm_dist. eapply Rle_trans; [|apply (ln_near _ _ _ _ _ _ _ _ _ L k Hk)]. unfold grows. rewrite Em. apply Req_le. reflexivity.
Qed.

(** The default branch of [frobenius_norm_squared]. *)
Lemma near_norm_squared : exists r dt, frobenius_norm_squared_qr qr t = Ok r /\ wft r /\ shape r = bpre t /\ full t = Ok dt /\
  forall p, vidx (bpre t) p -> exists v, (0 <= v)%R /\ get r p = (v * v)%R /\ (Rabs (v - norm_at (ishape t) dt p) <= ((1 + de) ^ (ndims t - 1) - 1) * cores_norm t p)%R.
Proof.
  pose proof (wf_d Hw) as Hd.
  destruct near_orthogonalize as (o & dt & dd & Eo & Wo & Ro & Bo & Do & Ko & Fd & Fo & B).
  assert (Em : forall k, modes o k = modes t k) by (intros; unfold modes; now rewrite Ro).
  assert (Ep : bpre o = bpre t) by (unfold bpre; now rewrite Bo).
  assert (N : forall p, core_norm o p (ndims t - 1) = sqrt (isum (K := Rring) (rk o (ndims t - 1) :: modes t (ndims t - 1) ++ [1])
       (fun i => get (core o (ndims t - 1)) (p ++ i) * get (core o (ndims t - 1)) (p ++ i))%R)).
  { intros p. unfold core_norm, core_dist. f_equal. rewrite Em. replace (S (ndims t - 1)) with (ndims o) by lia. rewrite (wf_last Wo). apply (isum_ext Rring). intros i _. cbn. ring. }
  unfold frobenius_norm_squared_qr. rewrite Eo. cbn [bind].
  rewrite (lastr_last _ core0) by (intros E; assert (ndims o = 0) by (unfold ndims; now rewrite E); lia). cbn [bind].
  rewrite last_nth. replace (nth (length (cores o) - 1) (cores o) core0) with (core o (ndims t - 1)) by (rewrite <- Do; reflexivity).
  pose proof (core_shape _ o (ndims t - 1) Wo ltac:(lia)) as Sc. pose proof (core_wft _ o (ndims t - 1) Wo ltac:(lia)) as Wc.
  replace (S (ndims t - 1)) with (ndims o) in Sc by lia. rewrite (wf_last Wo), Em, Ep in Sc.
  assert (B' : forall p, vidx (bpre t) p -> (Rabs (core_norm o p (ndims t - 1) - norm_at (ishape t) dt p) <= ((1 + de) ^ (ndims t - 1) - 1) * cores_norm t p)%R) by (intros p Hp; apply (B p Hp)).
  clear B. set (lc := core o (ndims t - 1)) in *. set (ms := rk o (ndims t - 1) :: modes t (ndims t - 1) ++ [1]) in *.
  pose proof (wf_bpos Hw) as P. unfold bpre in Sc, B', P |- *. destruct (bsz t) as [b|] eqn:Eb.
  - cbn [app] in Sc. change [Some b; None] with (map Some [b] ++ None :: map Some []).
    assert (Pb : 0 < b) by now inversion P.
    rewrite (reshape_infer _ _ _ _ (prodn ms)).
    2:{ pns. lia. } 2:{ pns. lia. }
    2:{ unfold size. rewrite Sc. pns. lia. }
    cbn [bind app]. set (lr := RT [b; prodn ms] (data lc)).
    eexists _, dt. split; [reflexivity|]. split; [apply wft_tmap; apply wft_mk|]. split; [reflexivity|]. split; [exact Fd|].
    intros p Hp. exists (core_norm o p (ndims t - 1)). split; [apply sqrt_pos|]. split; [|now apply B'].
    inversion Hp as [|i ? p' ? Hi Hp']; subst. inversion Hp'; subst.
    rewrite get_tmap; [|apply wft_mk|cbn; vsolve].
    assert (G : get (tf_norm_rows lr) [i] = core_norm o [i] (ndims t - 1)).
    { unfold tf_norm_rows. cbn [lr shape firstn nth]. rewrite get_mk by vsolve. cbn [app]. rewrite N. f_equal. rewrite sumn_ravel. apply (isum_ext Rring). intros I HI.
      assert (E : get lr [i; ravel ms I] = get lc ([i] ++ I)).
      { unfold get. rewrite Sc. cbn [lr shape data app]. f_equal. cbn [ravel]. pns. lia. }
      now rewrite E. }
    now rewrite G.
  - cbn [app] in Sc. eexists _, dt. split; [reflexivity|]. split; [reflexivity|]. split; [reflexivity|]. split; [exact Fd|].
    intros p Hp. exists (core_norm o p (ndims t - 1)). split; [apply sqrt_pos|]. split; [|now apply B'].
    inversion Hp; subst. rewrite N. cbn [app].
    replace (get (RT [] [(tf_norm lc * tf_norm lc)%R]) []) with (tf_norm lc * tf_norm lc)%R by reflexivity. rewrite tf_norm_sq by auto. rewrite Sc. symmetry. apply sqrt_sqrt.
    apply isum_nonneg. intros i _. apply Rle_0_sqr.
Qed.
End Thms.
