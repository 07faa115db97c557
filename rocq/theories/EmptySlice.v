(** Indexing that selects nothing along some axis: [full] of the result is the empty selection. *)
From Coq Require Import String List Arith ZArith Lia Bool Ring.
From Verif Require Import Scalar Tensor TensorLemmas TensorLemmas2 Base Spec Chain BaseLemmas Ops FullProofs ResultLemmas Dense AddProofs MulProofs MatmulProofs DenseMatmul Sweep GatherProofs SliceProofs.
Import ListNotations.
Local Open Scope nat_scope.

Section WithK.
Variable K : cring.

Lemma empty_data (d : tensor K) : wft d -> prodn (shape d) = 0 -> d = Tensor (shape d) [].
Proof. destruct d as [s l]. unfold wft. cbn [shape data]. intros H E. rewrite E in H. now destruct l. Qed.

Lemma prodn_0 l : ~ Forall (fun n => 0 < n) l -> prodn l = 0.
Proof.
  induction l as [|n l IH]; intros H; [exfalso; apply H; constructor|]. rewrite prodn_cons.
  destruct (Nat.eq_dec n 0) as [->|Hn]; [reflexivity|]. rewrite IH; [lia|]. intros Hl. apply H. constructor; auto. lia.
Qed.

(** Shapes only: cores of the right shapes and positive ranks, any mode sizes. *)
Section Shapes.
Variables (news : list (tensor K)) (ms rr : list nat) (bs : option nat).
Let P := pre_of bs.
Hypothesis Hsh : shaped P [ms] rr news.
Hypothesis Hl : 0 < length news.
Hypothesis Lm : length ms = length news.
Hypothesis Lr : length rr = S (length news).
Hypothesis H0 : nth 0 rr 0 = 1.
Hypothesis H1 : nth (length news) rr 0 = 1.
Hypothesis Hw : Forall wft news.
Hypothesis Hr : Forall (fun n => 0 < n) rr.
Hypothesis HP : Forall (fun n => 0 < n) P.
Let c := TT news [ms] rr bs.

Lemma sh_rk i : i <= length news -> 0 < rk c i.
Proof. intros Hi. unfold rk. cbn [c rks]. apply (Forall_nth' (fun n => 0 < n)); auto. lia. Qed.

Lemma sh_core i : i < length news -> shape (core c i) = P ++ [rk c i; nth i ms 0; rk c (S i)] /\ size (core c i) = prodn P * (rk c i * (nth i ms 0 * rk c (S i))) /\ wft (core c i).
Proof.
  intros Hi. assert (E : shape (core c i) = P ++ [rk c i; nth i ms 0; rk c (S i)]) by (apply (Hsh i Hi)).
  split; [exact E|]. split; [unfold size; rewrite E, prodn_app, !prodn_cons; unfold prodn; cbn [fold_right]; lia|]. now apply (Forall_nth' wft).
Qed.

Definition sh_inv (i : nat) (r : tensor K) : Prop := wft r /\ size r = prodn P * prodn (firstn i ms) * rk c i.

Lemma firstn_prod i : i < length news -> prodn (firstn (S i) ms) = prodn (firstn i ms) * nth i ms 0.
Proof. intros Hi. rewrite (firstn_S_nth ms i 0) by lia. rewrite prodn_app. f_equal. unfold prodn. cbn [fold_right]. lia. Qed.

Lemma sh_start : sh_inv 1 (core c 0).
Proof.
  destruct (sh_core 0 Hl) as (_ & S0 & W0). split; [exact W0|]. rewrite S0, firstn_prod by lia. cbn [firstn]. change (prodn []) with 1.
  change (rk c 0) with (nth 0 rr 0). rewrite H0. lia.
Qed.

Lemma sh_end r : sh_inv (length news) r -> reshape r (map Some (lazy_shape c)) = Ok (Tensor (P ++ ms) (data r)).
Proof.
  intros [W Sr0]. rewrite <- Lm, firstn_all in Sr0. change (rk c (length ms)) with (nth (length ms) rr 0) in Sr0. rewrite Lm, H1, Nat.mul_1_r in Sr0.
  assert (E : lazy_shape c = P ++ ms) by (unfold lazy_shape, get_shape, P; cbn [c bsz rshape is_tt_matrix length Nat.eqb nth]; now destruct bs).
  rewrite E. apply reshape_exact. now rewrite prodn_app.
Qed.

Lemma sh_full : exists dc, full c = Ok dc /\ wft dc /\ shape dc = P ++ ms.
Proof.
  unfold full. destruct (bsz c) as [b|] eqn:Eb.
  - assert (EP : P = [b]) by (unfold P; change bs with (bsz c); now rewrite Eb).
    assert (Hb : 0 < b) by (rewrite EP in HP; now inversion HP).
    unfold full_tt_batch, lazy_batch_size. rewrite Eb. cbn [bind].
    change (ndims c) with (length news). change (is_tt_matrix c) with false. cbv match.
    assert (PP : prodn P = b) by (rewrite EP; unfold prodn; cbn; lia).
    destruct (foldM_seq (fun i r =>
      do r' <- reshape r [Some b; None; Some (rk c i)];
      do c <- reshape (core c i) [Some b; Some (rk c i); None];
      einsum "oqb,obw->oqw" [r'; c]) sh_inv (length news - 1) 1 (core c 0)) as (r & F & I); [apply sh_start| |].
    + intros i r Hi [W Sr0]. pose proof (sh_rk i ltac:(lia)) as Ri. destruct (sh_core i ltac:(lia)) as (_ & Sz & Wc). rewrite PP in *.
      pose proof (reshape_infer K r [b] [rk c i] (prodn (firstn i ms))) as E1. cbn [map app] in E1.
      rewrite E1 by (unfold prodn in *; cbn [fold_right] in *; lia). clear E1. cbn [bind].
      pose proof (reshape_infer K (core c i) [b; rk c i] [] (nth i ms 0 * rk c (S i))) as E2. cbn [map app] in E2.
      rewrite E2 by (unfold prodn in *; cbn [fold_right] in *; nia). clear E2. cbn [bind].
      set (ra := Tensor [b; prodn (firstn i ms); rk c i] (data r)). set (cb := Tensor [b; rk c i; nth i ms 0 * rk c (S i)] (data (core c i))).
      assert (Ha : shape ra = [b; prodn (firstn i ms); rk c i]) by reflexivity.
      assert (Hc : shape cb = [b; rk c i; nth i ms 0 * rk c (S i)]) by reflexivity.
      assert (HE : exists r', einsum "oqb,obw->oqw" [ra; cb] = Ok r' /\ wft r' /\
        shape r' = [b; prodn (firstn i ms); nth i ms 0 * rk c (S i)] /\
        forall o x y, o < b -> x < prodn (firstn i ms) -> y < nth i ms 0 * rk c (S i) ->
         get r' [o; x; y] = sumn (rk c i) (fun l => (get ra [o; x; l] * get cb [o; l; y])%K)).
      { einsum_solve. }
      destruct HE as (r' & Er & Wr & Sr & _). exists r'. split; [exact Er|]. split; [exact Wr|]. unfold size. rewrite Sr, firstn_prod, PP by lia. rewrite !prodn_cons. change (prodn []) with 1. ring.
    + rewrite F. cbn [bind]. replace (1 + (length news - 1)) with (length news) in I by lia. rewrite (sh_end r I). eexists. split; [reflexivity|].
      split; [|reflexivity]. destruct I as [W Sr0]. unfold wft. cbn [shape data]. rewrite W. fold (size r). rewrite Sr0. rewrite prodn_app, <- Lm, firstn_all.
      change (rk c (length ms)) with (nth (length ms) rr 0). rewrite Lm, H1. lia.
  - unfold full_tt. change (ndims c) with (length news). change (is_tt_matrix c) with false. cbv match.
    assert (EP : P = []) by (unfold P; change bs with (bsz c); now rewrite Eb).
    assert (PP : prodn P = 1) by now rewrite EP.
    destruct (foldM_seq (fun i r =>
      do r' <- reshape r [None; Some (rk c i)];
      do c <- reshape (core c i) [Some (rk c i); None];
      matmul r' c) sh_inv (length news - 1) 1 (core c 0)) as (r & F & I); [apply sh_start| |].
    + intros i r Hi [W Sr0]. pose proof (sh_rk i ltac:(lia)) as Ri. destruct (sh_core i ltac:(lia)) as (_ & Sz & Wc). rewrite PP in *.
      pose proof (reshape_infer K r [] [rk c i] (prodn (firstn i ms))) as E1. cbn [map app] in E1.
      rewrite E1 by (unfold prodn in *; cbn [fold_right] in *; lia). clear E1. cbn [bind].
      pose proof (reshape_infer K (core c i) [rk c i] [] (nth i ms 0 * rk c (S i))) as E2. cbn [map app] in E2.
      rewrite E2 by (unfold prodn in *; cbn [fold_right] in *; nia). clear E2. cbn [bind].
      destruct (matmul_ok2 K (Tensor [prodn (firstn i ms); rk c i] (data r)) (Tensor [rk c i; nth i ms 0 * rk c (S i)] (data (core c i))) _ _ _ eq_refl eq_refl)
        as (r' & Er & Wr & Sr & _).
      exists r'. split; [exact Er|]. split; [exact Wr|]. unfold size. rewrite Sr, firstn_prod, PP by lia. rewrite !prodn_cons. change (prodn []) with 1. ring.
    + rewrite F. cbn [bind]. replace (1 + (length news - 1)) with (length news) in I by lia. rewrite (sh_end r I). eexists. split; [reflexivity|].
      split; [|reflexivity]. destruct I as [W Sr0]. unfold wft. cbn [shape data]. rewrite W. fold (size r). rewrite Sr0. rewrite prodn_app, <- Lm, firstn_all.
      change (rk c (length ms)) with (nth (length ms) rr 0). rewrite Lm, H1. lia.
Qed.
End Shapes.

Section Items.
Variables (t : tt K) (spec : list pyindex) (ps : list (list nat * bool)).
Hypothesis Hw : wf t.
Hypothesis Hm : is_tt_matrix t = false.
Hypothesis Hps : resolve spec (nth 0 (rshape t) []) = Ok ps.
Hypothesis Hne : sel_shape ps <> [].

Lemma tt_getitem_any (d ds : tensor K) : bsz t = None -> full t = Ok d -> getitem d spec = Ok ds ->
  exists c, tt_getitem t spec = Ok c /\ bsz c = None /\ rshape c = [sel_shape ps] /\ rks c = slice_ranks spec (rks t) /\ full c = Ok ds.
Proof.
  intros Hb Fd Gs. destruct (Forall_dec (fun n => 0 < n) (fun n => lt_dec 0 n) (sel_shape ps)) as [Hpos|Hz].
  { destruct (tt_getitem_full K t spec ps Hw Hm Hps Hpos Hb Hne) as (c & d' & dc & E & _ & Bc & Rc & Kc & F1 & F2 & G).
    exists c. do 4 (split; [assumption|]). congruence. }
  destruct (ps_len K t spec ps Hw Hps) as [L1 L2]. destruct (tt_getitem_fold K t spec ps Hw Hm Hps Hb) as (st & Est & HI).
  unfold tt_getitem. rewrite L2, Nat.eqb_refl. cbn [negb]. rewrite Est. cbn [bind].
  assert (V : variant [] false false) by now apply VTT.
  assert (Lp : 0 < length (sel_shape ps)) by (destruct (sel_shape ps); [contradiction|cbn; lia]).
  destruct (Inv_final K t Hw [] (fun _ => []) false false V ps L1 st HI Lp)
    as (news & rr & E & S1 & S2 & S3 & S4 & S5 & S6 & S7 & SK & S8).
  rewrite (kp_slice_ranks K t spec ps Hw Hps) in SK.
  unfold last_eq in E. cbn [andb] in E. rewrite E. cbn [bind].
  rewrite (TensorTrain_infer_ok K news [sel_shape ps] rr); auto; [|lia].
  eexists. split; [reflexivity|]. do 2 (split; [reflexivity|]). split; [exact SK|].
  destruct (sh_full news (sel_shape ps) rr None) as (dc & Fc & Wc & Sc); auto; [lia|constructor|]. rewrite Fc. f_equal.
  cbn [pre_of app] in Sc. rewrite (empty_data dc Wc) by (rewrite Sc; now apply prodn_0). rewrite Sc.
  assert (Ed : shape d = nth 0 (rshape t) []).
  { destruct (full_tensor K t Hw Hm) as (d' & Fd' & _ & Sd & _). rewrite Fd in Fd'. injection Fd' as <-. unfold bpre in Sd. now rewrite Hb in Sd. }
  unfold getitem in Gs. rewrite Ed, Hps in Gs. cbn [bind] in Gs. injection Gs as <-.
  symmetry. apply empty_data; [apply wft_mk|]. now apply prodn_0.
Qed.

Lemma ttb_getitem_any B b0 bl bk (d ds : tensor K) : bsz t = Some B -> resolve1 b0 B = Ok (bl, bk) -> (bk = true -> 0 < length bl) ->
  full t = Ok d -> getitem d (b0 :: spec) = Ok ds ->
  exists c, ttb_getitem t (b0 :: spec) = Ok c /\ bsz c = (if bk then Some (length bl) else None) /\
    rshape c = [sel_shape ps] /\ rks c = slice_ranks spec (rks t) /\ full c = Ok ds.
Proof.
  intros HB Hb0 Hbp Fd Gs. destruct (Forall_dec (fun n => 0 < n) (fun n => lt_dec 0 n) (sel_shape ps)) as [Hpos|Hz].
  { destruct (full_getitem_full K t spec ps Hw Hm Hps Hpos b0 B bl bk HB Hb0 Hbp Hne) as (c & d' & dc & E & _ & Bc & Rc & Kc & F1 & F2 & G).
    exists c. do 4 (split; [assumption|]). congruence. }
  destruct (ps_len K t spec ps Hw Hps) as [L1 L2]. destruct (full_getitem_fold K t spec ps Hw Hm Hps b0 B bl bk HB Hb0) as (st & Est & HI).
  pose proof (wf_d Hw) as Hd.
  unfold ttb_getitem. cbn [length]. rewrite L2. destruct (Nat.eqb_spec (S (ndims t)) 1); [lia|]. rewrite Nat.eqb_refl.
  unfold full_getitem. cbn [length]. rewrite L2, Nat.eqb_refl. change (nthr (b0 :: spec) 0) with (Ok b0). cbn [negb bind]. cbv zeta.
  destruct (resolve1_range _ _ _ _ Hb0) as (Rb & Ebk & Lb). rewrite <- Ebk. rewrite Est. cbn [bind].
  assert (Lp : 0 < length (sel_shape ps)) by (destruct (sel_shape ps); [contradiction|cbn; lia]).
  set (P := if bk then [length bl] else @nil nat) in *.
  assert (V : variant P true (negb bk)) by (unfold P; destruct bk; [now apply (VSlice _ _ _ (length bl))|now apply VInt]).
  destruct (Inv_final K t Hw P _ true (negb bk) V ps L1 st HI Lp)
    as (news & rr & E & S1 & S2 & S3 & S4 & S5 & S6 & S7 & SK & S8).
  rewrite (kp_slice_ranks K t spec ps Hw Hps) in SK.
  assert (E' : absorb_last (if negb bk then "aib,bd->aid" else "oaib,obd->oaid") (fst st) (snd st) = Ok news).
  { rewrite <- E. unfold last_eq. now destruct bk. }
  rewrite E'. cbn [bind]. set (bs := if bk then Some (length bl) else None).
  set (c := TT news [sel_shape ps] rr bs).
  assert (Ec : (if negb bk then TensorTrain news SNone None else TensorTrainBatch news SNone None None) = Ok c).
  { unfold c, bs, P in *. destruct bk; cbn [negb].
    - rewrite (TensorTrainBatch_infer_ok K news [sel_shape ps] rr (length bl)); auto. lia.
    - rewrite (TensorTrain_infer_ok K news [sel_shape ps] rr); auto. lia. }
  rewrite Ec. exists c. do 3 (split; [reflexivity|]). split; [exact SK|].
  assert (HP : pre_of bs = P) by (unfold bs, P; now destruct bk).
  destruct (sh_full news (sel_shape ps) rr bs) as (dc & Fc & Wc & Sc); auto; try (rewrite HP); auto; try lia.
  { unfold P. destruct bk; constructor; auto. }
  fold c in Fc. rewrite Fc. f_equal. rewrite HP in Sc.
  assert (Z : prodn (P ++ sel_shape ps) = 0) by (rewrite prodn_app, (prodn_0 (sel_shape ps) Hz); lia).
  rewrite (empty_data dc Wc) by (rewrite Sc; exact Z). rewrite Sc.
  assert (Ed : shape d = B :: nth 0 (rshape t) []).
  { destruct (full_tensor K t Hw Hm) as (d' & Fd' & _ & Sd & _). rewrite Fd in Fd'. injection Fd' as <-. unfold bpre in Sd. now rewrite HB in Sd. }
  assert (R : resolve (b0 :: spec) (shape d) = Ok ((bl, bk) :: ps)) by (rewrite Ed; cbn [resolve]; rewrite Hb0; cbn [bind]; now rewrite Hps).
  unfold getitem in Gs. rewrite R in Gs. cbn [bind] in Gs. injection Gs as <-.
  assert (Ss : sel_shape ((bl, bk) :: ps) = P ++ sel_shape ps) by (unfold P; now destruct bk).
  symmetry. rewrite <- Ss. apply empty_data; [apply wft_mk|]. change (shape (mk _ _)) with (sel_shape ((bl, bk) :: ps)). now rewrite Ss.
Qed.
End Items.
End WithK.
