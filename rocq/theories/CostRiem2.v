(** Counting: project_matmul and pairwise_flat_inner_projected. *)
From Coq Require Import String Ascii List Arith ZArith Lia Bool Permutation Reals.
From Verif Require Import Scalar Tensor TensorLemmas TensorLemmas2 Base Spec Chain BaseLemmas Ops
  FullProofs ResultLemmas Dense AddProofs MulProofs MatmulProofs DenseMatmul Sweep FlatProofs ValidProofs
  OpsR Decomp DecompSpec GaugeProofs OrthProofs BatchOps GatherProofs Riem RiemProofs RiemThms RiemDelta Cost CostOps CostErase CostProofs CostInner CostOrth CostRiem.
Import ListNotations.
Local Open Scope nat_scope.

Local Notation o2 := (ONode (OLeaf 0) (OLeaf 1)).
Local Notation o3 := (ONode (ONode (OLeaf 0) (OLeaf 1)) (OLeaf 2)).
Local Notation o021 := (ONode (ONode (OLeaf 0) (OLeaf 2)) (OLeaf 1)).
Local Notation o2301 := (ONode (ONode (ONode (OLeaf 2) (OLeaf 3)) (OLeaf 0)) (OLeaf 1)).

Section R.
Variable ec : string -> list (list nat) -> nat.
Variable c : nat.
Hypothesis Hec : best_order ec.

Section M.
Variables w l r z m : rtt.
Variable B : nat.
Hypothesis Hw : wf w.
Hypothesis HF : is_frame w l r.
Hypothesis Kw : is_tt_matrix w = true.
Hypothesis Hz : wf z.
Hypothesis Rz : rshape z = rshape w.
Hypothesis Bz : bsz z = Some B.
Hypothesis Hm : wf m.
Hypothesis Km : is_tt_matrix m = true.
Hypothesis Bm : bsz m = None.
Hypothesis E0 : nth 0 (rshape m) [] = nth 0 (rshape w) [].
Local Notation d := (ndims w).
Local Notation W := (rmax w).
Local Notation Z := (rmax z).
Local Notation P := (B * (rmax m * rmax z * rmax w * colmax w)).
Local Notation V := (P * (colmax m * rmax z + rowmax m * colmax m * rmax m + rowmax m * rmax w)).

Definition mrhs_shapes (i : nat) (rhs : list rtensor) : Prop :=
  length rhs = S d /\ forall k, i <= k <= d -> shape (nth k rhs rzero) = [B; rk z k; rk m k; rk r k].
Definition mlhs_shapes (i : nat) (lhs : list rtensor) : Prop :=
  length lhs = S d /\ forall k, k <= i -> shape (nth k lhs rzero) = [B; rk l k; rk m k; rk z k].

Ltac mono := repeat apply Nat.mul_le_mono; auto using rk_max, row_max, col_max, (fr_lmax w l r Hw HF), (fr_rmax w l r Hw HF).
Ltac shp i Hi Hi' := pose proof (z_shape w Hw z B Hz Rz Bz i Hi) as Sz; pose proof (r_shape w l r HF i Hi) as Sr;
  pose proof (l_shape w l r HF i Hi) as Sl; pose proof (core_shape _ m i Hm Hi') as Sm; unfold bpre in Sm; rewrite Bm in Sm;
  rewrite mat_modes in Sz, Sr, Sl, Sm by auto; cbn [app] in Sz, Sr, Sl, Sm.

Lemma mrhs_step_cost i x : i < d -> i < ndims m -> shape x = [B; rk z (S i); rk m (S i); rk r (S i)] ->
  tcost ec c (t_einsum "bije,cikf,sdef,sajkd->sabc" [core m i; core r i; x; core z i])
    (fun y => shape y = [B; rk z i; rk m i; rk r i]) V.
Proof.
  intros Hi Hi' Sx. shp i Hi Hi'.
  assert (Q1 : B * (rk m (S i) * rk z i * rk r (S i) * mode w 1 i) * (mode m 1 i * rk z (S i)) <= P * (colmax m * Z)) by mono.
  assert (Q2 : B * (rk m i * rk z i * rk r (S i) * mode w 1 i) * (mode m 0 i * mode m 1 i * rk m (S i)) <= P * (rowmax m * colmax m * rmax m)) by mono.
  assert (Q3 : B * (rk m i * rk z i * rk r (S i) * mode w 1 i) * (mode m 0 i * rk r i) <= P * (rowmax m * W)) by mono.
  clear Hz Bz Rz Bm Sl. ecost o2301; lia.
Qed.

Lemma mlhs_step_cost i x : i < d -> i < ndims m -> shape x = [B; rk l i; rk m i; rk z i] ->
  tcost ec c (t_einsum "bije,aikd,sabc,scjkf->sdef" [core m i; core l i; x; core z i])
    (fun y => shape y = [B; rk l (S i); rk m (S i); rk z (S i)]) V.
Proof.
  intros Hi Hi' Sx. shp i Hi Hi'.
  assert (Q1 : B * (rk m i * rk z i * rk l i * mode w 1 i) * (mode m 1 i * rk z (S i)) <= P * (colmax m * Z)) by mono.
  assert (Q2 : B * (rk m i * rk z (S i) * rk l i * mode w 1 i) * (mode m 0 i * mode m 1 i * rk m (S i)) <= P * (rowmax m * colmax m * rmax m)) by mono.
  assert (Q3 : B * (rk m (S i) * rk z (S i) * rk l i * mode w 1 i) * (mode m 0 i * rk l (S i)) <= P * (rowmax m * W)) by mono.
  clear Hz Bz Rz Bm Sr. ecost o2301; lia.
Qed.

Lemma mproj_cost lhs rhs i : i < d -> ndims m = d -> mlhs_shapes (d - 1) lhs -> mrhs_shapes 1 rhs ->
  tcost ec c
   (dt c <- free (nthr (cores z) i);
    dt lc <- free (nthr (cores l) i);
    dt mc <- free (nthr (cores m) i);
    dt x <- free (nthr lhs i);
    if Nat.ltb i (d - 1) then
      dt x' <- free (nthr lhs (S i));
      dt y <- free (nthr rhs (S i));
      dt p <- t_einsum "scjke,sabc,bijd->saikde" [c; x; mc];
      dt q <- t_einsum "aikb,sbcd->saikcd" [lc; x'];
      dt p <- t_ewise (K := Rring) Rminus p q;
      t_einsum "saikcb,sbcd->saikd" [p; y]
    else t_einsum "sabc,bijd,scjke->saike" [x; mc; c]) (fun _ => True) (3 * V).
Proof.
  intros Hi Hd [_ Hl] [_ Hr]. assert (Hi' : i < ndims m) by lia.
  apply tcost_free. intros y Ey. apply nthr_inv in Ey as [_ ->]. apply tcost_free. intros y Ey. apply nthr_inv in Ey as [_ ->].
  apply tcost_free. intros y Ey. apply nthr_inv in Ey as [_ ->].
  apply tcost_free. intros x Ex. apply (nth_nthr _ _ _ _ Ex) in Hl as Sx; [|lia]. shp i Hi Hi'.
  assert (Em : mode m 0 i = mode w 0 i) by (unfold mode; now rewrite E0).
  assert (Q1 : B * (rk m i * rk z i * rk l i * mode w 1 i) * (mode m 1 i * rk z (S i)) <= P * (colmax m * Z)) by mono.
  assert (Q2 : B * (rk m i * rk z (S i) * rk l i * mode w 1 i) * (mode m 0 i * mode m 1 i * rk m (S i)) <= P * (rowmax m * colmax m * rmax m)) by mono.
  assert (Q3 : B * (rk m (S i) * rk z (S i) * rk l i * mode w 1 i) * (mode m 0 i * rk l (S i)) <= P * (rowmax m * W)) by mono.
  assert (Q4 : B * (rk m (S i) * rk z (S i) * rk l i * mode w 1 i) * (mode m 0 i * rk r (S i)) <= P * (rowmax m * W)) by mono.
  assert (Q5 : B * (rk m (S i) * rk z (S i) * rk l i * mode w 1 i) * (mode m 0 i * 1) <= P * (rowmax m * W)) by (mono; now apply rmax_pos).
  destruct (Nat.ltb_spec i (d - 1)) as [H|H].
  - apply tcost_free. intros x' Ex'. apply (nth_nthr _ _ _ _ Ex') in Hl as Sx'; [|lia].
    apply tcost_free. intros y Ey. apply (nth_nthr _ _ _ _ Ey) in Hr as Sy; [|lia].
    apply (tcost_weak ec c _ (fun _ => True) _ ((P * (colmax m * Z) + P * (rowmax m * colmax m * rmax m)) + (P * (rowmax m * W) + (P * (rowmax m * W) + P * (rowmax m * W))))); [|auto|lia].
    clear Hz Bz Rz Bm Hl Hr Ex Ex' Ey Sr.
    apply (tcost_bind ec c _ _ (fun p => shape p = [B; rk l i; mode m 0 i; mode w 1 i; rk m (S i); rk z (S i)])). { clear Q5. ecost o3; lia. }
    intros p Sp. apply (tcost_bind ec c _ _ (fun p => shape p = [B; rk l i; mode w 0 i; mode w 1 i; rk m (S i); rk z (S i)])).
    { clear Q5 Q1 Q2. rewrite Em in Q3. ecost o2; lia. }
    intros q Sq. rewrite Em in Sp. eapply tcost_bind.
    { eapply tcost_weak; [apply (tcost_ewise ec c _ _ _ _ Sp Sq)|intros ? H'; exact H'|].
      rewrite <- Em. unfold prodn. cbn [fold_right]. lia. }
    intros p' Sp'. cbv beta in Sp'. apply (tcost_weak ec c _ (fun r0 => shape r0 = [B; rk l i; mode w 0 i; mode w 1 i; rk r (S i)]) _ (P * (rowmax m * W))); [|auto|lia].
    rewrite Em in *. clear Em Q5 Q1 Q2 Q3 Sp Sq. ecost o2; lia.
  - clear Hz Bz Rz Bm Hl Hr Ex Sr Q5. apply (tcost_weak ec c _ (fun r0 => shape r0 = [B; rk l i; mode m 0 i; mode w 1 i; rk z (S i)]) _ (3 * V)); [|auto|lia].
    ecost o021; lia.
Qed.

Lemma mrhs_cost : ndims m = d -> tcost ec c
   (tfold (fun i rhs =>
      dt x <- free (nthr rhs (S i));
      dt c <- free (nthr (cores z) i);
      dt rc <- free (nthr (cores r) i);
      dt mc <- free (nthr (cores m) i);
      dt y <- t_einsum "bije,cikf,sdef,sajkd->sabc" [mc; rc; x; c];
      Ok (upd i y rhs, []))
    (rev (seq 1 (ndims w - 1)))
    (upd (ndims w) (ones [B; 1; 1; 1]) (repeat rzero (S (ndims w))))) (mrhs_shapes 1) ((d - 1) * V).
Proof.
  intros Hdm. pose proof (wf_d Hw) as Hd.
  apply (tcost_weak ec c _ (mrhs_shapes (S 0)) _ ((d - 1) * V)); auto.
  apply (tcost_rev ec c _ (fun i => mrhs_shapes (S i))).
  - split; [now rewrite length_upd, repeat_length|]. intros k Hk. replace k with d by lia.
    rewrite nth_upd_same by (rewrite repeat_length; lia). rewrite <- (z_dims w z Hw Hz Rz) at 1. rewrite (wf_last Hz).
    rewrite <- Hdm at 1. rewrite (wf_last Hm). rewrite <- (fr_nr _ _ _ HF), (wf_last (fr_r _ _ _ HF)). reflexivity.
  - intros j s Hj [Ls Hs]. apply tcost_free. intros x Ex. apply (nth_nthr _ _ _ _ Ex) in Hs as Sx; [|lia].
    apply tcost_free. intros y Ey. apply nthr_inv in Ey as [_ ->]. apply tcost_free. intros y Ey. apply nthr_inv in Ey as [_ ->].
    apply tcost_free. intros y Ey. apply nthr_inv in Ey as [_ ->].
    rewrite <- (Nat.add_0_r V). eapply tcost_bind; [apply mrhs_step_cost; [lia|lia|exact Sx]|]. intros y Sy.
    apply tcost_ret. split; [now rewrite length_upd|]. intros k Hk. destruct (Nat.eq_dec k (S j)) as [->|Hne].
    + rewrite nth_upd_same by lia. exact Sy.
    + rewrite nth_upd_other by lia. apply Hs. lia.
Qed.

Lemma mlhs_cost : ndims m = d -> tcost ec c
   (tfold (fun i lhs =>
      dt x <- free (nthr lhs i);
      dt c <- free (nthr (cores z) i);
      dt lc <- free (nthr (cores l) i);
      dt mc <- free (nthr (cores m) i);
      dt y <- t_einsum "bije,aikd,sabc,scjkf->sdef" [mc; lc; x; c];
      Ok (upd (S i) y lhs, []))
    (seq 0 (ndims w - 1))
    (upd 0 (ones [B; 1; 1; 1]) (repeat rzero (S (ndims w))))) (mlhs_shapes (d - 1)) ((d - 1) * V).
Proof.
  intros Hdm. pose proof (wf_d Hw) as Hd.
  apply (tcost_seq ec c _ mlhs_shapes V (d - 1) _ 0).
  - split; [now rewrite length_upd, repeat_length|]. intros k Hk. replace k with 0 by lia.
    rewrite nth_upd_same by (rewrite repeat_length; lia). rewrite (wf_first Hz), (wf_first Hm), (wf_first (fr_l _ _ _ HF)). reflexivity.
  - intros j s Hj [Ls Hs]. apply tcost_free. intros x Ex. apply (nth_nthr _ _ _ _ Ex) in Hs as Sx; [|lia].
    apply tcost_free. intros y Ey. apply nthr_inv in Ey as [_ ->]. apply tcost_free. intros y Ey. apply nthr_inv in Ey as [_ ->].
    apply tcost_free. intros y Ey. apply nthr_inv in Ey as [_ ->].
    rewrite <- (Nat.add_0_r V). eapply tcost_bind; [apply mlhs_step_cost; [lia|lia|exact Sx]|]. intros y Sy.
    apply tcost_ret. split; [now rewrite length_upd|]. intros k Hk. destruct (Nat.eq_dec k (S j)) as [->|Hne].
    + rewrite nth_upd_same by lia. exact Sy.
    + rewrite nth_upd_other by lia. apply Hs. lia.
Qed.
End M.

Lemma project_matmul_cost qr (what w m : rtt) addr : qr_ok qr -> wf w -> is_tt_matrix w = true -> wf what -> wf m -> is_tt_matrix m = true -> bsz m = None ->
  nth 0 (rshape m) [] = nth 0 (rshape w) [] ->
  tcost ec c (t_project_matmul qr what addr w m) (fun _ => True)
    (2 * (c + 1) * (ndims w * (rmax w * rmax w * rmax w * nmax w)) +
     5 * (bnum what * ndims w * (rmax m * rmax what * rmax w * colmax w *
          (colmax m * rmax what + rowmax m * colmax m * rmax m + rowmax m * rmax w)))).
Proof.
  intros Hq Hw Kw Ht Hm Km Bm E0. unfold t_project_matmul. destruct (is_batch w) eqn:Hb; [exact I|].
  destruct (llist_eqb (rshape w) (rshape what)) eqn:Er; [|exact I]. apply llist_eqb_eq in Er. cbn [negb].
  assert (Bw : bsz w = None) by (unfold is_batch in Hb; now destruct (bsz w)).
  set (V := (c + 1) * (rmax w * rmax w * rmax w * nmax w)).
  set (U := bnum what * (rmax m * rmax what * rmax w * colmax w) * (colmax m * rmax what + rowmax m * colmax m * rmax m + rowmax m * rmax w)).
  pose proof (wf_d Hw) as Hd.
  apply (tcost_weak ec c _ (fun _ => True) _ (2 * ((ndims w - 1) * V) + ((ndims w - 1) * U + ((ndims w - 1) * U + (ndims w * (3 * U) + 0))))); [|auto|].
  2:{ assert (A1 : (ndims w - 1) * V <= ndims w * V) by (apply Nat.mul_le_mono_r; lia).
      assert (A2 : (ndims w - 1) * U <= ndims w * U) by (apply Nat.mul_le_mono_r; lia). unfold U, V in *. lia. }
  eapply tcost_bind; [apply frame_cost; auto|]. intros [l r] HF. cbn [fst snd] in HF.
  apply tcost_free. intros b Eb.
  apply tcost_free. intros z Ez. destruct (what_facts what z Ht Ez) as (Wz & Rz & Bz & Kz). assert (Rz' : rshape z = rshape w) by congruence.
  assert (b = bnum what) as ->. { unfold lazy_batch_size in Eb. unfold bnum. destruct (bsz what); [|discriminate]. now injection Eb. }
  assert (Dm : ndims m = ndims w).
  { destruct (wf_kind_cases _ m Hm) as [(X & _)|(_ & X & _)]; [congruence|]. destruct (wf_kind_cases _ w Hw) as [(Y & _)|(_ & Y & _)]; [congruence|].
    rewrite <- (Forall_nth' _ _ 0 [] (wf_rlen Hm)), <- (Forall_nth' _ _ 0 [] (wf_rlen Hw)) by lia. now rewrite E0. }
  unfold U. rewrite <- Kz.
  eapply tcost_bind; [apply (mrhs_cost w l r z m (bnum what) Hw HF Kw Wz Rz' Bz Hm Km Bm Dm)|]. intros rhs Hr.
  eapply tcost_bind; [apply (mlhs_cost w l r z m (bnum what) Hw HF Kw Wz Rz' Bz Hm Km Bm Dm)|]. intros lhs Hl.
  eapply tcost_bind; [|intros cs _; now apply tcost_pure].
  apply result_cores_cost. intros i Hi. apply (mproj_cost w l r z m (bnum what)); auto.
Qed.

(** *** Inner products in one tangent space *)
Definition plain (i : pyindex) : Prop := match i with ISlice _ _ None => True | _ => False end.

Lemma plain_len i n ps : plain i -> resolve1 i n = Ok ps -> snd ps = true /\ length (fst ps) <= n.
Proof.
  destruct i as [|a b [|]]; try contradiction. intros _. cbn [resolve1]. unfold slice_positions. cbn [Z.eqb Z.ltb Z.compare].
  match goal with |- Ok (map _ (seq 0 ?m), true) = Ok _ -> _ => set (cnt := m) end.
  assert (Hc : cnt <= n).
  { unfold cnt. rewrite Z.div_1_r. unfold clampZ. destruct a, b; lia. }
  intros H. injection H as <-. cbn [fst snd]. split; [reflexivity|]. now rewrite map_length, seq_length.
Qed.

Lemma resolve_len spec sh ps : Forall plain spec -> resolve spec sh = Ok ps -> Forall2 le (sel_shape ps) sh.
Proof.
  revert sh ps. induction spec as [|i spec IH]; intros [|n sh] ps Hp H; cbn [resolve] in H; try discriminate.
  - injection H as <-. constructor.
  - inversion Hp; subst. destruct (resolve1 i n) as [p|] eqn:E1; [|discriminate]. cbn [bind] in H.
    destruct (resolve spec sh) as [qs|] eqn:E2; [|discriminate]. injection H as <-. apply plain_len in E1 as [K1 K2]; [|assumption].
    destruct p as [pl pb]. cbn [fst snd] in *. subst pb. cbn [sel_shape]. constructor; auto.
Qed.

Lemma cut_shape (x y : rtensor) B sh spec : shape x = B :: sh -> Forall plain spec -> getitem x (full_slice :: spec) = Ok y ->
  exists sh', shape y = B :: sh' /\ Forall2 le sh' sh.
Proof.
  intros Sx Hp H. unfold getitem in H. rewrite Sx in H. cbn [resolve] in H. rewrite resolve1_full in H. cbn [bind] in H.
  destruct (resolve spec sh) as [qs|] eqn:E; [|discriminate]. injection H as <-. rewrite shape_mk. cbn [sel_shape]. rewrite seq_length.
  eexists. split; [reflexivity|]. eapply resolve_len; eauto.
Qed.

Lemma F2_le_cons n sh sh' : Forall2 le sh' (n :: sh) -> exists k t, sh' = k :: t /\ k <= n /\ Forall2 le t sh.
Proof. intros H. inversion H; subst. eauto. Qed.
Lemma F2_le_nil sh' : Forall2 le sh' [] -> sh' = [].
Proof. intros H. now inversion H. Qed.

Section Pair.
Variables t1 t2 : rtt.
Variables B1 B2 : nat.
Hypothesis H1 : wf t1.
Hypothesis H2 : wf t2.
Hypothesis K12 : is_tt_matrix t1 = is_tt_matrix t2.
Hypothesis Bt1 : bsz t1 = Some B1.
Hypothesis Bt2 : bsz t2 = Some B2.
Local Notation U := (B1 * B2 * (rmax t1 * rmax t1 * nmax t1)).

Lemma cut_cost i li ri : plain li -> plain ri ->
  tcost ec c
   (dt x <- (dt c <- free (nthr (cores t1) i);
             free (getitem c (full_slice :: li :: repeat full_slice (if is_tt_matrix t1 then 2 else 1) ++ [ri])));
    dt y <- (dt c <- free (nthr (cores t2) i);
             free (getitem c (full_slice :: li :: repeat full_slice (if is_tt_matrix t1 then 2 else 1) ++ [ri])));
    t_einsum ("pa" ++ mode_str t1 ++ "b,qa" ++ mode_str t1 ++ "b->pq") [x; y]) (fun y => shape y = [B1; B2]) U.
Proof.
  intros Pl Pr. rewrite <- (Nat.add_0_l U).
  eapply tcost_bind.
  { apply tcost_free. intros x Ex. apply nthr_inv in Ex as [Hi ->]. apply tcost_pure. intros y Ey. exact (conj Hi Ey). }
  intros x [Hi Ex]. rewrite <- (Nat.add_0_l U). eapply tcost_bind.
  { apply tcost_free. intros y Ey. apply nthr_inv in Ey as [Hi' ->]. apply tcost_pure. intros y Ey. exact (conj Hi' Ey). }
  intros y [Hi' Ey].
  pose proof (core_shape _ t1 _ H1 Hi) as S1; pose proof (core_shape _ t2 _ H2 Hi') as S2. unfold bpre in S1, S2. rewrite Bt1 in S1. rewrite Bt2 in S2.
  pose proof (modes_max t1 i Hi) as Nm.
  assert (Pf : Forall plain (li :: repeat full_slice (if is_tt_matrix t1 then 2 else 1) ++ [ri])).
  { destruct (is_tt_matrix t1); cbn [repeat app]; repeat constructor; auto. }
  cbn [app] in S1, S2.
  destruct (cut_shape _ _ _ _ _ S1 Pf Ex) as (s1 & Sx & L1). destruct (cut_shape _ _ _ _ _ S2 Pf Ey) as (s2 & Sy & L2). clear Ex Ey Pf.
  pose proof (rk_max t1 i) as R1. pose proof (rk_max t1 (S i)) as R2. clear S1 S2 Bt1 Bt2.
  unfold mode_str. destruct (wf_kind_cases _ t1 H1) as [(E & _ & HM)|(E & _ & HM)], (wf_kind_cases _ t2 H2) as [(E' & _ & HM')|(E' & _ & HM')]; try congruence;
    rewrite E; rewrite HM in *; rewrite HM' in *; clear HM HM' E E' K12; cbn [app String.append] in *.
  - apply F2_le_cons in L1 as (a1 & t1' & -> & A1 & L1). apply F2_le_cons in L1 as (a2 & t2' & -> & A2 & L1). apply F2_le_cons in L1 as (a3 & t3' & -> & A3 & L1).
    apply F2_le_nil in L1 as ->. apply F2_le_cons in L2 as (b1 & t1' & -> & C1 & L2). apply F2_le_cons in L2 as (b2 & t2' & -> & C2 & L2). apply F2_le_cons in L2 as (b3 & t3' & -> & C3 & L2).
    apply F2_le_nil in L2 as ->. unfold prodn in Nm. cbn [fold_right] in Nm.
    assert (Q : B1 * B2 * (a1 * a3 * a2) <= U) by (repeat apply Nat.mul_le_mono; lia). clear - Hec Sx Sy Q. ecost o2; lia.
  - apply F2_le_cons in L1 as (a1 & t1' & -> & A1 & L1). apply F2_le_cons in L1 as (a2 & t2' & -> & A2 & L1). apply F2_le_cons in L1 as (a3 & t3' & -> & A3 & L1).
    apply F2_le_cons in L1 as (a4 & t4' & -> & A4 & L1).
    apply F2_le_nil in L1 as ->. apply F2_le_cons in L2 as (b1 & t1' & -> & C1 & L2). apply F2_le_cons in L2 as (b2 & t2' & -> & C2 & L2). apply F2_le_cons in L2 as (b3 & t3' & -> & C3 & L2).
    apply F2_le_cons in L2 as (b4 & t4' & -> & C4 & L2).
    apply F2_le_nil in L2 as ->. unfold prodn in Nm. cbn [fold_right] in Nm.
    assert (Q : B1 * B2 * (a1 * a4 * (a2 * a3)) <= U).
    { repeat apply Nat.mul_le_mono; try lia. etransitivity; [apply Nat.mul_le_mono; eassumption|lia]. }
    clear - Hec Sx Sy Q. ecost o2; lia.
Qed.
End Pair.

Lemma pairwise_projected_cost (p1 p2 : projected) : wf (p_tt p1) -> wf (p_tt p2) -> is_tt_matrix (p_tt p1) = is_tt_matrix (p_tt p2) ->
  tcost ec c (t_pairwise_flat_inner_projected p1 p2) (fun _ => True)
    (3 * (bnum (p_tt p1) * bnum (p_tt p2) * ndims (p_tt p1) * (rmax (p_tt p1) * rmax (p_tt p1) * nmax (p_tt p1)))).
Proof.
  intros H1 H2 K12. unfold t_pairwise_flat_inner_projected. destruct (p_on p1), (p_on p2); try exact I. destruct (negb _); [exact I|].
  apply tcost_free. intros t1 E1. apply tcost_free. intros t2 E2.
  destruct (what_facts _ _ H1 E1) as (W1 & R1 & B1 & M1). destruct (what_facts _ _ H2 E2) as (W2 & R2 & B2 & M2).
  assert (K' : is_tt_matrix t1 = is_tt_matrix t2) by (unfold is_tt_matrix in *; now rewrite R1, R2).
  assert (D1 : ndims t1 = ndims (p_tt p1)). { destruct (expand_entries Rring _ H1) as (z' & Ez & _ & _ & _ & Nz & _). rewrite E1 in Ez. now injection Ez as <-. }
  assert (N1 : nmax t1 = nmax (p_tt p1)) by (unfold nmax, modes; now rewrite D1, R1).
  rewrite <- D1, <- N1, <- M1. set (b1 := bnum (p_tt p1)) in *. set (b2 := bnum (p_tt p2)) in *. cbv zeta.
  set (U := b1 * b2 * (rmax t1 * rmax t1 * nmax t1)).
  pose proof (wf_d W1) as Hd.
  assert (Pu : b1 * b2 * 1 <= U).
  { unfold U. apply Nat.mul_le_mono; [lia|]. pose proof (rmax_pos t1 W1). pose proof (modes_max t1 0 Hd). pose proof (modes_prod_pos t1 0 W1 Hd). nia. }
  apply (tcost_weak ec c _ (fun _ => True) _ (U + ((ndims t1 - 1) * (U + b1 * b2) + (U + b1 * b2)))); [|auto|].
  2:{ replace (3 * _) with (3 * (ndims t1 * U)) by (unfold U; lia). nia. }
  apply tcost_free. intros r1 Er1.
  eapply tcost_bind; [apply (cut_cost t1 t2 b1 b2); auto; exact I|]. intros x Sx. eapply tcost_bind.
  - apply (tcost_seq ec c _ (fun _ y => shape y = [b1; b2]) (U + b1 * b2) (ndims t1 - 1) x 1); [exact Sx|].
    intros j y Hj Sy. apply tcost_free. intros ra Ea. apply tcost_free. intros rb Eb.
    eapply tcost_bind; [apply (cut_cost t1 t2 b1 b2); auto; exact I|]. intros x' Sx'.
    eapply tcost_weak; [apply (tcost_ewise ec c _ _ _ _ Sy Sx')|auto|unfold prodn; cbn [fold_right]; lia].
  - intros y Sy. apply tcost_free. intros ra Ea. eapply tcost_bind; [apply (cut_cost t1 t2 b1 b2); auto; exact I|]. intros x' Sx'.
    eapply tcost_weak; [apply (tcost_ewise ec c _ _ _ _ Sy Sx')|auto|unfold prodn; cbn [fold_right]; lia].
Qed.
End R.
