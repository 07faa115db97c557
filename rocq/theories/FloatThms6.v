(** Rounding errors of bilinear forms and of inner products with sparse tensors. *)
From Coq Require Import String Ascii List Arith ZArith Lia Lra Bool Reals.
From Verif Require Import Scalar Tensor TensorLemmas TensorLemmas2 Base Spec Chain BaseLemmas Ops OpsR FullProofs ResultLemmas Dense AddProofs MulProofs MatmulProofs Sweep FlatProofs BilinearProofs GatherProofs ValidProofs Float FloatSpec FloatProofs FloatThms FloatThms2 FloatThms3.
Import ListNotations.
Local Open Scope nat_scope.
Local Notation get := (@get Rring).

Section U.
Variable u : R.
Hypothesis Hu : (0 <= u)%R.
Variable ar : arith.
Hypothesis Har : arith_ok u ar.
Local Notation tnear := (tnear u).
Local Notation ttnear := (ttnear u).

Lemma lnear4 m n p q a' a A b' b B c' c C d' d D : tnear m a' a A -> tnear n b' b B -> tnear p c' c C -> tnear q d' d D ->
  lnear u [m; n; p; q] [a'; b'; c'; d'] [a; b; c; d] [A; B; C; D].
Proof. intros H1 H2 H3 H4. constructor; [exact H1|]. now apply lnear3. Qed.

(** ** Bilinear form *)
Section Bil.
Variables A b c : rtt.
Hypothesis HA : wf A. Hypothesis Hb : wf b. Hypothesis Hc : wf c.
Variables rows cols ks : list nat.
Hypothesis RA : rshape A = [rows; cols].
Hypothesis Rb : rshape b = [rows; ks].
Hypothesis Rc : rshape c = [cols; ks].
Hypothesis BA : bsz A = None.
Hypothesis Bbc : bsz b = bsz c.

Definition bl_terms (k : nat) : nat := rk b k * rk A k * rk c k * (mode b 0 k * mode b 1 k * mode A 1 k).
Definition bl_count (wA wb wc : nat -> nat) (i : nat) : nat := csum wA i + csum wb i + csum wc i + csum bl_terms i + (2 * i - 1).

Lemma bl_step_terms i (r : rtensor) : i < ndims A -> shape r = pre_of (bsz b) ++ [rk b i; rk A i; rk c i] ->
  einsum_terms (bl_eq Rring b) [r; core b i; core A i; core c i] = bl_terms i.
Proof.
  intros Hi Sr. unfold bl_terms.
  pose proof (bl_core_A Rring A b HA rows cols ks RA Rb BA i Hi) as SA.
  pose proof (bl_core_b Rring A b c HA Hb Hc rows cols ks RA Rb Rc _ eq_refl i Hi) as Sb.
  pose proof (bl_core_c Rring A b c HA Hb Hc rows cols ks RA Rb Rc _ (eq_sym Bbc) i Hi) as Sc.
  unfold bl_eq, bl_init, bl_p, is_batch. destruct (bsz b) as [B|]; cbn [pre_of app] in *;
    unfold einsum_terms; einsum_step; unfold prodn; cbn [fold_right]; nia.
Qed.
Lemma bl_init_terms : einsum_terms (bl_init Rring b) [core b 0; core A 0; core c 0] = bl_terms 0.
Proof.
  unfold bl_terms. pose proof (wf_d HA) as Hi.
  pose proof (bl_core_A Rring A b HA rows cols ks RA Rb BA 0 Hi) as SA.
  pose proof (bl_core_b Rring A b c HA Hb Hc rows cols ks RA Rb Rc _ eq_refl 0 Hi) as Sb.
  pose proof (bl_core_c Rring A b c HA Hb Hc rows cols ks RA Rb Rc _ (eq_sym Bbc) 0 Hi) as Sc.
  unfold bl_init, bl_p, is_batch. destruct (bsz b) as [B|]; cbn [pre_of app] in *;
    unfold einsum_terms; einsum_step; unfold prodn; cbn [fold_right]; nia.
Qed.

Lemma bilinear_rel wA wb wc A' A1 b' b1 c' c1 : ttnear wA A' A A1 -> ttnear wb b' b b1 -> ttnear wc c' c c1 ->
  rel3 (tnear (bl_count wA wb wc (ndims A))) (bilinear_form_fl ar A' b' c') (bilinear_form A b c) (bilinear_form A1 b1 c1).
Proof.
  intros TA Tb Tc. destruct (bl_dims Rring A b c HA Hb Hc rows cols ks RA Rb Rc) as (Db & Dc & _). pose proof (wf_d HA) as Hd0.
  pose proof (ttnear_same _ _ _ _ _ TA) as ((N1 & _ & _ & M1 & _ & Q1) & (N2 & _ & _ & M2 & _ & Q2)).
  pose proof (ttnear_same _ _ _ _ _ Tb) as ((N3 & _ & _ & M3 & _ & Q3) & (N4 & _ & _ & M4 & _ & Q4)).
  pose proof (ttnear_same _ _ _ _ _ Tc) as ((N5 & _ & _ & M5 & _ & Q5) & (N6 & _ & _ & M6 & _ & Q6)).
  assert (MA : is_tt_matrix A = true) by (unfold is_tt_matrix; now rewrite RA).
  assert (Mb : is_tt_matrix b = true) by (unfold is_tt_matrix; now rewrite Rb).
  assert (Mc : is_tt_matrix c = true) by (unfold is_tt_matrix; now rewrite Rc).
  unfold bilinear_form_fl, bilinear_form. rewrite M1, M2, M3, M4, M5, M6, MA, Mb, Mc, Q3, Q4, N1, N2, orb_diag. cbn [negb].
  fold (bl_p Rring b). fold (bl_init Rring b). fold (bl_eq Rring b).
  eapply rel3_bind with (P := fun z x X => tnear (bl_count wA wb wc 1) z x X /\ shape x = pre_of (bsz b) ++ [rk b 1; rk A 1; rk c 1]).
  { eapply rel3_mono; [apply rel3_eqn; eapply (einsum_rel u Hu ar Har); [apply lnear3; apply ttnear_core; try eassumption; lia|cbn; lia]|].
    cbn beta. intros z x X (T & E). split.
    - eapply tnear_more; [exact Hu|exact T|]. rewrite bl_init_terms. unfold bl_count. rewrite !csum_1. cbn [list_sum fold_right length]. lia.
    - destruct (bl_init_ok Rring A b c HA Hb Hc rows cols ks RA Rb Rc BA (bsz b) eq_refl (eq_sym Bbc)) as (r & Er & _ & Sr & _). rewrite E in Er. apply Ok_inj in Er. now subst r. }
  intros r0' r0 R0 I0.
  eapply rel3_bind with (P := tnear (bl_count wA wb wc (ndims A))); [|intros; cbn [rel3]; now apply squeeze_rel].
  replace (ndims A) with (1 + (ndims A - 1)) at 1 by lia.
  eapply rel3_mono; [apply (foldM_rel (fun i z x X => tnear (bl_count wA wb wc i) z x X /\ shape x = pre_of (bsz b) ++ [rk b i; rk A i; rk c i])); [exact I0|]|cbn beta; tauto].
  intros i z x X Hi (T & Sx). rewrite !nthr_core by lia. cbn [bind].
  eapply rel3_mono; [apply rel3_eqn; eapply (einsum_rel u Hu ar Har); [apply lnear4; [exact T|apply ttnear_core; [exact Tb|lia]|apply ttnear_core; [exact TA|lia]|apply ttnear_core; [exact Tc|lia]]|cbn; lia]|].
  cbn beta. intros z1 x1 X1 (T1 & E1). split.
  + eapply tnear_more; [exact Hu|exact T1|]. rewrite bl_step_terms by (auto; lia). unfold bl_count. rewrite !csum_S. cbn [list_sum fold_right length]. lia.
  + destruct (bl_step Rring A b c HA Hb Hc rows cols ks RA Rb Rc BA (bsz b) eq_refl (eq_sym Bbc) i x ltac:(lia) Sx) as (r & Er & _ & Sr & _). rewrite E1 in Er. apply Ok_inj in Er. now subst r.
Qed.
End Bil.

(** ** Bilinear form with two matrices *)
Section Bil2.
Variables x A B y : rtt.
Hypothesis Hx : wf x. Hypothesis HA : wf A. Hypothesis HB : wf B. Hypothesis Hy : wf y.
Variables ls ns ps os ms : list nat.
Hypothesis Rx : rshape x = [ls; ns].
Hypothesis RA : rshape A = [ls; ps].
Hypothesis RB : rshape B = [ps; os].
Hypothesis Ry : rshape y = [os; ms].
Hypothesis Bx : bsz x = None. Hypothesis BA : bsz A = None. Hypothesis BB : bsz B = None. Hypothesis By : bsz y = None.

Definition b2_terms (k : nat) : nat :=
  rk x k * rk A k * rk B k * rk y k * (nth k ls 0 * nth k ns 0 * nth k ps 0 * nth k os 0 * nth k ms 0).
Definition b2_count (i : nat) : nat := csum b2_terms i + (4 * i - 1).

Lemma b2_cores i : i < ndims A -> 
  shape (core A i) = [rk A i; nth i ls 0; nth i ps 0; rk A (S i)] /\ shape (core x i) = [rk x i; nth i ls 0; nth i ns 0; rk x (S i)] /\
  shape (core B i) = [rk B i; nth i ps 0; nth i os 0; rk B (S i)] /\ shape (core y i) = [rk y i; nth i os 0; nth i ms 0; rk y (S i)].
Proof.
  intros Hi. destruct (b2_dims Rring x A B y Hx HA HB Hy ls ns ps os ms Rx RA RB Ry) as (D1 & D2 & D3 & _).
  repeat split; apply b2_core; auto; lia.
Qed.
Lemma b2_step_terms i (r : rtensor) : i < ndims A -> shape r = rks_at (b2_Gs Rring x A B y) i ->
  einsum_terms "egia,elnf,glph,ipoj,aomb->fhjb" [r; core x i; core A i; core B i; core y i] = b2_terms i.
Proof.
  intros Hi Sr. destruct (b2_cores i Hi) as (SA & Sx & SB & Sy). cbn [rks_at b2_Gs map tr snd] in Sr. unfold b2_terms.
  unfold einsum_terms; einsum_step; unfold prodn; cbn [fold_right]. ring.
Qed.
Lemma b2_init_terms : einsum_terms "elnf,glph,ipoj,aomb->fhjb" [core x 0; core A 0; core B 0; core y 0] = b2_terms 0.
Proof.
  destruct (b2_cores 0 (wf_d HA)) as (SA & Sx & SB & Sy). unfold b2_terms.
  unfold einsum_terms; einsum_step; unfold prodn; cbn [fold_right]. ring.
Qed.

Lemma two_mat_rel x' x1 A' A1 B' B1 y' y1 (w := fun _ : nat => 0) : ttnear w x' x x1 -> ttnear w A' A A1 -> ttnear w B' B B1 -> ttnear w y' y y1 ->
  rel3 (tnear (b2_count (ndims A))) (bilinear_form_two_mat_fl ar x' A' B' y') (bilinear_form_two_mat x A B y) (bilinear_form_two_mat x1 A1 B1 y1).
Proof.
  intros Tx TA TB Ty. destruct (b2_dims Rring x A B y Hx HA HB Hy ls ns ps os ms Rx RA RB Ry) as (D1 & D2 & D3 & _). pose proof (wf_d HA) as Hd0.
  pose proof (ttnear_same _ _ _ _ _ TA) as ((N1 & _ & _ & M1 & _ & Q1) & (N2 & _ & _ & M2 & _ & Q2)).
  pose proof (ttnear_same _ _ _ _ _ TB) as ((N3 & _ & _ & M3 & _ & Q3) & (N4 & _ & _ & M4 & _ & Q4)).
  pose proof (ttnear_same _ _ _ _ _ Tx) as ((N5 & _ & _ & M5 & _ & Q5) & (N6 & _ & _ & M6 & _ & Q6)).
  pose proof (ttnear_same _ _ _ _ _ Ty) as ((N7 & _ & _ & M7 & _ & Q7) & (N8 & _ & _ & M8 & _ & Q8)).
  assert (MA : is_tt_matrix A = true) by (unfold is_tt_matrix; now rewrite RA).
  assert (Mx : is_tt_matrix x = true) by (unfold is_tt_matrix; now rewrite Rx).
  assert (MB : is_tt_matrix B = true) by (unfold is_tt_matrix; now rewrite RB).
  assert (My : is_tt_matrix y = true) by (unfold is_tt_matrix; now rewrite Ry).
  assert (Ib : is_batch x = false) by (unfold is_batch; now rewrite Bx).
  unfold bilinear_form_two_mat_fl, bilinear_form_two_mat. rewrite M1, M2, M3, M4, M5, M6, M7, M8, MA, MB, Mx, My, Q5, Q6, N1, N2, Ib. cbn [negb orb String.append].
  eapply rel3_bind with (P := fun z r R => tnear (b2_count 1) z r R /\ shape r = rks_at (b2_Gs Rring x A B y) 1).
  { eapply rel3_mono; [apply rel3_eqn; eapply (einsum_rel u Hu ar Har); [apply lnear4; apply ttnear_core; try eassumption; lia|cbn; lia]|].
    cbn beta. intros z r R (T & E). split.
    - eapply tnear_more; [exact Hu|exact T|]. rewrite b2_init_terms. unfold b2_count. rewrite !csum_1. cbn [list_sum fold_right length]. subst w. cbn beta. lia.
    - destruct (b2_init_ok Rring x A B y Hx HA HB Hy ls ns ps os ms Rx RA RB Ry Bx BA BB By) as (r' & Er & _ & Sr & _). rewrite E in Er. apply Ok_inj in Er. now subst r'. }
  intros r0' r0 R0 I0.
  eapply rel3_bind with (P := tnear (b2_count (ndims A))); [|intros; cbn [rel3]; now apply squeeze_rel].
  replace (ndims A) with (1 + (ndims A - 1)) at 1 by lia.
  eapply rel3_mono; [apply (foldM_rel (fun i z r R => tnear (b2_count i) z r R /\ shape r = rks_at (b2_Gs Rring x A B y) i)); [exact I0|]|cbn beta; tauto].
  intros i z r R Hi (T & Sr). rewrite !nthr_core by lia. cbn [bind].
  eapply rel3_mono; [apply rel3_eqn; eapply (einsum_rel u Hu ar Har); [constructor; [exact T|apply lnear4; [apply ttnear_core; [exact Tx|lia]|apply ttnear_core; [exact TA|lia]|apply ttnear_core; [exact TB|lia]|apply ttnear_core; [exact Ty|lia]]]|cbn; lia]|].
  cbn beta. intros z1 r1 R1 (T1 & E1). split.
  + eapply tnear_more; [exact Hu|exact T1|]. rewrite b2_step_terms by (auto; lia). unfold b2_count. rewrite !csum_S. cbn [list_sum fold_right length]. subst w. cbn beta. lia.
  + destruct (b2_step Rring x A B y Hx HA HB Hy ls ns ps os ms Rx RA RB Ry Bx BA BB By i r ltac:(lia) Sr) as (r' & Er & _ & Sr' & _). rewrite E1 in Er. apply Ok_inj in Er. now subst r'.
Qed.
End Bil2.

(** ** Inner product with a sparse tensor *)
Lemma getitem_rel m z x X spec : tnear m z x X -> rel3 (tnear m) (getitem z spec) (getitem x spec) (getitem X spec).
Proof.
  intros H. pose proof H as (_ & _ & _ & S1 & S2 & _). unfold getitem. rewrite S1, S2. destruct (resolve _ _); cbn [bind rel3]; [|auto].
  apply tnear_mk. intros i _. now apply tnear_get.
Qed.

Lemma matmul_last (x y : rtensor) r M k n : matmul x y = Ok r -> shape y = [M; k; n] -> last (shape r) 0 = n.
Proof.
  intros E Sy. unfold matmul, rank in E. rewrite Sy in E. cbn [length Nat.sub skipn firstn] in E.
  destruct (skipn _ (shape x)) as [|? [|? [|? ?]]]; try discriminate. destruct (Nat.eqb _ _); [|discriminate].
  destruct (bcast _ _); [|discriminate]. okinv E. rewrite shape_mk. rewrite (app_assoc _ [_] [_] : _ ++ [_; _] = _). apply last_last.
Qed.

Lemma sparse_rel w v z x X sz s sX M : ttnear w z x X -> wf x -> bsz x = None ->
  shape (sp_indices s) = [M; length (get_shape x)] -> rows_valid (sp_indices s) (get_shape x) ->
  sp_indices sz = sp_indices s -> sp_indices sX = sp_indices s -> shape (sp_values s) = [M] ->
  tnear v (sp_values sz) (sp_values s) (sp_values sX) ->
  rel3 (tnear (csum w (ndims x) + rank_sum x (ndims x) + v + M)) (tt_sparse_flat_inner_fl ar z sz) (tt_sparse_flat_inner x s) (tt_sparse_flat_inner X sX).
Proof.
  intros H Hw Hb Si Hv I1 I2 Sv Tv. pose proof (ttnear_same _ _ _ _ _ H) as ((N1 & K1 & O1 & M1 & _ & _) & (N2 & K2 & O2 & M2 & _ & _)).
  pose proof H as (R1 & _ & _ & R2 & _ & _ & _).
  unfold tt_sparse_flat_inner_fl, tt_sparse_flat_inner. rewrite I1, I2, Si, M1, M2, N1, N2, R1, R2. unfold nthr. cbn [nth_error bind].
  destruct (sparse_inner_full Rring x s M Hw Hb Si Sv Hv) as (d & rr & _ & Esp & _).
  unfold tt_sparse_flat_inner in Esp. rewrite Si in Esp. unfold nthr in Esp. cbn [nth_error bind] in Esp.
  eapply rel3_bind with (P := fun p q r => tnear (csum w (ndims x) + rank_sum x (ndims x)) p q r /\ size q = M).
  - destruct (is_tt_matrix x) eqn:Hm.
    + assert (GS : get_shape x = [prodn (nth 0 (rshape x) []); prodn (nth 1 (rshape x) [])]) by (unfold get_shape; now rewrite Hm, Hb).
      assert (Hv' : forall m, m < M -> (0 <= Tensor.get (K := Zring) (sp_indices s) [m; 0%nat] < Z.of_nat (prodn (nth 0 (rshape x) [])))%Z /\
         (0 <= Tensor.get (K := Zring) (sp_indices s) [m; 1%nat] < Z.of_nat (prodn (nth 1 (rshape x) [])))%Z).
      { intros m Hmm. unfold rows_valid in Hv. rewrite GS, Si in Hv. rewrite GS in Hv. cbn [nth length] in Hv.
        split; [exact (Hv m 0 Hmm ltac:(lia))|exact (Hv m 1 Hmm ltac:(lia))]. }
      rewrite GS in Si. cbn [length] in Si.
      destruct (sm_ok Rring x (sp_indices s) M Hw Hm Hb Si Hv') as (e & Ee & Se & _).
      destruct (column_ok (sp_indices s) M 2 0 Si ltac:(lia)) as (i0 & E0 & W0 & S0 & G0).
      destruct (column_ok (sp_indices s) M 2 1 Si ltac:(lia)) as (i1 & E1 & W1 & S1 & G1).
      destruct (unravel_index_ok i0 M (nth 0 (rshape x) []) S0) as (ri & Er & Wr & Sr & _).
      destruct (unravel_index_ok i1 M (nth 1 (rshape x) []) S1) as (ci & Ec & Wc & Sc & _).
      rewrite E0, E1 in *. cbn [bind] in *. rewrite Er, Ec in *. cbn [bind] in *.
      eapply rel3_mono; [apply rel3_eqn|intros p q r (T & Eq); rewrite Ee in Eq; apply Ok_inj in Eq; subst q; split; [exact T|exact Se]].
      eapply rel3_mono; [apply (foldM_rel (fun i z y Y => tnear (csum w i + rank_sum x i) z y Y /\ last (shape y) 0 = rk x i))|cbn beta; intros ? ? ? (T & _); exact T].
      * split; [apply tnear_ones; exact Hu|]. unfold ones. rewrite shape_mk. cbn [last]. now rewrite (wf_first Hw).
      * intros i p q r Hi (T & Sq).
        eapply rel3_bind; [apply transpose_rel; apply ttnear_core; [exact H|lia]|]. intros p1 q1 r1 T1.
        rewrite !O1, !O2, !K1, !K2.
        eapply rel3_bind; [apply (reshape_rel' u); exact T1|]. intros p2 q2 r2 (T2 & n2 & S2). cbn [map] in S2.
        destruct (column_ok ri M (length (nth 0 (rshape x) [])) i Sr) as (ri' & E3 & W3 & S3 & _).
        { destruct (matrix_rows_len Rring x Hw Hm) as [L0 _]. rewrite L0. lia. }
        destruct (column_ok ci M (length (nth 1 (rshape x) [])) i Sc) as (ci' & E4 & W4 & S4 & _).
        { destruct (matrix_rows_len Rring x Hw Hm) as [_ L1]. rewrite L1. lia. }
        rewrite E3, E4. cbn [bind]. unfold ewise. rewrite S3, S4, bcast_same. cbn [bind].
        match goal with |- context [gather p2 ?l] => set (lin := l) end.
        eapply rel3_bind with (P := fun p q r => tnear (w i) p q r /\ shape q = [M; rk x i; rk x (S i)]).
        { eapply rel3_mono; [apply rel3_eqn; apply gather_rel; exact T2|]. cbn beta. intros p3 q3 r3 (T3 & E5). split; [exact T3|].
          unfold gather in E5. rewrite S2 in E5. destruct (forallb _ _); [|discriminate]. okinv E5. reflexivity. }
        intros p3 q3 r3 (T3 & S3'). eapply rel3_mono; [apply rel3_eqn; apply (matmul_rel u Hu ar Har _ _ _ _ _ _ _ _ T T3)|]. cbn beta. intros p4 q4 r4 (T4 & E6). split.
        -- eapply tnear_more; [exact Hu|exact T4|]. rewrite Sq. unfold rank_sum. rewrite !csum_S. lia.
        -- eapply matmul_last; eassumption.
    + destruct (gather_nd_full Rring x (sp_indices s) M Hw Hm Si Hv) as (d' & e & _ & Ee & We & Se & _).
      assert (GS : get_shape x = bpre x ++ nth 0 (rshape x) []) by (unfold get_shape, bpre; rewrite Hm; destruct (bsz x); reflexivity).
      destruct (wf_kind_cases _ x Hw) as [(_ & Hl & _)|(E & _)]; [|congruence].
      assert (L : length (nth 0 (rshape x) []) = ndims x) by (apply (Forall_nth' (fun s : list nat => length s = ndims x)); [apply (wf_rlen Hw)|lia]).
      eapply rel3_mono; [apply rel3_eqn with (P := tnear (csum w (ndims x) + rank_sum x (ndims x)))|].
      * rewrite GS, app_length, L in Si. unfold rows_valid in Hv. rewrite GS, app_length, L, Si in Hv. cbn [nth] in Hv.
        apply (gather_nd_rel u Hu ar Har w z x X (sp_indices s) M H Hw Hm Si).
        intros m Hmm. split.
        -- rewrite Hb. exact I.
        -- intros k Hk. specialize (Hv m (length (bpre x) + k)%nat Hmm ltac:(lia)).
           rewrite app_nth2 in Hv by lia. replace (length (bpre x) + k - length (bpre x))%nat with k in Hv by lia. exact Hv.
      * cbn beta. intros p q r (T & Eq). rewrite Ee in Eq. apply Ok_inj in Eq. subst q. split; [exact T|]. unfold size. rewrite Se. unfold prodn. cbn [fold_right]. lia.
  - intros p q r (T & Sq).
    eapply rel3_bind with (P := fun p q r => tnear (csum w (ndims x) + rank_sum x (ndims x)) p q r /\ last (shape q) 0 = M).
    { eapply rel3_mono; [apply rel3_eqn; apply reshape_rel; exact T|]. cbn beta. intros p1 q1 r1 (T1 & E1). split; [exact T1|].
      unfold reshape in E1. cbn -[Nat.modulo Nat.div size] in E1. rewrite Sq, Nat.mod_1_r, Nat.div_1_r in E1. cbn [Nat.eqb] in E1. okinv E1. reflexivity. }
    intros p1 q1 r1 (T1 & L1). eapply rel3_bind; [apply reshape_rel; exact Tv|]. intros p2 q2 r2 T2.
    eapply rel3_bind; [apply (matmul_rel u Hu ar Har _ _ _ _ _ _ _ _ T1 T2)|]. intros p3 q3 r3 T3. rewrite L1 in T3. now apply getitem_rel.
Qed.
End U.
