(** Rounding errors: the Frobenius norm and matrix products. *)
From Coq Require Import String Ascii List Arith ZArith Lia Lra Bool Reals.
From Verif Require Import Scalar Tensor TensorLemmas TensorLemmas2 Base Spec Chain BaseLemmas Ops OpsR FullProofs ResultLemmas Dense AddProofs MulProofs MatmulProofs DenseMatmul FlatProofs NormProofs GatherProofs ValidProofs Float FloatSpec FloatProofs FloatThms FloatThms2 FloatThms3.
Import ListNotations.
Local Open Scope nat_scope.
Local Notation get := (@get Rring).

Section U.
Variable u : R.
Hypothesis Hu : (0 <= u)%R.
Variable ar : arith.
Hypothesis Har : arith_ok u ar.
Local Notation near := (near u).
Local Notation tnear := (tnear u).
Local Notation ttnear := (ttnear u).

Lemma fr_step_terms (t : rtt) i (r : rtensor) : wf t -> i < ndims t -> shape r = bpre t ++ [rk t i; rk t i] ->
  einsum_terms (fr_b Rring t ++ "ac," ++ fr_b Rring t ++ "a" ++ fr_ax Rring t ++ "b," ++ fr_b Rring t ++ "c" ++ fr_ax Rring t ++ "d->" ++ fr_b Rring t ++ "bd")%string
    [r; core t i; core t i] = fi_terms t t i.
Proof.
  intros Hw Hi Sr. unfold fi_terms. pose proof (core_shape _ t _ Hw Hi) as Sa. unfold fr_b, fr_ax, is_batch, bpre in *.
  destruct (wf_kind_cases _ t Hw) as [(E & _ & Hm)|(E & _ & Hm)]; rewrite E, Hm in *; clear E Hm;
  destruct (bsz t) as [x|]; cbn [app] in *; unfold einsum_terms; einsum_step; unfold prodn; cbn [fold_right]; nia.
Qed.
Lemma fr_init_terms (t : rtt) : wf t ->
  einsum_terms (fr_b Rring t ++ "a" ++ fr_ax Rring t ++ "b," ++ fr_b Rring t ++ "c" ++ fr_ax Rring t ++ "d->" ++ fr_b Rring t ++ "bd")%string
    [core t 0; core t 0] = fi_terms t t 0.
Proof.
  intros Hw. unfold fi_terms. pose proof (core_shape _ t _ Hw (wf_d Hw)) as Sa. unfold fr_b, fr_ax, is_batch, bpre in *.
  destruct (wf_kind_cases _ t Hw) as [(E & _ & Hm)|(E & _ & Hm)]; rewrite E, Hm in *; clear E Hm;
  destruct (bsz t) as [x|]; cbn [app] in *; unfold einsum_terms; einsum_step; unfold prodn; cbn [fold_right]; nia.
Qed.

Lemma frobenius_rel w z x X : ttnear w z x X -> wf x ->
  rel3 (tnear (fi_count w w x x (ndims x))) (frobenius_norm_squared_diff_fl ar z) (frobenius_norm_squared_diff x) (frobenius_norm_squared_diff X).
Proof.
  intros H Hw. pose proof (ttnear_same _ _ _ _ _ H) as ((N1 & _ & _ & M1 & _ & Q1) & (N2 & _ & _ & M2 & _ & Q2)). pose proof (wf_d Hw) as Hd.
  unfold frobenius_norm_squared_diff_fl, frobenius_norm_squared_diff. rewrite N1, N2, M1, M2, Q1, Q2. cbv zeta. fold (fr_b Rring x) (fr_ax Rring x).
  eapply rel3_bind.
  { apply rel3_eqn. eapply (einsum_rel u Hu ar Har); [apply lnear2; apply ttnear_core; eassumption|cbn; lia]. }
  intros r0' r0 R0 (T0 & E0). eapply rel3_bind with (P := tnear (fi_count w w x x (1 + (ndims x - 1)))).
  - eapply rel3_mono; [apply (foldM_rel (fun i p q r => tnear (fi_count w w x x i) p q r /\ shape q = bpre x ++ [rk x i; rk x i]))|cbn beta; tauto].
    + split.
      * eapply tnear_more; [exact Hu|exact T0|]. rewrite fr_init_terms by auto. unfold fi_count. rewrite !csum_1. cbn [list_sum fold_right length]. lia.
      * destruct (fr_init Rring x Hw) as (r & Er & _ & Sr & _). rewrite E0 in Er. apply Ok_inj in Er. now subst r.
    + intros i p q r Hi (T & Sq).
      eapply rel3_mono; [apply rel3_eqn; eapply (einsum_rel u Hu ar Har); [apply lnear3; [exact T|apply ttnear_core; [exact H|lia]|apply ttnear_core; [exact H|lia]]|cbn; lia]|].
      cbn beta. intros z1 x1 X1 (T1 & E1). split.
      * eapply tnear_more; [exact Hu|exact T1|]. rewrite fr_step_terms by (auto; lia). unfold fi_count. rewrite !csum_S. cbn [list_sum fold_right length]. lia.
      * destruct (fr_step Rring x Hw i q ltac:(lia) Sq) as (r1 & Er & _ & Sr & _). rewrite E1 in Er. apply Ok_inj in Er. now subst r1.
  - replace (1 + (ndims x - 1)) with (ndims x) by lia. intros p q r T.
    assert (RK : rank p = rank q /\ rank r = rank q) by (destruct T as (_ & _ & _ & A & B & _); unfold rank; now rewrite A, B). destruct RK as [-> ->].
    eapply rel3_bind; [apply squeeze_axis_rel; exact T|]. intros p1 q1 r1 T1.
    assert (RK : rank p1 = rank q1 /\ rank r1 = rank q1) by (destruct T1 as (_ & _ & _ & A & B & _); unfold rank; now rewrite A, B). destruct RK as [-> ->].
    now apply squeeze_axis_rel.
Qed.

(** ** Products of TT-matrices *)
Lemma mm_terms (a b : rtt) i : wf a -> wf b -> is_tt_matrix a = true -> is_tt_matrix b = true ->
  mode a 1 i = mode b 0 i -> i < ndims a -> i < ndims b ->
  (match bsz a, bsz b with Some x, Some y => x = y | _, _ => True end) ->
  einsum_terms ((if is_batch a then "o" else "") ++ "aijb," ++ (if is_batch b then "o" else "") ++ "cjkd->" ++
             (if is_batch a || is_batch b then "o" else "") ++ "acikbd")%string [core a i; core b i] = mode a 1 i.
Proof.
  intros Ha Hb Ma Mb Hm Hi Hi' Hbs.
  pose proof (core_shape _ a i Ha Hi) as Sa. pose proof (core_shape _ b i Hb Hi') as Sb.
  destruct (wf_kind_cases _ a Ha) as [(E & _)|(_ & _ & Hma)]; [congruence|].
  destruct (wf_kind_cases _ b Hb) as [(E & _)|(_ & _ & Hmb)]; [congruence|].
  rewrite Hma in Sa. rewrite Hmb in Sb. rewrite <- Hm in Sb. clear Hma Hmb. unfold bpre, is_batch in *.
  destruct (bsz a) as [x|], (bsz b) as [y|]; cbn [app] in Sa, Sb; try subst y; unfold einsum_terms; einsum_step; unfold prodn; cbn [fold_right]; lia.
Qed.

Lemma mm_rel wa wb a' a A b' b B : ttnear wa a' a A -> ttnear wb b' b B -> wf a -> wf b -> is_tt_matrix a = true -> is_tt_matrix b = true ->
  nth 1 (rshape a) [] = nth 0 (rshape b) [] ->
  rel3 (ttnear (fun k => wa k + wb k + mode a 1 k)) (tt_tt_matmul_fl ar a' b') (tt_tt_matmul a b) (tt_tt_matmul A B).
Proof.
  intros Ta Tb Ha Hb Ma Mb Hin.
  pose proof (ttnear_same _ _ _ _ _ Ta) as ((N1 & K1 & O1 & M1 & _ & _) & (N2 & K2 & O2 & M2 & _ & _)). pose proof Ta as (R1 & L1 & B1 & R2 & L2 & B2 & _).
  pose proof (ttnear_same _ _ _ _ _ Tb) as ((N3 & K3 & O3 & M3 & _ & _) & (N4 & K4 & O4 & M4 & _ & _)). pose proof Tb as (R3 & L3 & B3 & R4 & L4 & B4 & _).
  assert (P1 : is_batch_broadcasting_possible a' b' = is_batch_broadcasting_possible a b) by (unfold is_batch_broadcasting_possible; now rewrite B1, B3).
  assert (P2 : is_batch_broadcasting_possible A B = is_batch_broadcasting_possible a b) by (unfold is_batch_broadcasting_possible; now rewrite B2, B4).
  unfold tt_tt_matmul_fl, tt_tt_matmul. rewrite P1, P2, M1, M2, M3, M4, Ma, Mb, N1, N2, N3, N4. cbn [negb orb].
  destruct (is_batch_broadcasting_possible a b) eqn:Hbc; cbn [negb]; [|cbn; auto]. destruct (Nat.eqb_spec (ndims b) (ndims a)) as [Hd|]; cbn [negb]; [|cbn; auto].
  destruct (squeeze_entries Rring a Ha) as (a1 & Sa & Wa & Ra & Ka & Ba & Na & _).
  destruct (squeeze_entries Rring b Hb) as (b1 & Sb & Wb & Rb & Kb & Bb & Nb & _).
  eapply rel3_bind; [apply rel3_eqn; apply squeeze_batch_rel; exact Ta|]. intros sa' sa sA (Tsa & Ea). rewrite Sa in Ea. apply Ok_inj in Ea. subst sa.
  eapply rel3_bind; [apply rel3_eqn; apply squeeze_batch_rel; exact Tb|]. intros sb' sb sB (Tsb & Eb). rewrite Sb in Eb. apply Ok_inj in Eb. subst sb.
  clear K1 O1 K2 O2 K3 O3 K4 O4 M1 M2 M3 M4 R1 L1 B1 R2 L2 B2 R3 L3 B3 R4 L4 B4 P1 P2.
  pose proof (ttnear_same _ _ _ _ _ Tsa) as ((_ & K1 & O1 & _ & _ & Q1) & (_ & K2 & O2 & _ & _ & Q2)).
  pose proof (ttnear_same _ _ _ _ _ Tsb) as ((_ & K3 & O3 & _ & _ & Q3) & (_ & K4 & O4 & _ & _ & Q4)).
  pose proof Tsa as (R1 & L1 & B1 & R2 & L2 & B2 & _). pose proof Tsb as (R3 & L3 & B3 & R4 & L4 & B4 & _).
  cbv zeta. rewrite Q1, Q2, Q3, Q4, B1, B2, B3, B4, R1, R2, R3, R4, L1, L2, L3, L4.
  assert (Hbb : match bsz a1, bsz b1 with Some x, Some y => x = y | _, _ => True end).
  { rewrite Ba, Bb. unfold is_batch_broadcasting_possible in Hbc. unfold sqb.
    destruct (bsz a) as [[|[|x]]|], (bsz b) as [[|[|y]]|]; auto; cbn in Hbc;
      rewrite ?orb_false_r in Hbc; try discriminate; apply Nat.eqb_eq in Hbc; congruence. }
  eapply rel3_bind.
  - apply (mapM_rel (fun k => tnear (wa k + wb k + mode a 1 k)) (Tensor [] [])). intros i Hi. cbn [Nat.add]. rewrite !K1, !K2, !K3, !K4, !O1, !O2, !O3, !O4.
    assert (EM : mode a 1 i = mode a1 1 i) by (unfold mode; now rewrite Ra).
    eapply rel3_bind; [|intros ? ? ? T; apply reshape_rel; exact T].
    eapply rel3_mono; [eapply (einsum_rel u Hu ar Har); [apply lnear2; apply ttnear_core; try eassumption; lia|cbn; lia]|].
    intros ? ? ? T. eapply tnear_more; [exact Hu|exact T|]. rewrite mm_terms; auto; try lia.
    + cbn [list_sum fold_right length]. lia.
    + unfold is_tt_matrix in *. now rewrite Ra.
    + unfold is_tt_matrix in *. now rewrite Rb.
    + unfold mode. now rewrite Ra, Rb, Hin.
  - intros l m n (T & _). destruct (match bsz b1 with Some x => Some x | None => bsz a1 end); [now apply TensorTrainBatch_rel|now apply TensorTrain_rel].
Qed.

(** ** TT-matrix by dense matrix *)
Lemma foldM_rel_down {S} (I : nat -> S -> S -> S -> Prop) f g h n : forall a b c, I n a b c ->
  (forall i a b c, i < n -> I (Datatypes.S i) a b c -> rel3 (I i) (f i a) (g i b) (h i c)) ->
  rel3 (I 0) (foldM f (rev (seq 0 n)) a) (foldM g (rev (seq 0 n)) b) (foldM h (rev (seq 0 n)) c).
Proof.
  induction n as [|n IH]; intros a b c H0 H; [exact H0|]. rewrite seq_S, rev_app_distr. cbn [rev app foldM Nat.add].
  eapply rel3_bind; [apply H; [lia|exact H0]|]. intros a1 b1 c1 H1. apply IH; [exact H1|]. intros. apply H; [lia|assumption].
Qed.

Definition dense_terms (a : rtt) (k : nat) : nat := mode a 1 k * rk a (S k).
Definition tail_sum (f : nat -> nat) (k n : nat) : nat := list_sum (map f (seq k (n - k))).

Lemma tail_sum_S f k n : k < n -> tail_sum f k n = f k + tail_sum f (S k) n.
Proof. intros H. unfold tail_sum. replace (n - k) with (S (n - S k)) by lia. reflexivity. Qed.

Lemma dense_rel w m a' a A b' b B : ttnear w a' a A -> tnear m b' b B -> wf a -> bsz a = None -> is_tt_matrix a = true ->
  rel3 (tnear (m + csum w (ndims a) + csum (dense_terms a) (ndims a))) (tt_dense_matmul_fl ar a' b') (tt_dense_matmul a b) (tt_dense_matmul A B).
Proof.
  intros Ta Tb Ha Hb Hm.
  pose proof (ttnear_same _ _ _ _ _ Ta) as ((N1 & K1 & O1 & M1 & G1 & Q1) & (N2 & K2 & O2 & M2 & G2 & Q2)).
  pose proof Tb as (_ & _ & _ & S1 & S2 & _). pose proof (wf_d Ha) as Hd.
  unfold tt_dense_matmul_fl, tt_dense_matmul, lazy_shape. rewrite N1, N2, M1, M2, G1, G2, Q1, Q2, S1, S2. unfold is_batch. rewrite Hb, Hm. cbn [orb negb].
  destruct (nthr (shape b) 0) as [b0|]; cbn [bind]; [|cbn; auto]. destruct (Nat.eqb _ b0); cbn [negb]; [|cbn; auto].
  eapply rel3_bind; [apply transpose_rev_rel; exact Tb|]. intros d0' d0 D0 T0. rewrite !O1, !O2.
  eapply rel3_bind; [apply reshape_rel'; exact T0|]. intros d1' d1 D1 (T1 & n & Sd1). cbn [map] in Sd1.
  eapply rel3_bind with (P := tnear (m + csum w (ndims a) + csum (dense_terms a) (ndims a))).
  - eapply rel3_mono; [apply (foldM_rel_down (fun i p q r => tnear (m + tail_sum w i (ndims a) + tail_sum (dense_terms a) i (ndims a)) p q r /\
        (0 < i -> exists n, shape q = [n; mode a 1 (i - 1); rk a i])))|cbn beta; intros p q r (T & _); unfold tail_sum in T; rewrite Nat.sub_0_r in T; exact T].
    + unfold tail_sum. rewrite Nat.sub_diag. cbn [seq map list_sum fold_right]. rewrite !Nat.add_0_r. split; [exact T1|]. intros _. exists n. rewrite (wf_last Ha). exact Sd1.
    + intros i p q r Hi (T & Sq). destruct (Sq ltac:(lia)) as (n' & Sq'). replace (S i - 1) with i in Sq' by lia. rewrite !O1, !O2, !K1, !K2.
      assert (ET : einsum_terms "aijb,rjb->ira" [core a i; q] = dense_terms a i).
      { pose proof (core_shape _ a i Ha Hi) as Sc. unfold bpre in Sc. rewrite Hb in Sc. destruct (wf_kind_cases _ a Ha) as [(E & _)|(_ & _ & E)]; [congruence|]. rewrite E in Sc. cbn [app] in Sc.
        unfold einsum_terms, dense_terms. einsum_step. unfold prodn. cbn [fold_right]. nia. }
      eapply rel3_bind with (P := tnear (m + tail_sum w i (ndims a) + tail_sum (dense_terms a) i (ndims a))).
      * eapply rel3_mono; [eapply (einsum_rel u Hu ar Har); [apply lnear2; [apply ttnear_core; [exact Ta|lia]|exact T]|cbn; lia]|].
        intros ? ? ? T2. eapply tnear_more; [exact Hu|exact T2|]. rewrite ET, (tail_sum_S w i), (tail_sum_S (dense_terms a) i) by lia. cbn [list_sum fold_right length]. lia.
      * intros p1 q1 r1 Tp. destruct (Nat.ltb_spec 0 i).
        -- eapply rel3_mono; [apply reshape_rel'; exact Tp|]. cbn beta. intros ? ? ? (T3 & n3 & S3). split; [exact T3|]. intros _. exists n3. exact S3.
        -- cbn [rel3]. split; [exact Tp|]. lia.
  - intros ? ? ? T2. destruct (nthr (shape b) 1) as [nc|]; cbn [bind]; [|cbn; auto]. now apply reshape_rel.
Qed.
End U.
