(** Counting: pairwise inner products, Gram matrices, bilinear forms. *)
From Coq Require Import String Ascii List Arith ZArith Lia Bool Permutation.
From Verif Require Import Scalar Tensor TensorLemmas TensorLemmas2 Base Spec Chain BaseLemmas Ops
  FullProofs ResultLemmas Dense AddProofs MulProofs MatmulProofs DenseMatmul Sweep FlatProofs ValidProofs
  BatchOps Cost CostOps CostErase CostProofs.
Import ListNotations.

Local Notation o2 := (ONode (OLeaf 0) (OLeaf 1)).
Local Notation o3 := (ONode (ONode (OLeaf 0) (OLeaf 1)) (OLeaf 2)).
Local Notation o4 := (ONode (ONode (ONode (OLeaf 0) (OLeaf 1)) (OLeaf 2)) (OLeaf 3)).

Section G.
Context {K : cring}.
Variable ec : string -> list (list nat) -> nat.
Variable c : nat.
Hypothesis Hec : best_order ec.

Lemma nthr_inv (t : tt K) i x : nthr (cores t) i = Ok x -> i < ndims t /\ x = core t i.
Proof.
  unfold nthr, ndims, core. intros H. destruct (nth_error (cores t) i) eqn:E; [|discriminate]. injection H as <-. split.
  - apply nth_error_Some. congruence.
  - symmetry. now apply nth_error_nth.
Qed.

Lemma pw_step_cost (a b : tt K) P Q i (r : tensor K) : wf a -> wf b -> is_tt_matrix a = is_tt_matrix b -> i < ndims a -> i < ndims b ->
  bsz a = Some P -> bsz b = Some Q -> shape r = [P; Q; rk a i; rk b i] ->
  let ms := if is_tt_matrix a then "ij"%string else "i"%string in
  tcost ec c (t_einsum ("pqac,pa" ++ ms ++ "b,qc" ++ ms ++ "d->pqbd")%string [r; core a i; core b i])
    (fun r => shape r = [P; Q; rk a (S i); rk b (S i)])
    (2 * (P * Q * (rmax a * rmax b * nmax a * Nat.max (rmax a) (rmax b)))).
Proof.
  intros Ha Hb Hk Hi Hi' Ba Bb Sr ms.
  pose proof (core_shape _ a _ Ha Hi) as Sa; pose proof (core_shape _ b _ Hb Hi') as Sb.
  assert (Q1 : P * Q * rk a i * rk b i * prodn (modes a i) * rk a (S i) <= P * Q * rmax a * rmax b * nmax a * Nat.max (rmax a) (rmax b)).
  { repeat apply Nat.mul_le_mono; auto using rk_max, modes_max. etransitivity; [apply rk_max|apply Nat.le_max_l]. }
  assert (Q2 : P * Q * rk b i * rk a (S i) * prodn (modes a i) * rk b (S i) <= P * Q * rmax b * rmax a * nmax a * Nat.max (rmax a) (rmax b)).
  { repeat apply Nat.mul_le_mono; auto using rk_max, modes_max. etransitivity; [apply rk_max|apply Nat.le_max_r]. }
  unfold bpre in *. rewrite Ba in Sa. rewrite Bb in Sb. unfold ms. clear ms.
  destruct (wf_kind_cases _ a Ha) as [(E & _ & Hm)|(E & _ & Hm)], (wf_kind_cases _ b Hb) as [(E' & _ & Hm')|(E' & _ & Hm')];
   try congruence; rewrite E, Hm, Hm' in *; clear E Hm E' Hm'; cbn [app] in *;
    ecost o3; unfold prodn in Q1, Q2; cbn [fold_right] in Q1, Q2; lia.
Qed.

Lemma pw_init_cost (a b : tt K) P Q : wf a -> wf b -> is_tt_matrix a = is_tt_matrix b ->
  bsz a = Some P -> bsz b = Some Q ->
  let ms := if is_tt_matrix a then "ij"%string else "i"%string in
  tcost ec c (t_einsum ("pa" ++ ms ++ "b,qc" ++ ms ++ "d->pqbd")%string [core a 0; core b 0])
    (fun r => shape r = [P; Q; rk a 1; rk b 1])
    (2 * (P * Q * (rmax a * rmax b * nmax a * Nat.max (rmax a) (rmax b)))).
Proof.
  intros Ha Hb Hk Ba Bb ms. pose proof (wf_d Ha) as Hi. pose proof (wf_d Hb) as Hi'.
  pose proof (core_shape _ a _ Ha Hi) as Sa; pose proof (core_shape _ b _ Hb Hi') as Sb.
  assert (Q1 : P * Q * rk a 1 * rk b 1 * prodn (modes a 0) * (rk a 0 * rk b 0) <= P * Q * rmax a * rmax b * nmax a * Nat.max (rmax a) (rmax b)).
  { rewrite (wf_first Ha), (wf_first Hb). repeat apply Nat.mul_le_mono; auto using rk_max, modes_max.
    etransitivity; [apply (rmax_pos a Ha)|apply Nat.le_max_l]. }
  unfold bpre in *. rewrite Ba in Sa. rewrite Bb in Sb. unfold ms. clear ms.
  destruct (wf_kind_cases _ a Ha) as [(E & _ & Hm)|(E & _ & Hm)], (wf_kind_cases _ b Hb) as [(E' & _ & Hm')|(E' & _ & Hm')];
   try congruence; rewrite E, Hm, Hm' in *; clear E Hm E' Hm'; cbn [app] in *;
    ecost o2; unfold prodn in Q1; cbn [fold_right] in Q1; lia.
Qed.

Lemma pairwise_cost (a b : tt K) P Q : wf a -> wf b -> is_tt_matrix a = is_tt_matrix b -> bsz a = Some P -> bsz b = Some Q ->
  tcost ec c (t_pairwise_flat_inner a b) (fun _ => True)
    (2 * (P * Q * ndims a * (rmax a * rmax b * nmax a * Nat.max (rmax a) (rmax b)))).
Proof.
  intros Ha Hb Hk Ba Bb. unfold t_pairwise_flat_inner. cbv zeta.
  set (U := 2 * (P * Q * (rmax a * rmax b * nmax a * Nat.max (rmax a) (rmax b)))).
  pose proof (wf_d Ha) as Hd0.
  apply (tcost_weak ec c _ (fun _ => True) _ (U + ((ndims a - 1) * U + 0))).
  2: exact (fun _ _ => I).
  2:{ replace (2 * _) with (ndims a * U) by (unfold U; lia). nia. }
  eapply tcost_bind; [apply (pw_init_cost a b P Q); auto|]. intros r0 S0. eapply tcost_bind.
  - apply (tcost_seq ec c _ (fun i r => shape r = [P; Q; rk a i; rk b i]) U); [exact S0|].
    intros j s Hj Sj. apply tcost_free. intros c2 Hc. apply nthr_inv in Hc as [Hj' ->]. apply pw_step_cost; auto; lia.
  - intros r _. apply tcost_ret. exact I.
Qed.

(** *** With a matrix *)
Lemma row_max (t : tt K) i : mode t 0 i <= rowmax t.
Proof. apply list_max_nth. Qed.
Lemma col_max (t : tt K) i : mode t 1 i <= colmax t.
Proof. apply list_max_nth. Qed.

Lemma prodn_one l i : prodn l = 1 -> nth i l 0 <= 1.
Proof.
  revert i; induction l as [|x l IH]; intros i H; [destruct i; cbn; lia|]. change (x * prodn l = 1) in H.
  apply Nat.eq_mul_1 in H as [-> H]. destruct i; cbn [nth]; auto.
Qed.

Lemma mat_modes (t : tt K) i : wf t -> is_tt_matrix t = true -> modes t i = [mode t 0 i; mode t 1 i].
Proof. intros Hw H. destruct (wf_kind_cases _ t Hw) as [(E & _ & Hm)|(E & _ & Hm)]; [congruence|apply Hm]. Qed.

Section Mat.
Variables (a b M : tt K) (P Q : nat).
Hypothesis (Ha : wf a) (Hb : wf b) (HM : wf M).
Hypothesis (Ma : is_tt_matrix a = true) (Mb : is_tt_matrix b = true) (MM : is_tt_matrix M = true).
Hypothesis (Ba : bsz a = Some P) (Bb : bsz b = Some Q).
Hypothesis (Ka : forall i, mode a 0 i <= 1).
Local Notation U := (P * Q * (rmax M * rmax a * rmax b * (rowmax M * rmax a + rowmax M * colmax M * rmax M + colmax M * rmax b))).

Lemma pm_step_cost i r : i < ndims a -> i < ndims b -> i < ndims M -> shape r = [P; Q; rk a i; rk M i; rk b i] ->
  tcost ec c (t_einsum "pqace,pakib,cijd,qekjf->pqbdf" [r; core a i; core M i; core b i])
    (fun r => shape r = [P; Q; rk a (S i); rk M (S i); rk b (S i)]) U.
Proof.
  intros Hi1 Hi2 Hi3 Sr.
  pose proof (core_shape _ a _ Ha Hi1) as Sa; pose proof (core_shape _ b _ Hb Hi2) as Sb. pose proof (core_shape _ M _ HM Hi3) as SM.
  rewrite mat_modes in Sa, Sb, SM by auto. unfold bpre in *. rewrite Ba in Sa. rewrite Bb in Sb.
  assert (Q1 : P * Q * rk M i * rk a i * rk b i * (mode M 0 i * rk a (S i)) * mode a 0 i <= P * Q * rmax M * rmax a * rmax b * (rowmax M * rmax a) * 1).
  { repeat apply Nat.mul_le_mono; auto using rk_max, row_max, col_max. }
  assert (Q2 : P * Q * rk M i * rk a (S i) * rk b i * (mode M 0 i * mode M 1 i * rk M (S i)) * mode a 0 i <=
    P * Q * rmax M * rmax a * rmax b * (rowmax M * colmax M * rmax M) * 1).
  { repeat apply Nat.mul_le_mono; auto using rk_max, row_max, col_max. }
  assert (Q3 : P * Q * rk M (S i) * rk a (S i) * rk b i * (mode M 1 i * rk b (S i)) * mode a 0 i <=
    P * Q * rmax M * rmax a * rmax b * (colmax M * rmax b) * 1).
  { repeat apply Nat.mul_le_mono; auto using rk_max, row_max, col_max. }
  clear Ka Ba Bb. destruct (bsz M); cbn [app] in *; ecost o4; lia.
Qed.

Lemma pm_init_cost :
  tcost ec c (t_einsum "pakib,cijd,qekjf->pqbdf" [core a 0; core M 0; core b 0])
    (fun r => shape r = [P; Q; rk a 1; rk M 1; rk b 1]) U.
Proof.
  pose proof (wf_d Ha) as Hi1. pose proof (wf_d Hb) as Hi2. pose proof (wf_d HM) as Hi3.
  pose proof (core_shape _ a _ Ha Hi1) as Sa; pose proof (core_shape _ b _ Hb Hi2) as Sb. pose proof (core_shape _ M _ HM Hi3) as SM.
  rewrite mat_modes in Sa, Sb, SM by auto. unfold bpre in *. rewrite Ba in Sa. rewrite Bb in Sb.
  assert (P1 : 1 <= Q). { pose proof (wf_bpos Hb) as W. unfold bpre in W. rewrite Bb in W. now inversion W. }
  assert (Q2 : P * 1 * rk M 0 * rk a 1 * rk a 0 * (mode M 0 0 * mode M 1 0 * rk M 1) * mode a 0 0 <=
    P * Q * rmax M * rmax a * rmax b * (rowmax M * colmax M * rmax M) * 1).
  { rewrite (wf_first Ha). repeat apply Nat.mul_le_mono; auto using rk_max, row_max, col_max. now apply rmax_pos. }
  assert (Q3 : P * Q * rk M 1 * rk a 1 * rk b 0 * (mode M 1 0 * rk b 1) * mode a 0 0 <=
    P * Q * rmax M * rmax a * rmax b * (colmax M * rmax b) * 1).
  { repeat apply Nat.mul_le_mono; auto using rk_max, row_max, col_max. }
  clear Ka Ba Bb P1. destruct (bsz M); cbn [app] in *; ecost o3; lia.
Qed.
End Mat.

Lemma to_row_facts (t t' : tt K) : wf t -> is_tt_matrix t = true -> to_row t = Ok t' ->
  wf t' /\ is_tt_matrix t' = true /\ rmax t' = rmax t /\ bsz t' = bsz t /\ ndims t' = ndims t.
Proof.
  intros Hw Hm H. unfold to_row in H. bdesn H E1. bdesn H E2. destruct (_ && _).
  - destruct (transpose_entries _ t Hw Hm) as (e & He & We & Re & Ke & Be & De & _). rewrite He in H. okinv H.
    split; [assumption|]. split; [unfold is_tt_matrix; now rewrite Re|]. split; [unfold rmax; now rewrite Ke|]. auto.
  - okinv H. auto.
Qed.

Lemma pairwise_mat_cost (a b M : tt K) P Q : wf a -> wf b -> wf M -> bsz a = Some P -> bsz b = Some Q ->
  tcost ec c (t_pairwise_flat_inner_mat a b M) (fun _ => True)
    (P * Q * ndims a * (rmax M * rmax a * rmax b * (rowmax M * rmax a + rowmax M * colmax M * rmax M + colmax M * rmax b))).
Proof.
  intros Ha Hb HM Ba Bb. unfold t_pairwise_flat_inner_mat. cbv zeta.
  destruct (is_tt_matrix a && is_tt_matrix b && is_tt_matrix M) eqn:Ek; [|exact I]. cbn [negb].
  apply andb_prop in Ek as [Ek MM]. apply andb_prop in Ek as [Ma Mb].
  destruct (list_eqb (nth 0 (rshape a) []) _); [|exact I]. destruct (list_eqb (nth 0 (rshape b) []) _); [|exact I]. cbn [negb].
  apply tcost_free. intros a' Ea. apply tcost_free. intros b' Eb. apply tcost_free. intros n1 E1. apply tcost_free. intros n2 E2.
  destruct (to_row_facts a a' Ha Ma Ea) as (Wa & Ma' & Ra & Ba' & Da). destruct (to_row_facts b b' Hb Mb Eb) as (Wb & Mb' & Rb & Bb' & Db).
  destruct (Nat.eqb_spec n1 1) as [->|]; [|exact I]. destruct (Nat.eqb_spec n2 1) as [->|]; [|exact I]. cbn [negb].
  rewrite <- Ra, <- Rb, <- Da. rewrite Ba in Ba'. rewrite Bb in Bb'.
  assert (Ka : forall i, mode a' 0 i <= 1).
  { intros i. unfold mode. apply prodn_one. unfold get_shape in E1. rewrite Ma', Ba' in E1. cbn in E1. now injection E1. }
  set (U := P * Q * (rmax M * rmax a' * rmax b' * (rowmax M * rmax a' + rowmax M * colmax M * rmax M + colmax M * rmax b'))).
  pose proof (wf_d Wa) as Hd0.
  apply (tcost_weak ec c _ (fun _ => True) _ (U + ((ndims a' - 1) * U + 0))).
  2: exact (fun _ _ => I).
  2:{ replace (P * Q * ndims a' * _) with (ndims a' * U) by (unfold U; lia). nia. }
  eapply tcost_bind; [apply (pm_init_cost a' b' M P Q); auto|]. intros r0 S0. eapply tcost_bind.
  - apply (tcost_seq ec c _ (fun i r => shape r = [P; Q; rk a' i; rk M i; rk b' i]) U); [exact S0|].
    intros j s Hj Sj. apply tcost_free. intros c2 Hc. apply nthr_inv in Hc as [Hj' ->].
    apply tcost_free. intros cM Hc. apply nthr_inv in Hc as [Hj2 ->]. apply pm_step_cost; auto; lia.
  - intros r _. apply tcost_ret. exact I.
Qed.

(** *** bilinear_form *)
Section Bil.
Variables (A b d : tt K).
Hypothesis (HA : wf A) (Hb : wf b) (Hd : wf d).
Hypothesis (MA : is_tt_matrix A = true) (Mb : is_tt_matrix b = true) (Md : is_tt_matrix d = true).
Local Notation U := (bnum b * (colmax b * rmax A * rmax b * rmax d * (rowmax A * rmax b + rowmax A * colmax A * rmax A + colmax A * rmax d))).
Let p := if is_batch b then "p"%string else ""%string.

Lemma bl_step_cost i r : i < ndims A -> i < ndims b -> i < ndims d -> shape r = pre_of (bsz b) ++ [rk b i; rk A i; rk d i] ->
  tcost ec c (t_einsum (p ++ "ace," ++ p ++ "aikb,cijd," ++ p ++ "ejkf->" ++ p ++ "bdf")%string [r; core b i; core A i; core d i])
    (fun r => shape r = pre_of (bsz b) ++ [rk b (S i); rk A (S i); rk d (S i)]) U.
Proof.
  intros Hi1 Hi2 Hi3 Sr.
  pose proof (core_shape _ A _ HA Hi1) as SA; pose proof (core_shape _ b _ Hb Hi2) as Sb. pose proof (core_shape _ d _ Hd Hi3) as Sd.
  rewrite mat_modes in SA, Sb, Sd by auto. unfold bpre in *.
  assert (Q1 : bnum b * mode b 1 i * rk A i * rk b i * rk d i * (mode A 0 i * rk b (S i)) <= bnum b * colmax b * rmax A * rmax b * rmax d * (rowmax A * rmax b)).
  { repeat apply Nat.mul_le_mono; auto using rk_max, row_max, col_max. }
  assert (Q2 : bnum b * mode b 1 i * rk A i * rk b (S i) * rk d i * (mode A 0 i * mode A 1 i * rk A (S i)) <=
     bnum b * colmax b * rmax A * rmax b * rmax d * (rowmax A * colmax A * rmax A)).
  { repeat apply Nat.mul_le_mono; auto using rk_max, row_max, col_max. }
  assert (Q3 : bnum b * mode b 1 i * rk A (S i) * rk b (S i) * rk d i * (mode A 1 i * rk d (S i)) <= bnum b * colmax b * rmax A * rmax b * rmax d * (colmax A * rmax d)).
  { repeat apply Nat.mul_le_mono; auto using rk_max, row_max, col_max. }
  unfold p, is_batch, bnum in *. clear p.
  destruct (bsz b) as [B|], (bsz d) as [D|], (bsz A) as [X|]; cbn [app pre_of] in *; ecost o4; lia.
Qed.

Lemma bl_init_cost :
  tcost ec c (t_einsum (p ++ "aikb,cijd," ++ p ++ "ejkf->" ++ p ++ "bdf")%string [core b 0; core A 0; core d 0])
    (fun r => shape r = pre_of (bsz b) ++ [rk b 1; rk A 1; rk d 1]) U.
Proof.
  pose proof (wf_d HA) as Hi1. pose proof (wf_d Hb) as Hi2. pose proof (wf_d Hd) as Hi3.
  pose proof (core_shape _ A _ HA Hi1) as SA; pose proof (core_shape _ b _ Hb Hi2) as Sb. pose proof (core_shape _ d _ Hd Hi3) as Sd.
  rewrite mat_modes in SA, Sb, Sd by auto. unfold bpre in *.
  assert (Q2 : bnum b * mode b 1 0 * rk A 0 * rk b 1 * rk b 0 * (mode A 0 0 * mode A 1 0 * rk A 1) <=
     bnum b * colmax b * rmax A * rmax b * rmax d * (rowmax A * colmax A * rmax A)).
  { rewrite (wf_first Hb). repeat apply Nat.mul_le_mono; auto using rk_max, row_max, col_max. now apply rmax_pos. }
  assert (Q3 : bnum b * mode b 1 0 * rk A 1 * rk b 1 * rk d 0 * (mode A 1 0 * rk d 1) <= bnum b * colmax b * rmax A * rmax b * rmax d * (colmax A * rmax d)).
  { repeat apply Nat.mul_le_mono; auto using rk_max, row_max, col_max. }
  unfold p, is_batch, bnum in *. clear p.
  destruct (bsz b) as [B|], (bsz d) as [D|], (bsz A) as [X|]; cbn [app pre_of] in *; ecost o3; lia.
Qed.
End Bil.

Lemma bilinear_cost (A b d : tt K) : wf A -> wf b -> wf d ->
  tcost ec c (t_bilinear_form A b d) (fun _ => True)
    (bnum b * ndims A * (colmax b * rmax A * rmax b * rmax d * (rowmax A * rmax b + rowmax A * colmax A * rmax A + colmax A * rmax d))).
Proof.
  intros HA Hb Hd. unfold t_bilinear_form. cbv zeta.
  destruct (is_tt_matrix A) eqn:MA; [|exact I]. destruct (is_tt_matrix b) eqn:Mb; [|exact I]. destruct (is_tt_matrix d) eqn:Md; [|exact I].
  cbn [negb]. rewrite Bool.orb_diag.
  set (U := bnum b * (colmax b * rmax A * rmax b * rmax d * (rowmax A * rmax b + rowmax A * colmax A * rmax A + colmax A * rmax d))).
  pose proof (wf_d HA) as Hd0.
  apply (tcost_weak ec c _ (fun _ => True) _ (U + ((ndims A - 1) * U + 0))).
  2: exact (fun _ _ => I).
  2:{ replace (bnum b * ndims A * _) with (ndims A * U) by (unfold U; lia). nia. }
  eapply tcost_bind; [apply (bl_init_cost A b d); auto|]. intros r0 S0. eapply tcost_bind.
  - apply (tcost_seq ec c _ (fun i r => shape r = pre_of (bsz b) ++ [rk b i; rk A i; rk d i]) U); [exact S0|].
    intros j s Hj Sj. apply tcost_free. intros c2 Hc. apply nthr_inv in Hc as [Hj' ->].
    apply tcost_free. intros cM Hc. apply nthr_inv in Hc as [Hj2 ->]. apply bl_step_cost; auto; lia.
  - intros r _. apply tcost_ret. exact I.
Qed.
End G.
