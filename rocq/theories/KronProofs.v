(** Kronecker products of matrices: determinant, inverse, Cholesky factor. *)
From Coq Require Import List Arith ZArith Lia Lra Bool Reals.
From Verif Require Import Scalar Tensor TensorLemmas Det DecompSpec KronSpec DetProofs.
Import ListNotations.
Local Open Scope nat_scope.

Ltac req := match goal with |- @eq _ ?u ?v => change (@eq R u v) end.

(** The Kronecker product of [A] and the m x m matrix [B]. *)
Definition kprod (m : nat) (A B : nat -> nat -> R) (i j : nat) : R := (A (i / m)%nat (j / m)%nat * B (i mod m)%nat (j mod m)%nat)%R.

Lemma divmod_lt n m i : i < n * m -> i / m < n /\ i mod m < m /\ 0 < m.
Proof.
  intros H. assert (0 < m) by (destruct m; lia). repeat split; auto.
  - apply Nat.div_lt_upper_bound; lia.
  - apply Nat.mod_upper_bound. lia.
Qed.
Lemma div_add i m j : j < m -> (i * m + j) / m = i.
Proof. intros H. rewrite Nat.add_comm, Nat.div_add by lia. rewrite Nat.div_small; lia. Qed.
Lemma mod_add i m j : j < m -> (i * m + j) mod m = j.
Proof. intros H. rewrite Nat.add_comm, Nat.mod_add by lia. now apply Nat.mod_small. Qed.

Lemma kprod_mul n m A B C D : meq (n * m) (kprod m (mmul n A B) (mmul m C D)) (mmul (n * m) (kprod m A C) (kprod m B D)).
Proof.
  intros i j Hi Hj. apply divmod_lt in Hi. destruct Hi as (Hi1 & Hi2 & Hm). apply divmod_lt in Hj. destruct Hj as (Hj1 & Hj2 & _).
  unfold kprod, mmul at 3. rewrite (sumn_prod Rring). unfold mmul.
  rewrite <- (sumn_mul_r Rring). apply (sumn_ext Rring). intros k Hk.
  rewrite <- (sumn_mul_l Rring). apply (sumn_ext Rring). intros l Hl.
  rewrite div_add, mod_add by auto. cbn [cmul Rring]. req. ring.
Qed.

Lemma kprod_ext n m A B C D : meq n A B -> meq m C D -> meq (n * m) (kprod m A C) (kprod m B D).
Proof.
  intros H1 H2 i j Hi Hj. apply divmod_lt in Hi. destruct Hi as (Hi1 & Hi2 & Hm). apply divmod_lt in Hj. destruct Hj as (Hj1 & Hj2 & _).
  unfold kprod. now rewrite H1, H2.
Qed.
Lemma kprod_kron n m : meq (n * m) (kprod m kron kron) kron.
Proof.
  intros i j Hi Hj. apply divmod_lt in Hi. destruct Hi as (Hi1 & Hi2 & Hm). apply divmod_lt in Hj. destruct Hj as (Hj1 & Hj2 & _).
  unfold kprod, kron. pose proof (Nat.div_mod i m ltac:(lia)). pose proof (Nat.div_mod j m ltac:(lia)).
  destruct (Nat.eqb_spec (i / m) (j / m)), (Nat.eqb_spec (i mod m) (j mod m)), (Nat.eqb_spec i j); try lra.
  - exfalso. apply n0. congruence.
  - subst. contradiction.
  - subst. contradiction.
  - subst. contradiction.
Qed.
Lemma mmul_kron_l n A : meq n (mmul n kron A) A.
Proof.
  intros i j Hi Hj. unfold mmul. rewrite (sumn_ext Rring n _ (fun k => if Nat.eqb i k then A k j else 0%R)).
  - apply (sumn_delta' Rring n i (fun k => A k j)); auto.
  - intros k Hk. unfold kron. destruct (Nat.eqb i k); req; ring.
Qed.
Lemma mmul_kron_r n A : meq n (mmul n A kron) A.
Proof.
  intros i j Hi Hj. unfold mmul. rewrite (sumn_ext Rring n _ (fun k => if Nat.eqb k j then A i k else 0%R)).
  - apply (sumn_delta Rring n j (fun k => A i k)); auto.
  - intros k Hk. unfold kron. destruct (Nat.eqb k j); req; ring.
Qed.
Lemma meq_trans n A B C : meq n A B -> meq n B C -> meq n A C.
Proof. intros H1 H2 i j Hi Hj. now rewrite H1, H2. Qed.
Lemma meq_sym n A B : meq n A B -> meq n B A.
Proof. intros H1 i j Hi Hj. now rewrite H1. Qed.

(** Identity times B: block diagonal. *)
Lemma det_kron_l n m B : det (n * m) (kprod m kron B) = (det m B ^ n)%R.
Proof.
  destruct m as [|m0]; [rewrite Nat.mul_0_r; cbn [det]; now rewrite pow1|]. set (m := S m0).
  induction n as [|n IH]; [reflexivity|].
  change (S n * m) with (m + n * m). rewrite det_blocks.
  - cbn [pow]. f_equal.
    + apply det_ext. intros i j Hi Hj. unfold kprod. rewrite !Nat.div_small, !Nat.mod_small by auto. unfold kron. cbn [Nat.eqb]. req. ring.
    + rewrite <- IH. apply det_ext. intros i j Hi Hj. unfold kprod.
      replace (m + i) with (i + 1 * m) by lia. replace (m + j) with (j + 1 * m) by lia.
      rewrite !Nat.div_add, !Nat.mod_add by (unfold m; lia). rewrite !Nat.add_1_r. unfold kron. reflexivity.
  - intros i j Hi Hj. unfold kprod. rewrite (Nat.div_small i m) by auto.
    replace (m + j) with (j + 1 * m) by lia. rewrite Nat.div_add by (unfold m; lia). rewrite Nat.add_1_r. unfold kron. cbn [Nat.eqb]. req. ring.
Qed.
(** A times identity: the same after a permutation. *)
Lemma det_kron_r n m A : det (n * m) (kprod m A kron) = (det n A ^ m)%R.
Proof.
  destruct m as [|m0]; [now rewrite Nat.mul_0_r|]. set (m := S m0).
  destruct n as [|n0]; [cbn [Nat.mul det]; now rewrite pow1|]. set (n := S n0).
  rewrite <- (det_kron_l m n A).
  rewrite <- (@det_reindex (n * m) (fun k => (k mod n) * m + k / n)).
  - rewrite (Nat.mul_comm m n). apply det_ext. intros i j Hi Hj.
    rewrite Nat.mul_comm in Hi, Hj. apply divmod_lt in Hi. destruct Hi as (Hi1 & Hi2 & Hm). apply divmod_lt in Hj. destruct Hj as (Hj1 & Hj2 & _).
    unfold kprod. rewrite !div_add, !mod_add by auto. req. ring.
  - intros i Hi. rewrite Nat.mul_comm in Hi. apply divmod_lt in Hi. destruct Hi as (Hi1 & Hi2 & Hm).
    enough (S (i mod n) * m <= n * m) by lia. apply Nat.mul_le_mono_r. lia.
  - intros i j Hi Hj E.
    rewrite Nat.mul_comm in Hi, Hj. apply divmod_lt in Hi. destruct Hi as (Hi1 & Hi2 & Hm). apply divmod_lt in Hj. destruct Hj as (Hj1 & Hj2 & _).
    pose proof (f_equal (fun x => x / m) E) as E1. pose proof (f_equal (fun x => x mod m) E) as E2. cbn beta in E1, E2.
    rewrite !div_add in E1 by auto. rewrite !mod_add in E2 by auto.
    rewrite (Nat.div_mod i n), (Nat.div_mod j n) by (unfold n; lia). congruence.
Qed.
Lemma det_kprod n m A B : det (n * m) (kprod m A B) = (det n A ^ m * det m B ^ n)%R.
Proof.
  rewrite <- det_kron_r, <- det_kron_l, <- det_mul. apply det_ext.
  eapply meq_trans; [|apply kprod_mul]. apply kprod_ext; apply meq_sym; [apply mmul_kron_r|apply mmul_kron_l].
Qed.

(** ** Products of a list of matrices: [A k], [A (k + 1)], ... of sizes [ns]. *)
Fixpoint kall (ns : list nat) (A : nat -> nat -> nat -> R) (k i j : nat) : R :=
  match ns with
  | [] => 1%R
  | n :: ns' => (A k (i / prodn ns')%nat (j / prodn ns')%nat * kall ns' A (S k) (i mod prodn ns')%nat (j mod prodn ns')%nat)%R
  end.
Lemma kall_cons n ns A k i j : kall (n :: ns) A k i j = kprod (prodn ns) (A k) (kall ns A (S k)) i j.
Proof. reflexivity. Qed.

Lemma kall_ext ns A B k : (forall m, m < length ns -> meq (nth m ns 0) (A (k + m)) (B (k + m))) -> meq (prodn ns) (kall ns A k) (kall ns B k).
Proof.
  revert k. induction ns as [|n ns IH]; intros k H; [intros i j _ _; reflexivity|].
  rewrite prodn_cons. apply kprod_ext.
  - specialize (H 0 ltac:(cbn; lia)). now rewrite Nat.add_0_r in H.
  - apply IH. intros m Hm. specialize (H (S m) ltac:(cbn; lia)). now rewrite Nat.add_succ_r in H.
Qed.

Lemma kall_mul ns A B C k : (forall m, m < length ns -> meq (nth m ns 0) (mmul (nth m ns 0) (A (k + m)) (B (k + m))) (C (k + m))) ->
  meq (prodn ns) (mmul (prodn ns) (kall ns A k) (kall ns B k)) (kall ns C k).
Proof.
  revert k. induction ns as [|n ns IH]; intros k H.
  - intros i j _ _. unfold mmul, prodn. cbn [fold_right sumn kall]. req. cbn [cadd c0 Rring]. ring.
  - rewrite prodn_cons. eapply meq_trans; [apply meq_sym, kprod_mul|]. apply kprod_ext.
    + specialize (H 0 ltac:(cbn; lia)). now rewrite Nat.add_0_r in H.
    + apply IH. intros m Hm. specialize (H (S m) ltac:(cbn; lia)). now rewrite Nat.add_succ_r in H.
Qed.

Lemma kall_kron ns k : meq (prodn ns) (kall ns (fun _ => kron) k) kron.
Proof.
  revert k. induction ns as [|n ns IH]; intros k.
  - intros i j Hi Hj. change (prodn []) with 1 in *. replace i with 0 by lia. replace j with 0 by lia. reflexivity.
  - rewrite prodn_cons. eapply meq_trans; [|apply kprod_kron]. apply kprod_ext; [intros i j _ _; reflexivity|apply IH].
Qed.

Lemma kall_inverse ns A B k : (forall m, m < length ns -> right_inverse (nth m ns 0) (A (k + m)) (B (k + m))) ->
  right_inverse (prodn ns) (kall ns A k) (kall ns B k).
Proof.
  intros H. unfold right_inverse in *. eapply meq_trans; [apply (kall_mul ns A B (fun _ => kron))|apply kall_kron]. exact H.
Qed.

Lemma kall_tr ns A k i j : kall ns (fun m => mtr (A m)) k i j = mtr (kall ns A k) i j.
Proof. revert k i j. induction ns as [|n ns IH]; intros k i j; [reflexivity|]. cbn [kall]. rewrite IH. reflexivity. Qed.

Lemma kall_lower ns L k i j : (forall m, m < length ns -> forall i j, i < j -> j < nth m ns 0 -> L (k + m) i j = 0%R) ->
  i < j -> j < prodn ns -> kall ns L k i j = 0%R.
Proof.
  revert k i j. induction ns as [|n ns IH]; intros k i j H Hij Hj.
  - change (prodn []) with 1 in Hj. lia.
  - rewrite prodn_cons in Hj. pose proof (divmod_lt _ _ _ Hj) as (J1 & J2 & Hm). assert (Hi : i < n * prodn ns) by lia.
    pose proof (divmod_lt _ _ _ Hi) as (I1 & I2 & _). cbn [kall].
    destruct (Nat.lt_ge_cases (i / prodn ns) (j / prodn ns)) as [Hl|Hg].
    + specialize (H 0 ltac:(cbn; lia) _ _ Hl J1). rewrite Nat.add_0_r in H. rewrite H. req. ring.
    + rewrite IH; auto.
      * req. ring.
      * intros m Hm'. specialize (H (S m) ltac:(cbn; lia)). now rewrite Nat.add_succ_r in H.
      * pose proof (Nat.div_mod i (prodn ns) ltac:(lia)). pose proof (Nat.div_mod j (prodn ns) ltac:(lia)).
        assert (prodn ns * (j / prodn ns) <= prodn ns * (i / prodn ns)) by (apply Nat.mul_le_mono_l; lia). lia.
Qed.
Lemma kall_diag ns L k i : (forall m, m < length ns -> forall i, i < nth m ns 0 -> (0 < L (k + m)%nat i i)%R) ->
  i < prodn ns -> (0 < kall ns L k i i)%R.
Proof.
  revert k i. induction ns as [|n ns IH]; intros k i H Hi; [cbn [kall]; lra|].
  rewrite prodn_cons in Hi. pose proof (divmod_lt _ _ _ Hi) as (J1 & J2 & Hm). cbn [kall]. apply Rmult_lt_0_compat.
  - specialize (H 0 ltac:(cbn; lia) _ J1). now rewrite Nat.add_0_r in H.
  - apply IH; auto. intros m Hm'. specialize (H (S m) ltac:(cbn; lia)). now rewrite Nat.add_succ_r in H.
Qed.
Lemma kall_cholesky ns A L k : (forall m, m < length ns -> cholesky_factor (nth m ns 0) (A (k + m)) (L (k + m))) ->
  cholesky_factor (prodn ns) (kall ns A k) (kall ns L k).
Proof.
  intros H. split; [|split].
  - intros i j. apply kall_lower. intros m Hm. apply (H m Hm).
  - intros i. apply kall_diag. intros m Hm. apply (H m Hm).
  - eapply meq_trans; [|apply (kall_mul ns L (fun m => mtr (L m)) A)].
    + intros i j Hi Hj. unfold mmul. apply (sumn_ext Rring). intros l Hl. now rewrite kall_tr.
    + intros m Hm. apply (H m Hm).
Qed.

(** The determinant of the product: every determinant to the power of the product of the other
    sizes. *)
Definition rprod (l : list R) : R := fold_right Rmult 1%R l.
Lemma rprod_pow l n : (rprod l ^ n)%R = rprod (map (fun x => (x ^ n)%R) l).
Proof. induction l as [|x l IH]; cbn [map rprod fold_right]; [apply pow1|]. rewrite Rpow_mult_distr. unfold rprod in *. now rewrite IH. Qed.
Lemma det_kall ns A k : Forall (fun n => 0 < n) ns ->
  det (prodn ns) (kall ns A k) = rprod (map (fun m => (det (nth m ns 0%nat) (A (k + m)%nat) ^ (prodn ns / nth m ns 0)%nat)%R) (seq 0 (length ns))).
Proof.
  revert k. induction ns as [|n ns IH]; intros k Hp.
  - change (prodn []) with 1. cbn [det sumn seq map length rprod fold_right kall]. req. cbn [cadd c0 Rring pow]. ring.
  - apply Forall_cons_iff in Hp as [Hn Hp]. pose proof (prodn_pos ns Hp) as HP.
    rewrite prodn_cons. etransitivity; [apply (det_kprod n (prodn ns) (A k) (kall ns A (S k)))|]. rewrite (IH (S k) Hp), rprod_pow, map_map.
    cbn [length seq map rprod fold_right]. rewrite Nat.add_0_r. cbn [nth].
    rewrite (Nat.mul_comm n (prodn ns)), Nat.div_mul by lia. f_equal.
    unfold rprod. rewrite <- seq_shift, map_map. f_equal. apply map_ext_in. intros m Hm. apply in_seq in Hm. cbn [nth].
    rewrite <- pow_mult. replace (k + S m) with (S k + m) by lia. f_equal.
    assert (D : exists q, prodn ns = q * nth m ns 0).
    { clear - Hm. revert m Hm. induction ns as [|x ns IH]; intros m Hm; cbn [length] in Hm; [lia|]. rewrite prodn_cons. destruct m; cbn [nth].
      - exists (prodn ns). lia.
      - destruct (IH m ltac:(lia)) as (q & ->). exists (x * q). lia. }
    destruct D as (q & Hq). assert (0 < nth m ns 0) by (apply (Forall_nth (fun n => 0 < n) ns); auto; lia).
    rewrite Hq. rewrite Nat.div_mul by lia. replace (q * nth m ns 0 * n) with ((q * n) * nth m ns 0) by ring. now rewrite Nat.div_mul by lia.
Qed.
