(** Cholesky factors: uniqueness, and Kronecker products that are symmetric with a nonzero diagonal. *)
From Coq Require Import List Arith ZArith Lia Lra Bool Reals.
From Verif Require Import Scalar Tensor TensorLemmas Base Spec BaseLemmas Ops OpsR FullProofs Det DecompSpec KronSpec DetProofs KronProofs Kron KronThms KronInv.
Import ListNotations.
Local Open Scope nat_scope.
Local Notation sumn := (@sumn Rring).

Lemma sumn_trunc n m f : m <= n -> (forall k, m <= k < n -> f k = 0%R) -> sumn n f = sumn m f.
Proof.
  intros H. induction H as [|n H IH]; intros Z; [reflexivity|]. cbn [Scalar.sumn]. rewrite IH by (intros; apply Z; lia).
  rewrite Z by lia. req. apply Rplus_0_r.
Qed.

Lemma lower_product n L i j : (forall i j, i < j -> j < n -> L i j = 0%R) -> j <= i -> i < n ->
  mmul n L (mtr L) i j = (sumn j (fun k => (L i k * L j k)%R) + L i j * L j j)%R.
Proof.
  intros HL Hj Hi. unfold mmul, mtr. rewrite (sumn_trunc n (S j)) by (try lia; intros k Hk; rewrite (HL j k) by lia; apply Rmult_0_r). reflexivity.
Qed.

Lemma cholesky_unique n A L M : cholesky_factor n A L -> cholesky_factor n A M -> meq n L M.
Proof.
  intros (L1 & L2 & L3) (M1 & M2 & M3).
  assert (H : forall j, j < n -> forall i, i < n -> L i j = M i j).
  { intros j. induction j as [j IH] using lt_wf_ind. intros Hj.
    assert (E : forall i, j <= i -> i < n -> (L i j * L j j = M i j * M j j)%R).
    { intros i Hi Hn. pose proof (L3 i j Hn Hj) as E. rewrite <- (M3 i j Hn Hj), !lower_product in E by auto.
      rewrite (sumn_ext Rring j _ (fun k => (M i k * M j k)%R)) in E by (intros k Hk; rewrite !(IH k) by lia; reflexivity). lra. }
    assert (D : L j j = M j j).
    { specialize (E j (le_n j) Hj). pose proof (L2 j Hj). pose proof (M2 j Hj). apply Rsqr_inj; unfold Rsqr; lra. }
    intros i Hi. destruct (Nat.lt_ge_cases i j) as [Hl|Hg]; [now rewrite L1, M1 by auto|].
    specialize (E i Hg Hi). rewrite D in E. pose proof (M2 j Hj). apply Rmult_eq_reg_r in E; [exact E|lra]. }
  intros i j Hi Hj. now apply H.
Qed.

Lemma posdef_diag n A i : i < n -> posdef n A -> (0 < A i i)%R.
Proof.
  intros Hi P. specialize (P (kron i)). assert (E : quad n A (kron i) = A i i).
  { assert (K : forall j, j <> i -> kron i j = 0%R) by (intros j Hj; unfold kron; destruct (Nat.eqb_spec i j); [now subst|reflexivity]).
    assert (K1 : kron i i = 1%R) by (unfold kron; now rewrite Nat.eqb_refl).
    unfold quad. rewrite (sumn_single Rring n i); [|exact Hi|intros j Hj Hne; apply (sumn_zero Rring); intros k Hk; rewrite K by auto; change (0 * A j k * kron i k = 0)%R; ring].
    rewrite (sumn_single Rring n i); [|exact Hi|intros j Hj Hne; rewrite (K j) by auto; apply Rmult_0_r].
    rewrite K1. req. ring. }
  rewrite <- E. apply P. exists i. split; [exact Hi|]. unfold kron. rewrite Nat.eqb_refl. lra.
Qed.

Lemma kall_symmetric ns A k : Forall (fun n => 0 < n) ns -> symmetric (prodn ns) (kall ns A k) -> (forall i, i < prodn ns -> kall ns A k i i <> 0%R) ->
  forall m, m < length ns -> symmetric (nth m ns 0) (A (k + m)).
Proof.
  intros HP. revert k. induction HP as [|n ns Hn HP IH]; intros k HS HD m Hm; [cbn in Hm; lia|].
  assert (PP : 0 < prodn ns) by (now apply prodn_pos).
  assert (B : forall i j, i < n -> j < prodn ns -> i * prodn ns + j < n * prodn ns) by (intros i j Hi Hj; nia).
  assert (V : forall i i' j j', j < prodn ns -> j' < prodn ns ->
    kall (n :: ns) A k (i * prodn ns + j) (i' * prodn ns + j') = (A k i i' * kall ns A (S k) j j')%R).
  { intros. cbn [kall]. now rewrite !div_add, !mod_add by auto. }
  rewrite prodn_cons in HS, HD.
  destruct m as [|m]; cbn [nth length] in *.
  - rewrite Nat.add_0_r. intros i j Hi Hj. pose proof (HS _ _ (B i 0 Hi PP) (B j 0 Hj PP)) as E. rewrite !V in E by auto.
    apply Rmult_eq_reg_r in E; [exact E|]. intros Z. apply (HD _ (B 0 0 Hn PP)). rewrite V by auto. rewrite Z. apply Rmult_0_r.
  - rewrite <- Nat.add_succ_comm. apply IH; [|intros i Hi Z; apply (HD _ (B 0 i Hn Hi)); rewrite V, Z by auto; apply Rmult_0_r|lia].
    intros i j Hi Hj. pose proof (HS _ _ (B 0 i Hn Hi) (B 0 j Hn Hj)) as E. rewrite !V in E by auto.
    apply Rmult_eq_reg_l in E; [exact E|]. intros Z. apply (HD _ (B 0 i Hn Hi)). rewrite V by auto. rewrite Z. apply Rmult_0_l.
Qed.

(** A positive definite dense matrix: cholesky returns its factor or raises. *)
Theorem cholesky_dense la (t : rtt) ns D : cho_ok (tf_cholesky la) -> kronecker t ns -> full t = Ok D ->
  (forall p, vidx (bpre t) p -> symmetric (prodn ns) (mat D p) /\ posdef (prodn ns) (mat D p)) ->
  match cholesky la t with
  | Ok z => exists E, kronecker z ns /\ bsz z = bsz t /\ full z = Ok E /\ shape E = shape D /\ forall p, vidx (bpre t) p -> cholesky_factor (prodn ns) (mat D p) (mat E p)
  | Err e => e = TFError /\ exists p k, vidx (bpre t) p /\ k < ndims t /\ ~ posdef (nth k ns 0) (factor t p k)
  end.
Proof.
  intros HC HK HD H.
  assert (S : forall p k, vidx (bpre t) p -> k < ndims t -> symmetric (nth k ns 0) (factor t p k)).
  { intros p k Hp Hk. destruct (H p Hp) as [HS HP]. apply (kall_symmetric ns (factor t p) 0 (k_pos t ns HK)).
    - intros i j Hi Hj. rewrite <- !(k_full t ns HK D p) by auto. now apply HS.
    - intros i Hi. rewrite <- (k_full t ns HK D p) by auto. apply Rgt_not_eq. now apply (posdef_diag (prodn ns)).
    - rewrite (k_len t ns HK). exact Hk. }
  destruct (Classical_Prop.classic (exists p k, vidx (bpre t) p /\ k < ndims t /\ ~ posdef (nth k ns 0) (factor t p k))) as [N|N].
  - rewrite (cholesky_indefinite t ns HK la HC S N). auto.
  - destruct (cholesky_correct t ns HK la D HC HD) as (z & E & Ez & Kz & Bz & Fz & Sz & G).
    { intros p k Hp Hk. split; [now apply S|]. apply Classical_Prop.NNPP. intros X. apply N. eauto. }
    rewrite Ez. exists E. repeat (split; [assumption|]). intros p Hp. exact (G p Hp).
Qed.
