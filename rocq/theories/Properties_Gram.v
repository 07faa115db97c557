(** C26, C45: Gram matrices over the real numbers are symmetric and positive semidefinite, and definite exactly when the
    elements of the batch are linearly independent. *)
From Coq Require Import String List Arith ZArith Lia Lra Bool Reals.
From Verif Require Import Scalar Tensor TensorLemmas Base Spec BaseLemmas Chain Ops FullProofs ResultLemmas Dense OpsR Decomp DecompSpec QRExists
  BatchOps Riem RiemSpec RiemBlock RiemProofs RiemThms RiemMatmul RiemFull RiemDelta RiemInner RiemAddN RiemMade TutorialSpec DescentThms Samples Properties_Batch Properties_Riem.
From Verif Require TangentSpace.
Import ListNotations.
Local Open Scope nat_scope.
Local Notation get := (@get Rring).

(** The P x P matrix [G] is symmetric, all its quadratic forms are nonnegative, one of them vanishes exactly when the
    combination of the tensors [el 0], ..., [el (P-1)] with the same coefficients vanishes, and no entry exceeds the product of
    the norms. *)
Definition gram_of (P : nat) (G : nat -> nat -> R) (sh : list nat) (el : nat -> list nat -> R) : Prop :=
  (forall p q, p < P -> q < P -> G p q = G q p) /\
  (forall w : nat -> R,
    (0 <= sumn (K := Rring) P (fun p => sumn (K := Rring) P (fun q => w p * G p q * w q)))%R /\
    (sumn (K := Rring) P (fun p => sumn (K := Rring) P (fun q => w p * G p q * w q))%R = 0%R <->
     forall i, vidx sh i -> sumn (K := Rring) P (fun p => w p * el p i)%R = 0%R)) /\
  (forall p q, p < P -> q < P -> (G p q * G p q <= G p p * G q q)%R).

Lemma gram_of_inner P G sh el : (forall p q, p < P -> q < P -> G p q = isum (K := Rring) sh (fun i => el p i * el q i)%R) -> gram_of P G sh el.
Proof.
  intros H. split; [|split].
  - intros p q Hp Hq. rewrite !H by auto. apply (isum_ext Rring). intros i _. apply Rmult_comm.
  - intros w.
    assert (E : sumn (K := Rring) P (fun p => sumn (K := Rring) P (fun q => w p * G p q * w q))%R =
      isum (K := Rring) sh (fun i => sumn (K := Rring) P (fun p => w p * el p i) * sumn (K := Rring) P (fun p => w p * el p i))%R).
    { transitivity (isum (K := Rring) sh (fun i => sumn (K := Rring) P (fun p => sumn (K := Rring) P (fun q => (w p * el p i) * (w q * el q i))%R))).
      - rewrite (isum_sumn_swap Rring). apply (sumn_ext Rring). intros p Hp. rewrite (isum_sumn_swap Rring). apply (sumn_ext Rring). intros q Hq.
        rewrite H by auto. rewrite (Rmult_comm (w p)), Rmult_assoc. change Rmult with (@cmul Rring). rewrite <- (isum_mul_r Rring). apply (isum_ext Rring).
        intros i _. cbn. ring.
      - apply (isum_ext Rring). intros i _. change Rmult with (@cmul Rring). rewrite <- (sumn_mul_r Rring). apply (sumn_ext Rring). intros p _.
        rewrite <- (sumn_mul_l Rring). reflexivity. }
    rewrite E. destruct (TangentSpace.isum_zero_each sh (fun i => sumn (K := Rring) P (fun p => w p * el p i) * sumn (K := Rring) P (fun p => w p * el p i))%R) as [Q1 Q2].
    { intros i _. apply Rle_0_sqr. }
    split; [exact Q1|]. split.
    + intros Z i Hi. specialize (Q2 Z i Hi). cbv beta in Q2. apply Rmult_integral in Q2. tauto.
    + intros Z. apply (isum_zero Rring). intros i Hi. etransitivity; [exact (f_equal (fun y => (y * y)%R) (Z i Hi))|apply Rmult_0_l].
  - intros p q Hp Hq. rewrite !H by auto. apply (dot_cauchy sh (el p) (el q)).
Qed.

Theorem C26_gram_semidefinite : forall (a : rtt) P, wf a -> bsz a = Some P -> P <> 1 ->
  exists r da, gram_matrix a None = Ok r /\ shape r = [P; P] /\ full a = Ok da /\ shape da = P :: ishape a /\
    gram_of P (fun p q => get r [p; q]) (ishape a) (fun p i => get da (p :: i)).
Proof.
  intros a P Ha Ba HP. destruct (C26_gram_matrix Rring a Ha P Ba HP) as (r & da & E & _ & S & F & Sd & G).
  exists r, da. do 4 (split; [assumption|]). apply gram_of_inner. exact G.
Qed.
Print Assumptions C26_gram_semidefinite.

(** Likewise for the scalar products of the elements of a projected batch with each other. *)
Theorem C45_gram_semidefinite : forall qr (x : rtt) addr p, qr_ok qr -> wf x -> bsz x = None -> 2 <= ndims x -> admissible x -> made qr x addr p ->
  exists w d, pairwise_flat_inner_projected p p = Ok w /\ shape w = [ocnt (bsz (p_tt p)); ocnt (bsz (p_tt p))] /\ full (p_tt p) = Ok d /\
    gram_of (ocnt (bsz (p_tt p))) (fun a b => get w [a; b]) (ishape x) (fun a i => get d (osel (bsz (p_tt p)) a ++ i)).
Proof.
  intros qr x addr p Hq Hx Bx Hd HA M. destruct (C45_pairwise_flat_inner_projected qr x addr p p Hq Hx Bx Hd HA M M) as (w & d & d2 & E & _ & F & F2 & S & G).
  rewrite F in F2. injection F2 as <-. exists w, d. do 3 (split; [assumption|]). apply gram_of_inner. exact G.
Qed.
Print Assumptions C45_gram_semidefinite.

(** A batch of three 2 x 3 x 2 tensors, and its projection on the tangent space at a tensor with TT-ranks 2. *)
Definition g_b3 : tt Zring :=
  TT [zt [3;1;2;1]%nat [1;2;3;4;0;1]%Z; zt [3;1;3;1]%nat [1;1;2;3;4;-4;0;2;7]%Z; zt [3;1;2;1]%nat [5;-1;2;2;1;0]%Z]
     [[2;3;2]%nat] [1;1;1;1]%nat (Some 3%nat).
Lemma g_b3_wf : wf (toR g_b3).
Proof. apply wfb_wf; vm_compute; reflexivity. Qed.
Example Gram_ex : wf (toR g_b3) /\ bsz (toR g_b3) = Some 3 /\ qr_ok gram_schmidt /\ wf (toR s_a) /\ bsz (toR s_a) = None /\ 2 <= ndims (toR s_a) /\
  admissible (toR s_a) /\ exists p, made gram_schmidt (toR s_a) 0 p /\ bsz (p_tt p) = Some 3.
Proof.
  destruct C43_case as (Hq & Wa & Ba & Da & _ & Aa & _).
  split; [exact g_b3_wf|]. split; [reflexivity|]. do 5 (split; [assumption|]).
  assert (R : rshape (toR g_b3) = rshape (toR s_a)) by reflexivity. assert (B3 : bsz (toR g_b3) = Some 3) by reflexivity. pose proof g_b3_wf as Wg.
  revert R B3 Wg. generalize (toR g_b3). intros z R B3 Wg.
  destruct (C43_ranks gram_schmidt (toR s_a) z 0 Hq Wa Ba Da Aa Wg R) as (t & E & _ & _ & Bt & _).
  exists (Proj t (Some 0)). split; [exact (made_project gram_schmidt (toR s_a) 0 z (Proj t (Some 0)) Wg R E)|]. cbn [p_tt]. congruence.
Qed.
