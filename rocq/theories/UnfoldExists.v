(** Every unfolding of every dense tensor has a singular value decomposition. *)
From Coq Require Import List Arith ZArith Lia Lra Bool Reals.
From Verif Require Import Scalar Tensor TensorLemmas TensorLemmas2 Base Spec Chain BaseLemmas Sweep OpsR DecompSpec QRExists Trunc TruncChain RoundProofs SvdSpec SvdExists.
Import ListNotations.
Local Open Scope nat_scope.

Fixpoint jrav (mss : list (list nat)) (J : list (list nat)) : nat :=
  match mss, J with m :: ms, j :: J => ravel m j * jsize ms + jrav ms J | _, _ => 0 end.
Lemma jrav_lt mss J : vjdx mss J -> jrav mss J < jsize mss.
Proof.
  induction 1 as [|m j ms J H1 _ IH]; cbn [jrav jsize]; [lia|]. pose proof (ravel_lt _ _ H1). nia.
Qed.
Lemma jun_jrav mss J : vjdx mss J -> jun mss (jrav mss J) = J.
Proof.
  induction 1 as [|m j ms J H1 H2 IH]; cbn [jrav jun]; [reflexivity|]. pose proof (jrav_lt _ _ H2).
  rewrite Nat.div_add_l by lia. rewrite Nat.div_small, Nat.add_0_r by auto. rewrite unravel_ravel by auto.
  rewrite Nat.add_comm, Nat.mod_add, Nat.mod_small, IH by lia. reflexivity.
Qed.
Lemma jrav_jun mss i : i < jsize mss -> jrav mss (jun mss i) = i.
Proof.
  revert i; induction mss as [|m ms IH]; intros i H; cbn [jrav jun jsize] in *; [lia|].
  assert (P : jsize ms <> 0) by (intros E; rewrite E in H; lia).
  rewrite ravel_unravel by (apply Nat.div_lt_upper_bound; lia). rewrite IH by now apply Nat.mod_upper_bound.
  rewrite Nat.mul_comm. symmetry. now apply Nat.div_mod.
Qed.

Theorem unfolding_svd_exists rsh ms d (x : rtensor) p k :
  exists n U s V, n = Nat.min (jsize (map ms (seq 0 k))) (jsize (map ms (seq k (d - k)))) /\ unfolding_svd rsh ms d x p k n U s V.
Proof.
  set (X := map ms (seq 0 k)). set (Y := map ms (seq k (d - k))).
  destruct (svd_exists (jsize X) (jsize Y) (fun i j => get (K := Rring) x (p ++ glue rsh (jun X i ++ jun Y j)))) as (U & s & V & H1 & H2 & H3 & H4 & H5).
  exists (Nat.min (jsize X) (jsize Y)), (fun J => U (jrav X J)), s, (fun J => V (jrav Y J)). split; [reflexivity|]. constructor; fold X Y; auto.
  - intros J1 J2 V1 V2. specialize (H1 _ _ (jrav_lt _ _ V1) (jrav_lt _ _ V2)). rewrite !jun_jrav in H1 by auto. exact H1.
  - intros a b Ha Hb. change (jsum (K := Rring) X) with (rj X). rewrite rj_rsum_all. rewrite <- H2 by auto. apply rsum_ext. intros i Hi. now rewrite jrav_jun.
  - intros a b Ha Hb. change (jsum (K := Rring) Y) with (rj Y). rewrite rj_rsum_all. rewrite <- H3 by auto. apply rsum_ext. intros i Hi. now rewrite jrav_jun.
Qed.
