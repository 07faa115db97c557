(** Algebra of trains of matrices ([chain]). *)
From Coq Require Import List Arith ZArith Lia Bool Ring.
From Verif Require Import Scalar Tensor TensorLemmas Base Spec.
Import ListNotations.

(** [J] is a valid tuple of physical indices for cores k, k+1, ... *)
Fixpoint vchain (ms : nat -> list nat) (k : nat) (J : list (list nat)) : Prop :=
  match J with
  | [] => True
  | j :: J' => vidx (ms k) j /\ vchain ms (S k) J'
  end.

Lemma vchain_app ms k J1 J2 :
  vchain ms k (J1 ++ J2) <-> vchain ms k J1 /\ vchain ms (k + length J1) J2.
Proof.
  revert k; induction J1; intros k; cbn.
  - rewrite Nat.add_0_r. tauto.
  - rewrite IHJ1. rewrite Nat.add_succ_r. cbn. tauto.
Qed.

Lemma vchain_vjdx ms k J : vjdx (map ms (seq k (length J))) J <-> vchain ms k J.
Proof.
  revert k; induction J; intros k; cbn; [split; constructor|].
  split.
  - intros H. inversion H; subst. split; auto. now apply IHJ.
  - intros [H1 H2]. constructor; auto. now apply IHJ.
Qed.

Lemma vjdx_length ms J : vjdx ms J -> length J = length ms.
Proof. induction 1; cbn; auto. Qed.

Section Chain.
Variable K : cring.
Add Ring Kring : (cth K).
Local Open Scope k_scope.
Implicit Types (G Ga Gb Gc : nat -> nat -> list nat -> nat -> K) (r ra rb rc : nat -> nat).

Lemma chain_ext ms G G' r k J v v' a :
  vchain ms k J -> a < r k ->
  (forall m a j b, k <= m < k + length J -> a < r m -> b < r (S m) -> vidx (ms m) j ->
     G m a j b = G' m a j b) ->
  (forall b, b < r (k + length J)%nat -> v b = v' b) ->
  chain G r k J v a = chain G' r k J v' a.
Proof.
  revert k a; induction J as [|j J IH]; intros k a HJ Ha HG Hv; cbn [chain length] in *.
  - apply Hv. now rewrite Nat.add_0_r.
  - destruct HJ as [Hj HJ]. apply sumn_ext. intros b Hb.
    rewrite HG by (auto; lia). f_equal.
    apply IH; auto.
    + intros. apply HG; auto; lia.
    + intros c Hc. apply Hv. now rewrite Nat.add_succ_r.
Qed.

Lemma chain_ext_r G r r' k J v a :
  (forall m, r m = r' m) -> chain G r k J v a = chain G r' k J v a.
Proof.
  intros H. revert k a; induction J as [|j J IH]; intros k a; cbn [chain]; auto.
  rewrite H. apply sumn_ext. intros. now rewrite IH.
Qed.

Lemma chain_app G r k J1 J2 v a :
  chain G r k (J1 ++ J2) v a = chain G r k J1 (chain G r (k + length J1) J2 v) a.
Proof.
  revert k a; induction J1 as [|j J IH]; intros k a; cbn [chain app length].
  - now rewrite Nat.add_0_r.
  - apply sumn_ext. intros b _. now rewrite IH, Nat.add_succ_r.
Qed.

(** Terminal vector: the chain is linear in it. *)
Lemma chain_vsum G r k J n (v : nat -> nat -> K) (c : nat -> K) a :
  chain G r k J (fun b => sumn n (fun i => v i b * c i)) a =
  sumn n (fun i => chain G r k J (v i) a * c i).
Proof.
  revert k a; induction J as [|j J IH]; intros k a; cbn [chain]; auto.
  rewrite (sumn_ext _ _ _ (fun b => sumn n (fun i => G k a j b * chain G r (S k) J (v i) b * c i))).
  2:{ intros b _. rewrite IH, <- sumn_mul_l. apply sumn_ext. intros. ring. }
  rewrite sumn_swap. apply sumn_ext. intros i _.
  rewrite sumn_mul_r. reflexivity.
Qed.

Lemma chain_vmul G r k J (v : nat -> K) (c : K) a :
  chain G r k J (fun b => v b * c) a = chain G r k J v a * c.
Proof.
  revert k a; induction J as [|j J IH]; intros k a; cbn [chain]; auto.
  rewrite <- sumn_mul_r. apply sumn_ext. intros. rewrite IH. ring.
Qed.

Lemma chain_vadd G r k J (v w : nat -> K) a :
  chain G r k J (fun b => v b + w b) a = chain G r k J v a + chain G r k J w a.
Proof.
  revert k a; induction J as [|j J IH]; intros k a; cbn [chain]; auto.
  rewrite <- sumn_add. apply sumn_ext. intros. rewrite IH. ring.
Qed.

Definition delta (i b : nat) : K := if Nat.eqb b i then 1 else 0.

Lemma sumn_deltal n i (f : nat -> K) : i < n -> sumn n (fun b => delta i b * f b) = f i.
Proof.
  intros H. unfold delta. rewrite <- (sumn_delta K n i f H). apply sumn_ext. intros b _.
  destruct (Nat.eqb b i); ring.
Qed.

Lemma sumn_deltar n i (f : nat -> K) : i < n -> sumn n (fun b => f b * delta i b) = f i.
Proof.
  intros H. rewrite <- (sumn_deltal n i f H). apply sumn_ext. intros; ring.
Qed.

Lemma delta_sym i b : delta i b = delta b i.
Proof. unfold delta. now rewrite Nat.eqb_sym. Qed.

(** Left products determine the chain. *)
Lemma chain_delta G r k J v a : a < r k ->
  chain G r k J v a = sumn (r (k + length J)%nat) (fun b => chain G r k J (delta b) a * v b).
Proof.
  intros Ha. rewrite <- (chain_vsum G r k J).
  revert k a Ha; induction J as [|j J IH]; intros k a Ha; cbn [chain length].
  - rewrite Nat.add_0_r. rewrite (sumn_ext _ _ _ (fun i => delta a i * v i)).
    2:{ intros. now rewrite delta_sym. }
    now rewrite sumn_deltal.
  - apply sumn_ext. intros b Hb. f_equal. rewrite IH by auto. now rewrite Nat.add_succ_r.
Qed.

(** Kronecker (elementwise) product of two trains. *)
Lemma chain_mul ms Ga Gb Gc ra rb rc k J va vb vc a c :
  vchain ms k J -> a < ra k -> c < rb k ->
  (forall m, k <= m <= k + length J -> rc m = (ra m * rb m)%nat) ->
  (forall m a c j b d, k <= m < k + length J -> a < ra m -> c < rb m -> vidx (ms m) j ->
     b < ra (S m) -> d < rb (S m) ->
     Gc m (a * rb m + c)%nat j (b * rb (S m) + d)%nat = Ga m a j b * Gb m c j d) ->
  (forall b d, b < ra (k + length J)%nat -> d < rb (k + length J)%nat ->
     vc (b * rb (k + length J) + d)%nat = va b * vb d) ->
  chain Gc rc k J vc (a * rb k + c) = chain Ga ra k J va a * chain Gb rb k J vb c.
Proof.
  revert k a c; induction J as [|j J IH]; intros k a c HJ Ha Hc Hr HG Hv; cbn [chain length] in *.
  - rewrite Nat.add_0_r in *. now apply Hv.
  - destruct HJ as [Hj HJ].
    rewrite Hr by lia. rewrite sumn_prod.
    rewrite <- sumn_mul_r. apply sumn_ext. intros b Hb.
    rewrite <- sumn_mul_l. apply sumn_ext. intros d Hd.
    rewrite HG by (auto; lia).
    rewrite IH; auto.
    + ring.
    + intros m Hm. apply Hr. lia.
    + intros. apply HG; auto; lia.
    + intros b' d' Hb' Hd'. rewrite Nat.add_succ_r in Hv. now apply Hv.
Qed.

(** Scaling core m by s m. *)
Lemma chain_scale ms G G' r (s : nat -> K) k J v a :
  vchain ms k J -> a < r k ->
  (forall m a j b, k <= m < k + length J -> a < r m -> b < r (S m) -> vidx (ms m) j ->
     G' m a j b = s m * G m a j b) ->
  chain G' r k J v a = prodK (map s (seq k (length J))) * chain G r k J v a.
Proof.
  revert k a; induction J as [|j J IH]; intros k a HJ Ha HG; cbn [chain length seq map prodK] in *.
  - ring.
  - destruct HJ as [Hj HJ].
    rewrite <- sumn_mul_l. apply sumn_ext. intros b Hb.
    rewrite HG by (auto; lia). rewrite IH; auto.
    + ring.
    + intros. apply HG; auto; lia.
Qed.

End Chain.

Arguments delta {K} _ _.
