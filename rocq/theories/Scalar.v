(** Scalars: an arbitrary commutative ring, and finite sums over it.
    The exact-arithmetic reading of tf dtypes; rounding is only modelled in Float.v. *)
From Coq Require Import List Arith Lia ZArith Ring Reals.
Import ListNotations.

(** A commutative ring.  [Zring] is used to execute the model, [Rring] where the
    code takes roots, norms, QR or SVD. *)
Record cring := CRing {
  car :> Type;
  c0 : car; c1 : car;
  cadd : car -> car -> car;
  cmul : car -> car -> car;
  csub : car -> car -> car;
  copp : car -> car;
  cth : ring_theory c0 c1 cadd cmul csub copp eq }.

Arguments c0 {_}. Arguments c1 {_}. Arguments cadd {_} _ _. Arguments cmul {_} _ _.
Arguments csub {_} _ _. Arguments copp {_} _.

Declare Scope k_scope.
Delimit Scope k_scope with K.
Infix "+" := cadd : k_scope.
Infix "*" := cmul : k_scope.
Infix "-" := csub : k_scope.
Notation "- x" := (copp x) : k_scope.
Notation "0" := c0 : k_scope.
Notation "1" := c1 : k_scope.
Bind Scope k_scope with car.

Lemma Zth' : ring_theory 0%Z 1%Z Z.add Z.mul Z.sub Z.opp eq.
Proof. constructor; intros; ring. Qed.
(** The integers. *)
Definition Zring : cring := CRing Z 0%Z 1%Z Z.add Z.mul Z.sub Z.opp Zth'.

Lemma Rth' : ring_theory 0%R 1%R Rplus Rmult Rminus Ropp eq.
Proof. constructor; intros; ring. Qed.
(** The reals. *)
Definition Rring : cring := CRing R 0%R 1%R Rplus Rmult Rminus Ropp Rth'.

Section Sums.
Variable K : cring.
Add Ring Kring : (cth K).
Local Open Scope k_scope.

(** Sum of [f 0 .. f (n-1)]. *)
Fixpoint sumn (n : nat) (f : nat -> K) : K :=
  match n with O => 0 | S m => sumn m f + f m end.

(** Sum over all multi-indices below the shape [ns]. *)
Fixpoint isum (ns : list nat) (f : list nat -> K) : K :=
  match ns with
  | [] => f []
  | n :: ns' => sumn n (fun i => isum ns' (fun I => f (i :: I)))
  end.

(** Sum over all tuples of multi-indices, one per TT-core. *)
Fixpoint jsum (ms : list (list nat)) (f : list (list nat) -> K) : K :=
  match ms with
  | [] => f []
  | ns :: ms' => isum ns (fun j => jsum ms' (fun J => f (j :: J)))
  end.

(** Product of a list. *)
Fixpoint prodK (l : list K) : K := match l with [] => 1 | x :: l' => x * prodK l' end.
(** Power. *)
Fixpoint powK (x : K) (n : nat) : K := match n with O => 1 | S m => x * powK x m end.

Lemma sumn_ext n f g : (forall i, i < n -> f i = g i) -> sumn n f = sumn n g.
Proof.
  induction n as [|n IH]; intros H; [reflexivity|].
  cbn [sumn]. rewrite IH by (intros; apply H; lia). now rewrite H by lia.
Qed.

Lemma sumn_0 n : sumn n (fun _ => 0) = 0.
Proof. induction n; cbn [sumn]; [reflexivity|]. rewrite IHn. ring. Qed.

Lemma sumn_zero n f : (forall i, i < n -> f i = 0) -> sumn n f = 0.
Proof. intros H. rewrite (sumn_ext n f (fun _ => 0)) by auto. apply sumn_0. Qed.

Lemma sumn_add n f g : sumn n (fun i => f i + g i) = sumn n f + sumn n g.
Proof. induction n; cbn [sumn]; [ring|]. rewrite IHn. ring. Qed.

Lemma sumn_sub n f g : sumn n (fun i => f i - g i) = sumn n f - sumn n g.
Proof. induction n; cbn [sumn]; [ring|]. rewrite IHn. ring. Qed.

Lemma sumn_opp n f : sumn n (fun i => - f i) = - sumn n f.
Proof. induction n; cbn [sumn]; [ring|]. rewrite IHn. ring. Qed.

Lemma sumn_mul_l n c f : sumn n (fun i => c * f i) = c * sumn n f.
Proof. induction n; cbn [sumn]; [ring|]. rewrite IHn. ring. Qed.

Lemma sumn_mul_r n c f : sumn n (fun i => f i * c) = sumn n f * c.
Proof. induction n; cbn [sumn]; [ring|]. rewrite IHn. ring. Qed.

Lemma sumn_swap n m f :
  sumn n (fun i => sumn m (fun j => f i j)) = sumn m (fun j => sumn n (fun i => f i j)).
Proof.
  induction n; cbn [sumn].
  - now rewrite sumn_0.
  - rewrite IHn. now rewrite <- sumn_add.
Qed.

Lemma sumn_split n m f : sumn (n + m) f = sumn n f + sumn m (fun j => f (n + j)%nat).
Proof.
  induction m; cbn [sumn].
  - rewrite Nat.add_0_r. ring.
  - rewrite Nat.add_succ_r. cbn [sumn]. rewrite IHm. ring.
Qed.

Lemma sumn_S_l n f : sumn (S n) f = f 0%nat + sumn n (fun i => f (S i)).
Proof.
  change (S n) with (1 + n)%nat. rewrite sumn_split. cbn [sumn].
  rewrite (sumn_ext n (fun j => f (1 + j)%nat) (fun i => f (S i))) by (intros; f_equal).
  ring.
Qed.

Lemma sumn_prod n m f :
  sumn (n * m) f = sumn n (fun i => sumn m (fun j => f (i * m + j)%nat)).
Proof.
  induction n; cbn [sumn]; [reflexivity|].
  replace (S n * m)%nat with (n * m + m)%nat by lia.
  rewrite sumn_split, IHn. reflexivity.
Qed.

Lemma sumn_1 f : sumn 1 f = f 0%nat.
Proof. cbn [sumn]. ring. Qed.

Lemma sumn_delta n i f : i < n -> sumn n (fun j => if Nat.eqb j i then f j else 0) = f i.
Proof.
  induction n; intros H; [lia|]. cbn [sumn].
  destruct (Nat.eq_dec i n) as [->|Hne].
  - rewrite Nat.eqb_refl. rewrite sumn_zero; [ring|].
    intros j Hj. destruct (Nat.eqb_spec j n); [lia|reflexivity].
  - rewrite IHn by lia. destruct (Nat.eqb_spec n i); [lia|]. ring.
Qed.

Lemma sumn_delta' n i f : i < n -> sumn n (fun j => if Nat.eqb i j then f j else 0) = f i.
Proof.
  intros H. rewrite <- (sumn_delta n i f H). apply sumn_ext. intros j _.
  now rewrite Nat.eqb_sym.
Qed.

(** Sum where all but one index vanish. *)
Lemma sumn_single n i f : i < n -> (forall j, j < n -> j <> i -> f j = 0) -> sumn n f = f i.
Proof.
  intros Hi H. rewrite <- (sumn_delta n i f Hi). apply sumn_ext. intros j Hj.
  destruct (Nat.eqb_spec j i); [reflexivity|auto].
Qed.

(** Validity of a multi-index. *)
Definition vidx (sh idx : list nat) : Prop := Forall2 (fun i n => i < n) idx sh.

Lemma isum_ext ns f g : (forall I, vidx ns I -> f I = g I) -> isum ns f = isum ns g.
Proof.
  revert f g; induction ns as [|n ns IH]; intros f g H; cbn [isum].
  - apply H. constructor.
  - apply sumn_ext. intros i Hi. apply IH. intros I HI. apply H. now constructor.
Qed.

Lemma isum_zero ns f : (forall I, vidx ns I -> f I = 0) -> isum ns f = 0.
Proof.
  revert f; induction ns as [|n ns IH]; intros f H; cbn [isum].
  - apply H. constructor.
  - apply sumn_zero. intros i Hi. apply IH. intros. apply H. now constructor.
Qed.

Lemma isum_add ns f g : isum ns (fun I => f I + g I) = isum ns f + isum ns g.
Proof.
  revert f g; induction ns as [|n ns IH]; intros f g; cbn [isum]; [reflexivity|].
  rewrite <- sumn_add. apply sumn_ext. intros. now rewrite IH.
Qed.

Lemma isum_sub ns f g : isum ns (fun I => f I - g I) = isum ns f - isum ns g.
Proof.
  revert f g; induction ns as [|n ns IH]; intros f g; cbn [isum]; [reflexivity|].
  rewrite <- sumn_sub. apply sumn_ext. intros. now rewrite IH.
Qed.

Lemma isum_mul_l ns c f : isum ns (fun I => c * f I) = c * isum ns f.
Proof.
  revert f; induction ns as [|n ns IH]; intros f; cbn [isum]; [reflexivity|].
  rewrite <- sumn_mul_l. apply sumn_ext. intros. now rewrite IH.
Qed.

Lemma isum_mul_r ns c f : isum ns (fun I => f I * c) = isum ns f * c.
Proof.
  revert f; induction ns as [|n ns IH]; intros f; cbn [isum]; [reflexivity|].
  rewrite <- sumn_mul_r. apply sumn_ext. intros. now rewrite IH.
Qed.

Lemma isum_sumn_swap ns n f :
  isum ns (fun I => sumn n (fun i => f I i)) = sumn n (fun i => isum ns (fun I => f I i)).
Proof.
  revert f; induction ns as [|m ns IH]; intros f; cbn [isum]; [reflexivity|].
  rewrite sumn_swap. apply sumn_ext. intros. now rewrite IH.
Qed.

Lemma isum_swap ns ms f :
  isum ns (fun I => isum ms (fun J => f I J)) = isum ms (fun J => isum ns (fun I => f I J)).
Proof.
  revert f; induction ns as [|m ns IH]; intros f; cbn [isum]; [reflexivity|].
  rewrite isum_sumn_swap. apply sumn_ext. intros. now rewrite IH.
Qed.

Lemma isum_app ns ms f :
  isum (ns ++ ms) f = isum ns (fun I => isum ms (fun J => f (I ++ J))).
Proof.
  revert f; induction ns as [|m ns IH]; intros f; cbn [isum app]; [reflexivity|].
  apply sumn_ext. intros. now rewrite IH.
Qed.

(** Validity of a tuple of multi-indices. *)
Definition vjdx (ms J : list (list nat)) : Prop := Forall2 vidx ms J.

Lemma jsum_ext ms f g : (forall J, vjdx ms J -> f J = g J) -> jsum ms f = jsum ms g.
Proof.
  revert f g; induction ms as [|n ns IH]; intros f g H; cbn [jsum].
  - apply H. constructor.
  - apply isum_ext. intros i Hi. apply IH. intros I HI. apply H. now constructor.
Qed.

Lemma jsum_add ms f g : jsum ms (fun I => f I + g I) = jsum ms f + jsum ms g.
Proof.
  revert f g; induction ms as [|n ns IH]; intros f g; cbn [jsum]; [reflexivity|].
  rewrite <- isum_add. apply isum_ext. intros. now rewrite IH.
Qed.

Lemma jsum_mul_l ms c f : jsum ms (fun I => c * f I) = c * jsum ms f.
Proof.
  revert f; induction ms as [|n ns IH]; intros f; cbn [jsum]; [reflexivity|].
  rewrite <- isum_mul_l. apply isum_ext. intros. now rewrite IH.
Qed.

Lemma jsum_mul_r ms c f : jsum ms (fun I => f I * c) = jsum ms f * c.
Proof.
  revert f; induction ms as [|n ns IH]; intros f; cbn [jsum]; [reflexivity|].
  rewrite <- isum_mul_r. apply isum_ext. intros. now rewrite IH.
Qed.

Lemma jsum_sumn_swap ms n f :
  jsum ms (fun I => sumn n (fun i => f I i)) = sumn n (fun i => jsum ms (fun I => f I i)).
Proof.
  revert f; induction ms as [|m ns IH]; intros f; cbn [jsum]; [reflexivity|].
  rewrite <- isum_sumn_swap. apply isum_ext. intros. now rewrite IH.
Qed.

Lemma jsum_isum_swap ms ns f :
  jsum ms (fun J => isum ns (fun i => f J i)) = isum ns (fun i => jsum ms (fun J => f J i)).
Proof.
  revert f; induction ms as [|m ms' IH]; intros f; cbn [jsum]; [reflexivity|].
  rewrite isum_swap. apply isum_ext. intros. now rewrite IH.
Qed.

End Sums.

Arguments sumn {K} _ _. Arguments isum {K} _ _. Arguments jsum {K} _ _.
Arguments prodK {K} _. Arguments powK {K} _ _.
