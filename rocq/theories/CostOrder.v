(** An einsum does not depend on the order of its contractions, and a best order exists. *)
From Coq Require Import String Ascii List Arith Lia Bool Permutation Ring.
From Verif Require Import Scalar Tensor TensorLemmas TensorLemmas2 Base Sweep Cost CostProofs.
Import ListNotations.

(** *** All orders *)
Fixpoint splits {A} (l : list A) : list (list A * list A) :=
  match l with
  | [] => [([], [])]
  | x :: t => flat_map (fun p => [(x :: fst p, snd p); (fst p, x :: snd p)]) (splits t)
  end.
Fixpoint trees (n : nat) (l : list nat) : list order :=
  match n with
  | 0 => []
  | S n' => match l with [x] => [OLeaf x] | _ => [] end ++
            flat_map (fun p => flat_map (fun a => map (ONode a) (trees n' (snd p))) (trees n' (fst p))) (splits l)
  end.

Lemma splits_perm {A} (l : list A) a b : In (a, b) (splits l) -> Permutation (a ++ b) l.
Proof.
  revert a b; induction l as [|x l IH]; cbn [splits]; intros a b H.
  - destruct H as [H|[]]. injection H as <- <-. constructor.
  - apply in_flat_map in H as ([u v] & H & E). cbn [fst snd] in E. apply IH in H. destruct E as [E|[E|[]]]; injection E as <- <-.
    + now constructor.
    + rewrite <- Permutation_middle. now constructor.
Qed.

Lemma splits_complete {A} (l : list A) : forall x y, Permutation (x ++ y) l -> exists a b, In (a, b) (splits l) /\ Permutation a x /\ Permutation b y.
Proof.
  induction l as [|z l IH]; intros x y H.
  - apply Permutation_sym, Permutation_nil in H. apply app_eq_nil in H as [-> ->]. exists [], []. cbn. auto.
  - assert (Hin : In z (x ++ y)) by (rewrite H; now left). apply in_app_iff in Hin as [Hz|Hz]; apply in_split in Hz as (u & v & ->).
    + assert (E : Permutation ((u ++ v) ++ y) l).
      { rewrite <- !app_assoc in *. cbn [app] in H. apply (Permutation_app_inv_l [z]). cbn [app]. rewrite <- H. apply Permutation_middle. }
      apply IH in E as (a & b & Hab & Pa & Pb). exists (z :: a), b. split; [|split; [|assumption]].
      * cbn [splits]. apply in_flat_map. exists (a, b). split; [assumption|]. cbn. auto.
      * rewrite Pa. apply Permutation_middle.
    + assert (E : Permutation (x ++ (u ++ v)) l).
      { apply (Permutation_app_inv_l [z]). cbn [app]. rewrite <- H. rewrite !app_assoc. apply Permutation_middle. }
      apply IH in E as (a & b & Hab & Pa & Pb). exists a, (z :: b). split; [|split; [assumption|]].
      * cbn [splits]. apply in_flat_map. exists (a, b). split; [assumption|]. cbn. auto.
      * rewrite Pb. apply Permutation_middle.
Qed.

Lemma leaves_len p : 1 <= length (leaves p).
Proof. induction p; cbn [leaves]; [cbn; lia|]. rewrite app_length. lia. Qed.

Lemma trees_sound n : forall l p, In p (trees n l) -> Permutation (leaves p) l.
Proof.
  induction n as [|n IH]; intros l p H; [destruct H|]. cbn [trees] in H. apply in_app_iff in H as [H|H].
  - destruct l as [|x [|y l]]; [destruct H| |destruct H]. destruct H as [<-|[]]. reflexivity.
  - apply in_flat_map in H as ([a b] & Hs & H). cbn [fst snd] in H. apply in_flat_map in H as (u & Hu & H). apply in_map_iff in H as (v & <- & Hv).
    cbn [leaves]. rewrite (IH _ _ Hu), (IH _ _ Hv). now apply splits_perm.
Qed.

Lemma trees_complete p : forall n l, Permutation (leaves p) l -> length l <= n -> In p (trees n l).
Proof.
  induction p as [i|p IHp q IHq]; intros n l H Hn.
  - cbn [leaves] in H. apply Permutation_length_1_inv in H. subst l. destruct n as [|n]; [cbn in Hn; lia|]. cbn. auto.
  - cbn [leaves] in H. pose proof (Permutation_length H) as L. rewrite app_length in L. pose proof (leaves_len p). pose proof (leaves_len q).
    destruct n as [|n]; [lia|]. cbn [trees]. apply in_app_iff. right. apply splits_complete in H as (a & b & Hs & Pa & Pb).
    pose proof (Permutation_length Pa). pose proof (Permutation_length Pb).
    apply in_flat_map. exists (a, b). split; [assumption|]. cbn [fst snd]. apply in_flat_map. exists p. split.
    + apply IHp; [now symmetry|lia].
    + apply in_map. apply IHq; [now symmetry|lia].
Qed.

Definition least (f : order -> nat) (l : list order) : nat :=
  match l with [] => 0 | p :: t => fold_left (fun m q => Nat.min m (f q)) t (f p) end.
Definition best_cost (eq : string) (shs : list (list nat)) : nat :=
  least (order_cost eq shs) (trees (length shs) (seq 0 (length shs))).

Lemma fold_min f l : forall m, fold_left (fun m q => Nat.min m (f q)) l m <= m /\ (forall p, In p l -> fold_left (fun m q => Nat.min m (f q)) l m <= f p) /\
  (fold_left (fun m q => Nat.min m (f q)) l m = m \/ exists p : order, In p l /\ fold_left (fun m q => Nat.min m (f q)) l m = f p).
Proof.
  induction l as [|q l IH]; intros m; cbn [fold_left].
  - split; [lia|]. split; [intros p []|now left].
  - destruct (IH (Nat.min m (f q))) as (H1 & H2 & H3). split; [lia|]. split.
    + intros p [<-|Hp]; [lia|auto].
    + destruct H3 as [H3|(p & Hp & H3)]; [|right; exists p; split; [now right|assumption]].
      rewrite H3. destruct (Nat.min_dec m (f q)) as [E|E]; rewrite E; [now left|right; exists q; split; [now left|reflexivity]].
Qed.

Lemma least_spec f l : l <> [] -> (exists p, In p l /\ least f l = f p) /\ forall p, In p l -> least f l <= f p.
Proof.
  destruct l as [|p l]; [congruence|]. intros _. cbn [least]. destruct (fold_min f l (f p)) as (H1 & H2 & H3). split.
  - destruct H3 as [H3|(q & Hq & H3)]; [exists p; split; [now left|assumption]|exists q; split; [now right|assumption]].
  - intros q [<-|Hq]; auto.
Qed.

Fixpoint comb (n : nat) : order := match n with 0 => OLeaf 0 | S n' => ONode (comb n') (OLeaf n) end.
Lemma comb_leaves n : leaves (comb n) = seq 0 (S n).
Proof. induction n as [|n IH]; [reflexivity|]. cbn [comb leaves]. rewrite IH. now rewrite (seq_S (S n) 0). Qed.

Lemma best_cost_best : best_order best_cost.
Proof.
  intros eq shs N. unfold best_cost. set (n := length shs). assert (Hn : n <> 0) by (unfold n; destruct shs; [congruence|cbn; lia]).
  assert (Hc : forall p, is_order n p <-> In p (trees n (seq 0 n))).
  { intros p. split; intros H; [apply trees_complete; [exact H|rewrite seq_length; lia]|exact (trees_sound _ _ _ H)]. }
  destruct (least_spec (order_cost eq shs) (trees n (seq 0 n))) as [(p & Hp & E) H2].
  { assert (Hin : In (comb (n - 1)) (trees n (seq 0 n))).
    { apply Hc. unfold is_order. rewrite comb_leaves. now replace (S (n - 1)) with n by lia. }
    destruct (trees n (seq 0 n)); [destruct Hin|congruence]. }
  split; [exists p; split; [now apply Hc|exact E]|]. intros q Hq. apply H2. now apply Hc.
Qed.
