(** The sequential arithmetic meets the contract. *)
From Coq Require Import String Ascii List Arith Bool Reals Lia Lra.
From Verif Require Import Scalar Tensor TensorLemmas Base OpsR Float FloatSpec FloatProofs FloatSeq.
Import ListNotations.
Local Open Scope R_scope.
Local Notation get := (@get Rring).

Section Seq.
Variables (u : R) (rnd : R -> R).
Hypothesis Hrnd : forall x, rounds u x (rnd x).
Local Notation fl_eval := (fl_eval u).

Lemma rnd_0 : rnd 0 = 0.
Proof.
  pose proof (Hrnd 0) as H. unfold rounds in H. rewrite Rabs_R0, Rmult_0_r, Rminus_0_r in H.
  pose proof (Rabs_pos (rnd 0)). destruct (Req_dec (rnd 0) 0); [assumption|]. pose proof (Rabs_pos_lt _ H1). lra.
Qed.

Lemma ev_0 : fl_eval 0 0 0 0.
Proof. pose proof (ev_number u 0) as H. now rewrite Rabs_R0 in H. Qed.

Lemma fsumn_S m f : fsumn rnd (S (S m)) f = rnd (fsumn rnd (S m) f + f (S m)).
Proof. reflexivity. Qed.

Lemma fsumn_eval n m f g h : (forall i, (i < n)%nat -> fl_eval m (f i) (g i) (h i)) -> (0 < n)%nat ->
  fl_eval (m + n - 1) (fsumn rnd n f) (sumn (K := Rring) n g) (sumn (K := Rring) n h).
Proof.
  intros H Hn. destruct n as [|n]; [lia|]. clear Hn. induction n as [|n IH].
  - cbn [fsumn sumn]. replace (m + 1 - 1)%nat with m by lia. rewrite !Rplus_0_l. apply H. lia.
  - rewrite fsumn_S. change (sumn (K := Rring) (S (S n)) g) with (sumn (K := Rring) (S n) g + g (S n))%R. change (sumn (K := Rring) (S (S n)) h) with (sumn (K := Rring) (S n) h + h (S n))%R.
    replace (m + S (S n) - 1)%nat with (S (m + S n - 1)) by lia. eapply ev_add; [apply IH; intros; apply H; lia| |apply Hrnd].
    eapply ev_more; [apply H; lia|lia].
Qed.

Lemma fsumn_zero n f : (forall i, (i < n)%nat -> f i = 0) -> fsumn rnd n f = 0.
Proof.
  intros H. destruct n as [|n]; [reflexivity|]. induction n as [|n IH]; [apply H; lia|].
  rewrite fsumn_S, IH, (H (S n)) by (intros; try apply H; lia). rewrite Rplus_0_l. apply rnd_0.
Qed.
Lemma sumn_zeroR n (f : nat -> R) : (forall i, (i < n)%nat -> f i = 0) -> sumn (K := Rring) n f = 0.
Proof.
  intros H. induction n as [|n IH]; [reflexivity|]. change (sumn (K := Rring) n f + f n = 0). rewrite IH, (H n) by (intros; try apply H; lia). lra.
Qed.

Lemma esum_zero dims : prodn (map snd dims) = 0%nat -> forall asg (f g : _ -> R), fesum rnd dims asg f = 0 /\ esum (K := Rring) dims asg g = 0.
Proof.
  induction dims as [|(l, n) ds IH]; intros H asg f g; [discriminate|]. cbn [fesum esum]. cbn [map snd] in H. rewrite prodn_cons in H.
  destruct n as [|n]; [split; reflexivity|]. assert (P : prodn (map snd ds) = 0%nat) by nia.
  split; [apply fsumn_zero|apply sumn_zeroR]; intros i _; [exact (proj1 (IH P _ f g))|exact (proj2 (IH P _ f g))].
Qed.

Lemma esum_eval dims : (0 < prodn (map snd dims))%nat -> forall asg m (f g h : _ -> R), (forall a, fl_eval m (f a) (g a) (h a)) ->
  fl_eval (m + prodn (map snd dims) - 1) (fesum rnd dims asg f) (esum (K := Rring) dims asg g) (esum (K := Rring) dims asg h).
Proof.
  induction dims as [|(l, n) ds IH]; intros P asg m f g h H; cbn [fesum esum map snd] in *.
  - change (prodn []) with 1%nat. replace (m + 1 - 1)%nat with m by lia. apply H.
  - rewrite prodn_cons in *. assert (P1 : (0 < n)%nat) by nia. assert (P2 : (0 < prodn (map snd ds))%nat) by nia.
    eapply ev_more; [apply fsumn_eval; [intros i _; apply IH; [exact P2|exact H]|exact P1]|]. nia.
Qed.

Lemma eprod_eval asg ins : forall ts, length ins = length ts -> ts <> [] ->
  fl_eval (length ts - 1) (feprod rnd asg ins ts) (eprod (K := Rring) asg ins ts) (eprod (K := Rring) asg ins (map tabs ts)).
Proof.
  induction ins as [|ls ins IH]; intros [|t ts] L N; try discriminate; [congruence|]. cbn [length] in L. cbn [length Nat.sub]. rewrite Nat.sub_0_r.
  assert (G : fl_eval 0 (get t (map (lookup0 asg) ls)) (get t (map (lookup0 asg) ls)) (get (tabs t) (map (lookup0 asg) ls))).
  { rewrite tabs_get. apply ev_number. }
  destruct ts as [|t' ts], ins as [|ls' ins]; try discriminate; [exact G|].
  specialize (IH (t' :: ts) ltac:(cbn in *; lia) ltac:(discriminate)). cbn [length Nat.sub] in IH. rewrite Nat.sub_0_r in IH.
  exact (ev_mul u _ _ _ _ _ _ _ _ _ G IH (Hrnd _)).
Qed.

Lemma bind_all_len ins : forall ts env env', bind_all (K := Rring) ins ts env = Ok env' -> length ins = length ts.
Proof.
  induction ins as [|ls ins IH]; intros [|t ts] env env' H; try discriminate; [reflexivity|]. cbn [bind_all] in H.
  destruct (bind_labels ls (shape t) env); [|discriminate]. cbn [bind] in H. cbn [length]. f_equal. eapply IH, H.
Qed.

Theorem seq_arith_ok : arith_ok u (seq_arith rnd).
Proof.
  constructor.
  - intros a b Wa Wb. unfold computed, seq_arith. cbn [f_matmul]. unfold seq_matmul, matmul, rank. cbn [tabs tmap shape].
    destruct (skipn _ (shape a)) as [|m [|k [|? ?]]] eqn:Ea; try reflexivity.
    destruct (skipn _ (shape b)) as [|k' [|n [|? ?]]]; try reflexivity.
    destruct (Nat.eqb k k'); [|reflexivity]. destruct (bcast _ _) as [s|]; [|reflexivity].
    eexists. eexists. split; [reflexivity|]. split; [reflexivity|]. split; [apply wft_mk|]. split; [reflexivity|].
    rewrite shape_mk. intros i Hi. rewrite !get_mk by auto.
    assert (Lk : last (shape a) 0%nat = k).
    { rewrite <- (firstn_skipn (length (shape a) - 2) (shape a)), Ea. rewrite (app_assoc _ [m] [k] : _ ++ [m; k] = _). apply last_last. }
    rewrite Lk. destruct k as [|k]; [apply ev_0|]. replace (S k) with (1 + S k - 1)%nat at 1 by lia.
    apply fsumn_eval; [|lia]. intros l _. cbn beta. fold (tabs a) (tabs b). rewrite !tabs_get. exact (ev_mul u 0 0 _ _ _ _ _ _ _ (ev_number u _) (ev_number u _) (Hrnd _)).
  - intros eq ts Wts L2. unfold computed, seq_arith. cbn [f_einsum]. unfold seq_einsum, einsum, einsum_terms.
    destruct (parse_eq eq [] []) as [[ins out]|]; [|reflexivity].
    rewrite (bind_all_shapes ins (map tabs ts) ts []) by (rewrite map_map; apply map_ext; reflexivity).
    destruct (bind_all ins ts []) as [env|] eqn:Eb; cbn [bind]; [|reflexivity]. destruct (forallb _ out); [|reflexivity].
    eexists. eexists. split; [reflexivity|]. split; [reflexivity|]. split; [apply wft_mk|]. split; [reflexivity|].
    rewrite shape_mk. intros i Hi. rewrite !get_mk by auto. set (sm := filter _ env).
    apply bind_all_len in Eb.
    destruct (Nat.eq_dec (prodn (map snd sm)) 0) as [Z|Z].
    + destruct (esum_zero sm Z (combine out i) (fun asg => feprod rnd asg ins ts) (fun asg => eprod (K := Rring) asg ins ts)) as [-> ->].
      rewrite (proj2 (esum_zero sm Z (combine out i) (fun _ => 0) (fun asg => eprod (K := Rring) asg ins (map tabs ts)))). eapply ev_more; [apply ev_0|lia].
    + eapply ev_more; [apply esum_eval; [lia|intros asg; apply eprod_eval; [exact Eb|destruct ts; [cbn in L2; lia|discriminate]]]|]. lia.
Qed.
End Seq.
