(** Contracting two tensors at a time, in any order, computes the einsum. *)
From Coq Require Import String Ascii List Arith Lia Bool Permutation Ring.
From Verif Require Import Scalar Tensor TensorLemmas TensorLemmas2 Base Sweep Cost CostProofs.
Import ListNotations.

Lemma occurs_In l ls : occurs l ls = true <-> In l ls.
Proof.
  unfold occurs. rewrite existsb_exists. split; [intros (x & H & E); apply Ascii.eqb_eq in E; now subst|].
  intros H. exists l. split; [assumption|apply Ascii.eqb_refl].
Qed.
Lemma occurs_nIn l ls : occurs l ls = false <-> ~ In l ls.
Proof. rewrite <- Bool.not_true_iff_false. now rewrite occurs_In. Qed.

Lemma uniq_In l ls : In l (uniq ls) <-> In l ls.
Proof.
  induction ls as [|x ls IH]; cbn [uniq]; [reflexivity|]. destruct (occurs x ls) eqn:E.
  - apply occurs_In in E. rewrite IH. cbn. split; auto. intros [<-|H]; auto.
  - cbn. now rewrite IH.
Qed.
Lemma uniq_NoDup ls : NoDup (uniq ls).
Proof.
  induction ls as [|x ls IH]; cbn [uniq]; [constructor|]. destruct (occurs x ls) eqn:E; auto. constructor; auto. rewrite uniq_In. now apply occurs_nIn.
Qed.

(** *** Sizes of labels *)
Lemma lookup_In l env n : lookup l env = Some n -> In (l, n) env.
Proof.
  induction env as [|[k m] env IH]; cbn; [discriminate|]. destruct (Ascii.eqb_spec l k); [intros H; injection H as <-; subst; now left|auto].
Qed.
Lemma lookup_None l env : lookup l env = None <-> ~ In l (map fst env).
Proof.
  induction env as [|[k m] env IH]; cbn; [tauto|]. destruct (Ascii.eqb_spec l k) as [->|N]; split.
  - discriminate.
  - intros H. exfalso. apply H. now left.
  - intros H [E|E]; [congruence|]. now apply IH in H.
  - intros H. apply IH. auto.
Qed.

Definition consistent (dim : ascii -> nat) (env : list (ascii * nat)) : Prop := forall l n, In (l, n) env -> n = dim l.

Lemma bind_labels_keys ls : forall sh env env', bind_labels ls sh env = Ok env' -> NoDup (map fst env) ->
  NoDup (map fst env') /\ forall l, In l (map fst env') <-> In l (map fst env) \/ In l ls.
Proof.
  induction ls as [|k ls IH]; intros [|n sh] env env'; cbn [bind_labels]; try discriminate.
  - intros H N. injection H as <-. split; auto. cbn. tauto.
  - destruct (lookup k env) as [m|] eqn:E.
    + destruct (Nat.eqb m n); [|discriminate]. intros H N. destruct (IH _ _ _ H N) as [N' H']. split; auto. intros l. rewrite H'. cbn.
      apply lookup_In in E. apply (in_map fst) in E. cbn in E. split; [tauto|]. intros [?|[<-|?]]; auto.
    + intros H N. apply lookup_None in E. destruct (IH _ _ _ H) as [N' H'].
      { rewrite map_app. cbn [map]. apply NoDup_Add with (a := fst (k, n)) (l := map fst env); [|cbn; auto].
        rewrite <- (app_nil_r (map fst env)) at 1. apply Add_app. }
      split; auto. intros l. rewrite H', map_app, in_app_iff. cbn. tauto.
Qed.

Section K.
Context {K : cring}.
Add Ring Kring : (cth K).
Local Open Scope nat_scope.
Implicit Types (x y : tensor K) (ts : list (tensor K)) (f g : ascii -> nat).

Lemma bind_all_keys ins : forall ts env env', bind_all ins ts env = Ok env' -> NoDup (map fst env) ->
  NoDup (map fst env') /\ forall l, In l (map fst env') <-> In l (map fst env) \/ exists ls, In ls ins /\ In l ls.
Proof.
  induction ins as [|ls ins IH]; intros [|x ts] env env'; cbn [bind_all]; try discriminate.
  - intros H N. injection H as <-. split; auto. intros l. split; auto. intros [?|(? & [] & _)]; auto.
  - destruct (bind_labels ls (shape x) env) as [env1|] eqn:E; [|discriminate]. cbn [bind]. intros H N.
    destruct (bind_labels_keys _ _ _ _ E N) as [N1 H1]. destruct (IH _ _ _ H N1) as [N2 H2]. split; auto. intros l. rewrite H2, H1. split.
    + intros [[?|?]|(k & Hk & Hl)]; auto; right; [exists ls|exists k]; split; auto; [now left|now right].
    + intros [?|(k & [<-|Hk] & Hl)]; auto. right. eauto.
Qed.

Lemma bind_labels_dim dim ls : forall env, consistent dim env -> NoDup (map fst env) ->
  exists env', bind_labels ls (map dim ls) env = Ok env' /\ consistent dim env'.
Proof.
  induction ls as [|k ls IH]; intros env C N; cbn [bind_labels map]; [eauto|]. destruct (lookup k env) as [m|] eqn:E.
  - apply lookup_In, C in E. subst m. rewrite Nat.eqb_refl. auto.
  - apply IH.
    + intros l n H. apply in_app_iff in H as [H|[H|[]]]; [auto|]. injection H as -> ->. reflexivity.
    + apply lookup_None in E. rewrite map_app. cbn [map]. apply NoDup_Add with (a := fst (k, dim k)) (l := map fst env); [|cbn; auto].
      rewrite <- (app_nil_r (map fst env)) at 1. apply Add_app.
Qed.

Lemma bind_all_dim dim ins : forall ts env, map shape ts = map (map dim) ins -> consistent dim env -> NoDup (map fst env) ->
  exists env', bind_all ins ts env = Ok env' /\ consistent dim env'.
Proof.
  induction ins as [|ls ins IH]; intros [|x ts] env E C N; cbn [map] in E; try discriminate; cbn [bind_all]; [eauto|].
  injection E as E1 E2. rewrite E1. destruct (bind_labels_dim dim ls env C N) as (env1 & H1 & C1). rewrite H1. cbn [bind].
  apply IH; auto. eapply bind_labels_keys; eauto.
Qed.

Lemma consistent_lookup dim env l : consistent dim env -> In l (map fst env) -> lookup0 env l = dim l.
Proof.
  intros C H. unfold lookup0. destruct (lookup l env) as [n|] eqn:E; [now apply lookup_In, C in E|]. now apply lookup_None in E.
Qed.

(** *** Sums over labels *)
Definition fup f (l : ascii) (i : nat) : ascii -> nat := fun k => if Ascii.eqb k l then i else f k.
Fixpoint fsum (dim : ascii -> nat) (ls : list ascii) (body : (ascii -> nat) -> K) f : K :=
  match ls with
  | [] => body f
  | l :: t => sumn (dim l) (fun i => fsum dim t body (fup f l i))
  end.
(** The body depends on the labels [S] only. *)
Definition depends (body : (ascii -> nat) -> K) (P : ascii -> Prop) : Prop :=
  forall f g, (forall l, P l -> f l = g l) -> body f = body g.

Variable dim : ascii -> nat.

Lemma fsum_ext ls : forall body body' f f', (forall l, ~ In l ls -> f l = f' l) ->
  (forall g g', (forall l, g l = g' l) -> (forall l, ~ In l ls -> g l = f l) -> (forall l, In l ls -> g l < dim l) -> body g = body' g') ->
  fsum dim ls body f = fsum dim ls body' f'.
Proof.
  induction ls as [|l ls IH]; intros body body' f f' Hf H; cbn [fsum].
  - apply H; auto. intros l []. 
  - apply sumn_ext. intros i Hi. apply IH.
    + intros k Hk. unfold fup. destruct (Ascii.eqb_spec k l) as [->|N]; auto. apply Hf. intros [->|?]; auto.
    + intros g g' Hg Hg1 Hg2. apply H; auto.
      * intros k Hk. rewrite Hg1 by (intros ?; apply Hk; now right). unfold fup. destruct (Ascii.eqb_spec k l) as [->|]; auto. exfalso. apply Hk. now left.
      * intros k [<-|Hk]; auto. destruct (in_dec ascii_dec l ls); auto. rewrite Hg1 by auto. unfold fup. now rewrite Ascii.eqb_refl.
Qed.

Lemma fsum_depends ls body P : depends body P -> depends (fsum dim ls body) (fun l => P l /\ ~ In l ls).
Proof.
  intros D. induction ls as [|l ls IH]; intros f g H; cbn [fsum].
  - apply D. intros. apply H. auto.
  - apply sumn_ext. intros i Hi. apply IH. intros k [Pk Nk]. unfold fup. destruct (Ascii.eqb_spec k l); auto. apply H. split; auto. intros [?|?]; auto.
Qed.

Definition respects (body : (ascii -> nat) -> K) : Prop := depends body (fun _ => True).
Lemma depends_respects body P : depends body P -> respects body.
Proof. intros D f g H. apply D. auto. Qed.

Lemma fsum_respects ls body : respects body -> respects (fsum dim ls body).
Proof. intros D f g H. apply (fsum_depends ls body _ D). intros l _. now apply H. Qed.

Lemma fsum_perm ls ls' : Permutation ls ls' -> NoDup ls -> forall body f, respects body -> fsum dim ls body f = fsum dim ls' body f.
Proof.
  induction 1 as [|l ls ls' P IH|a b ls|ls ls1 ls2 P1 IH1 P2 IH2]; intros N body f R; cbn [fsum].
  - reflexivity.
  - apply sumn_ext. intros. apply IH; auto. now inversion N.
  - rewrite sumn_swap. apply sumn_ext. intros j _. apply sumn_ext. intros i _. apply (fsum_respects ls body R). intros k _.
    unfold fup. destruct (Ascii.eqb_spec k a) as [Ea|], (Ascii.eqb_spec k b) as [Eb|]; auto. subst a b. inversion N as [|? ? H]. exfalso. apply H. now left.
  - rewrite IH1 by auto. apply IH2; auto. eapply Permutation_NoDup; eauto.
Qed.

Lemma fsum_app ls ls' body f : fsum dim (ls ++ ls') body f = fsum dim ls (fsum dim ls' body) f.
Proof. revert f; induction ls as [|l ls IH]; intros f; cbn [fsum app]; [reflexivity|]. apply sumn_ext. auto. Qed.

(** A factor that does not depend on the labels summed over. *)
Lemma fsum_mul_r ls body body' P : depends body' P -> (forall l, In l ls -> ~ P l) -> forall f,
  fsum dim ls (fun g => body g * body' g)%K f = (fsum dim ls body f * body' f)%K.
Proof.
  intros D H. induction ls as [|l ls IH]; intros f; cbn [fsum]; [reflexivity|]. rewrite <- sumn_mul_r. apply sumn_ext. intros i _.
  rewrite IH by (intros; apply H; now right). f_equal. apply D. intros k Pk. unfold fup. destruct (Ascii.eqb_spec k l) as [->|]; auto.
  exfalso. apply (H l); auto. now left.
Qed.
Lemma fsum_mul_l ls body body' P : depends body' P -> (forall l, In l ls -> ~ P l) -> forall f,
  fsum dim ls (fun g => body' g * body g)%K f = (body' f * fsum dim ls body f)%K.
Proof.
  intros D H. induction ls as [|l ls IH]; intros f; cbn [fsum]; [reflexivity|]. rewrite <- sumn_mul_l. apply sumn_ext. intros i _.
  rewrite IH by (intros; apply H; now right). f_equal. apply D. intros k Pk. unfold fup. destruct (Ascii.eqb_spec k l) as [->|]; auto.
  exfalso. apply (H l); auto. now left.
Qed.

(** *** The einsum as a sum over labels *)
Definition tval ins ts (i : nat) f : K := get (nth i ts (mk [] (fun _ => c0))) (map f (nth i ins [])).
Fixpoint prodK (l : list nat) (F : nat -> K) : K := match l with [] => c1 | i :: t => (F i * prodK t F)%K end.
Lemma prodK_app l l' F : prodK (l ++ l') F = (prodK l F * prodK l' F)%K.
Proof. induction l as [|i l IH]; cbn [prodK app]; [ring|]. rewrite IH. ring. Qed.
Lemma prodK_perm l l' F : Permutation l l' -> prodK l F = prodK l' F.
Proof. induction 1; cbn [prodK]; auto; [now rewrite IHPermutation|ring|congruence]. Qed.
Lemma prodK_ext l F G : (forall i, In i l -> F i = G i) -> prodK l F = prodK l G.
Proof. induction l as [|i l IH]; intros H; cbn [prodK]; [reflexivity|]. rewrite (H i) by now left. rewrite IH; auto. intros; apply H; now right. Qed.

Lemma prodK_seq_S F n : prodK (seq 1 n) F = prodK (seq 0 n) (fun i => F (S i)).
Proof. rewrite <- seq_shift. induction (seq 0 n) as [|i l IH]; cbn [map prodK]; [reflexivity|now rewrite IH]. Qed.

Lemma eprod_prodK : forall ins ts asg, length ins = length ts -> ins <> [] ->
  eprod asg ins ts = prodK (seq 0 (length ins)) (fun i => tval ins ts i (lookup0 asg)).
Proof.
  induction ins as [|ls ins IH]; intros [|x ts] asg L N; cbn [length] in L; try congruence.
  cbn [length seq prodK]. rewrite prodK_seq_S. change (tval (ls :: ins) (x :: ts) 0 (lookup0 asg)) with (get x (map (lookup0 asg) ls)).
  destruct ins as [|ls' ins].
  - destruct ts; [|discriminate]. cbn [eprod length seq prodK]. ring.
  - destruct ts as [|x' ts]; [discriminate|].
    change (eprod asg (ls :: ls' :: ins) (x :: x' :: ts)) with (get x (map (lookup0 asg) ls) * eprod asg (ls' :: ins) (x' :: ts))%K.
    rewrite IH; [reflexivity|cbn [length] in *; lia|discriminate].
Qed.

Lemma esum_fsum : forall dims asg body (body' : (ascii -> nat) -> K), (forall l n, In (l, n) dims -> n = dim l) ->
  respects body' -> (forall a, body a = body' (lookup0 a)) ->
  esum dims asg body = fsum dim (map fst dims) body' (lookup0 asg).
Proof.
  induction dims as [|[l n] dims IH]; intros asg body body' C R H; cbn [esum map fst fsum]; auto.
  rewrite (C l n) by now left. apply sumn_ext. intros i _. rewrite (IH _ body body'); auto.
  - apply (fsum_respects _ _ R). intros k _. unfold fup, lookup0. cbn [lookup]. destruct (Ascii.eqb k l); reflexivity.
  - intros k m Hk. apply C. now right.
Qed.

Lemma tval_depends ins ts i : depends (tval ins ts i) (fun l => In l (nth i ins [])).
Proof. intros f g H. unfold tval. f_equal. apply map_ext_in. auto. Qed.
Lemma prod_depends ins ts is : depends (fun f => prodK is (fun i => tval ins ts i f)) (fun l => exists i, In i is /\ In l (nth i ins [])).
Proof. intros f g H. apply prodK_ext. intros i Hi. apply tval_depends. intros l Hl. apply H. eauto. Qed.

Lemma lookup0_combine : forall (ls : list ascii) (idx : list nat), NoDup ls -> length idx = length ls -> map (lookup0 (combine ls idx)) ls = idx.
Proof.
  induction ls as [|k ls IH]; intros [|i idx] N L; cbn [length] in L; try discriminate; cbn [combine map]; [reflexivity|].
  inversion N as [|? ? Hk N']; subst. f_equal.
  - unfold lookup0. cbn [lookup]. now rewrite Ascii.eqb_refl.
  - rewrite <- (IH idx) at 2; auto. apply map_ext_in. intros j Hj. unfold lookup0. cbn [lookup]. destruct (Ascii.eqb_spec j k); [congruence|reflexivity].
Qed.

(** The value of [einsum_of] when the sizes agree with [dim]. *)
Lemma einsum_of_ok ins out ts : map shape ts = map (map dim) ins -> ins <> [] -> NoDup out ->
  (forall l, In l out -> exists ls, In ls ins /\ In l ls) ->
  exists r summed, einsum_of ins out ts = Ok r /\ wft r /\ shape r = map dim out /\ NoDup summed /\
    (forall l, In l summed <-> (exists ls, In ls ins /\ In l ls) /\ ~ In l out) /\
    forall f, (forall l, In l out -> f l < dim l) ->
      get r (map f out) = fsum dim summed (fun g => prodK (seq 0 (length ins)) (fun i => tval ins ts i g)) f.
Proof.
  intros Hs Hne No Ho. destruct (bind_all_dim dim ins ts [] Hs) as (env & He & C); [intros ? ? []|constructor|].
  destruct (bind_all_keys ins ts [] env He) as [Nk Hk]; [constructor|].
  assert (Hk' : forall l, In l (map fst env) <-> exists ls, In ls ins /\ In l ls). { intros l. rewrite Hk. cbn. tauto. }
  assert (Ld : map (lookup0 env) out = map dim out).
  { apply map_ext_in. intros l Hl. apply consistent_lookup; auto. apply Hk'. auto. }
  unfold einsum_of. rewrite He. cbn [bind].
  replace (forallb _ out) with true.
  2:{ symmetry. apply forallb_forall. intros l Hl. destruct (lookup l env) eqn:E; auto. apply lookup_None in E. exfalso. apply E, Hk'. auto. }
  eexists _, (map fst (filter (fun p => negb (existsb (Ascii.eqb (fst p)) out)) env)). split; [reflexivity|]. split; [apply wft_mk|].
  split; [now rewrite shape_mk|]. split; [|split].
  - clear - Nk. induction env as [|[l n] env IH]; cbn [filter]; [constructor|]. cbn [map fst] in Nk. inversion Nk as [|? ? H1 H2]; subst.
    destruct (negb _); auto. cbn [map fst]. constructor; auto. intros H. apply H1. apply in_map_iff in H as ([k m] & <- & H). apply filter_In in H as [H _].
    apply in_map_iff. exists (k, m). auto.
  - intros l. rewrite <- Hk'. rewrite !in_map_iff. split.
    + intros ([k m] & <- & H). apply filter_In in H as [H E]. cbn [fst] in *. split; [exists (k, m); auto|]. apply Bool.negb_true_iff in E. now apply occurs_nIn in E.
    + intros [([k m] & <- & H) E]. exists (k, m). split; auto. apply filter_In. split; auto. cbn [fst]. apply Bool.negb_true_iff. now apply occurs_nIn.
  - intros f Hf. rewrite Ld, get_mk.
    2:{ clear - Hf. unfold vidx. induction out as [|l out IH]; cbn [map]; constructor; auto. apply Hf. now left. apply IH. intros; apply Hf; now right. }
    assert (L : length ins = length ts). { rewrite <- (map_length (map dim) ins), <- Hs. apply map_length. }
    rewrite (esum_fsum _ _ _ (fun g => prodK (seq 0 (length ins)) (fun i => tval ins ts i g))).
    + match goal with |- fsum dim ?S _ _ = _ => set (summed := S) end.
      apply (fsum_depends summed _ _ (prod_depends ins ts (seq 0 (length ins)))).
      intros l [(i & Hi & Hl) Hn]. apply in_seq in Hi.
      assert (Lo : In l out).
      { destruct (in_dec ascii_dec l out) as [|N]; auto. exfalso. apply Hn. unfold summed.
        assert (E : In l (map fst env)) by (apply Hk'; exists (nth i ins []); split; [apply nth_In; lia|assumption]).
        apply in_map_iff in E as ([k m] & Ek & E). cbn [fst] in Ek. subst k. apply in_map_iff. exists (l, m). split; auto.
        apply filter_In. split; auto. cbn [fst]. apply Bool.negb_true_iff. now apply occurs_nIn. }
      clear - Lo. unfold lookup0. induction out as [|k out IH]; [destruct Lo|]. cbn [map combine lookup].
      destruct (Ascii.eqb_spec l k) as [->|N]; [reflexivity|]. apply IH. destruct Lo; [congruence|assumption].
    + intros l n H. apply filter_In in H as [H _]. auto.
    + intros g g' H. apply prodK_ext. intros i _. apply tval_depends. auto.
    + intros a. now apply eprod_prodK.
Qed.

(** *** Orders *)
Lemma NoDup_app_parts {A} (l l' : list A) : NoDup (l ++ l') -> NoDup l /\ NoDup l'.
Proof.
  induction l as [|a l IH]; cbn [app]; intros H; [split; [constructor|assumption]|]. inversion H as [|? ? H1 H2]; subst.
  destruct (IH H2). split; auto. constructor; auto. intros ?. apply H1, in_app_iff. auto.
Qed.

Section Tree.
Variables (ins : list (list ascii)) (out : list ascii) (ts : list (tensor K)).
Hypothesis Hsh : map shape ts = map (map dim) ins.

Definition below (p : order) (l : ascii) : Prop := exists i, In i (leaves p) /\ In l (nth i ins []).

Lemma needed_spec used l : needed ins out used l = true <-> In l out \/ exists j, j < length ins /\ ~ In j used /\ In l (nth j ins []).
Proof.
  unfold needed. rewrite Bool.orb_true_iff, occurs_In, existsb_exists. split.
  - intros [H|(j & Hj & H)]; auto. right. apply in_seq in Hj. apply andb_prop in H as [H1 H2]. apply occurs_In in H2. exists j.
    split; [lia|]. split; auto. intros Hu. apply Bool.negb_true_iff in H1. rewrite <- Bool.not_true_iff_false in H1. apply H1. apply existsb_exists.
    exists j. split; auto. apply Nat.eqb_refl.
  - intros [H|(j & Hj & H1 & H2)]; auto. right. exists j. split; [apply in_seq; lia|]. apply andb_true_intro. split; [|now apply occurs_In].
    apply Bool.negb_true_iff, Bool.not_true_iff_false. rewrite existsb_exists. intros (k & Hk & E). apply Nat.eqb_eq in E. now subst.
Qed.

Lemma olabels_spec p l : In l (olabels ins out p) <->
  below p l /\ match p with OLeaf _ => True | ONode _ _ => needed ins out (leaves p) l = true end.
Proof.
  revert l; induction p as [i|p IHp q IHq]; intros l; cbn [olabels].
  - unfold below. cbn [leaves]. split; [intros H; split; auto; exists i; split; [now left|assumption]|].
    intros [(j & [<-|[]] & H) _]. exact H.
  - rewrite filter_In, uniq_In, in_app_iff. cbn [leaves]. split.
    + intros [H N]. split; [|assumption]. destruct H as [H|H]; [apply IHp in H|apply IHq in H]; destruct H as [(i & Hi & H) _]; exists i; cbn [leaves]; rewrite in_app_iff; auto.
    + intros [(i & Hi & H) N]. split; [|assumption]. cbn [leaves] in Hi. apply in_app_iff in Hi as [Hi|Hi]; [left; apply IHp|right; apply IHq]; (split; [exists i; auto|]).
      * destruct p; auto. apply needed_spec in N. apply needed_spec. destruct N as [N|(j & Hj & N1 & N2)]; auto. right. exists j. split; auto. split; auto.
        intros ?. apply N1, in_app_iff. auto.
      * destruct q; auto. apply needed_spec in N. apply needed_spec. destruct N as [N|(j & Hj & N1 & N2)]; auto. right. exists j. split; auto. split; auto.
        intros ?. apply N1, in_app_iff. auto.
Qed.

Lemma olabels_below p l : In l (olabels ins out p) -> below p l.
Proof. intros H. now apply olabels_spec in H. Qed.

(** A label that a subtree has summed over is not used elsewhere. *)
Lemma summed_private p l : below p l -> ~ In l (olabels ins out p) -> ~ In l out /\ forall j, j < length ins -> ~ In j (leaves p) -> ~ In l (nth j ins []).
Proof.
  intros B N. destruct p as [i|p q]; [exfalso; apply N, olabels_spec; auto|].
  assert (E : needed ins out (leaves (ONode p q)) l <> true) by (intros E; apply N, olabels_spec; auto).
  rewrite needed_spec in E. split; [auto|]. intros j Hj Hn Hl. apply E. right. eauto.
Qed.

Definition value_at (p : order) (L : list ascii) (x : tensor K) : Prop :=
  wft x /\ shape x = map dim L /\ exists priv, NoDup priv /\ (forall l, In l priv <-> below p l /\ ~ In l L) /\
    forall f, (forall l, In l L -> f l < dim l) ->
      get x (map f L) = fsum dim priv (fun g => prodK (leaves p) (fun i => tval ins ts i g)) f.

Hypothesis Hwf : Forall wft ts.

Lemma node_value p q Lo x y : NoDup (leaves p ++ leaves q) -> (forall i, In i (leaves p ++ leaves q) -> i < length ins) ->
  value_at p (olabels ins out p) x -> value_at q (olabels ins out q) y ->
  NoDup Lo -> (forall l, In l Lo <-> (In l (olabels ins out p) \/ In l (olabels ins out q)) /\ needed ins out (leaves p ++ leaves q) l = true) ->
  exists r, einsum_of [olabels ins out p; olabels ins out q] Lo [x; y] = Ok r /\ value_at (ONode p q) Lo r.
Proof.
  intros N Lt (Wx & Sx & Px & Nx & HPx & Vx) (Wy & Sy & Py & Ny & HPy & Vy) NLo HLo.
  set (La := olabels ins out p) in *. set (Lb := olabels ins out q) in *.
  destruct (einsum_of_ok [La; Lb] Lo [x; y]) as (r & D & Er & Wr & Sr & ND & HD & Vr).
  - cbn [map]. now rewrite Sx, Sy.
  - discriminate.
  - assumption.
  - intros l Hl. apply HLo in Hl as [[H|H] _]; [exists La|exists Lb]; split; auto; cbn; auto.
  - exists r. split; [assumption|]. split; [assumption|]. split; [assumption|].
    assert (HD' : forall l, In l D <-> (In l La \/ In l Lb) /\ ~ In l Lo).
    { intros l. rewrite HD. split; intros [H1 H2]; (split; [|assumption]).
      - destruct H1 as (ls & [<-|[<-|[]]] & H1); auto.
      - destruct H1 as [H1|H1]; [exists La|exists Lb]; split; auto; cbn; auto. }
    assert (dis : forall i, In i (leaves p) -> ~ In i (leaves q)).
    { intros i H1 H2. apply in_split in H1 as (u & v & E). rewrite E, <- app_assoc in N. apply NoDup_remove_2 in N. apply N.
      rewrite !in_app_iff. auto. }
    (* private labels of one side do not occur on the other *)
    assert (PA : forall l, In l Px -> ~ In l out /\ ~ below q l).
    { intros l H. apply HPx in H as [H1 H2]. destruct (summed_private p l H1 H2) as [H3 H4]. split; [assumption|]. intros (j & Hj & Hl).
      apply (H4 j); [apply Lt, in_app_iff; auto|intros H5; now apply (dis j)|assumption]. }
    assert (PB : forall l, In l Py -> ~ In l out /\ ~ below p l).
    { intros l H. apply HPy in H as [H1 H2]. destruct (summed_private q l H1 H2) as [H3 H4]. split; [assumption|]. intros (j & Hj & Hl).
      apply (H4 j); [apply Lt, in_app_iff; auto|now apply dis|assumption]. }
    assert (below_node : forall l, below (ONode p q) l <-> below p l \/ below q l).
    { intros l. unfold below. cbn [leaves]. split.
      - intros (i & Hi & H). apply in_app_iff in Hi as [Hi|Hi]; eauto.
      - intros [(i & Hi & H)|(i & Hi & H)]; exists i; rewrite in_app_iff; auto. }
    exists (D ++ Px ++ Py). split; [|split].
    + assert (NPP : NoDup (Px ++ Py)).
      { clear - Nx Ny PA HPy. induction Px as [|l P IH]; [assumption|]. cbn [app]. inversion Nx; subst. constructor.
        - rewrite in_app_iff. intros [H|H]; [contradiction|]. apply HPy in H as [H _]. now apply (proj2 (PA l (or_introl eq_refl))).
        - apply IH; auto. intros k Hk. apply PA. now right. }
      assert (Dd : forall l, In l D -> ~ In l (Px ++ Py)).
      { intros l H1 H2. apply HD' in H1 as [H1 _]. apply in_app_iff in H2 as [H2|H2].
        - destruct H1 as [H1|H1]; [apply HPx in H2 as [_ H2]; contradiction|]. apply olabels_below in H1. now apply (proj2 (PA l H2)).
        - destruct H1 as [H1|H1]; [|apply HPy in H2 as [_ H2]; contradiction]. apply olabels_below in H1. now apply (proj2 (PB l H2)). }
      clear - ND NPP Dd. induction D as [|l D IH]; [assumption|]. cbn [app]. inversion ND; subst. constructor.
      * rewrite in_app_iff. intros [H|H]; [contradiction|]. apply (Dd l); auto. now left.
      * apply IH; auto. intros k Hk. apply Dd. now right.
    + intros l. rewrite !in_app_iff, HD', below_node. split.
      * intros [[[H|H] H2]|[H|H]].
        -- split; auto. left. now apply olabels_below.
        -- split; auto. right. now apply olabels_below.
        -- pose proof (PA l H) as [_ HA]. apply HPx in H as [H1 H2]. split; auto. intros H. apply HLo in H as [[H|H] _]; [contradiction|]. now apply HA, olabels_below.
        -- pose proof (PB l H) as [_ HB]. apply HPy in H as [H1 H2]. split; auto. intros H. apply HLo in H as [[H|H] _]; [|contradiction]. now apply HB, olabels_below.
      * intros [[H|H] H2].
        -- destruct (in_dec ascii_dec l La); auto. right; left. apply HPx. auto.
        -- destruct (in_dec ascii_dec l Lb); auto. right; right. apply HPy. auto.
    + intros f Hf. rewrite Vr by assumption. rewrite fsum_app. apply fsum_ext; [auto|]. intros g g' Eg Hg1 Hg2.
      cbn [length seq prodK]. unfold tval at 1 2. cbn [nth].
      assert (Hg : forall l, In l La \/ In l Lb -> g l < dim l).
      { intros l H. destruct (in_dec ascii_dec l D) as [Hd|Hd]; auto. rewrite Hg1 by auto. apply Hf. destruct (in_dec ascii_dec l Lo) as [|Hn]; auto.
        exfalso. apply Hd, HD'. auto. }
      rewrite Vx, Vy by auto.
      assert (R : respects (fun h => prodK (leaves (ONode p q)) (fun i => tval ins ts i h))).
      { intros h h' H. apply prodK_ext. intros i _. apply tval_depends. auto. }
      rewrite fsum_app. rewrite (fsum_respects Px _ (fsum_respects Py _ R) g' g) by (intros; symmetry; apply Eg).
      transitivity (fsum dim Px (fun h => prodK (leaves p) (fun i => tval ins ts i h) * fsum dim Py (fun h => prodK (leaves q) (fun i => tval ins ts i h)) h)%K g).
      * rewrite (fsum_mul_r Px (fun h => prodK (leaves p) (fun i => tval ins ts i h)) (fsum dim Py (fun h => prodK (leaves q) (fun i => tval ins ts i h)))
          (fun l => below q l /\ ~ In l Py)).
        -- ring.
        -- apply (fsum_depends Py _ _ (prod_depends ins ts (leaves q))).
        -- intros l H [H1 _]. now apply (proj2 (PA l H)).
      * apply fsum_ext; [auto|]. intros h h' Eh _ _. rewrite (fsum_respects Py _ R h' h) by (intros; symmetry; apply Eh).
        rewrite <- (fsum_mul_l Py (fun h => prodK (leaves q) (fun i => tval ins ts i h)) (fun h => prodK (leaves p) (fun i => tval ins ts i h)) (below p)).
        -- apply fsum_ext; [auto|]. intros k k' Ek _ _. cbn [leaves]. rewrite prodK_app. f_equal; apply prodK_ext; intros i _; apply tval_depends; auto.
        -- apply prod_depends.
        -- intros l H. apply (PB l H).
Qed.

Lemma shape_nth i : i < length ins -> shape (nth i ts (mk [] (fun _ => c0))) = map dim (nth i ins []).
Proof.
  intros H. assert (L : length ts = length ins) by (rewrite <- (map_length shape), Hsh; apply map_length).
  change (map dim (nth i ins [])) with ((map dim) (nth i ins [])). rewrite <- (map_nth (map dim)), <- Hsh. cbn [map].
  rewrite (nth_indep _ [] (shape (mk (K := K) [] (fun _ => c0)))) by (rewrite map_length; lia). now rewrite map_nth.
Qed.

Lemma contract_value p : NoDup (leaves p) -> (forall i, In i (leaves p) -> i < length ins) ->
  exists x, contract ins out ts p = Ok x /\ value_at p (olabels ins out p) x.
Proof.
  induction p as [i|p IHp q IHq]; intros N Lt.
  - assert (Hi : i < length ins) by (apply Lt; now left).
    assert (L : length ts = length ins) by (rewrite <- (map_length shape), Hsh; apply map_length).
    exists (nth i ts (mk [] (fun _ => c0))). split; [|split; [|split]].
    + cbn [contract]. unfold nthr. rewrite (nth_error_nth' ts (mk [] (fun _ => c0))) by lia. reflexivity.
    + rewrite Forall_forall in Hwf. apply Hwf. apply nth_In. lia.
    + cbn [olabels]. now apply shape_nth.
    + exists []. split; [constructor|]. split.
      * intros l. rewrite olabels_spec. cbn. tauto.
      * intros f Hf. cbn [fsum leaves prodK olabels]. unfold tval. ring.
  - cbn [leaves] in N, Lt.
    destruct IHp as (x & Ex & Vx); [apply NoDup_app_parts in N; apply N|intros; apply Lt, in_app_iff; auto|].
    destruct IHq as (y & Ey & Vy); [apply NoDup_app_parts in N; apply N|intros; apply Lt, in_app_iff; auto|].
    cbn [contract]. rewrite Ex. cbn [bind]. rewrite Ey. cbn [bind]. apply node_value; auto.
    + cbn [olabels]. apply NoDup_filter, uniq_NoDup.
    + intros l. cbn [olabels]. now rewrite filter_In, uniq_In, in_app_iff.
Qed.
End Tree.
End K.

Lemma leaves_ne p : leaves p <> [].
Proof. induction p as [i|p IHp q IHq]; cbn [leaves]; [discriminate|]. intros H. apply app_eq_nil in H as [H _]. now apply IHp. Qed.

(** The whole einsum. *)
Theorem order_value {K : cring} eq (ts : list (tensor K)) p r ins out : parse_eq eq [] [] = Some (ins, out) -> NoDup out -> Forall wft ts ->
  is_order (length ts) p -> einsum eq ts = Ok r -> einsum_in_order eq ts p = Ok r.
Proof.
  intros P No Hwf O E. unfold einsum_in_order. rewrite P.
  assert (E' : einsum_of ins out ts = Ok r) by (unfold einsum in E; rewrite P in E; exact E).
  destruct p as [i|p q]; [exact E'|].
  assert (HE : exists env, bind_all ins ts [] = Ok env /\ forallb (fun l => match lookup l env with Some _ => true | None => false end) out = true).
  { unfold einsum_of in E'. destruct (bind_all ins ts []) as [env|]; [|discriminate]. exists env. split; auto. cbn [bind] in E'.
    destruct (forallb _ out); [reflexivity|discriminate]. }
  destruct HE as (env & He & Hf). set (dim := lookup0 env).
  destruct (bind_all_ok K ins ts [] env He) as [_ F].
  assert (Hsh : map shape ts = map (map dim) ins).
  { clear - F. induction F as [|ls x ins ts F1 _ IH]; cbn [map]; [reflexivity|]. f_equal; auto. clear - F1.
    induction F1 as [|l n ls sh L _ IH]; cbn [map]; [reflexivity|]. f_equal; auto. unfold dim, lookup0. now rewrite L. }
  assert (L : length ts = length ins) by (rewrite <- (map_length shape), Hsh; apply map_length).
  destruct (bind_all_keys ins ts [] env He) as [_ Hk]; [constructor|].
  assert (Ho : forall l, In l out -> exists ls, In ls ins /\ In l ls).
  { intros l Hl. rewrite forallb_forall in Hf. specialize (Hf l Hl). destruct (lookup l env) as [n|] eqn:El; [|discriminate].
    apply lookup_In, (in_map fst) in El. apply Hk in El as [[]|El]. exact El. }
  assert (O' : Permutation (leaves p ++ leaves q) (seq 0 (length ins))) by (rewrite <- L; exact O).
  assert (N : NoDup (leaves p ++ leaves q)) by (eapply Permutation_NoDup; [symmetry; exact O'|apply seq_NoDup]).
  assert (Lt : forall i, In i (leaves p ++ leaves q) -> i < length ins) by (intros i Hi; rewrite O' in Hi; apply in_seq in Hi; lia).
  destruct (contract_value dim ins out ts Hsh Hwf p) as (x & Ex & Vx); [apply NoDup_app_parts in N; apply N|intros; apply Lt, in_app_iff; auto|].
  destruct (contract_value dim ins out ts Hsh Hwf q) as (y & Ey & Vy); [apply NoDup_app_parts in N; apply N|intros; apply Lt, in_app_iff; auto|].
  rewrite Ex. cbn [bind]. rewrite Ey. cbn [bind].
  assert (Hin : forall l, In l out -> In l (olabels ins out p) \/ In l (olabels ins out q)).
  { intros l Hl. destruct (Ho l Hl) as (ls & H1 & H2). apply (In_nth _ _ []) in H1 as (i & Hi & <-).
    assert (Q : In i (leaves p ++ leaves q)) by (rewrite O'; apply in_seq; lia). apply in_app_iff in Q as [Q|Q]; [left|right]; apply olabels_spec;
     (split; [exists i; auto|]); [destruct p|destruct q]; auto; apply needed_spec; auto. }
  destruct (node_value dim ins out ts p q out x y N Lt Vx Vy No) as (r' & Er & Wr & Sr & priv & Np & Hp & Vr).
  { intros l. split.
    - intros Hl. split; [auto|]. apply needed_spec. auto.
    - intros [_ Hn]. apply needed_spec in Hn as [|(j & Hj & Hn & _)]; auto. exfalso. apply Hn. rewrite O'. apply in_seq. lia. }
  rewrite Er. f_equal.
  destruct (einsum_of_ok dim ins out ts Hsh) as (r2 & summed & Er2 & W2 & S2 & N2 & H2 & V2); auto.
  { intros ->. cbn in O'. apply Permutation_sym, Permutation_nil in O'. apply app_eq_nil in O' as [O' _]. now apply (leaves_ne p). }
  rewrite E' in Er2. injection Er2 as <-. apply tensor_ext; auto; [congruence|]. intros idx Hidx. rewrite Sr in Hidx.
  assert (Li : length idx = length out). { apply vidx_length in Hidx. now rewrite map_length in Hidx. }
  pose proof (lookup0_combine out idx No Li) as EI. rewrite <- EI in *. set (f := lookup0 (combine out idx)) in *.
  assert (Hb : forall l, In l out -> f l < dim l).
  { intros l Hl. clearbody f dim. clear - Hidx Hl. unfold vidx in Hidx. induction out as [|k out' IH]; [destruct Hl|]. cbn [map] in Hidx.
    inversion Hidx as [|? ? ? ? Hk Ht]; subst. destruct Hl as [<-|Hl]; [exact Hk|auto]. }
  rewrite Vr, V2 by assumption.
  rewrite (fsum_perm dim priv summed).
  - apply fsum_ext; [auto|]. intros g g' Eg _ _. cbn [leaves]. rewrite (prodK_perm _ _ _ O'). apply prodK_ext. intros i _. apply tval_depends. auto.
  - apply NoDup_Permutation; auto. intros l. rewrite Hp, H2. split; intros [H3 H4]; (split; [|assumption]).
    + destruct H3 as (i & Hi & H3). exists (nth i ins []). split; [apply nth_In; apply Lt; exact Hi|assumption].
    + destruct H3 as (ls & H1 & H3). apply (In_nth _ _ []) in H1 as (i & Hi & <-). exists i. split; [|assumption]. cbn [leaves]. rewrite O'. apply in_seq. lia.
  - assumption.
  - intros g g' Eg. apply prodK_ext. intros i _. apply tval_depends. auto.
Qed.
