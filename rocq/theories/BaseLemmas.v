(** Lemmas about TT objects: the constructors accept well-shaped cores, well-formed objects. *)
From Coq Require Import List Arith ZArith Lia Bool Ring.
From Verif Require Import Scalar Tensor TensorLemmas Base Spec Chain.
Import ListNotations.

#[global] Arguments nthr {A} _ _ : simpl never.
#[global] Arguments lastr {A} _ : simpl never.

Lemma nthr_nth {A} (l : list A) i d : i < length l -> nthr l i = Ok (nth i l d).
Proof.
  intros H. unfold nthr. destruct (nth_error l i) eqn:E.
  - now rewrite (nth_error_nth l i d E).
  - apply nth_error_None in E. lia.
Qed.

Lemma nthr_err {A} (l : list A) i : length l <= i -> nthr l i = Err IndexError.
Proof. intros H. unfold nthr. apply nth_error_None in H. now rewrite H. Qed.

Lemma lastr_app {A} (l : list A) x : lastr (l ++ [x]) = Ok x.
Proof. unfold lastr. now rewrite rev_app_distr. Qed.

Lemma lastr_cons_app {A} (y : A) (l : list A) x : lastr (y :: l ++ [x]) = Ok x.
Proof. apply (lastr_app (y :: l)). Qed.

Lemma lastr_last {A} (l : list A) d : l <> [] -> lastr l = Ok (last l d).
Proof.
  intros H. destruct (exists_last H) as (l' & x & ->). rewrite lastr_app. now rewrite last_last.
Qed.

Lemma nth_map_default {A B} (f : A -> B) l i d d' : i < length l -> nth i (map f l) d' = f (nth i l d).
Proof. intros H. rewrite (nth_indep _ d' (f d)) by now rewrite map_length. apply map_nth. Qed.

Lemma Forall_nth' {A} (P : A -> Prop) l i d : Forall P l -> i < length l -> P (nth i l d).
Proof. intros H Hi. eapply Forall_forall in H; eauto. now apply nth_In. Qed.

Section WithK.
Variable K : cring.
Implicit Types (cs : list (tensor K)) (t : tt K).

Definition core0 : tensor K := Tensor [] [].

Definition pre_of (bs : option nat) : list nat := match bs with Some b => [b] | None => [] end.

(** [cs] are well-shaped cores with batch prefix [pre], raw shape [rsh] and ranks [ranks]. *)
Definition shaped (pre : list nat) (rsh : list (list nat)) (ranks : list nat) cs : Prop :=
  forall k, k < length cs ->
    shape (nth k cs core0) =
    pre ++ nth k ranks 0 :: map (fun s => nth k s 0) rsh ++ [nth (S k) ranks 0].

Lemma all_axes_ok (f : nat -> nat -> res bool) n i :
  (forall ax m, i <= ax < i + n -> f ax m = Ok true) -> all_axes f i n = Ok true.
Proof.
  revert i; induction n; intros i H; cbn; auto.
  rewrite H by lia. cbn. apply IHn. intros. apply H. lia.
Qed.

Lemma check_core_ok pre rsh ranks cs k (sh : option (list (list nat))) rks' bs :
  shaped pre rsh ranks cs -> k < length cs ->
  Forall (fun s => length s = length cs) rsh -> length ranks = S (length cs) ->
  (sh = None \/ sh = Some rsh) -> (rks' = None \/ rks' = Some ranks) ->
  (bs = None \/ exists b, bs = Some b /\ pre = [b]) -> length pre <= 1 ->
  check_core (length pre) cs sh rks' bs k = Ok true.
Proof.
  intros Hs Hk Hr Hrk Hsh Hrs Hbs Hpre. unfold check_core.
  change (Tensor [] []) with core0.
  rewrite !Hs by lia. rewrite !app_length. cbn [length]. rewrite !app_length, !map_length.
  rewrite Nat.eqb_refl. cbn [negb].
  assert (E0 : (match bs with Some b => do d <- nthr (pre ++ nth k ranks 0 ::
      map (fun s => nth k s 0) rsh ++ [nth (S k) ranks 0]) 0; Ok (d =? b)
      | None => Ok true end) = Ok true).
  { destruct Hbs as [->|(b & -> & ->)]; auto. unfold nthr; cbn. now rewrite Nat.eqb_refl. }
  rewrite E0. cbn [bind negb].
  assert (E1 : (match sh with None => Ok true | Some ss =>
     all_axes (fun ax _ => do d <- nthr (pre ++ nth k ranks 0 ::
      map (fun s => nth k s 0) rsh ++ [nth (S k) ranks 0]) (ax + length pre + 1);
      do s <- nthr ss ax; do m <- nthr s k; Ok (d =? m)) 0 (length ss) end) = Ok true).
  { destruct Hsh as [->| ->]; auto. apply all_axes_ok. intros ax m [_ Hax]. cbn in Hax.
    rewrite (nthr_nth _ _ 0).
    2:{ rewrite app_length; cbn [length]; rewrite app_length, map_length. cbn. lia. }
    replace (ax + length pre + 1) with (length pre + S ax) by lia.
    rewrite app_nth2_plus. cbn [nth bind].
    rewrite app_nth1 by (rewrite map_length; lia).
    rewrite (nth_map_default (fun s => nth k s 0) rsh ax []) by lia.
    rewrite (nthr_nth _ _ []) by lia. cbn [bind].
    rewrite (nthr_nth _ _ 0).
    2:{ pose proof (Forall_nth' _ rsh ax [] Hr Hax) as H. cbn in H. lia. }
    cbn. now rewrite Nat.eqb_refl. }
  rewrite E1. cbn [bind negb]. clear E0 E1.
  assert (Enth : nthr (pre ++ nth k ranks 0 :: map (fun s => nth k s 0) rsh ++
      [nth (S k) ranks 0]) (length pre) = Ok (nth k ranks 0)).
  { rewrite (nthr_nth _ _ 0) by (rewrite app_length; cbn [length]; lia).
    now rewrite nth_middle. }
  assert (Elast : forall j, lastr (pre ++ nth j ranks 0 :: map (fun s => nth j s 0) rsh ++
      [nth (S j) ranks 0]) = Ok (nth (S j) ranks 0)).
  { intros j. rewrite app_comm_cons, app_assoc. apply lastr_app. }
  assert (E2 : (match k with O => Ok true | S i' =>
      do l <- nthr (pre ++ nth k ranks 0 :: map (fun s => nth k s 0) rsh ++
        [nth (S k) ranks 0]) (length pre);
      do p <- lastr (shape (nth i' cs core0)); Ok (l =? p) end) = Ok true).
  { destruct k; auto. rewrite Enth. cbn [bind]. rewrite Hs by lia. rewrite Elast. cbn [bind].
    now rewrite Nat.eqb_refl. }
  rewrite E2. cbn [bind negb].
  destruct Hrs as [->| ->]; auto.
  rewrite Enth. cbn [bind]. rewrite (nthr_nth ranks k 0) by lia. cbn [bind].
  rewrite Nat.eqb_refl. cbn [negb]. rewrite Elast. cbn [bind].
  rewrite (nthr_nth ranks (S k) 0) by lia. cbn [bind]. now rewrite Nat.eqb_refl.
Qed.

Lemma check_cores_ok off cs sh ranks bs is :
  (forall i, In i is -> check_core off cs sh ranks bs i = Ok true) ->
  check_cores off cs sh ranks bs is = Ok true.
Proof.
  induction is; cbn; intros H; auto. rewrite H by auto. cbn. apply IHis. auto.
Qed.

Lemma cores_valid_ok pre rsh ranks cs (sh : option (list (list nat))) rks' bs :
  shaped pre rsh ranks cs -> 0 < length cs ->
  Forall (fun s => length s = length cs) rsh -> length ranks = S (length cs) ->
  nth 0 ranks 0 = 1 -> nth (length cs) ranks 0 = 1 ->
  (sh = None \/ sh = Some rsh) -> (rks' = None \/ rks' = Some ranks) ->
  (bs = None \/ exists b, bs = Some b /\ pre = [b]) -> length pre <= 1 ->
  cores_valid (length pre) cs sh rks' bs = Ok true.
Proof.
  intros Hs Hd Hr Hrk H0 Hl Hsh Hrs Hbs Hpre. unfold cores_valid.
  rewrite check_cores_ok.
  2:{ intros i Hi. apply in_seq in Hi. eapply check_core_ok; eauto. lia. }
  cbn [bind negb].
  rewrite (nthr_nth cs 0 core0) by lia. cbn [bind].
  rewrite (lastr_last cs core0) by (destruct cs; cbn in *; [lia|discriminate]). cbn [bind].
  rewrite Hs by lia.
  rewrite (nthr_nth _ _ 0) by (rewrite app_length; cbn [length]; lia).
  rewrite nth_middle. cbn [bind].
  rewrite H0. cbn [Nat.eqb negb].
  assert (El : last cs core0 = nth (length cs - 1) cs core0).
  { destruct cs as [|c cs'] using rev_ind; [cbn in Hd; lia|]. clear.
    rewrite last_last, app_length. cbn. rewrite app_nth2 by lia.
    replace (length cs' + 1 - 1 - length cs') with 0 by lia. reflexivity. }
  rewrite El, Hs by lia. rewrite app_comm_cons, app_assoc, lastr_app. cbn [bind].
  replace (S (length cs - 1)) with (length cs) by lia. now rewrite Hl.
Qed.

Lemma TensorTrain_ok cs rsh ranks :
  shaped [] rsh ranks cs -> 0 < length cs -> rsh <> [] ->
  Forall (fun s => length s = length cs) rsh -> length ranks = S (length cs) ->
  nth 0 ranks 0 = 1 -> nth (length cs) ranks 0 = 1 ->
  TensorTrain cs (STuple rsh) (Some ranks) = Ok (TT cs rsh ranks None).
Proof.
  intros. unfold TensorTrain. destruct rsh as [|s rsh]; [congruence|].
  cbn [clean_raw_shape bind].
  change 0 with (length (@nil nat)) at 1. rewrite (cores_valid_ok [] (s :: rsh) ranks cs (Some (s :: rsh)) (Some ranks) None); auto.
Qed.

Lemma TensorTrainBatch_ok cs rsh ranks b :
  shaped [b] rsh ranks cs -> 0 < length cs -> rsh <> [] ->
  Forall (fun s => length s = length cs) rsh -> length ranks = S (length cs) ->
  nth 0 ranks 0 = 1 -> nth (length cs) ranks 0 = 1 ->
  TensorTrainBatch cs (STuple rsh) (Some ranks) (Some b) = Ok (TT cs rsh ranks (Some b)).
Proof.
  intros. unfold TensorTrainBatch. destruct rsh as [|s rsh]; [congruence|].
  cbn [clean_raw_shape bind].
  change 1 with (length [b]) at 1. rewrite (cores_valid_ok [b] (s :: rsh) ranks cs (Some (s :: rsh)) (Some ranks) (Some b)); eauto.
Qed.

(** Shape and ranks inferred from the cores. *)
Lemma infer_raw_shape_ok pre rsh ranks cs :
  shaped pre rsh ranks cs -> 0 < length cs ->
  Forall (fun s => length s = length cs) rsh ->
  infer_raw_shape (length pre) cs = rsh.
Proof.
  intros Hs Hd Hr. unfold infer_raw_shape. change (Tensor [] []) with core0.
  rewrite Hs by lia. rewrite app_length. cbn [length]. rewrite app_length, map_length. cbn [length].
  replace (length pre + S (length rsh + 1) - 2 - length pre) with (length rsh) by lia.
  apply nth_ext with (d := []) (d' := []); [now rewrite map_length, seq_length|].
  rewrite map_length, seq_length. intros ax Hax.
  rewrite (nth_map_default _ (seq 0 (length rsh)) ax 0) by (now rewrite seq_length).
  rewrite seq_nth by lia. cbn [Nat.add].
  pose proof (Forall_nth' _ rsh ax [] Hr Hax) as Hlen. cbn in Hlen.
  apply nth_ext with (d := 0) (d' := 0); [rewrite map_length; lia|].
  rewrite map_length. intros k Hk.
  rewrite (nth_map_default _ cs k core0) by lia. rewrite Hs by lia.
  replace (ax + 1 + length pre) with (length pre + S ax) by lia.
  rewrite app_nth2_plus. cbn [nth]. rewrite app_nth1 by (rewrite map_length; lia).
  now rewrite (nth_map_default (fun s => nth k s 0) rsh ax []) by lia.
Qed.

Lemma infer_tt_ranks_ok pre rsh ranks cs :
  shaped pre rsh ranks cs -> 0 < length cs -> length ranks = S (length cs) ->
  infer_tt_ranks (length pre) cs = ranks.
Proof.
  intros Hs Hd Hr. unfold infer_tt_ranks. change (Tensor [] []) with core0.
  apply nth_ext with (d := 0) (d' := 0); rewrite app_length, map_length; [cbn; lia|].
  cbn [length]. intros k Hk.
  destruct (Nat.lt_ge_cases k (length cs)) as [H|H].
  - rewrite app_nth1 by (rewrite map_length; lia).
    rewrite (nth_map_default _ cs k core0) by lia. rewrite Hs by lia.
    now rewrite nth_middle.
  - rewrite app_nth2 by (rewrite map_length; lia). rewrite map_length.
    assert (k = length cs) by lia. subst k. rewrite Nat.sub_diag. cbn [nth].
    rewrite Hs by lia. rewrite app_comm_cons, app_assoc, last_last. f_equal. lia.
Qed.

Lemma TensorTrain_infer_ok cs rsh ranks :
  shaped [] rsh ranks cs -> 0 < length cs ->
  Forall (fun s => length s = length cs) rsh -> length ranks = S (length cs) ->
  nth 0 ranks 0 = 1 -> nth (length cs) ranks 0 = 1 ->
  TensorTrain cs SNone None = Ok (TT cs rsh ranks None).
Proof.
  intros Hs Hd Hr Hk H0 H1. unfold TensorTrain. cbn [clean_raw_shape bind].
  change 0 with (length (@nil nat)) at 1. rewrite (cores_valid_ok [] rsh ranks cs None None None); auto. cbn [bind negb].
  pose proof (infer_raw_shape_ok [] rsh ranks cs Hs Hd Hr) as E1.
  pose proof (infer_tt_ranks_ok [] rsh ranks cs Hs Hd Hk) as E2. cbn [length] in *.
  now rewrite E1, E2.
Qed.

Lemma TensorTrainBatch_infer_ok cs rsh ranks b bs :
  shaped [b] rsh ranks cs -> 0 < length cs ->
  Forall (fun s => length s = length cs) rsh -> length ranks = S (length cs) ->
  nth 0 ranks 0 = 1 -> nth (length cs) ranks 0 = 1 -> (bs = None \/ bs = Some b) ->
  TensorTrainBatch cs SNone None bs = Ok (TT cs rsh ranks (Some b)).
Proof.
  intros Hs Hd Hr Hk H0 H1 Hbs. unfold TensorTrainBatch. cbn [clean_raw_shape bind].
  change 1 with (length [b]) at 1. rewrite (cores_valid_ok [b] rsh ranks cs None None bs); auto.
  2:{ destruct Hbs as [->| ->]; eauto. }
  cbn [bind negb].
  pose proof (infer_raw_shape_ok [b] rsh ranks cs Hs Hd Hr) as E1.
  pose proof (infer_tt_ranks_ok [b] rsh ranks cs Hs Hd Hk) as E2. cbn [length] in *.
  rewrite E1, E2.
  destruct Hbs as [->| ->]; auto.
  rewrite (nthr_nth cs 0 core0) by lia. cbn [bind]. rewrite Hs by lia. reflexivity.
Qed.

(** *** Well-formed objects *)
Lemma wf_intro cs rsh ranks bs :
  shaped (pre_of bs) rsh ranks cs -> 0 < length cs -> length rsh = 1 \/ length rsh = 2 ->
  Forall (fun s => length s = length cs) rsh -> length ranks = S (length cs) ->
  nth 0 ranks 0 = 1 -> nth (length cs) ranks 0 = 1 ->
  Forall (Forall (fun n => 0 < n)) rsh -> Forall (fun n => 0 < n) ranks ->
  Forall (fun n => 0 < n) (pre_of bs) ->
  (forall k, k < length cs -> wft (nth k cs core0)) ->
  wf (TT cs rsh ranks bs).
Proof.
  intros. constructor; unfold ndims, rk, core, bpre; cbn [cores rshape rks bsz]; auto.
  intros k Hk. split; auto. unfold modes; cbn [rshape]. now apply H.
Qed.

Lemma wf_shaped t : wf t -> shaped (bpre t) (rshape t) (rks t) (cores t).
Proof. intros Hw k Hk. now destruct (wf_core Hw k Hk). Qed.

Lemma rk_pos t k : wf t -> k <= ndims t -> 0 < rk t k.
Proof.
  intros Hw Hk. unfold rk. apply (Forall_nth' (fun n => 0 < n)); [apply Hw|].
  rewrite (wf_klen Hw). lia.
Qed.

Lemma modes_length t k : length (modes t k) = length (rshape t).
Proof. unfold modes. now rewrite map_length. Qed.

Lemma modes_pos t k : wf t -> k < ndims t -> Forall (fun n => 0 < n) (modes t k).
Proof.
  intros Hw Hk. unfold modes. apply Forall_forall. intros n Hn. apply in_map_iff in Hn as (s & <- & Hs).
  pose proof (wf_rpos Hw) as Hp. eapply Forall_forall in Hp; eauto.
  pose proof (wf_rlen Hw) as Hl. eapply Forall_forall in Hl; eauto. cbn in Hl.
  apply (Forall_nth' (fun n => 0 < n)); auto. lia.
Qed.

Lemma is_tt_matrix_true t : is_tt_matrix t = true <-> length (rshape t) = 2.
Proof. unfold is_tt_matrix. apply Nat.eqb_eq. Qed.

Lemma modes_tensor t k : length (rshape t) = 1 -> modes t k = [mode t 0 k].
Proof. unfold modes, mode. destruct (rshape t) as [|s [|s' l]]; cbn; try discriminate; auto. Qed.

Lemma modes_matrix t k : length (rshape t) = 2 -> modes t k = [mode t 0 k; mode t 1 k].
Proof.
  unfold modes, mode. destruct (rshape t) as [|s [|s' [|s'' l]]]; cbn; try discriminate; auto.
Qed.

Lemma wf_kind_cases t : wf t ->
  (is_tt_matrix t = false /\ length (rshape t) = 1 /\ forall k, modes t k = [mode t 0 k]) \/
  (is_tt_matrix t = true /\ length (rshape t) = 2 /\ forall k, modes t k = [mode t 0 k; mode t 1 k]).
Proof.
  intros Hw. destruct (wf_kind Hw) as [H|H]; [left|right]; unfold is_tt_matrix; rewrite H;
    repeat split; auto; intros; [now apply modes_tensor|now apply modes_matrix].
Qed.

Lemma core_shape t k : wf t -> k < ndims t ->
  shape (core t k) = bpre t ++ rk t k :: modes t k ++ [rk t (S k)].
Proof. intros Hw Hk. now apply (wf_core Hw). Qed.

Lemma core_wft t k : wf t -> k < ndims t -> wft (core t k).
Proof. intros Hw Hk. now apply (wf_core Hw). Qed.

(** Dense positions and physical indices. *)
Lemma vchain_map1 t idx k : length (rshape t) = 1 ->
  Forall2 (fun i n => i < n) idx (skipn k (nth 0 (rshape t) [])) ->
  vchain (modes t) k (map (fun i => [i]) idx).
Proof.
  intros Hr. revert k; induction idx as [|i idx IH]; intros k H; cbn; auto.
  assert (Hs : skipn k (nth 0 (rshape t) []) = nth k (nth 0 (rshape t) []) 0 ::
     skipn (S k) (nth 0 (rshape t) [])).
  { clear IH. remember (nth 0 (rshape t) []) as l. clear - H. revert k H.
    induction l; intros [|k] H; cbn in *; try (now inversion H); auto. }
  rewrite Hs in H. inversion H; subst. split; auto.
  rewrite modes_tensor by auto. unfold mode. repeat constructor. auto.
Qed.

Lemma skipn_nth_cons {A} k (l : list A) d : k < length l -> skipn k l = nth k l d :: skipn (S k) l.
Proof. revert k; induction l; intros [|k] H; cbn in *; try lia; auto. apply IHl. lia. Qed.

Lemma vchain_map2 t i1 i2 k : length (rshape t) = 2 ->
  Forall2 (fun i n => i < n) i1 (skipn k (nth 0 (rshape t) [])) ->
  Forall2 (fun i n => i < n) i2 (skipn k (nth 1 (rshape t) [])) ->
  vchain (modes t) k (map2 (fun i j => [i; j]) i1 i2).
Proof.
  intros Hr. revert k i2; induction i1 as [|i i1 IH]; intros k [|j i2] H1 H2; cbn; auto.
  assert (L1 : k < length (nth 0 (rshape t) [])).
  { apply vidx_length in H1. rewrite skipn_length in H1. cbn in H1. lia. }
  assert (L2 : k < length (nth 1 (rshape t) [])).
  { apply vidx_length in H2. rewrite skipn_length in H2. cbn in H2. lia. }
  rewrite (skipn_nth_cons _ _ 0 L1) in H1. rewrite (skipn_nth_cons _ _ 0 L2) in H2.
  inversion H1; inversion H2; subst. split; auto.
  rewrite modes_matrix by auto. unfold mode. repeat constructor; auto.
Qed.

Definition ishape t : list nat :=
  if is_tt_matrix t then [prodn (nth 0 (rshape t) []); prodn (nth 1 (rshape t) [])]
  else nth 0 (rshape t) [].

Lemma get_shape_ishape t : get_shape t = bpre t ++ ishape t.
Proof. unfold get_shape, ishape, bpre. destruct (bsz t); reflexivity. Qed.

Lemma split_idx_valid t idx : wf t -> vidx (ishape t) idx ->
  vchain (modes t) 0 (split_idx t idx) /\ length (split_idx t idx) = ndims t.
Proof.
  intros Hw H. unfold ishape, split_idx in *.
  destruct (wf_kind_cases t Hw) as [(E & Hl & Hm)|(E & Hl & Hm)]; rewrite E in *.
  - split; [now apply vchain_map1|]. rewrite map_length.
    apply vidx_length in H. rewrite H. apply (Forall_nth' _ _ 0 [] (wf_rlen Hw)). lia.
  - inversion H as [|i n ? ? Hi H2]; subst. inversion H2 as [|j m ? ? Hj H3]; subst. cbn [nth].
    pose proof (unravel_valid _ _ Hi) as V1. pose proof (unravel_valid _ _ Hj) as V2.
    split; [now apply vchain_map2|]. rewrite length_map2.
    apply vidx_length in V1, V2. rewrite V1, V2.
    pose proof (Forall_nth' _ _ 0 [] (wf_rlen Hw)) as L0. pose proof (Forall_nth' _ _ 1 [] (wf_rlen Hw)) as L1.
    cbn in L0, L1. rewrite L0, L1 by lia. apply Nat.min_id.
Qed.

(** Two objects of the same kind and shape whose physical entries agree have the same
    dense elements. *)
Lemma split_idx_ext t t' idx : rshape t = rshape t' -> split_idx t idx = split_idx t' idx.
Proof. intros H. unfold split_idx, is_tt_matrix. now rewrite H. Qed.

Lemma vchain_ext ms ms' k J : (forall m, ms m = ms' m) -> vchain ms k J -> vchain ms' k J.
Proof.
  intros H. revert k; induction J; intros k; cbn; auto. rewrite H. firstorder.
Qed.

Lemma modes_ext t t' k : rshape t = rshape t' -> modes t k = modes t' k.
Proof. intros H. unfold modes. now rewrite H. Qed.

End WithK.

Arguments shaped {K} _ _ _ _. Arguments ishape {K} _.
