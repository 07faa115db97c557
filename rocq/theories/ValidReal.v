(** Successful operations of OpsR.v, Decomp.v, Approx.v and Kron.v return valid objects. *)
From Coq Require Import String Ascii List Arith ZArith Lia Bool Reals.
From Verif Require Import Scalar Tensor TensorLemmas Base BaseLemmas Spec Ops OpsR ConstructProofs BatchOps Decomp Approx Kron GatherProofs ValidSpec ValidProofs ValidOps.
Import ListNotations.
Local Open Scope nat_scope.
Local Open Scope list_scope.

Notation rc0 := (core0 Rring).

Lemma multiply_num_valid (t : rtt) c r : valid t -> multiply_num t c = Ok r -> valid r.
Proof.
  unfold multiply_num. intros V H. pose proof (v_d _ _ V) as Hd. unfold ndims in Hd. destruct (cores t) as [|x cs] eqn:EC; [cbn in Hd; lia|].
  cbn [map] in H. unfold nthr in H. cbn [nth_error bind tl] in H. pose proof (v_d _ _ V) as Hd'.
  assert (C0 : core t 0 = x) by (unfold core; now rewrite EC). pose proof (valid_rank _ t 0 V Hd') as R. rewrite C0 in R. unfold is_batch in R.
  assert (LL : ndims t = S (length cs)) by (unfold ndims; now rewrite EC).
  destruct (bsz t) as [n|].
  - apply (made_batch_like _ _ _ t _ _ H); auto.
    + cbn [length]. rewrite map_length. lia.
    + apply opt_len_some, (v_klen _ _ V).
    + discriminate.
  - apply (made_like _ _ _ t _ H); auto.
    + cbn [length]. rewrite map_length. lia.
    + apply opt_len_some, (v_klen _ _ V).
Qed.

Lemma multiply_valid (t : rtt) f r : valid t -> (forall u, f = FTT u -> valid u) -> multiply t f = Ok r -> valid r.
Proof. intros V Vf. destruct f as [c|u]; cbn [multiply]; [now apply multiply_num_valid|]. apply tt_multiply_valid; auto. Qed.
Lemma tt_neg_valid (t r : rtt) : valid t -> tt_neg t = Ok r -> valid r.
Proof. intros V. apply multiply_valid; auto. discriminate. Qed.
Lemma tt_sub_valid (a b r : rtt) : valid a -> valid b -> tt_sub a b = Ok r -> valid r.
Proof.
  intros Va Vb H. unfold tt_sub in H. bdesn H E. apply multiply_valid in E; [|auto|discriminate]. exact (add_valid _ _ _ _ Va E H).
Qed.

(** Broadcasting of two tensors with the same number of axes and the same first axis. *)
Lemma bcast_rev_last a b s : bcast_rev a b = Some s -> length a = length b -> last a 0 = last b 0 -> last s 0 = last a 0.
Proof.
  revert b s; induction a as [|n a IH]; intros [|m b] s; cbn [bcast_rev length]; intros H L E; try discriminate; [now injection H as <-|].
  destruct (bcast_rev a b) as [s'|] eqn:EB; [|discriminate]. injection L as L.
  assert (LS : length s' = length a) by (rewrite (bcast_rev_length _ _ _ EB); lia).
  destruct a as [|n' a].
  - destruct b as [|]; [|discriminate]. cbn in EB. injection EB as <-. cbn in E. subst m. rewrite Nat.eqb_refl in H. injection H as <-. reflexivity.
  - destruct b as [|m' b]; [discriminate|]. change (last (n' :: a) 0 = last (m' :: b) 0) in E. specialize (IH _ _ EB ltac:(cbn in *; lia) E).
    destruct s' as [|x s']; [discriminate|]. change (last (n :: n' :: a) 0) with (last (n' :: a) 0).
    destruct (Nat.eqb n m); [|destruct (Nat.eqb n 1); [|destruct (Nat.eqb m 1); [|discriminate]]]; injection H as <-; exact IH.
Qed.

Lemma last_rev (l : list nat) : last (rev l) 0 = nth 0 l 0.
Proof. destruct l as [|x l]; [reflexivity|]. cbn [rev nth]. apply last_last. Qed.
Lemma first_rev (l : list nat) : nth 0 (rev l) 0 = last l 0.
Proof. rewrite <- (rev_involutive l) at 2. now rewrite last_rev. Qed.

Lemma ewise_first {K : cring} f (x y z : tensor K) : ewise f x y = Ok z -> rank x = rank y -> nth 0 (shape x) 0 = nth 0 (shape y) 0 ->
  nth 0 (shape z) 0 = nth 0 (shape x) 0 /\ rank z = rank x.
Proof.
  intros H L E. split; [|rewrite (ewise_rank _ _ _ _ _ H); lia]. unfold ewise, bcast in H. destruct (bcast_rev _ _) as [s|] eqn:EB; [|discriminate]. injection H as <-.
  apply bcast_rev_last in EB; [|rewrite !rev_length; exact L|now rewrite !last_rev]. rewrite shape_mk, first_rev, EB. apply last_rev.
Qed.

Lemma reduce_sum_tail_first (x : rtensor) : nth 0 (shape (reduce_sum_tail x)) 0 = nth 0 (shape x) 0 /\ rank (reduce_sum_tail x) = rank x.
Proof.
  unfold reduce_sum_tail, rank. destruct (shape x) as [|b s] eqn:E; [now rewrite E|]. rewrite shape_mk. cbn [length nth]. now rewrite repeat_length.
Qed.

Lemma renormalize_valid (t : rtt) eps r : valid t -> renormalize_tt_cores t eps = Ok r -> valid r.
Proof.
  unfold renormalize_tt_cores. intros V H. pose proof (v_d _ _ V) as Hd. destruct (bsz t) as [b|] eqn:EB.
  - bdesn H E. rename a into r0. bdesn H E1. rename a into logs. bdesn H E2. rename a into cs.
    assert (RK : forall i, i < ndims t -> rank (core t i) = 3 + length (rshape t) /\ nth 0 (shape (core t i)) 0 = b).
    { intros i Hi. split; [|now apply (valid_batch_dim _ t)]. rewrite (valid_rank _ t) by auto. unfold is_batch. now rewrite EB. }
    assert (C0 : r0 = core t 0) by (apply nthr_inv in E; unfold core; symmetry; now apply nth_error_nth). subst r0. destruct (RK 0 Hd) as [R0 B0].
    assert (NM : forall x : rtensor, rank x = 3 + length (rshape t) -> nth 0 (shape x) 0 = b ->
              rank (batch_core_norm eps x) = 3 + length (rshape t) /\ nth 0 (shape (batch_core_norm eps x)) 0 = b).
    { intros x Hr Hx. unfold batch_core_norm. destruct (reduce_sum_tail_first (tmap (K := Rring) (fun e : R => (e * e)%R) x)) as [HA HB]. split; [rewrite <- Hr; exact HB|rewrite <- Hx; exact HA]. }
    assert (LG : rank logs = 3 + length (rshape t) /\ nth 0 (shape logs) 0 = b).
    { refine (foldM_inv _ (fun x : rtensor => rank x = 3 + length (rshape t) /\ nth 0 (shape x) 0 = b) _ _ _ E1 _ _).
      - unfold zeros, rank. rewrite !shape_mk. cbn [length nth]. rewrite repeat_length. fold (rank (core t 0)). rewrite R0. lia.
      - intros n s s' Hn [Hr Hb] Hs. cbv beta in Hs. apply in_map_iff in Hn as (c & <- & Hc).
        destruct (In_nth _ _ (Tensor [] []) Hc) as (i & Hi & Ei). fold (core t i) in Ei. destruct (RK i Hi) as [Ri Bi]. rewrite Ei in Ri, Bi. destruct (NM c Ri Bi) as [Rn Bn].
        destruct (ewise_first _ _ _ _ Hs) as [HA HB]; [rewrite Hr; symmetry; exact Rn|rewrite Hb; symmetry; exact Bn|]. now rewrite HA, HB. }
    destruct (mapM0 _ _ _ rc0 E2) as (L & Hn).
    assert (CS : forall i, i < ndims t -> rank (nth i cs rc0) = 3 + length (rshape t) /\ nth 0 (shape (nth i cs rc0)) 0 = b).
    { intros i Hi. specialize (Hn i Hi). cbv beta in Hn. bdesn Hn E3. destruct (RK i Hi) as [Ri Bi].
      rewrite (nth_map' _ _ i (Tensor [] [])) in E3 by exact Hi. fold (core t i) in E3. destruct (NM _ Ri Bi) as [Rn Bn].
      destruct (ewise_first _ _ _ _ E3) as [HA HB]; [rewrite Rn; exact (proj1 LG)|rewrite Bn; exact (proj2 LG)|].
      destruct (ewise_first _ _ _ _ Hn) as [HC HD].
      - rewrite HB, Ri. symmetry. exact (proj1 LG).
      - rewrite HA, Bi. symmetry. exact (proj2 LG).
      - now rewrite HC, HD. }
    apply (made_batch Rring _ _ None None None r (length (rshape t)) H eq_refl).
    + apply (v_kind _ _ V).
    + apply (CS 0 Hd).
    + discriminate.
    + discriminate.
    + intros _ k Hk. rewrite L in Hk. destruct (CS k Hk) as [_ ->]. now destruct (CS 0 Hd) as [_ ->].
  - apply (made Rring _ _ None None r (length (rshape t)) H eq_refl).
    + apply (v_kind _ _ V).
    + assert (C0 : core t 0 = nth 0 (cores t) (Tensor [] [])) by reflexivity. pose proof (valid_rank _ t 0 V Hd) as R0. rewrite C0 in R0. unfold is_batch in R0. rewrite EB in R0.
      unfold ndims in Hd. destruct (cores t) as [|x cs]; [cbn in Hd; lia|]. exact R0.
    + discriminate.
    + discriminate.
Qed.

(** *** Decompositions *)
Lemma foldM_seq_inv {S} (f : nat -> S -> res S) (I : nat -> S -> Prop) k n s s' : foldM f (seq k n) s = Ok s' -> I k s ->
  (forall i s s', k <= i < k + n -> I i s -> f i s = Ok s' -> I (Datatypes.S i) s') -> I (k + n) s'.
Proof.
  revert k s; induction n as [|n IH]; cbn [seq foldM]; intros k s H Hs Hf; [injection H as <-; now rewrite Nat.add_0_r|].
  destruct (f k s) as [s1|] eqn:E; [|discriminate]. cbn [bind] in H. rewrite Nat.add_succ_r. apply (IH (Datatypes.S k) s1 H).
  - apply (Hf k s s1); auto. lia.
  - intros i s2 s3 Hi. apply Hf. lia.
Qed.

Lemma core_modes_length (t : rtt) i : valid t -> length (core_modes t i) = length (rshape t).
Proof. intros V. rewrite (valid_matrix _ t V). unfold core_modes. destruct (is_tt_matrix t); reflexivity. Qed.

Section Decomp.
Variable qr : rtensor -> rtensor * rtensor.
Variable svd : rtensor -> rtensor * rtensor * rtensor.

Lemma orth_lr_step_inv pre (t : rtt) i cs r st : orth_lr_step qr pre t i (cs, r) = Ok st -> i < length cs ->
  length (fst st) = length cs /\
  (i = 0 -> rank (nth 0 (fst st) rc0) = length pre + 2 + length (core_modes t 0)) /\ (0 < i -> nth 0 (fst st) rc0 = nth 0 cs rc0).
Proof.
  unfold orth_lr_step. intros H Hi. bdesn H E. bdesn H E1. cbv zeta in H. bdesn H E2. destruct (qr a1) as [q x]. bdesn H E3. bdesn H E4. bdesn H E5. bdesn H E6. bdesn H E7. bdesn H E8. okinv H.
  cbn [fst]. rewrite !length_upd. split; auto. split.
  - intros ->. rewrite nth_upd_other by lia. rewrite nth_upd_same by auto. apply reshape_rank in E5. rewrite E5, map_length, app_length. cbn [length]. rewrite app_length. cbn. lia.
  - intros Hp. rewrite !nth_upd_other by lia. reflexivity.
Qed.

Lemma orth_lr_valid pre (t r : rtt) : valid t -> pre = bpre t -> orth_lr qr pre t = Ok r -> valid r /\ rshape r = rshape t /\ ndims r = ndims t /\ is_batch r = is_batch t.
Proof.
  intros V Hp H. unfold orth_lr in H. bdesn H E. bdesn H E1. destruct a0 as [cs nr]. bdesn H E2. bdesn H E3. cbv zeta in H. pose proof (v_d _ _ V) as Hd.
  assert (X : length cs = ndims t /\ (1 < ndims t -> rank (nth 0 cs rc0) = length pre + 2 + length (rshape t))).
  { pose proof (foldM_seq_inv _ (fun i (st : list rtensor * nat) => length (fst st) = ndims t /\ (0 < i -> rank (nth 0 (fst st) rc0) = length pre + 2 + length (rshape t))) _ _ _ _ E1) as X.
    cbn [Nat.add] in X. destruct X as [X1 X2].
    - split; [reflexivity|lia].
    - intros i [cs' r'] st Hi [L1 L2] Hs. cbn [fst] in *. apply orth_lr_step_inv in Hs; [|lia]. destruct Hs as (A & B & C). split; [lia|]. intros _.
      destruct i as [|i]; [rewrite B by auto; now rewrite core_modes_length|]. rewrite C by lia. apply L2. lia.
    - split; auto. intros Hl. apply X2. lia. }
  destruct X as [L X]. set (cs' := upd (ndims t - 1) a1 cs) in *.
  assert (L' : length cs' = ndims t) by (unfold cs'; now rewrite length_upd).
  assert (R : rank (nth 0 cs' rc0) = length pre + 2 + length (rshape t)).
  { unfold cs'. destruct (Nat.eq_dec (ndims t) 1) as [E4|].
    - rewrite E4. cbn [Nat.sub]. rewrite nth_upd_same by lia. apply reshape_rank in E3. rewrite E3, map_length, app_length. cbn [length]. rewrite app_length, core_modes_length by auto. cbn. lia.
    - rewrite nth_upd_other by lia. apply X. lia. }
  destruct pre as [|b pre].
  - destruct (made_like _ _ _ t _ H V L' R (opt_len_none _)) as (V' & Ec & Er & Eb). split; auto. split; auto. unfold ndims at 1. rewrite Ec. split; auto.
    unfold is_batch. rewrite Eb. unfold bpre in Hp. destruct (bsz t); [discriminate|reflexivity].
  - unfold bpre in Hp. destruct (bsz t) as [b'|] eqn:EB; [|discriminate]. injection Hp as -> ->. cbn [length Nat.add] in R.
    destruct (made_batch_like _ _ _ t _ _ H V L' R (opt_len_none _) ltac:(discriminate)) as (V' & Ec & Er & x & Eb & _). split; auto. split; auto. unfold ndims at 1. rewrite Ec. split; auto.
    unfold is_batch. now rewrite Eb, EB.
Qed.

Lemma orth_rl_valid (t r : rtt) : valid t -> bsz t = None -> orth_rl qr t = Ok r -> valid r /\ rshape r = rshape t /\ ndims r = ndims t /\ bsz r = None.
Proof.
  intros V EB H. unfold orth_rl in H. bdesn H E. bdesn H E1. destruct a0 as [cs nr]. bdesn H E2. bdesn H E3. pose proof (v_d _ _ V) as Hd.
  assert (L : length cs = ndims t).
  { refine (foldM_inv _ (fun st : list rtensor * nat => length (fst st) = ndims t) _ _ _ E1 eq_refl _).
    intros i [cs' r'] st _ Hl Hs. cbn [fst] in *. unfold orth_rl_step in Hs. bdesn Hs F1. bdesn Hs F2. cbv zeta in Hs. bdesn Hs F3. bdesn Hs F4. destruct (qr a5) as [q x].
    bdesn Hs F5. bdesn Hs F6. bdesn Hs F7. bdesn Hs F8. bdesn Hs F9. bdesn Hs F10. bdesn Hs F11. bdesn Hs F12. okinv Hs. cbn [fst]. now rewrite !length_upd. }
  assert (L' : length (upd 0 a1 cs) = ndims t) by now rewrite length_upd.
  assert (R : rank (nth 0 (upd 0 a1 cs) rc0) = 2 + length (rshape t)).
  { rewrite nth_upd_same by lia. apply reshape_rank in E3. rewrite E3, map_length. cbn [length]. rewrite app_length, core_modes_length by auto. cbn. lia. }
  destruct (made_like _ _ _ t _ H V L' R (opt_len_none _)) as (V' & Ec & Er & Eb). split; auto. split; auto. unfold ndims at 1. rewrite Ec. auto.
Qed.

Lemma orthogonalize_valid (t r : rtt) l2r : valid t -> orthogonalize_tt_cores qr t l2r = Ok r ->
  valid r /\ rshape r = rshape t /\ ndims r = ndims t /\ is_batch r = is_batch t.
Proof.
  intros V H. unfold orthogonalize_tt_cores in H. destruct (bsz t) as [b|] eqn:EB.
  - destruct l2r; [|discriminate]. apply (orth_lr_valid [b] t); auto. unfold bpre. now rewrite EB.
  - destruct l2r; [apply (orth_lr_valid [] t); auto; unfold bpre; now rewrite EB|].
    destruct (orth_rl_valid t r V EB H) as (A & B & C & D). unfold is_batch. now rewrite D, EB.
Qed.

Lemma to_tt_tensor_valid x a eps (r : rtt) : to_tt_tensor svd x a eps = Ok r ->
  valid r /\ rshape r = [shape x] /\ ndims r = length (shape x) /\ 2 <= length (shape x) /\ bsz r = None.
Proof.
  intros H. unfold to_tt_tensor in H. bdesn H E. rename a0 into mr. bdesn H E1. destruct a0 as [[tens cs] ranks]. bdesn H E2. bdesn H E3. bdesn H E4. bdesn H E5.
  assert (X : length cs = length (shape x) - 1 /\ length ranks = S (length (shape x)) /\ Forall (fun c : rtensor => rank c = 3) cs).
  { pose proof (foldM_seq_inv _ (fun i (st : rtensor * list rtensor * list nat) => length (snd (fst st)) = i /\ length (snd st) = S (length (shape x)) /\
       Forall (fun c : rtensor => rank c = 3) (snd (fst st))) _ _ _ _ E1) as X. cbn [Nat.add fst snd] in X. apply X; [rewrite repeat_length; auto|].
    intros i [[tn cs'] rk'] st Hi (A & B & C) Hs. cbn [fst snd] in *. unfold tt_svd_step in Hs. bdesn Hs F1. bdesn Hs F2. cbv zeta in Hs. bdesn Hs F3. bdesn Hs F4. destruct (svd a6) as [[s u] v].
    bdesn Hs F5. bdesn Hs F6. bdesn Hs F7. bdesn Hs F8. bdesn Hs F9. bdesn Hs F10. bdesn Hs F11. okinv Hs. cbn [fst snd]. rewrite app_length, length_upd. cbn [length].
    split; [lia|]. split; auto. apply Forall_app. split; auto. repeat constructor. apply reshape_rank in F9. rewrite F9. reflexivity. }
  destruct X as (L & LR & F).
  assert (CL : clean_raw_shape (SList (shape x)) = Ok (Some [shape x]) /\ 2 <= length (shape x)).
  { unfold TensorTrain in H. destruct (shape x) as [|n [|m sh]]; [discriminate|discriminate|]. split; [reflexivity|cbn; lia]. }
  destruct CL as [CL L2].
  assert (LL : length (cs ++ [a3]) = length (shape x)) by (rewrite app_length; cbn; lia).
  destruct (made Rring _ _ _ _ _ 1 H CL) as (V & Ec & _ & Eb & Er); auto.
  - destruct cs as [|c0 cs]; [cbn in L; lia|]. cbn. apply (Forall_inv F).
  - intros ss Es. injection Es as <-. split; auto. intros s [<-|[]]. auto.
  - intros rs Es. injection Es as <-. now rewrite LL.
  - split; auto. split; [now apply Er|]. unfold ndims. rewrite Ec. auto.
Qed.

Lemma to_tt_matrix_valid x s0 s1 a eps (r : rtt) : to_tt_matrix svd x s0 s1 a eps = Ok r -> valid r.
Proof.
  intros H. unfold to_tt_matrix in H. bdesn H E. destruct a0 as [m n]. destruct (Nat.eqb_spec (length m) (length n)) as [EL|]; cbn [negb] in H; [|discriminate].
  bdesn H E1. cbv zeta in H. bdesn H E2. bdesn H E3. bdesn H E4. bdesn H E5. rename a4 into cs. rename a3 into t.
  apply reshape_shape in E3. destruct (to_tt_tensor_valid _ _ _ _ E4) as (V & Rs & Dn & L2 & _). rewrite E3, length_map2 in Dn, L2.
  destruct (mapM0 _ _ _ rc0 E5) as (L & Hn).
  assert (CL : clean_raw_shape (SList2 [m; n]) = Ok (Some [m; n])).
  { cbn [clean_raw_shape np_squeeze forallb]. rewrite EL, !Nat.eqb_refl. cbn [andb]. destruct (Datatypes.length n) as [|[|k]]; [lia|lia|]. reflexivity. }
  apply (made Rring _ _ _ _ _ 2 H CL); auto.
  - specialize (Hn 0 ltac:(lia)). cbv beta in Hn. now apply reshape_rank in Hn.
  - intros ss Es. injection Es as <-. split; auto. intros s [<-|[<-|[]]]; lia.
  - intros rs Es. injection Es as <-. rewrite (v_klen _ _ V). lia.
Qed.

Lemma round_valid (t : rtt) a eps r : valid t -> round qr svd t a eps = Ok r -> valid r /\ rshape r = rshape t /\ ndims r = ndims t /\ is_batch r = is_batch t.
Proof.
  intros V H. unfold round in H. cbv zeta in H. bdesn H E. rename a0 into mr. bdesn H E1. rename a0 into o. bdesn H E2. destruct a0 as [cs ranks]. bdesn H E3. bdesn H E4. bdesn H E5. bdesn H E6.
  pose proof (v_d _ _ V) as Hd. destruct (orthogonalize_valid _ _ _ V E1) as (_ & _ & Do & _).
  assert (X : length cs = ndims t /\ length ranks = S (ndims t)).
  { refine (foldM_inv _ (fun st : list rtensor * list nat => length (fst st) = ndims t /\ length (snd st) = S (ndims t)) _ _ _ E2 _ _).
    - cbn [fst snd]. rewrite repeat_length. auto.
    - intros i [cs' rk'] st _ (A & B) Hs. cbn [fst snd] in *. unfold round_step in Hs. bdesn Hs F1. bdesn Hs F2. cbv zeta in Hs. bdesn Hs F3. bdesn Hs F4. bdesn Hs F5.
      destruct (svd a6) as [[s u] v]. bdesn Hs F6. bdesn Hs F7. bdesn Hs F8. bdesn Hs F9. bdesn Hs F10. bdesn Hs F11. bdesn Hs F12. bdesn Hs F13. bdesn Hs F14. okinv Hs.
      cbn [fst snd]. now rewrite !length_upd. }
  destruct X as [L LR].
  assert (L' : length (upd 0 a3 cs) = ndims t) by now rewrite length_upd.
  assert (R : rank (nth 0 (upd 0 a3 cs) rc0) = (if is_batch t then 3 else 2) + length (rshape t)).
  { rewrite nth_upd_same by lia. apply reshape_rank in E6. rewrite E6, map_length, app_length. cbn [length]. rewrite app_length, core_modes_length by auto. unfold is_batch. destruct (bsz t); cbn; lia. }
  unfold is_batch in *. destruct (bsz t) as [b|].
  - destruct (made_batch_like _ _ _ t _ _ H V L' R (opt_len_some _ _ LR) ltac:(discriminate)) as (V' & Ec & Er & x & Eb & _). rewrite Eb. split; auto. split; auto. unfold ndims at 1. rewrite Ec. auto.
  - destruct (made_like _ _ _ t _ H V L' R (opt_len_some _ _ LR)) as (V' & Ec & Er & Eb). rewrite Eb. split; auto. split; auto. unfold ndims at 1. rewrite Ec. auto.
Qed.

(** *** Approximations *)
Lemma add_level_valid a l l' : Forall (fun t : rtt => valid t) l -> add_level qr svd a l = Ok l' -> Forall (fun t : rtt => valid t) l'.
Proof.
  revert l'. induction l as [l IH] using (well_founded_induction (Wf_nat.well_founded_ltof _ (@length rtt))). intros l' F H.
  destruct l as [|x [|y l]]; cbn [add_level] in H; [now injection H as <-|now injection H as <-|].
  bdesn H E. bdesn H E1. bdesn H E2. injection H as <-. inversion F as [|? ? Vx F1]; subst. inversion F1 as [|? ? Vy F2]; subst. constructor.
  - apply (round_valid _ _ _ _ (add_valid _ _ _ _ Vx Vy E) E1).
  - apply (IH l); auto. unfold Wf_nat.ltof. cbn. lia.
Qed.

Lemma add_levels_valid fuel a l l' : Forall (fun t : rtt => valid t) l -> add_levels qr svd fuel a l = Ok l' -> Forall (fun t : rtt => valid t) l'.
Proof.
  revert l. induction fuel as [|f IH]; intros l F H; cbn [add_levels] in H; destruct (Nat.ltb 1 (length l)); try discriminate; try (now injection H as <-).
  bdesn H E. apply (IH a0); auto. now apply (add_level_valid a l).
Qed.

Lemma add_n_valid l a r : Forall (fun t : rtt => valid t) l -> add_n qr svd l a = Ok r -> valid r.
Proof.
  intros F H. unfold add_n in H. bdesn H E. apply add_levels_valid in E; auto. apply nthr_inv, nth_error_In in H. rewrite Forall_forall in E. now apply E.
Qed.

Lemma even_odd_first nout (c x y : rtensor) : even_odd nout c = Ok (x, y) -> 0 < rank c ->
  rank x = rank c /\ nth 0 (shape x) 0 = match nout with
    | Some N => match slice_positions (nth 0 (shape c) 0 / N) None None (Some 2%Z) with Some l => length l * N | None => 0 end
    | None => match slice_positions (nth 0 (shape c) 0) None None (Some 2%Z) with Some l => length l | None => 0 end end.
Proof.
  unfold even_odd. intros H Hc. bdesn H E. rename a into c'. bdesn H E1. bdesn H E2. bdesn H E3.
  pose proof (getitem_rank _ _ _ _ E1) as [R1 R1']. pose proof E1 as E1'. apply getitem_first in E1 as (l & El & L1).
  assert (K1 : forall n, kept (ISlice None None (Some 2%Z) :: repeat full_slice n) = S n).
  { intros n. unfold kept. cbn [filter is_slice]. cbn [length]. f_equal. induction n; cbn; auto. }
  rewrite K1 in R1. cbn [length] in R1'. rewrite repeat_length in R1'.
  destruct nout as [N|].
  - destruct (shape c) as [|b sh] eqn:Sc; [unfold rank in Hc; rewrite Sc in Hc; cbn in Hc; lia|].
    bdesn H E4. bdesn H E5. injection H as <- <-. apply reshape_shape in E. rewrite E in El. cbn [nth] in El. cbn [nth].
    unfold merge2 in E4. destruct (shape a) as [|n1 [|n2 sh1]] eqn:Sa; try discriminate. pose proof (reshape_shape _ _ _ _ E4) as E4'.
    assert (Rc : rank c = S (length sh)) by (unfold rank; now rewrite Sc). assert (Rc' : rank c' = S (S (length sh))) by (unfold rank; now rewrite E).
    assert (Ra : rank a = S (S (length sh1))) by (unfold rank; now rewrite Sa).
    split; [unfold rank at 1; rewrite E4'; cbn [length]; lia|]. rewrite E4'. cbn [nth] in *. rewrite El. rewrite L1.
    apply (f_equal (fun l => nth 1 l 0)) in E. cbn [nth] in E. rewrite <- E.
    assert (N2 : n2 = nth 1 (shape c') 0); [|now rewrite N2].
    destruct (rank c' - 1) as [|k] eqn:Ek; [lia|]. apply (getitem_second Rring (ISlice None None (Some 2%Z))) in E1'; [|reflexivity]. rewrite <- E1', Sa. reflexivity.
  - injection H as <- <-. assert (c' = c) by (destruct (shape c); now injection E). subst c'. split; [lia|]. rewrite L1, El. reflexivity.
Qed.

Lemma sum_level_valid nout (t r : rtt) : valid t -> is_batch t = true -> sum_level nout t = Ok r -> valid r.
Proof.
  intros V HB H. unfold sum_level in H. cbv zeta in H. bdesn H E. rename a into cs. destruct (mapM0 _ _ _ rc0 E) as (L & Hn). pose proof (v_d _ _ V) as Hd.
  unfold is_batch in HB. destruct (bsz t) as [b|] eqn:EB; [clear HB|discriminate].
  set (m := match nout with
    | Some N => match slice_positions (b / N) None None (Some 2%Z) with Some l => length l * N | None => 0 end
    | None => match slice_positions b None None (Some 2%Z) with Some l => length l | None => 0 end end).
  assert (X : forall i, i < ndims t -> rank (nth i cs rc0) = 3 + length (rshape t) /\ nth 0 (shape (nth i cs rc0)) 0 = m).
  { intros i Hi. specialize (Hn i Hi). cbv beta in Hn. bdesn Hn E1. destruct a as [x y].
    assert (Ri : rank (core t i) = 3 + length (rshape t)) by (rewrite (valid_rank _ t) by auto; unfold is_batch; now rewrite EB).
    destruct (even_odd_first _ _ _ _ E1) as [Rx Bx]; [lia|]. rewrite (valid_batch_dim _ t i b) in Bx by auto. fold m in Bx. rewrite Ri in Rx.
    assert (CC : forall (u v z : rtensor) ax, concat [u; v] ax = Ok z -> ax <> 0 -> rank z = rank u /\ nth 0 (shape z) 0 = nth 0 (shape u) 0).
    { intros u v z ax Hz Hax. destruct (concat_inv _ _ _ _ Hz) as (_ & A & B). split; symmetry; [apply A; now left|apply B; [now left|auto]]. }
    destruct (Nat.eqb i 0); [|destruct (Nat.eqb i (ndims t - 1))].
    - destruct (CC _ _ _ _ Hn) as [-> ->]; [destruct (is_tt_matrix t); discriminate|]. auto.
    - destruct (CC _ _ _ _ Hn) as [-> ->]; [discriminate|]. auto.
    - bdesn Hn E2. bdesn Hn E3. destruct (CC _ _ _ _ Hn) as [-> ->]; [discriminate|]. destruct (CC _ _ _ _ E2) as [-> ->]; [destruct (is_tt_matrix t); discriminate|]. auto. }
  apply (made_batch_like _ _ _ t _ _ H V L (proj1 (X 0 Hd)) (opt_len_none _)).
  intros _ k Hk. rewrite L in Hk. rewrite (proj2 (X k Hk)), (proj2 (X 0 Hd)). reflexivity.
Qed.

Lemma sum_levels_valid fuel nout a (t r : rtt) : valid t -> sum_levels qr svd fuel nout a t = Ok r -> valid r.
Proof.
  revert t. induction fuel as [|f IH]; intros t V H; cbn [sum_levels] in H; destruct (bsz t) as [b|] eqn:EB; try discriminate;
    destruct (Nat.ltb _ b); try discriminate; try (now injection H as <-).
  bdesn H E. bdesn H E1. apply (IH a1); auto. apply (round_valid a0 a None a1); auto. apply (sum_level_valid nout t); auto. unfold is_batch. now rewrite EB.
Qed.

Lemma spread_valid (t : rtt) coef N r : valid t -> is_batch t = true -> spread t coef N = Ok r -> valid r.
Proof.
  intros V HB H. unfold spread in H. bdesn H E. rename a into cs. destruct (mapM0 _ _ _ rc0 E) as (L & Hn). pose proof (v_d _ _ V) as Hd.
  assert (X : forall i, i < ndims t -> rank (nth i cs rc0) = 3 + length (rshape t) /\ nth 0 (shape (nth i cs rc0)) 0 = nth 0 (shape (core t i)) 0 * N).
  { intros i Hi. specialize (Hn i Hi). cbv beta in Hn. pose proof (valid_rank _ t i V Hi) as Ri. rewrite HB in Ri. unfold spread_core in Hn.
    unfold rank in Ri. destruct (shape (core t i)) as [|b sh] eqn:Sc; [discriminate|]. bdesn Hn E1. bdesn Hn E2. bdesn Hn E3. apply reshape_shape in Hn.
    unfold rank. rewrite Hn. cbn [length nth] in *. auto. }
  apply (made_batch_like _ _ _ t _ _ H V L (proj1 (X 0 Hd))).
  - apply opt_len_some, (v_klen _ _ V).
  - intros _ k Hk. rewrite L in Hk. rewrite (proj2 (X k Hk)), (proj2 (X 0 Hd)). unfold is_batch in HB. destruct (bsz t) as [b|] eqn:EB; [|discriminate].
    now rewrite (valid_batch_dim _ t k b), (valid_batch_dim _ t 0 b).
Qed.

Lemma reduce_sum_batch_valid (t : rtt) a coef r : valid t -> reduce_sum_batch qr svd t a coef = Ok r -> valid r.
Proof.
  intros V H. unfold reduce_sum_batch in H. destruct coef as [w|].
  - destruct (shape w) as [|n [|N [|]]]; try discriminate.
    + bdesn H E. bdesn H E1. apply multiply_along_batch_dim_valid in E; auto. apply sum_levels_valid in E1; auto. now apply (batch_dim_getitem_valid _ _ _ _ E1 H).
    + destruct (bsz t) as [b|] eqn:EB; [|discriminate]. destruct (negb _); [discriminate|]. bdesn H E. apply spread_valid in E; auto; [|unfold is_batch; now rewrite EB].
      now apply sum_levels_valid in H.
  - bdesn H E. apply sum_levels_valid in E; auto. now apply (batch_dim_getitem_valid _ _ _ _ E H).
Qed.
End Decomp.

(** *** Kronecker products: the linear algebra routine keeps the shape. *)
Definition keeps_shape (f : rtensor -> res rtensor) : Prop := forall x y, f x = Ok y -> shape y = shape x.

Lemma core_matrix_shape (t : rtt) i m : core_matrix t i = Ok m -> valid t -> is_tt_matrix t = true -> i < ndims t ->
  rank m = (if is_batch t then 3 else 2) /\ (forall b, bsz t = Some b -> nth 0 (shape m) 0 = b).
Proof.
  unfold core_matrix, is_batch. intros H V HM Hi. destruct (bsz t) as [b|] eqn:EB.
  - pose proof H as H'. apply getitem_rank in H as [R _]. split; [exact R|]. intros b' Eb. injection Eb as <-. apply getitem_first in H' as (l & El & ->).
    rewrite (valid_batch_dim _ t i b) in El by auto. rewrite slice_full in El. injection El as <-. apply seq_length.
  - apply getitem_rank in H as [R _]. split; [exact R|discriminate].
Qed.

Lemma map_kron_valid f (t r : rtt) : keeps_shape f -> valid t -> map_kron f t = Ok r -> valid r.
Proof.
  intros KS V H. unfold map_kron in H. bdesn H E. bdesn H E1. rename a0 into cs. destruct (mapM0 _ _ _ rc0 E1) as (L & Hn). pose proof (v_d _ _ V) as Hd.
  assert (HM : is_tt_matrix t = true).
  { unfold check_kron, is_kron in E. destruct (is_tt_matrix t); [reflexivity|discriminate]. }
  assert (X : forall i, i < ndims t -> rank (nth i cs rc0) = (if is_batch t then 3 else 2) + length (rshape t) /\
             forall b, bsz t = Some b -> nth 0 (shape (nth i cs rc0)) 0 = b).
  { intros i Hi. specialize (Hn i Hi). cbv beta in Hn. bdesn Hn E2. bdesn Hn E3. destruct (core_matrix_shape _ _ _ E2 V HM Hi) as [Rm Bm]. apply KS in E3.
    rewrite (valid_matrix _ t V), HM. unfold rank in Rm. rewrite <- E3 in Rm, Bm. unfold is_batch in *. destruct (bsz t) as [b|].
    - injection Hn as <-. split; [|intros b' Eb; specialize (Bm _ Eb)]; destruct (shape a1) as [|n0 [|n1 [|n2 [|]]]] eqn:Sx; cbn in Rm; try discriminate; unfold rank, expand_dims; cbn [shape]; rewrite Sx; [reflexivity|exact Bm].
    - injection Hn as <-. split; [|discriminate]. destruct (shape a1) as [|n0 [|n1 [|]]] eqn:Sx; cbn in Rm; try discriminate; unfold rank, expand_dims; cbn [shape]; rewrite Sx; reflexivity. }
  destruct (X 0 Hd) as [X0 B0]. unfold is_batch in X0. destruct (bsz t) as [b|] eqn:EB.
  - apply (made_batch_like _ _ _ t _ _ H V L X0).
    + apply opt_len_some, (v_klen _ _ V).
    + intros _ k Hk. rewrite L in Hk. destruct (X k Hk) as [_ Bk]. now rewrite (Bk b), (B0 b).
  - apply (made_like _ _ _ t _ H V L X0). apply opt_len_some, (v_klen _ _ V).
Qed.
