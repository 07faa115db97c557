(** Successful operations of Base.v, Ops.v and BatchOps.v return valid objects. *)
From Coq Require Import String Ascii List Arith ZArith Lia Bool.
From Verif Require Import Scalar Tensor TensorLemmas Base BaseLemmas Spec Ops ConstructProofs BatchOps ValidSpec ValidProofs.
Import ListNotations.
Local Open Scope nat_scope.
Local Open Scope list_scope.

Section Ops.
Variable K : cring.
Implicit Types (t u a b : tt K) (cs : list (tensor K)).

Lemma mapM0 {B} (f : nat -> res B) n r d : mapM f (seq 0 n) = Ok r -> length r = n /\ forall i, i < n -> f i = Ok (nth i r d).
Proof.
  intros H. split; [rewrite (mapM_length _ _ _ H); apply seq_length|]. intros i Hi.
  pose proof (mapM_nth _ _ _ H i 0 d) as E. rewrite seq_length, seq_nth in E by auto. now apply E.
Qed.

Lemma batch_dim_getitem_valid t ix r : valid t -> batch_dim_getitem t ix = Ok r ->
  valid r /\ rshape r = rshape t /\ ndims r = ndims t /\ is_batch r = is_slice ix.
Proof.
  intros V H. unfold batch_dim_getitem in H. bdesn H E. destruct (mapM0 _ _ _ (core0 K) E) as (L & Hn). clear E.
  pose proof (Hn 0 (v_d _ _ V)) as H0. cbv beta in H0.
  assert (R0 : rank (nth 0 a (core0 K)) = (if is_slice ix then 3 else 2) + length (rshape t)).
  { rewrite (valid_matrix _ t V). destruct (is_tt_matrix t); apply getitem_rank in H0 as [H0 _]; rewrite H0; destruct ix; reflexivity. }
  destruct (is_slice ix).
  - bdesn H E1. bdesn H E2. destruct (made_batch_like _ _ _ _ _ _ H V L R0) as (V' & Ec & Er & b & Eb & _).
    + apply opt_len_some, (v_klen _ _ V).
    + discriminate.
    + split; auto. split; auto. unfold ndims at 1. rewrite Ec. split; auto. unfold is_batch. now rewrite Eb.
  - destruct (made_like _ _ _ _ _ H V L R0) as (V' & Ec & Er & Eb).
    + apply opt_len_some, (v_klen _ _ V).
    + split; auto. split; auto. unfold ndims at 1. rewrite Ec. split; auto. unfold is_batch. now rewrite Eb.
Qed.

Lemma squeeze_valid t r : valid t -> squeeze_batch_dim t = Ok r ->
  valid r /\ rshape r = rshape t /\ ndims r = ndims t.
Proof.
  intros V H. unfold squeeze_batch_dim in H. destruct (bsz t) as [[|[|n]]|] eqn:E; try (injection H as <-; auto).
  destruct (batch_dim_getitem_valid t (IInt 0) r V H) as (? & ? & ? & _). auto.
Qed.

Lemma expand_valid t r : valid t -> expand_batch_dim t = Ok r ->
  valid r /\ rshape r = rshape t /\ ndims r = ndims t /\ exists b : nat, bsz r = Some b /\ (forall x, bsz t = Some x -> b = x).
Proof.
  intros V H. unfold expand_batch_dim in H. destruct (bsz t) as [n|] eqn:E.
  - injection H as <-. split; auto. split; auto. split; auto. exists n. split; auto. intros x Ex. now injection Ex.
  - pose proof (v_d _ _ V) as Hd.
    destruct (made_batch_like _ _ _ _ _ _ H V) as (V' & Ec & Er & b & Eb & _).
    + now rewrite map_length, seq_length.
    + rewrite (nth_map' _ _ 0 0) by (rewrite seq_length; lia). rewrite seq_nth by lia. rewrite expand_dims_rank by lia.
      rewrite (valid_rank _ t) by auto. unfold is_batch. rewrite E. lia.
    + apply opt_len_some, (v_klen _ _ V).
    + discriminate.
    + split; auto. split; auto. unfold ndims at 1. rewrite Ec, map_length, seq_length. split; auto. exists b. split; auto. discriminate.
Qed.

(** [P] on every core collected so far and on the remainder. *)
Lemma foldM_inv {A S} (f : A -> S -> res S) (I : S -> Prop) l s s' : foldM f l s = Ok s' -> I s ->
  (forall x s s', In x l -> I s -> f x s = Ok s' -> I s') -> I s'.
Proof.
  revert s; induction l as [|x l IH]; cbn [foldM]; intros s H Hs Hf; [now injection H as <-|].
  destruct (f x s) as [s1|] eqn:E; [|discriminate]. cbn [bind] in H. apply (IH s1 H).
  - apply (Hf x s s1); auto. now left.
  - intros y s2 s3 Hy. apply Hf. now right.
Qed.

Lemma absorb_rank e news rem (l : list (tensor K)) n ins out : parse_eq e [] [] = Some (ins, out) -> length out = n ->
  absorb_last e news rem = Ok l -> Forall (fun c : tensor K => rank c = n) news -> Forall (fun c : tensor K => rank c = n) l.
Proof.
  intros P Hn H F. unfold absorb_last in H. destruct rem as [r|]; [|now injection H as <-]. bdesn H E. bdesn H E1. injection H as <-.
  apply Forall_app. split.
  - destruct news as [|x news]; [constructor|]. apply Forall_forall. intros y Hy. rewrite Forall_forall in F. apply F.
    destruct (exists_last (l := x :: news)) as (l' & z & Ez); [discriminate|]. rewrite Ez in *. rewrite removelast_last in Hy. apply in_or_app. auto.
  - repeat constructor. rewrite (einsum_rank K _ _ _ _ _ P E1). exact Hn.
Qed.

Lemma first_in {A} (P : A -> Prop) l d : Forall P l -> l <> [] -> P (nth 0 l d).
Proof. intros F Hne. rewrite Forall_forall in F. apply F, nth_In. destruct l; [congruence|cbn; lia]. Qed.

Lemma tt_getitem_valid t spec r : tt_getitem t spec = Ok r -> valid r.
Proof.
  unfold tt_getitem. intros H. destruct (negb _); [discriminate|]. bdesn H E. bdesn H E1.
  assert (I : Forall (fun c : tensor K => rank c = 3) (fst a)).
  { refine (foldM_inv _ (fun st => Forall (fun c : tensor K => rank c = 3) (fst st)) _ _ _ E _ _); [constructor|].
    intros i [news rem] s' _ F Hs. cbv beta in Hs. cbn [fst] in *. destruct (is_tt_matrix t); [discriminate|]. bdesn Hs E2. bdesn Hs E3.
    apply getitem_rank in E3 as [E3 _]. unfold getitem_step in Hs. destruct (negb (is_slice a1)) eqn:C.
    - destruct rem as [rm|]; [bdesn Hs E4|]; injection Hs as <-; exact F.
    - apply negb_false_iff in C. assert (R : rank a2 = 3) by (rewrite E3; unfold kept; cbn [filter is_slice full_slice]; rewrite C; reflexivity).
      destruct rem as [rm|].
      + cbn [andb] in Hs. bdesn Hs E4. injection Hs as <-. cbn [fst]. apply Forall_app. split; auto. repeat constructor. now apply (einsum_rank_n K _ _ _ _ E4).
      + injection Hs as <-. cbn [fst]. apply Forall_app. split; auto. }
  assert (F : Forall (fun c : tensor K => rank c = 3) a0) by (eapply (absorb_rank "aib,bd->aid"); [reflexivity|reflexivity|exact E1|exact I]).
  destruct (TensorTrain_inv _ _ _ _ _ H) as (clean & Hc & Hne & _).
  destruct (made K _ _ None None r 1 H) as (V & _); auto.
  - now apply (first_in (fun c : tensor K => rank c = 3)).
  - discriminate.
  - discriminate.
Qed.

Lemma absorb_first news rem l (m : nat) : absorb_last "oaib,obd->oaid" news rem = Ok l ->
  Forall (fun c : tensor K => rank c = 4 /\ nth 0 (shape c) 0 = m) news -> Forall (fun c : tensor K => rank c = 4 /\ nth 0 (shape c) 0 = m) l.
Proof.
  intros H F. unfold absorb_last in H. destruct rem as [r|]; [|now injection H as <-]. bdesn H E. bdesn H E1. injection H as <-.
  assert (N : news <> []) by (intros ->; discriminate). destruct (exists_last N) as (l' & z & ->). rewrite removelast_last.
  rewrite lastr_app in E. injection E as <-. apply Forall_app in F as [F1 F2]. apply Forall_app. split; auto. pose proof (Forall_inv F2) as [_ Hz]. repeat constructor.
  - now apply (einsum_rank_n K _ _ _ _ E1).
  - rewrite <- Hz. eapply (einsum_first K); [|exact E1]; reflexivity.
Qed.

Lemma full_getitem_valid t spec r : valid t -> is_batch t = true -> full_getitem t spec = Ok r -> valid r.
Proof.
  unfold full_getitem. intros V HB H. destruct (negb _); [discriminate|]. bdesn H Eb. rename a into ib. bdesn H E. bdesn H E1.
  unfold is_batch in HB. destruct (bsz t) as [n|] eqn:EB; [|discriminate]. clear HB. destruct ib as [z|sa sb ss]; cbn [is_slice negb] in *.
  - assert (I : Forall (fun c : tensor K => rank c = 3) (fst a)).
    { refine (foldM_inv _ (fun st => Forall (fun c : tensor K => rank c = 3) (fst st)) _ _ _ E _ _); [constructor|].
      intros i [news rem] s' _ F Hs. cbv beta in Hs. cbn [fst] in *. destruct (is_tt_matrix t); [discriminate|]. bdesn Hs E2. bdesn Hs E3.
      apply getitem_rank in E3 as [E3 _]. unfold getitem_step in Hs. destruct (negb (is_slice a1)) eqn:C.
      - destruct rem as [rm|]; [bdesn Hs E4|]; injection Hs as <-; exact F.
      - apply negb_false_iff in C. assert (R : rank a2 = 3) by (rewrite E3; unfold kept; cbn [filter is_slice full_slice]; rewrite C; reflexivity).
        destruct rem as [rm|].
        + cbn [andb negb] in Hs. bdesn Hs E4. injection Hs as <-. cbn [fst]. apply Forall_app. split; auto. repeat constructor. now apply (einsum_rank_n K _ _ _ _ E4).
        + injection Hs as <-. cbn [fst]. apply Forall_app. split; auto. }
    assert (F : Forall (fun c : tensor K => rank c = 3) a0) by (eapply (absorb_rank "aib,bd->aid"); [reflexivity|reflexivity|exact E1|exact I]).
    destruct (TensorTrain_inv _ _ _ _ _ H) as (clean & Hc & Hne & _).
    destruct (made K _ _ None None r 1 H) as (V' & _); auto.
    + now apply (first_in (fun c : tensor K => rank c = 3)).
    + discriminate.
    + discriminate.
  - set (m := match slice_positions n sa sb ss with Some l => length l | None => 0 end).
    assert (I : Forall (fun c : tensor K => rank c = 4 /\ nth 0 (shape c) 0 = m) (fst a) /\ forall c, snd a = Some c -> nth 0 (shape c) 0 = m).
    { refine (foldM_inv _ (fun st => Forall (fun c : tensor K => rank c = 4 /\ nth 0 (shape c) 0 = m) (fst st) /\ forall c, snd st = Some c -> nth 0 (shape c) 0 = m) _ _ _ E _ _);
        [split; [constructor|discriminate]|].
      intros i [news rem] s' Hi (F & Fr) Hs. cbv beta in Hs. cbn [fst snd] in *. destruct (is_tt_matrix t); [discriminate|]. bdesn Hs E2. bdesn Hs E3.
      apply in_seq in Hi. assert (M : nth 0 (shape a2) 0 = m).
      { apply getitem_first in E3 as (l & El & ->). rewrite (valid_batch_dim _ t i n) in El by (auto; lia). unfold m. now rewrite El. }
      apply getitem_rank in E3 as [E3 _]. unfold getitem_step in Hs. destruct (negb (is_slice a1)) eqn:C.
      - destruct rem as [rm|].
        + bdesn Hs E4. injection Hs as <-. cbn [fst snd]. split; auto. intros c Hc. injection Hc as <-. rewrite <- (Fr rm eq_refl).
          eapply (einsum_first K); [|exact E4]; reflexivity.
        + injection Hs as <-. cbn [fst snd]. split; auto. intros c Hc. injection Hc as <-. exact M.
      - apply negb_false_iff in C. assert (R : rank a2 = 4) by (rewrite E3; unfold kept; cbn [filter is_slice full_slice]; rewrite C; reflexivity).
        destruct rem as [rm|].
        + cbn [andb negb] in Hs. bdesn Hs E4. injection Hs as <-. cbn [fst snd]. split; [|discriminate]. apply Forall_app. split; auto. repeat constructor.
          * now apply (einsum_rank_n K _ _ _ _ E4).
          * rewrite <- (Fr rm eq_refl). eapply (einsum_first K); [|exact E4]; reflexivity.
        + injection Hs as <-. cbn [fst snd]. split; [|discriminate]. apply Forall_app. split; auto. }
    pose proof (absorb_first _ _ _ _ E1 (proj1 I)) as F.
    destruct (TensorTrainBatch_inv _ _ _ _ _ _ H) as (clean & b & Hc & Hne & _).
    destruct (made_batch K _ _ None None None r 1 H) as (V' & _); auto.
    + now apply (first_in (fun c : tensor K => rank c = 4 /\ nth 0 (shape c) 0 = m)).
    + discriminate.
    + discriminate.
    + intros _ k Hk. rewrite Forall_forall in F. destruct (F (nth k a0 (core0 K))) as [_ ->]; [now apply nth_In|].
      destruct (F (nth 0 a0 (core0 K))) as [_ ->]; [apply nth_In; lia|reflexivity].
Qed.

Lemma ttb_getitem_valid t spec r : valid t -> is_batch t = true -> ttb_getitem t spec = Ok r -> valid r.
Proof.
  unfold ttb_getitem. intros V HB H. destruct (Nat.eqb _ 1); [discriminate|]. destruct (Nat.eqb _ _); [|discriminate]. now apply (full_getitem_valid t spec).
Qed.

Lemma rows_len t ax : valid t -> ax < length (rshape t) -> length (nth ax (rshape t) []) = ndims t.
Proof. intros V H. apply (v_rlen _ _ V). now apply nth_In. Qed.

Lemma tt_transpose_valid t r : valid t -> tt_transpose t = Ok r -> valid r.
Proof.
  unfold tt_transpose. intros V H. destruct (is_tt_matrix t) eqn:EM; cbn [negb] in H; [|discriminate]. bdesn H E.
  destruct (mapM0 _ _ _ (core0 K) E) as (L & Hn). pose proof (v_d _ _ V) as Hd. pose proof (Hn 0 Hd) as H0. cbv beta in H0. apply transpose_rank in H0.
  rewrite (valid_rank _ t 0 V Hd) in H0. pose proof (valid_matrix _ t V) as LM. rewrite EM in LM. rewrite LM in H0.
  assert (HS : forall ss, Some [nth 1 (rshape t) []; nth 0 (rshape t) []] = Some ss -> length ss = 2 /\ forall s, In s ss -> length s = length a).
  { intros ss Es. injection Es as <-. split; auto. intros s [<-|[<-|[]]]; rewrite rows_len by (auto; lia); auto. }
  assert (HK : forall rs, Some (rks t) = Some rs -> length rs = S (length a)) by (intros rs Es; injection Es as <-; rewrite L; apply (v_klen _ _ V)).
  unfold is_batch in H0. destruct (bsz t) as [n|].
  - apply (made_batch K _ _ _ _ _ _ 2 H eq_refl); auto. discriminate.
  - apply (made K _ _ _ _ _ 2 H eq_refl); auto.
Qed.

Lemma tt_tt_matmul_valid a b r : valid a -> valid b -> tt_tt_matmul a b = Ok r -> valid r.
Proof.
  unfold tt_tt_matmul. intros Va Vb H. destruct (negb (is_tt_matrix a) || negb (is_tt_matrix b)) eqn:EM; [discriminate|].
  apply orb_false_iff in EM as [EMa EMb]. apply negb_false_iff in EMa, EMb.
  destruct (negb (is_batch_broadcasting_possible a b)); [discriminate|]. destruct (Nat.eqb_spec (ndims b) (ndims a)) as [ED|]; cbn [negb] in H; [|discriminate].
  bdesn H Ea. rename a0 into a'. bdesn H Eb. rename a0 into b'. destruct (squeeze_valid _ _ Va Ea) as (Va' & Ra & Da). destruct (squeeze_valid _ _ Vb Eb) as (Vb' & Rb & Db).
  bdesn H E. rename a0 into cs. destruct (mapM0 _ _ _ (core0 K) E) as (L & Hn). pose proof (v_d _ _ Va) as Hd.
  pose proof (Hn 0 Hd) as H0. cbv beta in H0. bdesn H0 Ec. apply reshape_rank in H0. rewrite map_length in H0.
  pose proof (valid_matrix _ a Va) as La. rewrite EMa in La. pose proof (valid_matrix _ b Vb) as Lb. rewrite EMb in Lb.
  assert (HS : forall ss, Some [nth 0 (rshape a') []; nth 1 (rshape b') []] = Some ss -> length ss = 2 /\ forall s, In s ss -> length s = length cs).
  { intros ss Es. injection Es as <-. split; auto. intros s [<-|[<-|[]]]; rewrite rows_len by (auto; rewrite ?Ra, ?Rb; lia); lia. }
  assert (HK : forall rs, Some (map2 Nat.mul (rks a') (rks b')) = Some rs -> length rs = S (length cs)).
  { intros rs Es. injection Es as <-. rewrite length_map2, (v_klen _ _ Va'), (v_klen _ _ Vb'). lia. }
  destruct (match bsz b' with Some x => Some x | None => bsz a' end) as [x|].
  - apply (made_batch K _ _ _ _ _ _ 2 H eq_refl); auto. discriminate.
  - apply (made K _ _ _ _ _ 2 H eq_refl); auto.
Qed.

Lemma add_valid a b r : valid a -> valid b -> add a b = Ok r -> valid r.
Proof.
  unfold add. intros Va Vb H. destruct (negb (Bool.eqb _ _)) eqn:EM; [discriminate|]. apply negb_false_iff, eqb_prop in EM.
  destruct (negb (llist_eqb _ _)) eqn:ES; [discriminate|]. apply negb_false_iff, llist_eqb_eq in ES. destruct (negb (is_batch_broadcasting_possible a b)); [discriminate|].
  pose proof (v_d _ _ Va) as Hd.
  assert (HK : opt_len (Some (1 :: map (fun i => rk a i + rk b i) (seq 1 (ndims a - 1)) ++ [1])) (S (ndims a))).
  { apply opt_len_some. cbn [length]. rewrite app_length, map_length, seq_length. cbn. lia. }
  destruct (is_batch a || is_batch b) eqn:EB.
  - bdesn H E. destruct a0 as [cs bs]. cbn [fst snd] in H.
    assert (X : length cs = ndims a /\ rank (nth 0 cs (core0 K)) = 3 + length (rshape a)).
    { rewrite (valid_matrix _ a Va). destruct (is_tt_matrix a) eqn:Em; [unfold add_batch_matrix_cores in E|unfold add_batch_tensor_cores in E];
        bdesn E E1; rename a0 into B; bdesn E E2; rename a0 into ea; bdesn E E3; rename a0 into eb; bdesn E E4; injection E as -> ->;
        destruct (mapM0 _ _ _ (core0 K) E4) as (L & Hn); split; auto; pose proof (Hn 0 Hd) as H0; cbv beta in H0; bdesn H0 E5; bdesn H0 E6; cbn [Nat.eqb] in H0;
        rewrite (concat_rank K _ _ _ a0 H0) by (now left); destruct (expand_valid _ _ Va E2) as (Ve & Re & De & b' & Eb' & _);
        (assert (RE : rank (core ea 0) = 3 + length (rshape a)) by (rewrite (valid_rank _ ea) by (auto; lia); rewrite Re; unfold is_batch; now rewrite Eb'));
        rewrite (valid_matrix _ a Va), Em in RE; rewrite <- RE; rewrite Eb' in E5; destruct b' as [|[|b']]; try (now injection E5 as <-); now apply tile_rank in E5. }
    apply (made_batch_like _ _ _ a _ _ H); auto; try tauto. discriminate.
  - apply orb_false_iff in EB as [EBa EBb]. bdesn H E. rename a0 into cs.
    assert (X : length cs = ndims a /\ rank (nth 0 cs (core0 K)) = 2 + length (rshape a)).
    { rewrite (valid_matrix _ a Va). assert (RA : rank (core a 0) = 2 + length (rshape a)) by (rewrite (valid_rank _ a) by auto; now rewrite EBa).
      destruct (is_tt_matrix a) eqn:Em; [unfold add_matrix_cores in E|unfold add_tensor_cores in E];
        destruct (mapM0 _ _ _ (core0 K) E) as (L & Hn); split; auto; pose proof (Hn 0 Hd) as H0; cbv beta in H0; cbn [Nat.eqb] in H0;
        rewrite (concat_rank K _ _ _ (core a 0) H0) by (now left); rewrite RA, (valid_matrix _ a Va), Em; reflexivity. }
    apply (made_like _ _ _ a _ H); auto; tauto.
Qed.

Lemma tt_multiply_valid a b r : valid a -> valid b -> tt_multiply a b = Ok r -> valid r.
Proof.
  unfold tt_multiply. intros Va Vb H. destruct (negb (Bool.eqb _ _)) eqn:EM; [discriminate|]. apply negb_false_iff, eqb_prop in EM.
  destruct (negb (llist_eqb _ _)) eqn:ES; [discriminate|]. apply negb_false_iff, llist_eqb_eq in ES. destruct (negb (is_batch_broadcasting_possible a b)); [discriminate|].
  pose proof (v_d _ _ Va) as Hd.
  assert (DD : ndims b = ndims a).
  { rewrite <- (rows_len b 0), <- (rows_len a 0) by (auto; destruct (v_kind _ _ Va), (v_kind _ _ Vb); lia). now rewrite ES. }
  assert (HK : opt_len (Some (map2 Nat.mul (rks a) (rks b))) (S (ndims a))).
  { apply opt_len_some. rewrite length_map2, (v_klen _ _ Va), (v_klen _ _ Vb). lia. }
  match type of H with (match ?p with _ => _ end) = _ => remember p as q eqn:Eq; destruct q as [[[sl sr] so] obs] end.
  bdesn H E. rename a0 into cs. destruct (mapM0 _ _ _ (core0 K) E) as (L & Hn). pose proof (Hn 0 Hd) as H0. cbv beta in H0.
  assert (X : rank (nth 0 cs (core0 K)) = (if is_batch a || is_batch b then 3 else 2) + length (rshape a)).
  { rewrite (valid_matrix _ a Va). bdesn H0 E1. assert (R : rank a0 = 3 + (if is_tt_matrix a then 2 else 1)) by (destruct (is_tt_matrix a); bdesn E1 E2; apply reshape_rank in E1; rewrite E1; reflexivity).
    destruct (is_batch a || is_batch b); [injection H0 as <-; exact R|]. apply squeeze_axis0_rank in H0. destruct (is_tt_matrix a); lia. }
  assert (O : is_batch a || is_batch b = true -> obs <> None).
  { unfold is_batch. destruct (bsz a), (bsz b); cbn; try discriminate; try (destruct (Nat.eqb _ _)); injection Eq as _ _ _ ->; discriminate. }
  destruct (is_batch a || is_batch b).
  - apply (made_batch_like _ _ _ a _ _ H); auto. intros En. now destruct (O eq_refl).
  - apply (made_like _ _ _ a _ H); auto.
Qed.

Lemma concat_along_batch_dim_valid l r : Forall (fun t => valid t) l -> concat_along_batch_dim l = Ok r -> valid r.
Proof.
  unfold concat_along_batch_dim. intros F H. bdesn H E. rename a into t0. destruct (forallb is_batch l) eqn:EB; cbn [negb] in H; [|discriminate].
  bdesn H E1. bdesn H E2. rename a0 into cs. apply nthr_inv in E. assert (I0 : In t0 l) by now apply nth_error_In in E.
  rewrite Forall_forall in F. pose proof (F _ I0) as V. rewrite forallb_forall in EB. pose proof (EB _ I0) as B0.
  destruct (mapM0 _ _ _ (core0 K) E2) as (L & Hn). pose proof (v_d _ _ V) as Hd. pose proof (Hn 0 Hd) as H0. cbv beta in H0.
  apply (made_batch_like _ _ _ t0 _ _ H); auto.
  - rewrite (concat_rank K _ _ _ (core t0 0) H0) by (now apply (in_map (fun t => core t 0))). rewrite (valid_rank _ t0) by auto. now rewrite B0.
  - apply opt_len_some, (v_klen _ _ V).
  - discriminate.
Qed.

Lemma concat_single_valid t r : valid t -> concat_single t = Ok r -> valid r.
Proof. unfold concat_single. intros V H. destruct (bsz t); [|discriminate]. bdesn H E. now injection H as <-. Qed.

Lemma bcast_rev_length (a b s : list nat) : bcast_rev a b = Some s -> length s = Nat.max (length a) (length b).
Proof.
  revert b s; induction a as [|n a IH]; intros [|m b] s; cbn [bcast_rev length]; intros H; try (injection H as <-; cbn; lia).
  destruct (bcast_rev a b) as [s'|] eqn:E; [|discriminate]. specialize (IH _ _ E).
  destruct (Nat.eqb n m); [|destruct (Nat.eqb n 1); [|destruct (Nat.eqb m 1); [|discriminate]]]; injection H as <-; cbn; lia.
Qed.

Lemma ewise_rank f (x y z : tensor K) : ewise f x y = Ok z -> rank z = Nat.max (rank x) (rank y).
Proof.
  unfold ewise, bcast. destruct (bcast_rev _ _) as [s|] eqn:E; [|discriminate]. intros H. injection H as <-. apply bcast_rev_length in E.
  unfold rank. rewrite shape_mk, rev_length. now rewrite !rev_length in E.
Qed.

Lemma multiply_along_batch_dim_valid t w r : valid t -> multiply_along_batch_dim t w = Ok r -> valid r.
Proof.
  unfold multiply_along_batch_dim. intros V H. bdesn H E. rename a into w'. bdesn H E1. rename a into x. bdesn H E2. rename a into y.
  pose proof (v_d _ _ V) as Hd. unfold ndims in Hd. destruct (cores t) as [|c0 cs] eqn:EC; [cbn in Hd; lia|]. change (nthr (c0 :: cs) 0) with (Ok c0) in E1. injection E1 as <-.
  cbn [tl] in H. assert (C0 : core t 0 = c0) by (unfold core; now rewrite EC). pose proof (v_d _ _ V) as Hd'.
  assert (R : rank y = 3 + length (rshape t)).
  { rewrite (ewise_rank _ _ _ _ E2). rewrite <- C0, (valid_rank _ t) by auto. unfold add_axes in E. destruct (shape w) as [|b0 [|]]; try discriminate. injection E as <-.
    unfold rank. cbn [shape length]. rewrite repeat_length, (valid_matrix _ t V). destruct (is_tt_matrix t), (is_batch t); reflexivity. }
  assert (LL : length (y :: cs) = ndims t) by (unfold ndims; rewrite EC; reflexivity).
  apply (made_batch_like _ _ _ t _ _ H); auto.
  - apply opt_len_some, (v_klen _ _ V).
  - intros EB k Hk. destruct k as [|k]; [reflexivity|]. exfalso. destruct (TensorTrainBatch_inv _ _ _ _ _ _ H) as (clean & b & _ & _ & (Hc & _) & _).
    assert (RR := Hc (S k) (nth (S k) (y :: cs) (core0 K)) y (nth_error_nth' _ _ Hk) eq_refl). rewrite R in RR. cbn [nth] in RR.
    assert (CK : nth k cs (core0 K) = core t (S k)) by (unfold core; now rewrite EC). rewrite CK, (valid_rank _ t) in RR by (auto; lia). unfold is_batch in RR. rewrite EB in RR. lia.
Qed.

End Ops.

Lemma cast_valid {K L : cring} (f : K -> L) (t : tt K) r : valid t -> cast f t = Ok r -> valid r.
Proof.
  unfold cast. intros V H.
  assert (G : forall k, k < ndims t -> rank (core t k) = rank (K := L) (nth k (map (fun i => Tensor (shape (core t i)) (map f (data (core t i)))) (seq 0 (ndims t))) (core0 L))).
  { intros k Hk. rewrite (nth_map' _ _ k 0) by (now rewrite seq_length). rewrite seq_nth by auto. reflexivity. }
  pose proof (v_d _ _ V) as Hd. specialize (G 0 Hd). rewrite (valid_rank _ t) in G by auto. unfold is_batch in G.
  assert (HS : forall ss, Some (rshape t) = Some ss -> length ss = length (rshape t) /\ forall s, In s ss -> length s = length (map (fun i => Tensor (K := L) (shape (core t i)) (map f (data (core t i)))) (seq 0 (ndims t)))).
  { intros ss Es. injection Es as <-. split; auto. rewrite map_length, seq_length. apply (v_rlen _ _ V). }
  assert (HK : forall rs, Some (rks t) = Some rs -> length rs = S (length (map (fun i => Tensor (K := L) (shape (core t i)) (map f (data (core t i)))) (seq 0 (ndims t))))).
  { intros rs Es. injection Es as <-. rewrite map_length, seq_length. apply (v_klen _ _ V). }
  destruct (bsz t) as [n|].
  - apply (made_batch L _ _ _ _ _ _ (length (rshape t)) H (clean_tuple _ (valid_rshape_ne _ _ V))); auto; [apply (v_kind _ _ V)|discriminate].
  - apply (made L _ _ _ _ _ (length (rshape t)) H (clean_tuple _ (valid_rshape_ne _ _ V))); auto. apply (v_kind _ _ V).
Qed.
