(** Which cores the constructors accept. *)
From Coq Require Import String List Arith ZArith Lia Bool.
From Verif Require Import Scalar Tensor TensorLemmas Base Spec BaseLemmas Ops.
Import ListNotations.

Section WithK.
Variable K : cring.

(** Left rank, right rank and mode sizes of a core; [off] = 0 for a TensorTrain core
    [r, n.., r'], 1 for a batch core [b, r, n.., r']. *)
Definition left_rank (off : nat) (c : tensor K) : nat := nth off (shape c) 0.
Definition right_rank (c : tensor K) : nat := last (shape c) 0.
Definition mode_of (off ax : nat) (c : tensor K) : nat := nth (off + 1 + ax) (shape c) 0.

(** Cores that form a TT object and agree with the shape, the ranks and the batch size that
    are given. *)
Definition consistent (off : nat) (cs : list (tensor K)) (sh : option (list (list nat)))
    (ranks : option (list nat)) (bs : option nat) : Prop :=
  (forall k c c', nth_error cs k = Some c -> nth_error cs 0 = Some c' -> rank c = rank c') /\
  (forall k c c', nth_error cs k = Some c -> nth_error cs (S k) = Some c' -> right_rank c = left_rank off c') /\
  (forall c, nth_error cs 0 = Some c -> left_rank off c = 1) /\
  (forall c, nth_error cs (length cs - 1) = Some c -> right_rank c = 1) /\
  (forall b k c, bs = Some b -> nth_error cs k = Some c -> nth 0 (shape c) 0 = b) /\
  (forall ss k c ax s n, sh = Some ss -> nth_error cs k = Some c -> nth_error ss ax = Some s -> nth_error s k = Some n ->
     mode_of off ax c = n) /\
  (forall rs k c r r', ranks = Some rs -> nth_error cs k = Some c -> nth_error rs k = Some r -> nth_error rs (S k) = Some r' ->
     left_rank off c = r /\ right_rank c = r').

(** What is given has the right size: every core has two rank axes (and a batch axis), and the
    shape and the ranks have one entry per core. *)
Definition sized (off : nat) (cs : list (tensor K)) (sh : option (list (list nat))) (ranks : option (list nat)) : Prop :=
  cs <> [] /\ (forall c, In c cs -> off + 2 <= rank c) /\
  (forall ss, sh = Some ss -> (forall s, In s ss -> length s = length cs) /\ forall c, In c cs -> off + length ss + 2 <= rank c) /\
  (forall rs, ranks = Some rs -> length rs = S (length cs)).

Lemma all_axes_dec (f : nat -> nat -> res bool) n i :
  (forall ax m, i <= ax < i + n -> exists b, f ax m = Ok b) ->
  (forall ax m m', f ax m = f ax m') ->
  exists b, all_axes f i n = Ok b /\ (b = true <-> forall ax, i <= ax < i + n -> f ax 0 = Ok true).
Proof.
  revert i; induction n as [|n IH]; intros i H1 H2; cbn [all_axes].
  - exists true. split; auto. split; auto. intros _ ax Hx. lia.
  - destruct (H1 i n ltac:(lia)) as (b & E). rewrite E. cbn [bind]. destruct b.
    + destruct (IH (S i)) as (b & E' & Hb); auto; [intros; apply H1; lia|]. exists b. split; auto. rewrite Hb. split.
      * intros H ax Hx. destruct (Nat.eq_dec ax i) as [->|]; [rewrite (H2 i 0 n); exact E|]. apply H. lia.
      * intros H ax Hx. apply H. lia.
    + exists false. split; auto. split; [discriminate|]. intros H. specialize (H i ltac:(lia)).
      rewrite (H2 i 0 n) in H. congruence.
Qed.

Lemma nthr_err {A} (l : list A) i d : i < length l -> nthr l i = Ok (nth i l d) /\ nth_error l i = Some (nth i l d).
Proof. intros H. split; [now apply nthr_nth|now apply nth_error_nth']. Qed.

Definition core_ok (off : nat) (cs : list (tensor K)) sh (ranks : option (list nat)) (bs : option nat) (i : nat) : Prop :=
  let c := nth i cs (core0 K) in
  rank c = rank (nth 0 cs (core0 K)) /\
  (forall b, bs = Some b -> nth 0 (shape c) 0 = b) /\
  (forall ss ax, sh = Some ss -> ax < length ss -> mode_of off ax c = nth i (nth ax ss []) 0) /\
  (0 < i -> right_rank (nth (i - 1) cs (core0 K)) = left_rank off c) /\
  (forall rs, ranks = Some rs -> left_rank off c = nth i rs 0 /\ right_rank c = nth (S i) rs 0).

Lemma check_core_dec off cs sh ranks bs i : sized off cs sh ranks -> i < length cs ->
  exists b, check_core off cs sh ranks bs i = Ok b /\ (b = true <-> core_ok off cs sh ranks bs i).
Proof.
  intros (Hne & Hd & Hs & Hr) Hi. unfold check_core, core_ok. fold (core0 K). set (c := nth i cs (core0 K)).
  assert (Hc : In c cs) by (apply nth_In; lia). pose proof (Hd c Hc) as Dc. unfold rank in Dc, Hd.
  cbv zeta. unfold rank. destruct (Nat.eqb_spec (length (shape c)) (length (shape (nth 0 cs (core0 K))))) as [E0|E0]; cbn [negb].
  2:{ exists false. split; auto. split; [discriminate|]. now intros [? _]. }
  assert (B0 : exists b0, (match bs with Some b => do d <- nthr (shape c) 0; Ok (Nat.eqb d b) | None => Ok true end) = Ok b0 /\
     (b0 = true <-> forall b, bs = Some b -> nth 0 (shape c) 0 = b)).
  { destruct bs as [b|]; [|exists true; repeat split; auto; discriminate].
    rewrite (nthr_nth _ 0 0) by lia. cbn [bind]. eexists. split; [reflexivity|]. rewrite Nat.eqb_eq. split.
    - intros H b' E. congruence.
    - intros H. now apply H. }
  destruct B0 as (b0 & -> & H0). cbn [bind]. destruct b0; cbn [negb].
  2:{ exists false. split; auto. split; [discriminate|]. intros (_ & H & _). apply H0 in H. discriminate. }
  set (F := fun ss (ax _ : nat) => do d <- nthr (shape c) (ax + off + 1); do s <- nthr ss ax; do m <- nthr s i; Ok (Nat.eqb d m)).
  assert (B1 : exists b1, (match sh with None => Ok true | Some ss => all_axes (F ss) 0 (length ss) end) = Ok b1 /\
     (b1 = true <-> forall ss ax, sh = Some ss -> ax < length ss -> mode_of off ax c = nth i (nth ax ss []) 0)).
  { destruct sh as [ss|]; [|exists true; repeat split; auto; discriminate].
    destruct (Hs ss eq_refl) as [Hs1 Hs2]. specialize (Hs2 c Hc). unfold rank in Hs2.
    assert (HF : forall ax m, ax < length ss -> F ss ax m = Ok (Nat.eqb (mode_of off ax c) (nth i (nth ax ss []) 0))).
    { intros ax m Hax. unfold F. rewrite (nthr_nth _ _ 0) by lia. cbn [bind]. rewrite (nthr_nth ss ax []) by lia. cbn [bind].
      rewrite (nthr_nth _ _ 0) by (rewrite Hs1; [lia|now apply nth_In]). cbn [bind]. unfold mode_of. do 3 f_equal. lia. }
    destruct (all_axes_dec (F ss) (length ss) 0) as (b & E & Hb); [intros; eexists; apply HF; lia|reflexivity|].
    exists b. split; [exact E|]. rewrite Hb. split.
    - intros H ss' ax E' Hax. injection E' as <-. specialize (H ax ltac:(lia)). rewrite HF in H by lia.
      injection H as H. now apply Nat.eqb_eq.
    - intros H ax Hax. rewrite HF by lia. f_equal. apply Nat.eqb_eq. apply H; auto; lia. }
  destruct B1 as (b1 & E1 & H1). unfold F in E1. rewrite E1. cbn [bind]. destruct b1; cbn [negb].
  2:{ exists false. split; auto. split; [discriminate|]. intros (_ & _ & H & _). apply H1 in H. discriminate. }
  assert (B2 : exists b2, (match i with O => Ok true
     | S i' => do l <- nthr (shape c) off; do p <- lastr (shape (nth i' cs (core0 K))); Ok (Nat.eqb l p) end) = Ok b2 /\
     (b2 = true <-> (0 < i -> right_rank (nth (i - 1) cs (core0 K)) = left_rank off c))).
  { destruct i as [|i']; [exists true; repeat split; auto; lia|].
    rewrite (nthr_nth _ off 0) by lia. cbn [bind]. rewrite (lastr_last _ 0).
    2:{ assert (D : off + 2 <= length (shape (nth i' cs (core0 K)))) by (apply Hd, nth_In; lia).
        intros E. rewrite E in D. cbn in D. lia. }
    cbn [bind]. eexists. split; [reflexivity|]. rewrite Nat.eqb_eq. cbn [Nat.sub]. rewrite Nat.sub_0_r. unfold right_rank, left_rank.
    split; [intros <-; auto|]. intros H. rewrite H by lia. reflexivity. }
  destruct B2 as (b2 & -> & H2). cbn [bind]. destruct b2; cbn [negb].
  2:{ exists false. split; auto. split; [discriminate|]. intros (_ & _ & _ & H & _). apply H2 in H. discriminate. }
  assert (B3 : exists b3, (match ranks with None => Ok true
     | Some rs => do l <- nthr (shape c) off; do r <- nthr rs i; if negb (Nat.eqb l r) then Ok false else
        do l' <- lastr (shape c); do r' <- nthr rs (S i); Ok (Nat.eqb l' r') end) = Ok b3 /\
     (b3 = true <-> (forall rs, ranks = Some rs -> left_rank off c = nth i rs 0 /\ right_rank c = nth (S i) rs 0))).
  { destruct ranks as [rs|]; [|exists true; repeat split; auto; discriminate].
    specialize (Hr rs eq_refl). rewrite (nthr_nth _ off 0) by lia. cbn [bind]. rewrite (nthr_nth rs i 0) by lia. cbn [bind].
    unfold left_rank, right_rank. destruct (Nat.eqb_spec (nth off (shape c) 0) (nth i rs 0)) as [E|E]; cbn [negb].
    - rewrite (lastr_last _ 0) by (intros X; rewrite X in Dc; cbn in Dc; lia). cbn [bind].
      rewrite (nthr_nth rs (S i) 0) by lia. cbn [bind]. eexists. split; [reflexivity|]. rewrite Nat.eqb_eq. split.
      + intros H rs' E'. injection E' as <-. now split.
      + intros H. now apply (H rs).
    - exists false. split; auto. split; [discriminate|]. intros H. now destruct (H rs eq_refl). }
  destruct B3 as (b3 & -> & H3). exists b3. split; auto. rewrite H3. tauto.
Qed.

Lemma check_cores_dec off cs sh ranks bs n i : sized off cs sh ranks -> i + n <= length cs ->
  exists b, check_cores off cs sh ranks bs (seq i n) = Ok b /\
    (b = true <-> forall k, i <= k < i + n -> core_ok off cs sh ranks bs k).
Proof.
  intros Hz. revert i; induction n as [|n IH]; intros i Hi; cbn [seq check_cores].
  - exists true. split; auto. split; auto. intros _ k Hk. lia.
  - destruct (check_core_dec off cs sh ranks bs i Hz ltac:(lia)) as (b & E & Hb). rewrite E. cbn [bind].
    destruct b.
    + destruct (IH (S i) ltac:(lia)) as (b' & E' & Hb'). exists b'. split; auto. rewrite Hb'. split.
      * intros H k Hk. destruct (Nat.eq_dec k i) as [->|]; [now apply Hb|]. apply H. lia.
      * intros H k Hk. apply H. lia.
    + exists false. split; auto. split; [discriminate|]. intros H. specialize (H i ltac:(lia)). apply Hb in H. discriminate.
Qed.

Lemma core_ok_consistent off cs sh ranks bs : sized off cs sh ranks ->
  ((forall k, k < length cs -> core_ok off cs sh ranks bs k) /\
   left_rank off (nth 0 cs (core0 K)) = 1 /\ right_rank (nth (length cs - 1) cs (core0 K)) = 1) <->
  consistent off cs sh ranks bs.
Proof.
  intros (Hne & Hd & Hs & Hr).
  assert (Ln : 0 < length cs) by (destruct cs; [contradiction|cbn; lia]).
  assert (NE : forall k c, nth_error cs k = Some c -> k < length cs /\ nth k cs (core0 K) = c).
  { intros k c E. split; [apply nth_error_Some; congruence|]. now apply nth_error_nth. }
  assert (NE2 : forall k, k < length cs -> nth_error cs k = Some (nth k cs (core0 K))) by (intros; now apply nth_error_nth').
  split.
  - intros (H & H0 & H1). unfold consistent. split; [|split; [|split; [|split; [|split; [|split]]]]].
    + intros k c c' E E'. apply NE in E as [Hk <-]. apply NE in E' as [_ <-]. apply (H k Hk).
    + intros k c c' E E'. apply NE in E as [Hk <-]. apply NE in E' as [Hk' <-].
      destruct (H (S k) Hk') as (_ & _ & _ & H2 & _). rewrite <- H2 by lia. cbn [Nat.sub]. now rewrite Nat.sub_0_r.
    + intros c E. apply NE in E as [_ <-]. exact H0.
    + intros c E. apply NE in E as [_ <-]. exact H1.
    + intros b k c Eb E. apply NE in E as [Hk <-]. destruct (H k Hk) as (_ & H2 & _). now apply H2.
    + intros ss k c ax s n Es E Eax En. apply NE in E as [Hk <-]. destruct (H k Hk) as (_ & _ & H2 & _).
      assert (Hax : ax < length ss) by (apply nth_error_Some; congruence).
      rewrite (H2 ss ax Es Hax). rewrite (nth_error_nth _ _ [] Eax). now apply nth_error_nth.
    + intros rs k c r r' Ers E Er Er'. apply NE in E as [Hk <-]. destruct (H k Hk) as (_ & _ & _ & _ & H2).
      destruct (H2 rs Ers) as [A B]. rewrite (nth_error_nth _ _ 0 Er) in A. rewrite (nth_error_nth _ _ 0 Er') in B. now split.
  - intros (C1 & C2 & C3 & C4 & C5 & C6 & C7). split; [|split].
    + intros k Hk. unfold core_ok. cbv zeta. split; [|split; [|split; [|split]]].
      * apply (C1 k); auto.
      * intros b Eb. apply (C5 b k); auto.
      * intros ss ax Es Hax. destruct (Hs ss Es) as [Hs1 _].
        apply (C6 ss k _ ax (nth ax ss [])); auto; [now apply nth_error_nth'|]. apply nth_error_nth'. rewrite Hs1; [lia|now apply nth_In].
      * intros Hk0. apply (C2 (k - 1)); auto; [apply NE2; lia|]. replace (S (k - 1)) with k by lia. auto.
      * intros rs Ers. specialize (Hr rs Ers). apply (C7 rs k); auto; apply nth_error_nth'; lia.
    + apply C3; auto.
    + apply C4. apply NE2. lia.
Qed.

Lemma cores_valid_dec off cs sh ranks bs : sized off cs sh ranks ->
  exists b, cores_valid off cs sh ranks bs = Ok b /\ (b = true <-> consistent off cs sh ranks bs).
Proof.
  intros Hz. pose proof Hz as (Hne & Hd & Hs & Hr).
  assert (Ln : 0 < length cs) by (destruct cs; [contradiction|cbn; lia]).
  destruct (check_cores_dec off cs sh ranks bs (length cs) 0 Hz ltac:(lia)) as (b & E & Hb).
  unfold cores_valid. rewrite E. cbn [bind]. pose proof (core_ok_consistent off cs sh ranks bs Hz) as HC.
  destruct b; cbn [negb].
  2:{ exists false. split; auto. split; [discriminate|]. rewrite <- HC. intros [H _].
      assert (X : false = true) by (apply Hb; intros; apply H; lia). discriminate. }
  rewrite (nthr_nth cs 0 (core0 K)) by lia. cbn [bind]. rewrite (lastr_last cs (core0 K)) by auto. cbn [bind].
  assert (EL : last cs (core0 K) = nth (length cs - 1) cs (core0 K)).
  { destruct (exists_last Hne) as (l & x & ->). rewrite last_last, app_length. cbn [length].
    rewrite app_nth2 by lia. now replace (length l + 1 - 1 - length l) with 0 by lia. }
  assert (D0 : off + 2 <= length (shape (nth 0 cs (core0 K)))) by (apply Hd, nth_In; lia).
  assert (D1 : off + 2 <= length (shape (nth (length cs - 1) cs (core0 K)))) by (apply Hd, nth_In; lia).
  rewrite (nthr_nth _ off 0) by lia. cbn [bind]. fold (left_rank off (nth 0 cs (core0 K))).
  destruct (Nat.eqb_spec (left_rank off (nth 0 cs (core0 K))) 1) as [E0|E0]; cbn [negb].
  2:{ exists false. split; auto. split; [discriminate|]. rewrite <- HC. tauto. }
  rewrite EL, (lastr_last _ 0) by (intros X; rewrite X in D1; cbn in D1; lia). cbn [bind].
  fold (right_rank (nth (length cs - 1) cs (core0 K))). eexists. split; [reflexivity|].
  rewrite Nat.eqb_eq, <- HC. split; [|tauto]. intros H. split; [|now split]. intros k Hk. apply (proj1 Hb); auto. lia.
Qed.

(** *** The constructors *)
Lemma TensorTrain_iff cs sh clean ranks : clean_raw_shape sh = Ok clean -> sized 0 cs clean ranks ->
  (consistent 0 cs clean ranks None ->
     TensorTrain cs sh ranks = Ok (TT cs (match clean with Some s => s | None => infer_raw_shape 0 cs end)
                                         (match ranks with Some r => r | None => infer_tt_ranks 0 cs end) None)) /\
  (~ consistent 0 cs clean ranks None -> TensorTrain cs sh ranks = Err ValueError).
Proof.
  intros Ec Hz. unfold TensorTrain. rewrite Ec. cbn [bind].
  destruct (cores_valid_dec 0 cs clean ranks None Hz) as (b & E & Hb). rewrite E. cbn [bind]. split; intros H.
  - rewrite (proj2 Hb H). reflexivity.
  - destruct b; [exfalso; now apply H, Hb|reflexivity].
Qed.

Lemma TensorTrainBatch_iff cs sh clean ranks bs : clean_raw_shape sh = Ok clean -> sized 1 cs clean ranks ->
  (consistent 1 cs clean ranks bs ->
     TensorTrainBatch cs sh ranks bs = Ok (TT cs (match clean with Some s => s | None => infer_raw_shape 1 cs end)
       (match ranks with Some r => r | None => infer_tt_ranks 1 cs end)
       (Some (match bs with Some b => b | None => nth 0 (shape (nth 0 cs (core0 K))) 0 end)))) /\
  (~ consistent 1 cs clean ranks bs -> TensorTrainBatch cs sh ranks bs = Err ValueError).
Proof.
  intros Ec Hz. unfold TensorTrainBatch. rewrite Ec. cbn [bind].
  destruct (cores_valid_dec 1 cs clean ranks bs Hz) as (b & E & Hb). rewrite E. cbn [bind]. split; intros H.
  - rewrite (proj2 Hb H). cbn [negb]. destruct bs as [x|]; [reflexivity|]. destruct Hz as (Hne & Hd & _).
    assert (Ln : 0 < length cs) by (destruct cs; [contradiction|cbn; lia]).
    rewrite (nthr_nth cs 0 (core0 K)) by lia. cbn [bind].
    assert (D0 : 3 <= length (shape (nth 0 cs (core0 K)))) by (apply Hd, nth_In; lia).
    rewrite (nthr_nth _ 0 0) by lia. reflexivity.
  - destruct b; [exfalso; now apply H, Hb|reflexivity].
Qed.

(** The stored description is that of the cores. *)
Definition describes (off : nat) (t : tt K) : Prop :=
  forall k c, nth_error (cores t) k = Some c ->
    nth k (rks t) 0 = left_rank off c /\ nth (S k) (rks t) 0 = right_rank c /\
    forall ax, ax < length (rshape t) -> nth k (nth ax (rshape t) []) 0 = mode_of off ax c.

Lemma nth_map' {A B} (f : A -> B) l k d d' : k < length l -> nth k (map f l) d' = f (nth k l d).
Proof. intros H. rewrite (nth_indep _ d' (f d)) by now rewrite map_length. apply map_nth. Qed.

Lemma describes_ok off cs clean ranks bs bs' : sized off cs clean ranks -> consistent off cs clean ranks bs ->
  describes off (TT cs (match clean with Some s => s | None => infer_raw_shape off cs end)
                       (match ranks with Some r => r | None => infer_tt_ranks off cs end) bs').
Proof.
  intros Hz Hc. pose proof (proj2 (core_ok_consistent off cs clean ranks bs Hz) Hc) as (HO & H0 & H1).
  destruct Hz as (Hne & Hd & Hs & Hr). intros k c E. cbn [cores rks rshape] in *.
  assert (Hk : k < length cs) by (apply nth_error_Some; congruence).
  pose proof (nth_error_nth _ _ (core0 K) E) as Ek. subst c.
  destruct (HO k Hk) as (O1 & _ & O3 & _ & O5).
  assert (RK : nth k (match ranks with Some r => r | None => infer_tt_ranks off cs end) 0 = left_rank off (nth k cs (core0 K)) /\
               nth (S k) (match ranks with Some r => r | None => infer_tt_ranks off cs end) 0 = right_rank (nth k cs (core0 K))).
  { destruct ranks as [rs|]; [destruct (O5 rs eq_refl); auto|]. unfold infer_tt_ranks. split.
    - rewrite app_nth1 by now rewrite map_length. now rewrite (nth_map' _ _ _ (core0 K)).
    - destruct (Nat.eq_dec (S k) (length cs)) as [EL|NL].
      + rewrite app_nth2 by (rewrite map_length; lia). rewrite map_length, EL, Nat.sub_diag. cbn [nth]. fold (core0 K).
        unfold right_rank. do 2 f_equal. f_equal. lia.
      + rewrite app_nth1 by (rewrite map_length; lia). rewrite (nth_map' _ _ _ (core0 K)) by lia.
        destruct (HO (S k) ltac:(lia)) as (_ & _ & _ & O4 & _). specialize (O4 ltac:(lia)).
        cbn [Nat.sub] in O4. rewrite Nat.sub_0_r in O4. now rewrite O4. }
  destruct RK as [R1 R2]. split; [exact R1|]. split; [exact R2|].
  destruct clean as [ss|]; intros ax Hax.
  - symmetry. now apply O3.
  - unfold infer_raw_shape in *. fold (core0 K) in *. rewrite map_length, seq_length in Hax.
    rewrite (nth_map' _ _ _ 0) by now rewrite seq_length. rewrite seq_nth by auto. cbn [Nat.add].
    rewrite (nth_map' _ _ _ (core0 K)) by auto. unfold mode_of. f_equal. lia.
Qed.

(** Soundness without any assumption on what is given. *)
Lemma nthr_inv {A} (l : list A) i x : nthr l i = Ok x -> nth_error l i = Some x.
Proof. unfold nthr. destruct (nth_error l i); [congruence|discriminate]. Qed.
Lemma lastr_inv {A} (l : list A) x d : lastr l = Ok x -> last l d = x.
Proof.
  intros H. destruct l as [|y l']; [discriminate|]. rewrite (lastr_last _ d) in H by discriminate. now injection H.
Qed.

Lemma all_axes_inv f i n : all_axes f i n = Ok true -> forall ax, i <= ax < i + n -> exists m, f ax m = Ok true.
Proof.
  revert i; induction n as [|n IH]; intros i H ax Hax; [lia|]. cbn [all_axes] in H.
  destruct (f i n) as [[|]|] eqn:E; cbn [bind] in H; try discriminate.
  destruct (Nat.eq_dec ax i) as [->|]; [eauto|]. apply (IH (S i)); auto. lia.
Qed.

Lemma check_core_inv off cs sh ranks bs i : check_core off cs sh ranks bs i = Ok true ->
  let c := nth i cs (core0 K) in
  rank c = rank (nth 0 cs (core0 K)) /\
  (forall b, bs = Some b -> nth 0 (shape c) 0 = b) /\
  (forall ss ax, sh = Some ss -> ax < length ss -> mode_of off ax c = nth i (nth ax ss []) 0) /\
  (0 < i -> right_rank (nth (i - 1) cs (core0 K)) = left_rank off c) /\
  (forall rs, ranks = Some rs -> left_rank off c = nth i rs 0 /\ right_rank c = nth (S i) rs 0).
Proof.
  unfold check_core. fold (core0 K). cbv zeta. set (c := nth i cs (core0 K)). intros H. unfold rank.
  destruct (Nat.eqb_spec (length (shape c)) (length (shape (nth 0 cs (core0 K))))) as [E0|]; cbn [negb] in H; [|discriminate].
  split; [exact E0|].
  match type of H with bind ?x _ = _ => destruct x as [b0|] eqn:B0; [|discriminate] end. cbn [bind] in H.
  destruct b0; cbn [negb] in H; [|discriminate].
  match type of H with bind ?x _ = _ => destruct x as [b1|] eqn:B1; [|discriminate] end. cbn [bind] in H.
  destruct b1; cbn [negb] in H; [|discriminate].
  match type of H with bind ?x _ = _ => destruct x as [b2|] eqn:B2; [|discriminate] end. cbn [bind] in H.
  destruct b2; cbn [negb] in H; [|discriminate].
  split; [|split; [|split]].
  - intros b ->. destruct (nthr (shape c) 0) as [d|] eqn:E; [|discriminate]. cbn [bind] in B0. injection B0 as B0.
    apply Nat.eqb_eq in B0. subst d. apply nthr_inv in E. now apply nth_error_nth.
  - intros ss ax -> Hax. destruct (all_axes_inv _ _ _ B1 ax ltac:(lia)) as (m & F).
    destruct (nthr (shape c) (ax + off + 1)) as [d|] eqn:E; [|discriminate]. cbn [bind] in F.
    destruct (nthr ss ax) as [s|] eqn:E2; [|discriminate]. cbn [bind] in F.
    destruct (nthr s i) as [n|] eqn:E3; [|discriminate]. cbn [bind] in F. injection F as F. apply Nat.eqb_eq in F. subst d.
    apply nthr_inv in E, E2, E3. unfold mode_of. rewrite (nth_error_nth _ _ [] E2), (nth_error_nth _ _ 0 E3).
    replace (off + 1 + ax) with (ax + off + 1) by lia. now apply nth_error_nth.
  - intros Hi. destruct i as [|i']; [lia|]. cbn [Nat.sub]. rewrite Nat.sub_0_r.
    destruct (nthr (shape c) off) as [l|] eqn:E; [|discriminate]. cbn [bind] in B2.
    destruct (lastr (shape (nth i' cs (core0 K)))) as [p|] eqn:E2; [|discriminate]. cbn [bind] in B2.
    injection B2 as B2. apply Nat.eqb_eq in B2. subst p. unfold right_rank, left_rank. rewrite (lastr_inv _ _ 0 E2).
    apply nthr_inv in E. symmetry. now apply nth_error_nth.
  - intros rs ->. destruct (nthr (shape c) off) as [l|] eqn:E; [|discriminate]. cbn [bind] in H.
    destruct (nthr rs i) as [r|] eqn:E2; [|discriminate]. cbn [bind] in H.
    destruct (Nat.eqb_spec l r); cbn [negb] in H; [|discriminate]. subst r.
    destruct (lastr (shape c)) as [l'|] eqn:E3; [|discriminate]. cbn [bind] in H.
    destruct (nthr rs (S i)) as [r'|] eqn:E4; [|discriminate]. cbn [bind] in H. injection H as H. apply Nat.eqb_eq in H. subst r'.
    apply nthr_inv in E, E2, E4. unfold left_rank, right_rank.
    rewrite (nth_error_nth _ _ 0 E), (nth_error_nth _ _ 0 E2), (nth_error_nth _ _ 0 E4), (lastr_inv _ _ 0 E3). now split.
Qed.

Lemma check_cores_inv off (cs : list (tensor K)) sh ranks bs l : check_cores off cs sh ranks bs l = Ok true ->
  forall i, In i l -> check_core off cs sh ranks bs i = Ok true.
Proof.
  induction l as [|x l IH]; intros H i Hi; [easy|]. cbn [check_cores] in H.
  destruct (check_core off cs sh ranks bs x) as [[|]|] eqn:E; cbn [bind] in H; try discriminate.
  destruct Hi as [<-|Hi]; auto.
Qed.

Lemma cores_valid_inv off (cs : list (tensor K)) sh ranks bs : cores_valid off cs sh ranks bs = Ok true ->
  cs <> [] /\ consistent off cs sh ranks bs.
Proof.
  unfold cores_valid. intros H. destruct (check_cores off cs sh ranks bs (seq 0 (length cs))) as [b|] eqn:E; [|discriminate].
  cbn [bind] in H. destruct b; cbn [negb] in H; [|discriminate].
  destruct (nthr cs 0) as [x|] eqn:E0; [|discriminate]. cbn [bind] in H.
  destruct (lastr cs) as [y|] eqn:E1; [|discriminate]. cbn [bind] in H.
  destruct (nthr (shape x) off) as [f|] eqn:E2; [|discriminate]. cbn [bind] in H.
  destruct (Nat.eqb_spec f 1); cbn [negb] in H; [subst f|discriminate].
  destruct (lastr (shape y)) as [r|] eqn:E3; [|discriminate]. cbn [bind] in H. injection H as H. apply Nat.eqb_eq in H. subst r.
  apply nthr_inv in E0, E2. pose proof (lastr_inv _ _ (core0 K) E1) as EL. pose proof (lastr_inv _ _ 0 E3) as EL2.
  assert (Hne : cs <> []) by (intros ->; discriminate). split; [exact Hne|].
  assert (HO : forall k, k < length cs -> core_ok off cs sh ranks bs k).
  { intros k Hk. apply (check_core_inv off cs sh ranks bs k). apply (check_cores_inv _ _ _ _ _ _ E). apply in_seq. lia. }
  assert (NE : forall k c, nth_error cs k = Some c -> k < length cs /\ nth k cs (core0 K) = c).
  { intros k c Ek. split; [apply nth_error_Some; congruence|]. now apply nth_error_nth. }
  unfold consistent. split; [|split; [|split; [|split; [|split; [|split]]]]].
  - intros k c c' Ek Ek'. apply NE in Ek as [Hk <-]. apply NE in Ek' as [_ <-]. apply (HO k Hk).
  - intros k c c' Ek Ek'. apply NE in Ek as [Hk <-]. apply NE in Ek' as [Hk' <-].
    destruct (HO (S k) Hk') as (_ & _ & _ & H2 & _). rewrite <- H2 by lia. cbn [Nat.sub]. now rewrite Nat.sub_0_r.
  - intros c Ek. rewrite E0 in Ek. injection Ek as <-. unfold left_rank. now apply nth_error_nth.
  - intros c Ek. apply NE in Ek as [_ <-]. destruct (exists_last Hne) as (l & z & ->). rewrite last_last in EL. subst z.
    rewrite app_length. cbn [length]. rewrite app_nth2 by lia. replace (length l + 1 - 1 - length l) with 0 by lia. exact EL2.
  - intros b k c Eb Ek. apply NE in Ek as [Hk <-]. destruct (HO k Hk) as (_ & H2 & _). now apply H2.
  - intros ss k c ax s n Es Ek Eax En. apply NE in Ek as [Hk <-]. destruct (HO k Hk) as (_ & _ & H2 & _).
    assert (Hax : ax < length ss) by (apply nth_error_Some; congruence).
    rewrite (H2 ss ax Es Hax). rewrite (nth_error_nth _ _ [] Eax). now apply nth_error_nth.
  - intros rs k c r r' Ers Ek Er Er'. apply NE in Ek as [Hk <-]. destruct (HO k Hk) as (_ & _ & _ & _ & H2).
    destruct (H2 rs Ers) as [A B]. rewrite (nth_error_nth _ _ 0 Er) in A. rewrite (nth_error_nth _ _ 0 Er') in B. now split.
Qed.

Lemma TensorTrain_inv (cs : list (tensor K)) sh ranks t : TensorTrain cs sh ranks = Ok t ->
  exists clean, clean_raw_shape sh = Ok clean /\ cs <> [] /\ consistent 0 cs clean ranks None /\ cores t = cs /\ bsz t = None.
Proof.
  unfold TensorTrain. intros H. destruct (clean_raw_shape sh) as [clean|] eqn:E; [|discriminate]. cbn [bind] in H.
  destruct (cores_valid 0 cs clean ranks None) as [[|]|] eqn:E2; cbn [bind negb] in H; try discriminate.
  injection H as <-. exists clean. apply cores_valid_inv in E2 as [Hne Hc]. do 4 (split; [first [assumption|reflexivity]|]). reflexivity.
Qed.

Lemma TensorTrainBatch_inv (cs : list (tensor K)) sh ranks bs t : TensorTrainBatch cs sh ranks bs = Ok t ->
  exists clean b, clean_raw_shape sh = Ok clean /\ cs <> [] /\ consistent 1 cs clean ranks bs /\ cores t = cs /\ bsz t = Some b /\
    (forall b', bs = Some b' -> b = b').
Proof.
  unfold TensorTrainBatch. intros H. destruct (clean_raw_shape sh) as [clean|] eqn:E; [|discriminate]. cbn [bind] in H.
  destruct (cores_valid 1 cs clean ranks bs) as [[|]|] eqn:E2; cbn [bind negb] in H; try discriminate.
  match type of H with bind ?x _ = _ => destruct x as [b|] eqn:B; [|discriminate] end. cbn [bind] in H.
  injection H as <-. exists clean, b. apply cores_valid_inv in E2 as [Hne Hc]. do 5 (split; [first [assumption|reflexivity]|]).
  intros b' ->. now injection B.
Qed.

End WithK.
Arguments left_rank {K} _ _. Arguments right_rank {K} _. Arguments mode_of {K} _ _ _.
Arguments consistent {K} _ _ _ _ _. Arguments sized {K} _ _ _ _. Arguments describes {K} _ _.
