(** The indexing of the model selects what [IndexSpec.v] says. *)
From Coq Require Import List Arith ZArith Lia Bool Sorted.
From Verif Require Import Scalar Tensor TensorLemmas Base Spec BaseLemmas GatherProofs SliceProofs IndexSpec.
Import ListNotations.

Lemma map_seq_sorted (rel : nat -> nat -> Prop) (f : nat -> nat) n : (forall i j, i < j < n -> rel (f i) (f j)) -> StronglySorted rel (map f (seq 0 n)).
Proof.
  intros H. assert (G : forall m s, s + m <= n -> StronglySorted rel (map f (seq s m))); [|apply G; lia].
  induction m as [|m IH]; intros s Hs; cbn [seq map]; constructor.
  - apply IH. lia.
  - apply Forall_forall. intros y Hy. apply in_map_iff in Hy as (j & <- & Hj). apply in_seq in Hj. apply H. lia.
Qed.

Lemma sorted_unique (rel : nat -> nat -> Prop) : (forall x y, rel x y -> rel y x -> False) ->
  forall l m, StronglySorted rel l -> StronglySorted rel m -> (forall x, In x l <-> In x m) -> l = m.
Proof.
  intros As l. induction l as [|x l IH]; intros [|y m] Sl Sm H; auto.
  - exfalso. apply (H y). now left.
  - exfalso. apply (H x). now left.
  - apply StronglySorted_inv in Sl as [Sl Fl], Sm as [Sm Fm]. rewrite Forall_forall in Fl, Fm.
    assert (Irr : forall z, ~ rel z z) by (intros z Hz; now apply (As z z)).
    assert (x = y).
    { destruct (proj1 (H x) (or_introl eq_refl)) as [E|E]; [auto|]. destruct (proj2 (H y) (or_introl eq_refl)) as [E'|E']; [auto|].
      exfalso. eapply As; eauto. }
    subst y. f_equal. apply IH; auto. intros z. split; intros Hz.
    + destruct (proj1 (H z) (or_intror Hz)) as [<-|]; [|assumption]. exfalso. eapply Irr; eauto.
    + destruct (proj2 (H z) (or_intror Hz)) as [<-|]; [|assumption]. exfalso. eapply Irr; eauto.
Qed.

Lemma selects_unique n a b s l m : selects n a b s l -> selects n a b s m -> l = m.
Proof.
  unfold selects. cbv zeta. destruct (0 <? _)%Z.
  - intros [S1 H1] [S2 H2]. apply (sorted_unique lt); auto; [intros; lia|]. intros x. rewrite H1, H2. reflexivity.
  - intros (_ & S1 & H1) (_ & S2 & H2). apply (sorted_unique gt); auto; [intros; lia|]. intros x. rewrite H1, H2. reflexivity.
Qed.

Lemma slice_selects n a b s l : slice_positions n a b s = Some l -> selects n a b s l.
Proof.
  unfold slice_positions, selects. cbv zeta. set (st := match s with Some s => s | None => 1%Z end).
  destruct (Z.eqb_spec st 0) as [|Hst]; [discriminate|].
  destruct (Z.ltb_spec 0 st) as [Hp|Hp]; intros E; injection E as <-.
  - set (A := match a with Some z => clampZ _ _ _ | None => _ end). set (B := match b with Some z => clampZ _ _ _ | None => _ end).
    set (F := match a with Some z => _ | None => _ end).
    assert (HA : (0 <= A)%Z /\ A = Z.min (Z.of_nat n) F) by (unfold A, F, clampZ, from_end; destruct a; lia).
    assert (HF : (0 <= F)%Z) by (unfold F; destruct a; lia).
    assert (HB : (0 <= B <= Z.of_nat n)%Z /\ forall x, (0 <= x < Z.of_nat n)%Z -> (match b with Some z => x < from_end n z | None => True end)%Z <-> (x < B)%Z)
      by (unfold B, clampZ; destruct b as [z|]; [unfold from_end; split; [|intros x Hx; split]; lia|split; [lia|intros; split; [lia|trivial]]]).
    clearbody A B F st. destruct HA as [HA1 HA2], HB as [HB1 HB2].
    set (q := ((B - A + st - 1) / st)%Z). pose proof (Z.mul_div_le (B - A + st - 1) st Hp) as M1.
    pose proof (Z.mul_succ_div_gt (B - A + st - 1) st Hp) as M2. fold q in M1, M2. clearbody q. split.
    + apply map_seq_sorted. intros i j Hij. apply Z2Nat.inj_lt; nia.
    + intros x. split.
      * intros Hx. apply in_map_iff in Hx as (k & <- & Hk). apply in_seq in Hk. destruct Hk as [_ Hk].
        assert (0 <= Z.of_nat k * st)%Z by nia. assert (A + Z.of_nat k * st < B)%Z by nia.
        assert (A = F) by lia. rewrite Z2Nat.id by lia. split; [lia|]. split; [lia|]. split; [apply HB2; lia|].
        exists (Z.of_nat k). lia.
      * intros (H1 & H2 & H3 & k & Hk). apply HB2 in H3; [|lia]. assert (A = F) by lia. assert (0 <= k)%Z by nia.
        apply in_map_iff. exists (Z.to_nat k). split; [lia|]. apply in_seq. split; [lia|]. nia.
  - split; [lia|].
    set (A := match a with Some z => clampZ _ _ _ | None => _ end). set (B := match b with Some z => clampZ _ _ _ | None => _ end).
    set (F := match a with Some z => _ | None => _ end).
    assert (HA : (-1 <= A)%Z /\ A = Z.max (-1) F) by (unfold A, F, clampZ, from_end; destruct a; lia).
    assert (HF : (F <= Z.of_nat n - 1)%Z) by (unfold F; destruct a; lia).
    assert (HB : (-1 <= B <= Z.of_nat n - 1 \/ n = 0%nat /\ B = (-1)%Z)%Z /\ forall x, (0 <= x < Z.of_nat n)%Z -> (match b with Some z => from_end n z < x | None => True end)%Z <-> (B < x)%Z)
      by (unfold B, clampZ; destruct b as [z|]; [unfold from_end; split; [|intros x Hx; split]; lia|split; [lia|intros; split; [lia|trivial]]]).
    clearbody A B F st. destruct HA as [HA1 HA2], HB as [HB1 HB2].
    set (q := ((B - A + st + 1) / st)%Z). assert (M1 : (st * q >= B - A + st + 1)%Z) by (apply Z.le_ge, Z.mul_div_ge; lia).
    assert (M2 : (st * q < B - A + 1)%Z).
    { unfold q. pose proof (Z.mod_neg_bound (B - A + st + 1) st ltac:(lia)). pose proof (Z.div_mod (B - A + st + 1) st ltac:(lia)). lia. }
    clearbody q. split.
    + apply map_seq_sorted. intros i j Hij. unfold gt. assert (B < A + Z.of_nat j * st)%Z by nia. apply Z2Nat.inj_lt; nia.
    + intros x. split.
      * intros Hx. apply in_map_iff in Hx as (k & <- & Hk). apply in_seq in Hk. destruct Hk as [_ Hk].
        assert (Z.of_nat k * st <= 0)%Z by nia. assert (B < A + Z.of_nat k * st)%Z by nia.
        assert (A = F) by lia. rewrite Z2Nat.id by lia. split; [lia|]. split; [lia|]. split; [apply HB2; lia|].
        exists (Z.of_nat k). lia.
      * intros (H1 & H2 & H3 & k & Hk). apply HB2 in H3; [|lia]. assert (A = F) by lia. assert (0 <= k)%Z by nia.
        apply in_map_iff. exists (Z.to_nat k). split; [lia|]. apply in_seq. split; [lia|]. nia.
Qed.

(** Step 0 is the only slice that raises. *)
Lemma slice_none n a b s : slice_positions n a b s = None <-> s = Some 0%Z.
Proof.
  unfold slice_positions. cbv zeta. destruct s as [s|]; [|cbn; split; discriminate].
  destruct (Z.eqb_spec s 0) as [->|H]; [split; auto|]. destruct (0 <? s)%Z; split; try discriminate; intros E; congruence.
Qed.

Lemma resolve1_reads i n l k : resolve1 i n = Ok (l, k) -> reads i n l.
Proof.
  destruct i as [z|a b s]; cbn [resolve1 reads].
  - destruct ((0 <=? _)%Z && _)%bool eqn:E; [|discriminate]. intros H. injection H as <- <-.
    apply andb_prop in E as [E1 E2]. apply Z.leb_le in E1. apply Z.ltb_lt in E2.
    exists (Z.to_nat (if (z <? 0)%Z then (z + Z.of_nat n)%Z else z)). split; [reflexivity|]. destruct (z <? 0)%Z; lia.
  - destruct (slice_positions n a b s) eqn:E; [|discriminate]. intros H. injection H as <- <-. now apply slice_selects.
Qed.

Lemma reads_unique i n l m : reads i n l -> reads i n m -> l = m.
Proof.
  destruct i as [z|a b s]; cbn [reads].
  - intros (x & -> & H1 & H2) (y & -> & H3 & H4). f_equal. lia.
  - apply selects_unique.
Qed.

Lemma reads_resolve1 i n l : reads i n l -> resolve1 i n = Ok (l, is_slice i).
Proof.
  intros H. destruct (resolve1 i n) as [[m k]|e] eqn:E.
  - pose proof (resolve1_reads _ _ _ _ E) as H'. apply resolve1_range in E as (_ & -> & _). now rewrite (reads_unique _ _ _ _ H H').
  - exfalso. destruct i as [z|a b s]; cbn [resolve1 reads] in *.
    + destruct H as (x & -> & H1 & H2). destruct ((0 <=? _)%Z && _)%bool eqn:E'; [discriminate|]. apply andb_false_iff in E' as [E'|E'].
      * apply Z.leb_gt in E'. destruct (Z.ltb_spec z 0); lia.
      * apply Z.ltb_ge in E'. destruct (Z.ltb_spec z 0); lia.
    + destruct (slice_positions n a b s) eqn:E'; [discriminate|]. apply slice_none in E'. subst s. unfold selects in H. cbn in H. lia.
Qed.

(** What [resolve] computes, in terms of the specification. *)
Lemma resolve_reads spec sh ls : reads_all spec sh ls <-> resolve spec sh = Ok (map2 pair ls (map is_slice spec)) /\ length ls = length spec.
Proof.
  split.
  - intros H. induction H as [|i n l spec sh ls H _ [IH L]]; [now split|]. cbn [resolve map2 map length].
    rewrite (reads_resolve1 _ _ _ H), IH. cbn [bind]. now split; [|congruence].
  - revert sh ls. induction spec as [|i spec IH]; intros [|n sh] [|l ls] [E L]; cbn [resolve map map2] in E; try discriminate.
    + constructor.
    + destruct (resolve1 i n) as [[m k]|] eqn:E1; [|discriminate]. cbn [bind] in E. destruct (resolve spec sh) as [ps|] eqn:E2; [|discriminate].
      cbn [bind] in E. injection E as -> -> ->. constructor; [now apply resolve1_reads in E1|]. apply IH. cbn in L. split; [assumption|congruence].
Qed.
Lemma resolve_some spec sh ps : resolve spec sh = Ok ps -> exists ls, reads_all spec sh ls /\ ps = map2 pair ls (map is_slice spec) /\ length ls = length spec.
Proof.
  revert sh ps. induction spec as [|i spec IH]; intros [|n sh] ps E; cbn [resolve] in E; try discriminate.
  - injection E as <-. exists []. repeat split. constructor.
  - destruct (resolve1 i n) as [[l k]|] eqn:E1; [|discriminate]. cbn [bind] in E. destruct (resolve spec sh) as [ps'|] eqn:E2; [|discriminate].
    cbn [bind] in E. injection E as <-. destruct (IH _ _ E2) as (ls & R & -> & L). exists (l :: ls).
    split; [constructor; [now apply resolve1_reads in E1|assumption]|]. cbn [map map2 length]. split; [|congruence].
    apply resolve1_range in E1 as (_ & -> & _). reflexivity.
Qed.
Lemma sel_shape_spec spec : forall ls, length ls = length spec -> sel_shape (map2 pair ls (map is_slice spec)) = sliced_shape spec ls.
Proof.
  induction spec as [|[z|a b s] spec IH]; intros [|l ls] L; try discriminate; cbn [map map2 is_slice sel_shape sliced_shape]; auto.
  f_equal. now apply IH; injection L.
Qed.
Lemma sel_idx_spec spec : forall ls I, length ls = length spec -> length I = length (sliced_shape spec ls) ->
  sel_idx (map2 pair ls (map is_slice spec)) I = source spec ls I.
Proof.
  induction spec as [|[z|a b s] spec IH]; intros [|l ls] I L H; try discriminate; cbn [map map2 is_slice sel_idx source sliced_shape] in *; auto.
  - injection L as L. rewrite IH by assumption. now destruct l.
  - injection L as L. destruct I as [|i I]; [discriminate|]. cbn [hd tl]. rewrite IH; auto.
Qed.

Lemma reads_all_length spec sh ls : reads_all spec sh ls -> length spec = length sh /\ length ls = length spec.
Proof. induction 1 as [|i n l spec sh ls _ _ [H1 H2]]; cbn; [auto|]. split; congruence. Qed.

Lemma getitem_reads (K : cring) (d : tensor K) spec ls : reads_all spec (shape d) ls ->
  exists ds, getitem d spec = Ok ds /\ wft ds /\ shape ds = sliced_shape spec ls /\
    forall I, vidx (sliced_shape spec ls) I -> get ds I = get d (source spec ls I).
Proof.
  intros H. pose proof H as H'. apply resolve_reads in H as [E L]. destruct (getitem_sel K d spec _ E) as (ds & G & W & S & V).
  rewrite sel_shape_spec in * by assumption. exists ds. split; [assumption|]. split; [assumption|]. split; [assumption|].
  intros I HI. rewrite V by assumption. f_equal. apply sel_idx_spec; [assumption|]. now apply vidx_length.
Qed.
