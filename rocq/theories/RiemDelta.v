(** The delta cores of elements of a tangent space: reading them off, sums, inner products. *)
From Coq Require Import String Ascii List Arith ZArith Lia Lra Bool Ring Reals.
From Verif Require Import Scalar Tensor TensorLemmas TensorLemmas2 Base Spec Chain BaseLemmas Ops
  FullProofs ResultLemmas Dense AddProofs DenseMatmul Sweep FlatProofs GatherProofs RoundProofs OpsR InitProofs Decomp DecompSpec GaugeProofs OrthProofs OrthNorm
  TangentProofs Riem RiemBlock RiemProofs RiemThms RiemSpec TangentSpace RiemFull.
Import ListNotations.
Local Open Scope nat_scope.
Local Notation train := (nat -> nat -> list nat -> nat -> Rring).
Local Notation fn := (list (list nat) -> Rring).
Local Notation get := (@get Rring).
Add Ring Rring5 : (cth Rring).

Lemma mapM_P {B} (f : nat -> res B) k n (P : nat -> B -> Prop) d0 : (forall i, i < n -> exists b, f (k + i) = Ok b /\ P i b) ->
  exists l, mapM f (seq k n) = Ok l /\ length l = n /\ forall i, i < n -> P i (nth i l d0).
Proof.
  intros H. destruct (mapM_seq_ok f n k) as (l & El & Ll & Gl).
  - intros i Hi. destruct (H (i - k) ltac:(lia)) as (b & Eb & _). exists b. replace i with (k + (i - k)) by lia. exact Eb.
  - exists l. do 2 (split; [assumption|]). intros i Hi. destruct (H i Hi) as (b & Eb & Pb). specialize (Gl i d0 Hi). assert (b = nth i l d0) by congruence. now subst.
Qed.

(** ** Slices *)
Lemma rs_from a n : a <= n -> resolve1 (zslice (Some a) None) n = Ok (seq a (n - a), true).
Proof.
  intros H. unfold zslice. cbn [resolve1 option_map]. unfold slice_positions. cbn [Z.eqb Z.ltb Z.compare].
  assert (E1 : (Z.of_nat a <? 0)%Z = false) by (apply Z.ltb_ge; lia). rewrite E1.
  replace (clampZ 0 (Z.of_nat n) (Z.of_nat a)) with (Z.of_nat a) by (unfold clampZ; lia).
  replace (Z.to_nat (Z.max 0 ((Z.of_nat n - Z.of_nat a + 1 - 1) / 1))) with (n - a) by (rewrite Z.div_1_r; lia).
  do 3 f_equal. assert (G : forall m k, map (fun i => Z.to_nat (Z.of_nat a + Z.of_nat i * 1)) (seq k m) = seq (a + k) m).
  { induction m as [|m IH]; intros k; [reflexivity|]. cbn [seq map]. rewrite IH, Nat.add_succ_r. f_equal. lia. }
  rewrite G. now rewrite Nat.add_0_r.
Qed.
Lemma rs_to b n : b <= n -> resolve1 (zslice (Some 0) (Some b)) n = Ok (seq 0 b, true).
Proof. intros H. unfold zslice. cbn [resolve1 option_map]. now rewrite slice_first. Qed.
Lemma rs_to' b n : b <= n -> resolve1 (zslice None (Some b)) n = Ok (seq 0 b, true).
Proof.
  intros H. rewrite <- (rs_to b n H). unfold zslice. cbn [resolve1 option_map]. unfold slice_positions. cbn [Z.eqb Z.ltb Z.compare].
  change (Z.of_nat 0 <? 0)%Z with false. cbv iota. replace (clampZ 0 (Z.of_nat n) (Z.of_nat 0)) with 0%Z by (unfold clampZ; lia). reflexivity.
Qed.

Definition cut_spec {A} (pre ms : list A) (li ri : pyindex) : list pyindex :=
  repeat full_slice (length pre) ++ li :: repeat full_slice (length ms) ++ [ri].
Lemma cut_ok (c : rtensor) pre ms u v li ri la na ra nb : length pre <= 1 -> length ms = 1 \/ length ms = 2 ->
  shape c = pre ++ u :: ms ++ [v] -> resolve1 li u = Ok (seq la na, true) -> resolve1 ri v = Ok (seq ra nb, true) ->
  exists y, getitem c (cut_spec pre ms li ri) = Ok y /\ wft y /\ shape y = pre ++ na :: ms ++ [nb] /\
    forall o a j b, vidx pre o -> a < na -> vidx ms j -> b < nb -> get y (o ++ a :: j ++ [b]) = get c (o ++ (la + a) :: j ++ [ra + b]).
Proof.
  intros Hp Hm Sc El Er.
  set (full n := (seq 0 n, true)).
  assert (Hres : forall s, resolve (repeat full_slice (length s)) s = Ok (map full s)).
  { induction s as [|n s IH]; [reflexivity|]. cbn [length repeat resolve]. now rewrite resolve1_full, IH. }
  destruct (getitem_sel Rring c (cut_spec pre ms li ri) (map full pre ++ (seq la na, true) :: map full ms ++ [(seq ra nb, true)])) as (y & Ey & Wy & Sy & Gy).
  { rewrite Sc. unfold cut_spec. apply resolve_app; [apply Hres|]. cbn [resolve]. rewrite El. cbn [bind].
    rewrite (resolve_app _ ms (map full ms) [ri] [v] [(seq ra nb, true)]); [reflexivity|apply Hres|]. cbn [resolve]. now rewrite Er. }
  exists y. split; [exact Ey|]. split; [exact Wy|].
  assert (SS : sel_shape (map full pre ++ (seq la na, true) :: map full ms ++ [(seq ra nb, true)]) = pre ++ na :: ms ++ [nb]).
  { clear. induction pre as [|n pre IH]; cbn [map app sel_shape full]; [|rewrite seq_length, IH; reflexivity].
    rewrite seq_length. f_equal. induction ms as [|n ms IH]; cbn [map app sel_shape full]; [now rewrite seq_length|]. rewrite seq_length, IH. reflexivity. }
  rewrite SS in *. split; [exact Sy|]. intros o a j b Ho Ha Hj Hb. rewrite Gy.
  2:{ apply vidx_app; auto. apply vidx_cons; auto. apply vidx_app; auto. vsolve. }
  f_equal. clear - Ho Ha Hj Hb. induction Ho as [|i n o pre Hi _ IH]; cbn [map app sel_idx full].
  - rewrite seq_nth by auto. f_equal. induction Hj as [|i n j ms Hi _ IH]; cbn [map app sel_idx full].
    + now rewrite seq_nth.
    + now rewrite seq_nth, IH.
  - now rewrite seq_nth, IH.
Qed.

(** ** One tangent space: [x] with its frame, for which the ranks of both members are the same *)
Section Delta.
Variables (x l r : rtt).
Hypothesis Hx : wf x.
Hypothesis HF : is_frame x l r.
Hypothesis Hd : 2 <= ndims x.
Hypothesis Heq : forall k, 0 < k < ndims x -> rk l k = rk r k.
Local Notation d := (ndims x).
Local Notation ms := (modes x).
Local Notation U := (coreG l []).
Local Notation V := (coreG r []).

Section One.
Variables (ob : option nat) (D : list nat -> train) (t : rtt).
Hypothesis Ht : blocks x l r ob D t.

Lemma bl_wf : wf t. Proof. apply Ht. Qed.
Lemma bl_nd : ndims t = d. Proof. apply Ht. Qed.
Lemma bl_rs : rshape t = rshape x. Proof. apply Ht. Qed.
Lemma bl_bs : bsz t = ob. Proof. apply Ht. Qed.
Lemma bl_rk k : 0 < k < d -> rk t k = rk r k + rk r k.
Proof.
  intros Hk. destruct Ht as (_ & _ & _ & _ & K & _). rewrite K by lia. unfold brank.
  destruct (Nat.eqb_spec k 0); [lia|]. destruct (Nat.eqb_spec k d); [lia|]. now rewrite Heq.
Qed.
Lemma bl_half k : 0 < k < d -> rk t k / 2 = rk r k.
Proof. intros Hk. rewrite bl_rk by auto. replace (rk r k + rk r k) with (rk r k * 2) by lia. now apply Nat.div_mul. Qed.
Lemma bl_first : rk t 0 = 1. Proof. apply (wf_first bl_wf). Qed.
Lemma bl_last : rk t d = 1. Proof. rewrite <- bl_nd. apply (wf_last bl_wf). Qed.
Lemma bl_core i : i < d -> shape (core t i) = pre_of ob ++ rk t i :: ms i ++ [rk t (S i)].
Proof.
  intros Hi. rewrite (core_shape _ t i bl_wf) by (rewrite bl_nd; auto). unfold bpre. rewrite bl_bs. now rewrite (modes_ext _ t x i bl_rs).
Qed.
Lemma bl_get i o a j b : vidx (pre_of ob) o -> i < d -> a < rk t i -> vidx (ms i) j -> b < rk t (S i) ->
  get (core t i) (o ++ a :: j ++ [b]) = blockG (D o) U V (rk r) d i a j b.
Proof. intros. destruct Ht as (_ & _ & _ & _ & _ & G). exact (G o i a j b ltac:(assumption) ltac:(assumption) ltac:(assumption) ltac:(assumption) ltac:(assumption)). Qed.
Lemma ms_len i : length (ms i) = 1 \/ length (ms i) = 2.
Proof. rewrite modes_length. apply (wf_kind Hx). Qed.
Lemma pre_len : length (pre_of ob) <= 1.
Proof. destruct ob; cbn; lia. Qed.

(** The part of core [i] that holds the delta core. *)
Definition lsl (i : nat) : pyindex := if Nat.eqb i 0 then full_slice else zslice (Some (rk t i / 2)) None.
Definition rsl (i : nat) : pyindex := if Nat.eqb i (d - 1) then full_slice else zslice (Some 0) (Some (rk t (S i) / 2)).
Lemma lsl_ok i : i < d -> resolve1 (lsl i) (rk t i) = Ok (seq (if Nat.eqb i 0 then 0 else rk r i) (rk l i), true).
Proof.
  intros Hi. unfold lsl. destruct (Nat.eqb_spec i 0) as [->|H0].
  - rewrite resolve1_full, bl_first, (fr_l0 x l r HF). reflexivity.
  - rewrite bl_half by lia. rewrite rs_from by (rewrite bl_rk; lia). rewrite bl_rk, Heq by lia. do 3 f_equal. lia.
Qed.
Lemma rsl_ok i : i < d -> resolve1 (rsl i) (rk t (S i)) = Ok (seq 0 (rk r (S i)), true).
Proof.
  intros Hi. unfold rsl. destruct (Nat.eqb_spec i (d - 1)) as [->|H0].
  - replace (S (d - 1)) with d by lia. rewrite resolve1_full, bl_last, (fr_qd x l r HF). reflexivity.
  - rewrite bl_half by lia. rewrite rs_to by (rewrite bl_rk; lia). reflexivity.
Qed.
Definition is_delta (E : list nat -> nat -> list nat -> nat -> Rring) (i : nat) (y : rtensor) : Prop :=
  wft y /\ shape y = pre_of ob ++ rk l i :: ms i ++ [rk r (S i)] /\
  forall o a j c, vidx (pre_of ob) o -> a < rk l i -> vidx (ms i) j -> c < rk r (S i) -> get y (o ++ a :: j ++ [c]) = E o a j c.
Lemma block_delta i o a j c : i < d -> a < rk l i -> c < rk r (S i) ->
  blockG (D o) U V (rk r) d i ((if Nat.eqb i 0 then 0 else rk r i) + a) j (0 + c) = D o i a j c.
Proof.
  intros Hi Ha Hc. unfold blockG. destruct (Nat.eqb_spec i 0) as [->|H0].
  - destruct (Nat.ltb_spec (0 + c) (rk r 1)); [reflexivity|lia].
  - destruct (Nat.ltb_spec (rk r i + a) (rk r i)); [lia|]. replace (rk r i + a - rk r i) with a by lia.
    destruct (Nat.eqb_spec i (d - 1)); [reflexivity|]. destruct (Nat.ltb_spec (0 + c) (rk r (S i))); [reflexivity|lia].
Qed.
Lemma delta_cut i li ri : i < d -> resolve1 li (rk t i) = Ok (seq (if Nat.eqb i 0 then 0 else rk r i) (rk l i), true) ->
  resolve1 ri (rk t (S i)) = Ok (seq 0 (rk r (S i)), true) ->
  exists y, getitem (core t i) (cut_spec (pre_of ob) (ms i) li ri) = Ok y /\ is_delta (fun o => D o i) i y.
Proof.
  intros Hi E1 E2. destruct (cut_ok (core t i) (pre_of ob) (ms i) _ _ _ _ _ _ _ _ pre_len (ms_len i) (bl_core i Hi) E1 E2) as (y & Ey & Wy & Sy & Gy).
  exists y. split; [exact Ey|]. split; [exact Wy|]. split; [exact Sy|]. intros o a j c Ho Ha Hj Hc. rewrite Gy by auto.
  rewrite bl_get; auto; [now apply block_delta| |].
  - destruct (Nat.eqb_spec i 0) as [->|H0]; [rewrite bl_first; rewrite (fr_l0 x l r HF) in Ha; lia|]. rewrite bl_rk by lia. rewrite Heq in Ha by lia. lia.
  - destruct (Nat.eq_dec (S i) d) as [E|E]; [rewrite E, bl_last; rewrite E, (fr_qd x l r HF) in Hc; lia|]. rewrite bl_rk by lia. lia.
Qed.

(** [slice_core] is such a cut. *)
Lemma slice_core_cut (t' : rtt) (c : rtensor) li ri i u v : rshape t' = rshape x -> bsz t' = ob -> shape c = pre_of ob ++ u :: ms i ++ [v] ->
  slice_core t' c li ri = getitem c (cut_spec (pre_of ob) (ms i) li ri).
Proof.
  intros R B Sc. unfold slice_core, cut_spec, rank. rewrite Sc, B.
  replace (right_dim ob t') with (right_dim ob x) by (unfold right_dim, is_tt_matrix; now rewrite R).
  f_equal. unfold right_dim, left_dim. destruct (wf_kind_cases _ x Hx) as [(E & _ & EM)|(E & _ & EM)]; rewrite E, EM; destruct ob; reflexivity.
Qed.

(** ** tangent_space_to_deltas *)
Lemma deltas_ok addr : exists ds, tangent_space_to_deltas (Proj t (Some addr)) = Ok ds /\ length ds = d /\
  forall i, i < d -> is_delta (fun o => D o i) i (nth i ds rzero).
Proof.
  unfold tangent_space_to_deltas. cbn [p_on p_tt]. rewrite bl_nd.
  assert (E : existsb (fun i => negb (Nat.even (rk t i))) (seq 1 (d - 2)) = false).
  { apply not_true_iff_false. intros E. apply existsb_exists in E as (k & Hk & E). apply in_seq in Hk. rewrite bl_rk in E by lia.
    replace (rk r k + rk r k) with (2 * rk r k) in E by lia. rewrite Nat.even_mul in E. discriminate. }
  rewrite E. 
  match goal with |- context [mapM ?f _] => destruct (mapM_P f 0 d (fun i y => is_delta (fun o => D o i) i y) rzero) as (ds & Eds & Lds & Pds) end.
  - intros i Hi. cbn [Nat.add]. rewrite nthr_core by (rewrite bl_nd; lia). cbn [bind].
    assert (EQ : forall li ri, slice_core t (core t i) li ri = getitem (core t i) (cut_spec (pre_of ob) (ms i) li ri)).
    { intros. apply (slice_core_cut t _ _ _ i (rk t i) (rk t (S i))); [apply bl_rs|apply bl_bs|now apply bl_core]. }
    destruct (delta_cut i (lsl i) (rsl i) Hi (lsl_ok i Hi) (rsl_ok i Hi)) as (y & Ey & Iy).
    exists y. split; [|exact Iy]. rewrite !EQ. rewrite <- Ey. unfold lsl, rsl.
    destruct (Nat.eqb_spec i (d - 1)), (Nat.eqb_spec i 0); try lia; subst; reflexivity.
  - exists ds. split; [exact Eds|]. split; [exact Lds|]. exact Pds.
Qed.
End One.

(** ** deltas_to_tangent_space *)
Definition is_deltas (ob : option nat) (D : list nat -> train) (ds : list rtensor) : Prop :=
  length ds = d /\ forall i, i < d -> is_delta ob (fun o => D o i) i (nth i ds rzero).

Lemma rebuild_ok qr ob D ds addr left right : bsz x = None -> Forall (fun n => 0 < n) (pre_of ob) -> is_deltas ob D ds ->
  match left with Some l' => Ok l' | None => orthogonalize_tt_cores qr x true end = Ok l ->
  match right with Some r' => Ok r' | None => orthogonalize_tt_cores qr l false end = Ok r ->
  exists t, deltas_to_tangent_space qr ds addr x left right = Ok (Proj t (Some addr)) /\ blocks x l r ob D t.
Proof.
  intros Bx Hob [Lds Pds] El Er. unfold deltas_to_tangent_space. rewrite El. cbn [bind]. rewrite Er. cbn [bind].
  rewrite (nthr_nth ds 0 rzero) by lia. cbn [bind]. rewrite nthr_core by lia. cbn [bind].
  destruct (Pds 0 ltac:(lia)) as (W0 & S0 & _).
  pose proof (core_shape _ x 0 Hx ltac:(lia)) as C0. unfold bpre in C0. rewrite Bx in C0. cbn [app] in C0.
  assert (EB : (if Nat.ltb (rank (core x 0)) (rank (nth 0 ds rzero)) then do b <- nthr (shape (nth 0 ds rzero)) 0; Ok (Some b) else Ok None) = Ok ob).
  { unfold rank. rewrite S0, C0. destruct ob as [B|]; cbn [pre_of app length]; rewrite !app_length; cbn [length].
    - destruct (Nat.ltb_spec (S (length (ms 0) + 1)) (S (S (length (ms 0) + 1)))); [reflexivity|lia].
    - destruct (Nat.ltb_spec (S (length (ms 0) + 1)) (S (length (ms 0) + 1))); [lia|reflexivity]. }
  rewrite EB. cbn [bind].
  destruct (cores_ok x l r ob D Hx (fr_l _ _ _ HF) (fr_r _ _ _ HF) (fr_rl _ _ _ HF) (fr_rr _ _ _ HF) (fr_bl _ _ _ HF) (fr_br _ _ _ HF) (fr_nl _ _ _ HF) (fr_nr _ _ _ HF) Hd Hob
    (fun i => nthr ds i)) as (cs & Ecs & Wt & Bt).
  { intros i Hi. exists (nth i ds rzero). destruct (Pds i Hi) as (_ & Si & Gi). split; [apply nthr_nth; lia|]. split; [exact Si|exact Gi]. }
  assert (EM : mapM (fun i => do lc <- nthr (cores l) i; do rc <- nthr (cores r) i; do el <- extend_core ob lc; do er <- extend_core ob rc; do p <- nthr ds i;
      do zl <- nthr (lazy_tt_ranks l) i; do zr <- nthr (lazy_tt_ranks l) (S i); tangent_core ob x i zl zr p el er) (seq 0 d) = Ok cs).
  { rewrite <- Ecs. unfold result_cores. apply mapM_ext. intros i Hi. apply in_seq in Hi.
    rewrite !nthr_core by (rewrite ?(fr_nl _ _ _ HF), ?(fr_nr _ _ _ HF); lia). cbn [bind].
    rewrite (nthr_nth ds i rzero) by lia. cbn [bind]. destruct (extend_core ob (core l i)); [|reflexivity]. cbn [bind].
    destruct (extend_core ob (core r i)); [|reflexivity]. cbn [bind].
    rewrite !nthr_ranks by (try apply HF; rewrite ?(fr_nl _ _ _ HF), ?(fr_nr _ _ _ HF); lia). cbn [bind].
    unfold tangent_core. destruct (Nat.eqb_spec i 0); [reflexivity|]. destruct (Nat.eqb_spec i (d - 1)); [reflexivity|]. rewrite (Heq i) by lia. reflexivity. }
  rewrite EM. cbn [bind]. pose proof (wf_shaped _ _ Wt) as HS. unfold bpre in HS. cbn [bsz cores rshape rks] in HS.
  set (t := TT cs (rshape x) (branks x l r) ob) in *. exists t. split; [|exact Bt].
  assert (Nt : length cs = d) by apply Bt. pose proof (wf_d Wt) as D1. pose proof (wf_rlen Wt) as D2. pose proof (wf_klen Wt) as D3. pose proof (wf_first Wt) as D4. pose proof (wf_last Wt) as D5.
  unfold ndims, rk in *. cbn [cores rshape rks] in *. unfold t in *. cbn [cores rshape rks] in *.
  destruct ob as [B|].
  - rewrite (TensorTrainBatch_infer_ok Rring cs (rshape x) (branks x l r) B (Some B)); auto.
  - rewrite (TensorTrain_infer_ok Rring cs (rshape x) (branks x l r)); auto.
Qed.

(** Same deltas, same object. *)
Lemma blocks_unique ob D t t' : blocks x l r ob D t -> blocks x l r ob D t' -> t = t'.
Proof.
  intros (W & R & B & N & Kk & G) (W' & R' & B' & N' & Kk' & G').
  assert (EK : forall k, k <= d -> rk t k = rk t' k) by (intros; rewrite Kk, Kk'; auto).
  apply (tt_ext Rring t t' W W'); try congruence.
  - apply (nth_ext _ _ 0 0); [rewrite (wf_klen W), (wf_klen W'); congruence|]. intros k Hk. rewrite (wf_klen W) in Hk. apply (EK k). lia.
  - intros i o a j b Hi Ho Ha Hj Hb. unfold bpre in Ho. rewrite B in Ho. rewrite (modes_ext _ t x i R) in Hj. rewrite N in Hi.
    rewrite G, G'; auto; rewrite <- EK; auto; lia.
Qed.
End Delta.
