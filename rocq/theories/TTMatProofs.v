(** [to_tt_matrix]. *)
From Coq Require Import String Ascii List Arith ZArith Lia Lra Bool Ring Reals.
From Verif Require Import Scalar Tensor TensorLemmas TensorLemmas2 Base Spec Chain BaseLemmas Ops
  FullProofs ResultLemmas Dense Sweep FlatProofs NormProofs OpsR ScaleProofs
  Decomp DecompSpec GaugeProofs OrthProofs OrthNorm QRExists Trunc TruncChain RoundProofs SvdSpec RoundThms TTSvdStep TTSvdProofs TTSvdThms UnfoldExists.
From Verif Require GatherProofs.
Import ListNotations.
Local Open Scope nat_scope.
Local Notation get := (@get Rring).

(** Cut distances in general. *)
Definition gcut (ms : nat -> list nat) (d : nat) (A : list (list nat) -> R) k q (P Z : list (list nat) -> nat -> R) : R :=
  rj (map ms (seq 0 k)) (fun J1 => rj (map ms (seq k (d - k))) (fun J2 =>
    ((A (J1 ++ J2) - rsum q (fun c => P J1 c * Z J2 c)) * (A (J1 ++ J2) - rsum q (fun c => P J1 c * Z J2 c)))%R)).

Lemma gcut_zero ms d A k q P Z :
  (forall J1 J2, vjdx (map ms (seq 0 k)) J1 -> vjdx (map ms (seq k (d - k))) J2 -> rsum q (fun c => P J1 c * Z J2 c)%R = A (J1 ++ J2)) ->
  gcut ms d A k q P Z = 0%R.
Proof. intros H. unfold gcut. apply rj_zero. intros J1 H1. apply rj_zero. intros J2 H2. rewrite H by auto. ring. Qed.

Lemma gcut_side ms d A k r : Nat.min (jsize (map ms (seq 0 k))) (jsize (map ms (seq k (d - k)))) <= r ->
  exists q P Z, q <= r /\ gcut ms d A k q P Z = 0%R.
Proof.
  intros Hm. set (X := map ms (seq 0 k)) in *. set (Y := map ms (seq k (d - k))) in *.
  destruct (Nat.min_spec (jsize X) (jsize Y)) as [[_ E]|[_ E]]; rewrite E in Hm.
  - exists (jsize X), (fun J c => kron (jrav X J) c), (fun J c => A (jun X c ++ J)). split; [auto|]. apply gcut_zero. fold X Y. intros J1 J2 V1 V2.
    rewrite (rsum_ext _ _ (fun c => A (jun X c ++ J2) * kron (jrav X J1) c)%R) by (intros; ring).
    rewrite rsum_kron_r by now apply jrav_lt. now rewrite jun_jrav.
  - exists (jsize Y), (fun J c => A (J ++ jun Y c)), (fun J c => kron (jrav Y J) c). split; [auto|]. apply gcut_zero. fold X Y. intros J1 J2 V1 V2.
    rewrite rsum_kron_r by now apply jrav_lt. now rewrite jun_jrav.
Qed.

Lemma gcut_best ms d A (b : rtt) p k : wf b -> k <= d ->
  gcut ms d A k (rk b k) (lvec (coreG b p) (rk b)) (rvec (coreG b p) (rk b) k) =
  rj (map ms (seq 0 d)) (fun J => (A J - tt_entry b p J) * (A J - tt_entry b p J))%R.
Proof.
  intros Hb Hk. rewrite (seq_cut k d) by auto. rewrite map_app, rj_app. unfold gcut. apply rj_ext. intros J1 H1. apply rj_ext. intros J2 _.
  apply vjdx_length in H1. rewrite map_length, seq_length in H1. now rewrite (entry_cut b p k) by auto.
Qed.

Lemma gcut_svd rsh ms d (x : rtensor) p A k n U s V r : k <= d ->
  (forall J, vjdx (map ms (seq 0 d)) J -> A J = get x (p ++ glue rsh J)) ->
  unfolding_svd rsh ms d x p k n U s V -> r <= n ->
  gcut ms d A k r (fun J l => U J l * s l)%R V = tail n r s.
Proof.
  intros Hk HA [H1 H2 H3 _ _] Hr.
  set (X := map ms (seq 0 k)). set (Y := map ms (seq k (d - k))). fold X Y in H1, H2, H3.
  set (U' := fun x l => U (jun X x) l). set (V' := fun y l => V (jun Y y) l).
  assert (OU : ortho (jsize X) n U') by (intros c b Hc Hb; unfold U'; rewrite <- (rj_rsum_all X (fun J => U J c * U J b)%R); now apply H2).
  assert (OV : ortho (jsize Y) n V') by (intros c b Hc Hb; unfold V'; rewrite <- (rj_rsum_all Y (fun J => V J c * V J b)%R); now apply H3).
  transitivity (sum2 (jsize X) (jsize Y) (fun x y => (expan n U' s V' x y - expan r U' s V' x y) * (expan n U' s V' x y - expan r U' s V' x y))%R).
  - unfold gcut. fold X Y. rewrite rj_rsum_all. unfold sum2. apply rsum_ext. intros w Hw. rewrite rj_rsum_all. apply rsum_ext. intros y Hy.
    pose proof (jun_valid X w Hw) as Vx. pose proof (jun_valid Y y Hy) as Vy.
    assert (E : A (jun X w ++ jun Y y) = expan n U' s V' w y).
    { rewrite HA; [now apply H1|]. rewrite (seq_cut k) by auto. rewrite map_app. now apply Forall2_app. }
    rewrite E. reflexivity.
  - rewrite (trunc_error (jsize X) (jsize Y) n r (expan n U' s V') U' V' s); auto.
    + replace (sum2 _ _ _) with 0%R; [lra|]. symmetry. unfold sum2. apply rsum_0. intros. apply rsum_0. intros. ring.
    + intros. apply rsum_0. intros. ring.
Qed.

(** Consequences of an error split into one term for each cut. *)
Section Split.
Variables (ms : nat -> list nat) (d : nat) (A B : list (list nat) -> R) (mr : list nat) (e : nat -> R).
Hypothesis HE : rj (map ms (seq 0 d)) (fun J => (A J - B J) * (A J - B J))%R = rsum (d - 1) (fun y => e (S y)).
Hypothesis HB : forall k, 0 < k < d -> (0 <= e k)%R /\ forall q P Z, q <= nth k mr 0 -> (e k <= gcut ms d A k q P Z)%R.

Lemma split_exact : (forall k, 0 < k < d -> exists q P Z, q <= nth k mr 0 /\ gcut ms d A k q P Z = 0%R) ->
  forall J, vjdx (map ms (seq 0 d)) J -> B J = A J.
Proof.
  intros HX J VJ. assert (E0 : rsum (d - 1) (fun x => e (S x)) = 0%R).
  { apply rsum_0. intros k Hk. destruct (HB (S k) ltac:(lia)) as [B1 B2]. destruct (HX (S k) ltac:(lia)) as (q & P' & Z' & Hq & E).
    specialize (B2 q P' Z' Hq). lra. }
  rewrite E0 in HE. pose proof (rj_zero_each _ _ (fun J _ => Rle_0_sqr _) HE J VJ) as Q. cbv beta in Q. apply Rmult_integral in Q. destruct Q; lra.
Qed.
Lemma split_best (b : rtt) p : wf b -> (forall k, 0 < k < d -> rk b k <= nth k mr 0) ->
  (rj (map ms (seq 0 d)) (fun J => (A J - B J) * (A J - B J)) <= INR (d - 1) * rj (map ms (seq 0 d)) (fun J => (A J - tt_entry b p J) * (A J - tt_entry b p J)))%R.
Proof.
  intros Wb Kb. rewrite HE. apply rsum_le_const. intros i Hi. destruct (HB (S i) ltac:(lia)) as [_ B2].
  rewrite <- (gcut_best ms d A b p (S i)) by (auto; lia). apply B2. apply Kb. lia.
Qed.
Lemma split_svd rsh x p (n : nat -> nat) U s V : (forall J, vjdx (map ms (seq 0 d)) J -> A J = get x (p ++ glue rsh J)) ->
  (forall k, 0 < k < d -> unfolding_svd rsh ms d x p k (n k) (U k) (s k) (V k)) ->
  (rj (map ms (seq 0 d)) (fun J => (A J - B J) * (A J - B J)) <= sum_cuts d (fun k => discarded (n k) (nth k mr 0%nat) (s k)))%R.
Proof.
  intros HA HU. rewrite HE. apply rsum_le. intros i Hi. destruct (HB (S i) ltac:(lia)) as [_ B2]. rewrite <- discarded_min.
  change (discarded (n (S i)) (Nat.min (nth (S i) mr 0) (n (S i))) (s (S i))) with (tail (n (S i)) (Nat.min (nth (S i) mr 0) (n (S i))) (s (S i))).
  rewrite <- (gcut_svd rsh ms d x p A (S i) (n (S i)) (U (S i)) (s (S i)) (V (S i))); auto; try lia; [|apply HU; lia].
  apply B2. lia.
Qed.
End Split.

(** * Merging the row and the column index of a core into one. *)
Section Merge.
Variables (s0 s1 : list nat).
Let n0 k := nth k s0 0.
Let n1 k := nth k s1 0.
Definition mm (k : nat) : list nat := [nth k s0 0; nth k s1 0].

Fixpoint mrg (k : nat) (J : list (list nat)) : list (list nat) :=
  match J with [] => [] | j :: J' => [nth 0 j 0 * nth k s1 0 + nth 1 j 0] :: mrg (S k) J' end.
Fixpoint umrg (k : nat) (J : list (list nat)) : list (list nat) :=
  match J with [] => [] | j :: J' => [nth 0 j 0 / nth k s1 0; nth 0 j 0 mod nth k s1 0] :: umrg (S k) J' end.

Lemma mrg_length k J : length (mrg k J) = length J.
Proof. revert k; induction J; intros k; cbn; auto. Qed.
Lemma mrg_app k J1 J2 : mrg k (J1 ++ J2) = mrg k J1 ++ mrg (k + length J1) J2.
Proof.
  revert k; induction J1 as [|j J1 IH]; intros k; cbn [mrg app length]; [now rewrite Nat.add_0_r|]. rewrite IH.
  now replace (S k + length J1) with (k + S (length J1)) by lia.
Qed.
Lemma vjdx_mm_inv k l J : vjdx (map mm (seq k (S l))) J -> exists a b J', J = [a; b] :: J' /\ a < n0 k /\ b < n1 k /\ vjdx (map mm (seq (S k) l)) J'.
Proof.
  cbn [seq map]. intros H. inversion H as [|? j ? J' H1 H2]; subst. unfold mm in H1.
  inversion H1 as [|a ? ? r Ha H3]; subst. inversion H3 as [|b ? ? r' Hb H4]; subst. inversion H4; subst. eauto 8.
Qed.
Lemma umrg_mrg k l J : vjdx (map mm (seq k l)) J -> umrg k (mrg k J) = J.
Proof.
  revert k J; induction l as [|l IH]; intros k J H.
  - inversion H; subst; reflexivity.
  - apply vjdx_mm_inv in H as (a & b & J' & -> & Ha & Hb & HJ). cbn [mrg umrg nth]. rewrite IH by auto. fold (n1 k).
    rewrite Nat.div_add_l by lia. rewrite Nat.div_small, Nat.add_0_r by auto.
    rewrite (Nat.add_comm (a * n1 k)), Nat.mod_add, Nat.mod_small by lia. reflexivity.
Qed.
Lemma rj_mrg k l f : rj (map (fun k => [n0 k * n1 k]) (seq k l)) f = rj (map mm (seq k l)) (fun J => f (mrg k J)).
Proof.
  revert k f; induction l as [|l IH]; intros k f; [reflexivity|]. cbn [seq map]. rewrite !rj_cons. unfold mm at 1. fold (n0 k) (n1 k).
  unfold ri. cbn [isum]. rewrite (sumn_prod Rring). apply (sumn_ext Rring). intros i Hi. apply (sumn_ext Rring). intros j Hj.
  rewrite (IH (S k)). apply rj_ext. intros J _. reflexivity.
Qed.
End Merge.

(** Index facts for the reshapes and the transpose. *)
Fixpoint merge (s1 i j : list nat) : list nat :=
  match s1, i, j with n :: s1, a :: i, b :: j => (a * n + b) :: merge s1 i j | _, _, _ => [] end.
Lemma merge_ravel s0 s1 i j : vidx s0 i -> vidx s1 j -> length s0 = length s1 ->
  vidx (map2 Nat.mul s0 s1) (merge s1 i j) /\
  ravel (map2 Nat.mul s0 s1) (merge s1 i j) = ravel (FullProofs.interleave s0 s1) (FullProofs.interleave i j) /\
  prodn (map2 Nat.mul s0 s1) = prodn s0 * prodn s1.
Proof.
  intros H. revert s1 j; induction H as [|a n i s0 Ha Hi IH]; intros s1 j Hj L; destruct s1 as [|m s1]; try discriminate.
  - inversion Hj; subst. cbn. repeat split. constructor.
  - inversion Hj as [|b ? j2 ? Hb Hj2]; subst. destruct (IH s1 j2 Hj2 ltac:(cbn in L; lia)) as (V & R & P).
    cbn [map2 merge]. split; [constructor; [nia|auto]|]. unfold FullProofs.interleave in *. cbn [map2 List.concat app]. cbn [ravel]. rewrite R, P.
    rewrite !prodn_cons, P. pose proof (prodn_interleave s0 s1 ltac:(cbn in L; lia)) as PI. unfold FullProofs.interleave in PI.
    rewrite PI. split; lia.
Qed.
Lemma concat_mrg s1 k J : (forall j, In j J -> length j = 2) -> k + length J <= length s1 ->
  List.concat (mrg s1 k J) = merge (skipn k s1) (map (fun j => nth 0 j 0) J) (map (fun j => nth 1 j 0) J).
Proof.
  revert k; induction J as [|j J IH]; intros k H L; cbn [mrg List.concat map].
  - destruct (skipn k s1); reflexivity.
  - cbn [length] in L. rewrite (skipn_nth s1 k) by lia. cbn [merge app]. rewrite IH; [reflexivity|intros; apply H; now right|lia].
Qed.

Lemma iperm_apply i j : length i = length j ->
  map (fun p => nth p (i ++ j) 0) (Decomp.interleave (length i)) = FullProofs.interleave i j.
Proof.
  intros L. unfold Decomp.interleave, FullProofs.interleave. rewrite concat_map, map_map. f_equal.
  rewrite <- (map2_seq i j (length i)) by auto. apply map_ext_in. intros k Hk. apply in_seq in Hk. cbn [map].
  rewrite app_nth1 by lia. rewrite app_nth2 by lia. now replace (length i + k - length i) with k by lia.
Qed.
Lemma iperm_len x s d : length (List.concat (map (fun i => [i; x + i]) (seq s d))) = d + d.
Proof. revert s; induction d as [|d IH]; intros s; [reflexivity|]. cbn [seq map List.concat app length]. rewrite IH. lia. Qed.
Lemma iperm_ok d : perm_ok (Decomp.interleave d) (d + d) = true.
Proof.
  unfold perm_ok. apply andb_true_intro. split.
  - apply Nat.eqb_eq. unfold Decomp.interleave. apply iperm_len.
  - apply forallb_forall. intros j Hj. apply in_seq in Hj. apply existsb_exists. exists j. split; [|apply Nat.eqb_refl].
    unfold Decomp.interleave. apply in_concat. destruct (Nat.lt_ge_cases j d).
    + exists [j; d + j]. split; [|now left]. apply in_map_iff. exists j. split; auto. apply in_seq. lia.
    + exists [j - d; d + (j - d)]. split; [|right; left; lia]. apply in_map_iff. exists (j - d). split; auto. apply in_seq. lia.
Qed.

Lemma chain_mrg s1 (G G' : nat -> nat -> list nat -> nat -> R) (r : nat -> nat) k J v a ms :
  vchain ms k J -> a < r k ->
  (forall m a j b, k <= m < k + length J -> a < r m -> b < r (S m) -> vidx (ms m) j -> G m a j b = G' m a [nth 0 j 0 * nth m s1 0 + nth 1 j 0] b) ->
  chain (K := Rring) G r k J v a = chain (K := Rring) G' r k (mrg s1 k J) v a.
Proof.
  revert k a; induction J as [|j J IH]; intros k a HJ Ha HG; cbn [chain mrg length] in *; [reflexivity|].
  destruct HJ as [Hj HJ]. apply (sumn_ext Rring). intros b Hb. rewrite HG by (auto; lia). f_equal. apply IH; auto. intros; apply HG; auto; lia.
Qed.

Lemma mapM_map {A B} (f : A -> res B) (g : A -> B) l : (forall x, In x l -> f x = Ok (g x)) -> mapM f l = Ok (map g l).
Proof. induction l as [|x l IH]; intros H; [reflexivity|]. cbn [mapM map]. rewrite H by now left. cbn [bind]. rewrite IH by (intros; apply H; now right). reflexivity. Qed.

Section Mat.
Variable svd : rtensor -> rtensor * rtensor * rtensor.
Hypothesis Hsvd : svd_ok svd.
Variables (mat : rtensor) (s0 s1 : list nat) (a : rank_arg) (eps : option R) (mr : list nat).
Hypothesis Wm : wft mat.
Hypothesis Sm : shape mat = [prodn s0; prodn s1].
Hypothesis L01 : length s0 = length s1.
Hypothesis Hd : 2 <= length s0.
Hypothesis P0 : Forall (fun n => 0 < n) s0.
Hypothesis P1 : Forall (fun n => 0 < n) s1.
Hypothesis Hp : parse_ranks false a eps (length s0) = Ok mr.

Let d := length s0.
Definition mA (J : list (list nat)) : R := get mat (glue [s0; s1] J).

Lemma mulshape_nth k : k < d -> nth k (map2 Nat.mul s0 s1) 0 = nth k s0 0 * nth k s1 0.
Proof.
  unfold d. clear - L01. revert s1 k L01; induction s0 as [|n s IH]; intros [|m t] k L Hk; cbn in *; try lia. destruct k; [reflexivity|]. apply IH; lia.
Qed.
Lemma mulshape_len : length (map2 Nat.mul s0 s1) = d.
Proof. unfold d. clear - L01. revert s1 L01; induction s0 as [|n s IH]; intros [|m t] L; cbn in *; try lia. now rewrite IH by lia. Qed.

Lemma mat_tens : exists x1 x2 x3, reshape mat (map Some (s0 ++ s1)) = Ok x1 /\ transpose x1 (Decomp.interleave d) = Ok x2 /\
  reshape x2 (map Some (map2 Nat.mul s0 s1)) = Ok x3 /\ wft x3 /\ shape x3 = map2 Nat.mul s0 s1 /\
  forall J, vjdx (map (mm s0 s1) (seq 0 d)) J -> xA x3 (mrg s1 0 J) = mA J.
Proof.
  assert (Z1 : prodn (s0 ++ s1) = size mat) by (unfold size; rewrite Sm, prodn_app; unfold prodn at 3; cbn; lia).
  rewrite (reshape_exact Rring mat) by exact Z1. set (x1 := Tensor (s0 ++ s1) (data mat)).
  destruct (transpose_ok Rring x1 (Decomp.interleave d)) as (x2 & E2 & W2 & S2 & G2).
  { unfold rank, x1. cbn [shape]. rewrite app_length, <- L01. apply iperm_ok. }
  unfold x1 in S2 at 1. cbn [shape] in S2. unfold d in S2. rewrite iperm_apply in S2 by auto.
  assert (Pm : prodn (map2 Nat.mul s0 s1) = prodn s0 * prodn s1).
  { clear - L01. revert s1 L01; induction s0 as [|n s IH]; intros [|m t] L; cbn in L; try lia; [reflexivity|]. cbn [map2]. rewrite !prodn_cons, IH by lia. lia. }
  assert (Z3 : prodn (map2 Nat.mul s0 s1) = size x2) by (unfold size; now rewrite S2, prodn_interleave, Pm).
  exists x1, x2, (Tensor (map2 Nat.mul s0 s1) (data x2)). split; [reflexivity|]. split; [exact E2|]. split; [now apply reshape_exact|].
  split; [now apply (wft_reshaped Rring)|]. split; [reflexivity|].
  intros J VJ. pose proof VJ as VJ0. unfold xA, mA.
  assert (L2 : forall j, In j J -> length j = 2).
  { clear - VJ0. revert VJ0. generalize 0 at 1. generalize d. intros l k H. revert k J H; induction l as [|l IH]; intros k J H j Hj.
    - inversion H; subst. destruct Hj.
    - apply vjdx_mm_inv in H as (u & v & J' & -> & _ & _ & H). destruct Hj as [<-|Hj]; [reflexivity|eauto]. }
  assert (LJ : length J = d) by (apply vjdx_length in VJ; now rewrite map_length, seq_length in VJ).
  rewrite (concat_mrg s1 0 J) by (auto; rewrite <- L01; fold d; lia). cbn [skipn].
  set (i := map (fun j => nth 0 j 0) J). set (j := map (fun j => nth 1 j 0) J).
  assert (V : vidx s0 i /\ vidx s1 j).
  { assert (G : forall l k t0 t1 J', length t0 = l -> length t1 = l -> (forall m, m < l -> nth m t0 0 = nth (k + m) s0 0 /\ nth m t1 0 = nth (k + m) s1 0) ->
      vjdx (map (mm s0 s1) (seq k l)) J' -> vidx t0 (map (fun j => nth 0 j 0) J') /\ vidx t1 (map (fun j => nth 1 j 0) J')).
    { clear. induction l as [|l IH]; intros k t0 t1 J' L0 L1 Hn H.
      - destruct t0, t1; try discriminate. inversion H; subst. split; constructor.
      - destruct t0 as [|u0 t0], t1 as [|u1 t1]; try discriminate. apply vjdx_mm_inv in H as (u & v & J'' & -> & Hu & Hv & H).
        destruct (Hn 0 ltac:(lia)) as [E0 E1]. cbn [nth] in E0, E1. rewrite Nat.add_0_r in E0, E1. cbn [map nth].
        destruct (IH (S k) t0 t1 J'') as [V0 V1]; auto.
        { intros m Hm. destruct (Hn (S m) ltac:(lia)) as [F0 F1]. cbn [nth] in F0, F1. now replace (S k + m) with (k + S m) by lia. }
        split; constructor; auto; lia. }
    apply (G d 0); auto. }
  destruct V as [Vi Vj]. destruct (merge_ravel s0 s1 i j Vi Vj L01) as (VM & RM & _).
  rewrite (get_reshaped Rring _ _ x2 _ (FullProofs.interleave i j)); [|reflexivity|now rewrite S2].
  assert (Li : length i = d) by (unfold i; now rewrite map_length).
  rewrite <- (iperm_apply i j) by (unfold i, j; now rewrite !map_length). rewrite Li, G2.
  2:{ unfold x1; cbn [shape]. now apply vidx_app. }
  unfold x1. unfold glue. cbn [nth]. fold i j. apply (get_reshaped Rring); [reflexivity|]. rewrite Sm.
  rewrite ravel_app by now apply vidx_length. cbn [ravel]. rewrite !prodn_cons. change (prodn []) with 1. lia.
Qed.
(** The call of [to_tt_tensor] in [to_tt_matrix]: its argument [x3], and what is made of its result. *)
Lemma matrix_of_tensor : exists x3, wft x3 /\ shape x3 = map2 Nat.mul s0 s1 /\ Forall (fun n => 0 < n) (shape x3) /\ length (shape x3) = d /\
  (forall J, vjdx (map (mm s0 s1) (seq 0 d)) J -> xA x3 (mrg s1 0 J) = mA J) /\
  (forall k l f, k + l <= d -> rj (map (smodes (shape x3)) (seq k l)) f = rj (map (mm s0 s1) (seq k l)) (fun J => f (mrg s1 k J))) /\
  forall t, to_tt_tensor svd x3 a eps = Ok t -> wf t -> rshape t = [shape x3] -> bsz t = None -> ndims t = d ->
  exists z, to_tt_matrix svd mat (Some s0) (Some s1) a eps = Ok z /\ wf z /\ rshape z = [s0; s1] /\ bsz z = None /\ ndims z = d /\ (forall k, rk z k = rk t k) /\
    forall J, vjdx (map (mm s0 s1) (seq 0 d)) J -> tt_entry z [] J = tt_entry t [] (mrg s1 0 J).
Proof.
  destruct mat_tens as (x1 & x2 & x3 & E1 & E2 & E3 & W3 & S3 & G3).
  assert (Pos3 : Forall (fun n => 0 < n) (shape x3)).
  { rewrite S3. apply Forall_forall. intros n Hn. apply (In_nth _ _ 0) in Hn as (k & Hk & <-). rewrite mulshape_len in Hk. rewrite mulshape_nth by auto.
    assert (0 < nth k s0 0) by (apply (Forall_nth' (fun n => 0 < n)); auto). assert (0 < nth k s1 0) by (apply (Forall_nth' (fun n => 0 < n)); auto; unfold d in Hk; lia). nia. }
  assert (L3 : length (shape x3) = d) by (rewrite S3; apply mulshape_len).
  assert (SH : forall k, k < d -> smodes (shape x3) k = [nth k s0 0 * nth k s1 0]) by (intros k Hk; unfold smodes; now rewrite S3, mulshape_nth by auto).
  exists x3. do 5 (split; [assumption|]). split.
  { intros k l f Hkl. rewrite <- (rj_mrg s0 s1). f_equal. apply map_ext_in. intros k' Hk'. apply in_seq in Hk'. apply SH. lia. }
  intros t Et Wt Rt Bt Dt.
  destruct (single_facts t (shape x3) Wt Rt Bt) as (_ & _ & _ & Pt & Mt).
  set (core' := fun k => Tensor [rk t k; nth k s0 0; nth k s1 0; rk t (S k)] (data (core t k)) : rtensor).
  assert (SC : forall k, k < d -> shape (core t k) = [rk t k; nth k s0 0 * nth k s1 0; rk t (S k)]).
  { intros k Hk. rewrite core_shape by (auto; rewrite Dt; exact Hk). rewrite Pt, Mt, SH by auto. reflexivity. }
  assert (EC : mapM (fun i => reshape (core t i) (map Some [rk t i; nth i s0 0; nth i s1 0; rk t (S i)])) (seq 0 d) = Ok (map core' (seq 0 d))).
  { apply mapM_map. intros k Hk. apply in_seq in Hk. apply (reshape_exact Rring). unfold size. rewrite SC by lia. unfold prodn; cbn. lia. }
  unfold to_tt_matrix. cbn [bind]. rewrite L01, Nat.eqb_refl. cbn [negb]. rewrite <- L01. rewrite E1. cbn [bind]. fold d. rewrite E2. cbn [bind].
  rewrite E3. cbn [bind]. rewrite Et. cbn [bind]. rewrite EC. cbn [bind].
  set (z := TT (map core' (seq 0 d)) [s0; s1] (rks t) None).
  assert (CL : length (map core' (seq 0 d)) = d) by now rewrite map_length, seq_length.
  assert (CN : forall k, k < d -> nth k (map core' (seq 0 d)) (core0 Rring) = core' k).
  { intros k Hk. rewrite (nth_indep _ (core0 Rring) (core' 0)) by now rewrite CL. rewrite map_nth, seq_nth by auto. reflexivity. }
  assert (Wz : wf z).
  { apply wf_intro; cbn [pre_of].
    - intros k Hk. rewrite CL in Hk. rewrite CN by auto. reflexivity.
    - rewrite CL; lia.
    - now right.
    - rewrite CL. repeat constructor; auto.
    - rewrite CL, <- Dt. apply Wt.
    - apply (wf_first Wt).
    - rewrite CL, <- Dt. apply (wf_last Wt).
    - repeat constructor; auto.
    - apply Wt.
    - constructor.
    - intros k Hk. rewrite CL in Hk. rewrite CN by auto. unfold wft, core'. cbn [shape data].
      pose proof (core_wft _ t k Wt ltac:(rewrite Dt; exact Hk)) as W. unfold wft in W. rewrite W, SC by auto. unfold prodn; cbn. lia. }
  assert (CO : TensorTrain (map core' (seq 0 d)) (SList2 [s0; s1]) (Some (rks t)) = Ok z).
  { transitivity (TensorTrain (map core' (seq 0 d)) (STuple [s0; s1]) (Some (rks t))).
    - unfold TensorTrain. f_equal. cbn [clean_raw_shape np_squeeze forallb]. rewrite <- L01, Nat.eqb_refl. cbn [andb].
      fold d. destruct d as [|[|d']] eqn:Ed; try lia. reflexivity.
    - apply (construct_ranks z Wz). }
  exists z. split; [exact CO|]. split; [exact Wz|]. split; [reflexivity|]. split; [reflexivity|].
  assert (Dz : ndims z = d) by (unfold ndims; exact CL). split; [exact Dz|]. split; [reflexivity|].
  intros J VJ. unfold tt_entry. change (rk z) with (rk t).
    assert (LJ : length J = d) by (apply vjdx_length in VJ; now rewrite map_length, seq_length in VJ).
    apply (chain_mrg s1 _ _ _ _ _ _ _ (mm s0 s1)).
    - apply vjdx_seq in VJ. apply VJ.
    - rewrite (wf_first Wt). lia.
    - intros m a' j b Hm Ha Hb Vj. rewrite LJ in Hm. unfold coreG. cbn [app]. unfold core at 1, z. cbn [cores]. rewrite CN by lia.
      unfold mm in Vj. inversion Vj as [|u ? r' ? Hu Vr]; subst. inversion Vr as [|w ? r'' ? Hw Vr']; subst. inversion Vr'; subst. cbn [nth app].
      unfold core'. apply (get_reshaped Rring); [reflexivity|]. rewrite SC by lia. cbn [ravel]. unfold prodn; cbn. nia.
Qed.
Lemma to_tt_matrix_ok :
  exists z, to_tt_matrix svd mat (Some s0) (Some s1) a eps = Ok z /\ wf z /\ rshape z = [s0; s1] /\ bsz z = None /\ ndims z = d /\
    (forall k, 0 < k < d -> rk z k <= nth k mr 0 /\
      rk z k = Nat.min (nth k mr 0) (Nat.min (rk z (k - 1) * (nth (k - 1) s0 0 * nth (k - 1) s1 0)) (prodn (map (fun i => nth i s0 0 * nth i s1 0) (seq k (d - k)))))) /\
    exists e,
      rj (map (mm s0 s1) (seq 0 d)) (fun J => (mA J - tt_entry z [] J) * (mA J - tt_entry z [] J))%R = rsum (d - 1) (fun y => e (S y)) /\
      forall k, 0 < k < d -> (0 <= e k)%R /\ forall q P Z, q <= nth k mr 0 -> (e k <= gcut (mm s0 s1) d mA k q P Z)%R.
Proof.
  destruct matrix_of_tensor as (x3 & W3 & S3 & Pos3 & L3 & G3 & TR & HZ).
  destruct (to_tt_tensor_ok svd Hsvd x3 a eps mr W3 ltac:(now rewrite L3) Pos3 ltac:(now rewrite L3)) as (t & Et & Wt & Rt & Bt & Dt & Kt & (e & HE & HB)).
  rewrite L3 in *. destruct (HZ t Et Wt Rt Bt Dt) as (z & CO & Wz & Rz & Bz & Dz & Kz & Ent).
  exists z. do 5 (split; [assumption|]).
  split.
  { intros k Hk. destruct (Kt k ltac:(lia)) as (K1 & _ & _ & K2). split; [now rewrite Kz|]. rewrite !Kz, K2. f_equal. rewrite S3.
    rewrite mulshape_nth by lia. f_equal. f_equal. apply nth_ext with (d := 0) (d' := 0); [rewrite skipn_length, mulshape_len, map_length, seq_length; lia|].
    intros i Hi. rewrite skipn_length, mulshape_len in Hi. rewrite GatherProofs.nth_skipn, mulshape_nth by lia. rewrite (nth_map_default _ _ _ 0) by (rewrite seq_length; lia). now rewrite seq_nth by lia. }
  exists e. split.
  - rewrite <- HE, TR by lia. apply rj_ext. intros J VJ. rewrite Ent, G3 by auto. reflexivity.
  - intros k Hk. destruct (HB k Hk) as [B1 B2]. split; [exact B1|]. intros q P Z Hq.
    specialize (B2 q (fun J => P (umrg s1 0 J)) (fun J => Z (umrg s1 k J)) Hq). eapply Rle_trans; [exact B2|]. apply Req_le.
    unfold xcut_dist, gcut. rewrite L3. rewrite TR by lia. apply rj_ext. intros J1 V1. rewrite TR by lia. apply rj_ext. intros J2 V2.
    rewrite (umrg_mrg s0 s1 0 k), (umrg_mrg s0 s1 k (d - k)) by auto.
    assert (LJ1 : length J1 = k) by (apply vjdx_length in V1; now rewrite map_length, seq_length in V1).
    replace (mrg s1 0 J1 ++ mrg s1 k J2) with (mrg s1 0 (J1 ++ J2)) by (rewrite mrg_app; now rewrite LJ1).
    rewrite G3; [reflexivity|]. rewrite (seq_cut k d) by lia. rewrite map_app. now apply Forall2_app.
Qed.

(** The error is orthogonal to the result. *)
Lemma to_tt_matrix_orth :
  exists z, to_tt_matrix svd mat (Some s0) (Some s1) a eps = Ok z /\ wf z /\ rshape z = [s0; s1] /\ bsz z = None /\ ndims z = d /\
    rj (map (mm s0 s1) (seq 0 d)) (fun J => (mA J - tt_entry z [] J) * tt_entry z [] J)%R = 0%R.
Proof.
  destruct matrix_of_tensor as (x3 & W3 & S3 & Pos3 & L3 & G3 & TR & HZ).
  destruct (to_tt_tensor_orth svd Hsvd x3 a eps mr W3 ltac:(now rewrite L3) Pos3 ltac:(now rewrite L3)) as (t & Et & Wt & Rt & Bt & Dt & _ & HO & _).
  rewrite L3 in *. destruct (HZ t Et Wt Rt Bt Dt) as (z & CO & Wz & Rz & Bz & Dz & Kz & Ent).
  exists z. do 5 (split; [assumption|]). rewrite <- HO, TR by lia. apply rj_ext. intros J VJ. rewrite Ent, G3 by auto. reflexivity.
Qed.
End Mat.
