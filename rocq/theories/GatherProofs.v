(** [unravel_index], [gather_nd] and the inner product with a sparse tensor. *)
From Coq Require Import String Ascii List Arith ZArith Lia Bool Ring.
From Verif Require Import Scalar Tensor TensorLemmas TensorLemmas2 Base Spec Chain BaseLemmas Ops
  FullProofs ResultLemmas Dense AddProofs MulProofs MatmulProofs DenseMatmul Sweep.
Import ListNotations.

(** *** Indexing *)
Lemma slice_full n : slice_positions n None None None = Some (seq 0 n).
Proof.
  unfold slice_positions. cbn [Z.eqb Z.ltb Z.compare].
  replace (Z.to_nat (Z.max 0 ((Z.of_nat n - 0 + 1 - 1) / 1))) with n by (rewrite Z.div_1_r; lia).
  f_equal. transitivity (map (fun k => k) (seq 0 n)); [|apply map_id]. apply map_ext. intros; lia.
Qed.

Lemma resolve1_full n : resolve1 full_slice n = Ok (seq 0 n, true).
Proof. unfold resolve1, full_slice. now rewrite slice_full. Qed.

Lemma resolve1_nat z n : (0 <= z < Z.of_nat n)%Z -> resolve1 (IInt z) n = Ok ([Z.to_nat z], false).
Proof.
  intros H. unfold resolve1. assert (E : (z <? 0)%Z = false) by (apply Z.ltb_ge; lia). rewrite E.
  assert (E2 : ((0 <=? z) && (z <? Z.of_nat n))%Z = true).
  { apply andb_true_intro; split; [apply Z.leb_le|apply Z.ltb_lt]; lia. }
  now rewrite E2.
Qed.

Lemma getitem_sel (K : cring) (t : tensor K) spec ps : resolve spec (shape t) = Ok ps ->
  exists t', getitem t spec = Ok t' /\ wft t' /\ shape t' = sel_shape ps /\
    forall idx, vidx (sel_shape ps) idx -> get t' idx = get t (sel_idx ps idx).
Proof.
  intros E. unfold getitem. rewrite E. cbn [bind]. eexists. split; [reflexivity|]. split; [apply wft_mk|].
  split; [reflexivity|]. intros. now rewrite get_mk.
Qed.

Lemma column_ok (ix : itensor) M D k : shape ix = [M; D] -> k < D ->
  exists c, column ix k = Ok c /\ wft c /\ shape c = [M] /\ forall m, m < M -> get c [m] = get ix [m; k].
Proof.
  intros S Hk. unfold column, rank. rewrite S. cbn [length Nat.sub repeat].
  destruct (getitem_sel Zring ix [full_slice; IInt (Z.of_nat k)] [(seq 0 M, true); ([k], false)]) as (c & E & W & Sc & G).
  { rewrite S. cbn [resolve]. rewrite resolve1_full, resolve1_nat by lia. cbn [bind]. now rewrite Nat2Z.id. }
  exists c. split; [exact E|]. split; [exact W|].
  cbn [sel_shape] in *. rewrite seq_length in *. split; [exact Sc|].
  intros m Hm. rewrite G by vsolve. cbn [sel_idx nth]. now rewrite seq_nth by lia.
Qed.

Lemma nth_skipn {A} (l : list A) k i d : nth i (skipn k l) d = nth (k + i) l d.
Proof. revert l; induction k; intros l; [reflexivity|]. destruct l; cbn [skipn Nat.add nth]; [destruct i; reflexivity|apply IHk]. Qed.

Section Z.
(** All elements of an index tensor satisfy a test iff they do position by position. *)
Lemma data_forallb (K : cring) (t : tensor K) (f : K -> bool) : wft t ->
  (forallb f (data t) = true <-> forall idx, vidx (shape t) idx -> f (get t idx) = true).
Proof.
  intros W. rewrite forallb_forall. split.
  - intros H idx Hi. apply H. unfold get. apply nth_In. rewrite W. now apply ravel_lt.
  - intros H x Hx. apply (In_nth _ _ c0) in Hx as (n & Hn & <-). rewrite W in Hn.
    specialize (H (unravel (shape t) n) (unravel_valid _ _ Hn)). unfold get in H. now rewrite ravel_unravel in H.
Qed.

(** *** unravel_index *)
Lemma bcast_col_row d M : bcast [1; M] [d; 1] = Some [d; M].
Proof.
  unfold bcast. cbn [rev app bcast_rev]. destruct (Nat.eqb_spec 1 d) as [<-|Hd].
  - destruct (Nat.eqb_spec M 1) as [->|HM]; reflexivity.
  - cbn [Nat.eqb]. destruct (Nat.eqb_spec M 1) as [->|HM]; reflexivity.
Qed.
Lemma bcast_sq_col d M : bcast [d; M] [d; 1] = Some [d; M].
Proof.
  unfold bcast. cbn [rev app bcast_rev]. rewrite Nat.eqb_refl.
  destruct (Nat.eqb_spec M 1) as [->|HM]; reflexivity.
Qed.

Lemma bidx2 n m i j : i < n -> j < m -> bidx [n; m] [i; j] = [i; j].
Proof.
  intros Hi Hj. unfold bidx. cbn [length Nat.sub skipn map2].
  destruct (Nat.eqb_spec n 1), (Nat.eqb_spec m 1); repeat match goal with |- _ :: _ = _ :: _ => apply f_equal2 end; auto; lia.
Qed.
Lemma bidx_row M i j : j < M -> bidx [1; M] [i; j] = [0; j].
Proof.
  intros Hj. unfold bidx. cbn [length Nat.sub skipn map2 Nat.eqb].
  destruct (Nat.eqb_spec M 1); repeat match goal with |- _ :: _ = _ :: _ => apply f_equal2 end; auto; lia.
Qed.
Lemma bidx_col d i j : i < d -> bidx [d; 1] [i; j] = [i; 0].
Proof.
  intros Hj. unfold bidx. cbn [length Nat.sub skipn map2 Nat.eqb].
  destruct (Nat.eqb_spec d 1); repeat match goal with |- _ :: _ = _ :: _ => apply f_equal2 end; auto; lia.
Qed.

Lemma cumprod_get sh k : k < length sh ->
  get (cumprod_excl_rev (expand_dims (@Tensor Zring [length sh] (map Z.of_nat sh)) 1)) [k; 0] =
  Z.of_nat (prodn (skipn (S k) sh)).
Proof.
  intros Hk. unfold cumprod_excl_rev. cbn [expand_dims firstn skipn app shape].
  rewrite get_mk by vsolve. cbn [nth tl].
  assert (E : map (fun j => get (@Tensor Zring [length sh; 1] (map Z.of_nat sh)) [j; 0]) (seq (S k) (length sh - S k)) =
              map Z.of_nat (skipn (S k) sh)).
  { apply nth_ext with (d := 0%Z) (d' := 0%Z).
    - rewrite !map_length, seq_length. cbn [skipn]. destruct sh; cbn in *; [lia|]. now rewrite skipn_length.
    - intros n Hn. rewrite map_length, seq_length in Hn.
      rewrite (nth_map_default _ _ n 0) by (now rewrite seq_length). rewrite seq_nth by lia.
      rewrite (nth_map_default Z.of_nat _ n 0) by (rewrite skipn_length; lia).
      rewrite nth_skipn. unfold get. cbn [shape data ravel]. pn.
      rewrite (nth_map_default Z.of_nat sh _ 0) by lia. f_equal. f_equal. lia. }
  unfold expand_dims in *. cbn [firstn skipn app shape data] in *. rewrite E.
  unfold prodn. match goal with |- context [map Z.of_nat ?l] => generalize l end. intros l. cbn. induction l; cbn [map fold_right]; [reflexivity|].
  rewrite IHl. lia.
Qed.

Lemma unravel_index_ok (ix : itensor) M sh : shape ix = [M] -> 
  exists r, unravel_index ix sh = Ok r /\ wft r /\ shape r = [M; length sh] /\
    forall m k, m < M -> k < length sh ->
      get r [m; k] = ((get ix [m] / Z.of_nat (prodn (skipn (S k) sh))) mod Z.of_nat (nth k sh 0%nat))%Z.
Proof.
  intros S. unfold unravel_index.
  set (s := expand_dims (@Tensor Zring [length sh] (map Z.of_nat sh)) 1).
  assert (Si : shape (expand_dims ix 0) = [1; M]) by (cbn [expand_dims shape firstn skipn app]; now rewrite S).
  assert (Ss : shape s = [length sh; 1]) by reflexivity.
  assert (Sc : shape (cumprod_excl_rev s) = [length sh; 1]) by reflexivity.
  unfold ewise at 1. rewrite Si, Sc, bcast_col_row. cbn [bind].
  match goal with |- context [ewise Z.modulo ?q s] => set (q1 := q) end.
  assert (Sq : shape q1 = [length sh; M]) by reflexivity.
  unfold ewise. rewrite Sq, Ss, bcast_sq_col. cbn [bind].
  match goal with |- context [transpose ?q [1; 0]] => set (q2 := q) end.
  assert (Sq2 : shape q2 = [length sh; M]) by reflexivity.
  destruct (transpose_ok Zring q2 [1; 0]) as (r & E & W & Sr & G); [unfold rank; rewrite Sq2; reflexivity|].
  exists r. split; [exact E|]. split; [exact W|]. split; [rewrite Sr, Sq2; reflexivity|].
  intros m k Hm Hk. specialize (G [k; m]). cbn [map nth] in G. rewrite G by (rewrite Sq2; vsolve).
  unfold q2. rewrite get_mk by vsolve. rewrite bidx2, bidx_col by auto.
  f_equal.
  - unfold q1. rewrite get_mk by vsolve. rewrite bidx_row, bidx_col by auto.
    f_equal. apply (cumprod_get sh k Hk).
  - unfold s, get, expand_dims. cbn [shape data firstn skipn app ravel]. pn.
    rewrite (nth_map_default Z.of_nat sh _ 0) by lia. f_equal. f_equal. lia.
Qed.

Lemma ravel_digit sh I k : vidx sh I -> k < length sh ->
  ((Z.of_nat (ravel sh I) / Z.of_nat (prodn (skipn (S k) sh))) mod Z.of_nat (nth k sh 0%nat))%Z = Z.of_nat (nth k I 0).
Proof.
  intros HV. revert k. induction HV as [|i n I sh Hi HV IH]; intros k Hk; cbn [length] in Hk; [lia|].
  pose proof (ravel_lt _ _ HV) as HR.
  destruct k as [|k].
  - cbn [skipn nth ravel]. rewrite <- Nat2Z.inj_div, <- Nat2Z.inj_mod. f_equal.
    rewrite Nat.div_add_l by lia. rewrite Nat.div_small by auto. rewrite Nat.add_0_r. now apply Nat.mod_small.
  - cbn [nth]. rewrite <- (IH k) by lia. change (skipn (S (S k)) (n :: sh)) with (skipn (S k) sh).
    cbn [ravel]. rewrite <- !Nat2Z.inj_div, <- !Nat2Z.inj_mod. f_equal.
    assert (E : prodn sh = prodn (firstn k sh) * nth k sh 0 * prodn (skipn (S k) sh)).
    { rewrite <- (firstn_skipn k sh) at 1. rewrite prodn_app. rewrite <- Nat.mul_assoc. f_equal.
      clear - Hk. revert k Hk. induction sh as [|x sh IH]; intros [|k] Hk; cbn [length] in Hk; try lia; [reflexivity|].
      cbn [skipn nth]. apply IH. lia. }
    rewrite E. assert (P : 0 < prodn sh) by lia.
    assert (Pp : 0 < prodn (skipn (S k) sh)) by (rewrite E in P; nia).
    assert (Pn : 0 < nth k sh 0) by (rewrite E in P; nia).
    replace (i * (prodn (firstn k sh) * nth k sh 0 * prodn (skipn (S k) sh)))
      with ((i * prodn (firstn k sh) * nth k sh 0) * prodn (skipn (S k) sh)) by lia.
    rewrite Nat.div_add_l by lia.
    rewrite Nat.add_comm, Nat.mod_add by lia. reflexivity.
Qed.

(** Row [m] of the result is the multi-index of the m-th linear index. *)
Lemma unravel_index_spec (ix : itensor) M sh : shape ix = [M] ->
  exists r, unravel_index ix sh = Ok r /\ wft r /\ shape r = [M; length sh] /\
    forall m I, m < M -> vidx sh I -> get ix [m] = Z.of_nat (ravel sh I) ->
      forall k, k < length sh -> get r [m; k] = Z.of_nat (nth k I 0).
Proof.
  intros S. destruct (unravel_index_ok ix M sh S) as (r & E & W & Sr & G).
  exists r. repeat (split; [assumption|]). intros m I Hm HI HE k Hk. rewrite G by auto. rewrite HE.
  now apply ravel_digit.
Qed.
End Z.

Section WithK.
Variable K : cring.
Add Ring Kring : (cth K).
Implicit Types t : tt K.

Lemma gather_ok (p : tensor K) (ix : itensor) n rest M : shape p = n :: rest -> shape ix = [M] -> wft ix ->
  (forall m, m < M -> (0 <= get ix [m] < Z.of_nat n)%Z) ->
  exists r, gather p ix = Ok r /\ wft r /\ shape r = M :: rest /\
    forall m I, m < M -> vidx rest I -> get r (m :: I) = get p (Z.to_nat (get ix [m]) :: I).
Proof.
  intros Sp Si Wi H. unfold gather, rank. rewrite Sp, Si.
  assert (E : forallb (fun z => (Z.leb 0 z && Z.ltb z (Z.of_nat n))%bool) (data ix) = true).
  { apply (data_forallb Zring ix _ Wi). intros idx Hi. rewrite Si in Hi. apply vidx_1_inv in Hi as (m & -> & Hm).
    specialize (H m Hm). apply andb_true_intro. split; [apply Z.leb_le|apply Z.ltb_lt]; lia. }
  rewrite E. eexists. split; [reflexivity|]. split; [apply wft_mk|]. split; [reflexivity|].
  intros m I Hm HI. rewrite get_mk by (cbn [app]; now apply vidx_cons). reflexivity.
Qed.

Lemma gather_ok_inv (p : tensor K) (ix : itensor) n rest M r : shape p = n :: rest -> shape ix = [M] -> wft ix ->
  gather p ix = Ok r -> forall m, m < M -> (0 <= get ix [m] < Z.of_nat n)%Z.
Proof.
  intros Sp Si Wi H m Hm. unfold gather in H. rewrite Sp in H.
  destruct (forallb (fun z => (Z.leb 0 z && Z.ltb z (Z.of_nat n))%bool) (data ix)) eqn:E; [|discriminate].
  rewrite (data_forallb Zring ix _ Wi) in E. specialize (E [m]). rewrite Si in E. specialize (E ltac:(vsolve)).
  apply andb_prop in E as [E1 E2]. apply Z.leb_le in E1. apply Z.ltb_lt in E2. lia.
Qed.

Lemma stack2_ok (x y : itensor) M : shape x = [M] -> shape y = [M] ->
  exists r, stack2 x y = Ok r /\ wft r /\ shape r = [M; 2] /\
    forall m, m < M -> get r [m; 0] = get x [m] /\ get r [m; 1] = get y [m].
Proof.
  intros Sx Sy. unfold stack2. rewrite Sx, Sy, list_eqb_refl. eexists. split; [reflexivity|]. split; [apply wft_mk|].
  split; [reflexivity|]. intros m Hm. rewrite !get_mk by vsolve. split; reflexivity.
Qed.

Lemma gather_nd2_cond (ix : itensor) M n m' : shape ix = [M; 2] ->
  (forallb (fun I => let z0 := get ix (I ++ [0]) in let z1 := get ix (I ++ [1]) in
          (Z.leb 0 z0 && Z.ltb z0 (Z.of_nat n) && Z.leb 0 z1 && Z.ltb z1 (Z.of_nat m'))%bool)
        (map (unravel [M]) (seq 0 (prodn [M]))) = true <->
   forall m, m < M -> (0 <= get ix [m; 0%nat] < Z.of_nat n)%Z /\ (0 <= get ix [m; 1%nat] < Z.of_nat m')%Z).
Proof.
  intros Si. rewrite forallb_forall. split.
  - intros H m Hm. specialize (H [m]).
    assert (E : In [m] (map (unravel [M]) (seq 0 (prodn [M])))).
    { apply in_map_iff. exists m. split; [cbn; now rewrite Nat.div_1_r|]. apply in_seq. pns. lia. }
    specialize (H E). cbv zeta in H. cbn [app] in H. rewrite !andb_true_iff, !Z.leb_le, !Z.ltb_lt in H. lia.
  - intros H I HI. apply in_map_iff in HI as (m & <- & Hm). apply in_seq in Hm. pnh Hm.
    cbn [unravel prodn fold_right]. rewrite Nat.div_1_r. cbv zeta. cbn [app]. specialize (H m ltac:(lia)).
    rewrite !andb_true_iff, !Z.leb_le, !Z.ltb_lt. lia.
Qed.

Lemma gather_nd2_ok (p : tensor K) (ix : itensor) n m' rest M : shape p = n :: m' :: rest -> shape ix = [M; 2] ->
  (forall m, m < M -> (0 <= get ix [m; 0%nat] < Z.of_nat n)%Z /\ (0 <= get ix [m; 1%nat] < Z.of_nat m')%Z) ->
  exists r, gather_nd2 p ix = Ok r /\ wft r /\ shape r = M :: rest /\
    forall m I, m < M -> vidx rest I -> get r (m :: I) = get p (Z.to_nat (get ix [m; 0]) :: Z.to_nat (get ix [m; 1]) :: I).
Proof.
  intros Sp Si H. unfold gather_nd2. rewrite Sp, Si. cbn [rev app].
  apply (gather_nd2_cond ix M n m' Si) in H.
  match goal with |- context [if ?c then _ else _] => replace c with true by (symmetry; exact H) end.
  eexists. split; [reflexivity|]. split; [apply wft_mk|]. split; [reflexivity|].
  intros m I Hm HI. rewrite get_mk by (now apply vidx_cons). reflexivity.
Qed.

Lemma gather_nd2_ok_inv (p : tensor K) (ix : itensor) n m' rest M r : shape p = n :: m' :: rest -> shape ix = [M; 2] ->
  gather_nd2 p ix = Ok r ->
  forall m, m < M -> (0 <= get ix [m; 0%nat] < Z.of_nat n)%Z /\ (0 <= get ix [m; 1%nat] < Z.of_nat m')%Z.
Proof.
  intros Sp Si H. unfold gather_nd2 in H. rewrite Sp, Si in H. cbn [rev app] in H.
  match type of H with (if ?c then _ else _) = _ => destruct c eqn:E; [|discriminate] end.
  exact (proj1 (gather_nd2_cond ix M n m' Si) E).
Qed.

(** The running product of selected core slices. *)
Lemma elem_step (e s : tensor K) M r r' :
  shape e = [M; 1; r] -> shape s = [M; r; r'] ->
  exists e', matmul e s = Ok e' /\ wft e' /\ shape e' = [M; 1; r'] /\
    forall m b, m < M -> b < r' -> get e' [m; 0; b] = sumn r (fun a => get e [m; 0%nat; a] * get s [m; a; b])%K.
Proof.
  intros Se Ss. destruct (matmul_ok3 K e s M 1 r r' Se Ss) as (e' & E & W & S & H).
  exists e'. repeat (split; [assumption|]). intros m b Hm Hb. apply H; auto; lia.
Qed.

Lemma vidx_intro sh I : length I = length sh -> (forall k, k < length sh -> nth k I 0 < nth k sh 0) -> vidx sh I.
Proof.
  revert I; induction sh as [|n sh IH]; intros [|i I] HL H; cbn [length] in HL; try lia; [apply vidx_nil|].
  apply vidx_cons; [exact (H 0 ltac:(cbn; lia))|]. apply IH; [lia|]. intros k Hk. exact (H (S k) ltac:(cbn; lia)).
Qed.

(** Positions listed in the rows of an index matrix. *)
Definition row (ix : itensor) (D m : nat) : list nat := map (fun k => Z.to_nat (get ix [m; k])) (seq 0 D).
Definition rows_valid (ix : itensor) (sh : list nat) : Prop :=
  forall m k, m < nth 0 (shape ix) 0 -> k < length sh -> (0 <= get ix [m; k] < Z.of_nat (nth k sh 0%nat))%Z.

Lemma row_valid ix sh M m : shape ix = [M; length sh] -> rows_valid ix sh -> m < M -> vidx sh (row ix (length sh) m).
Proof.
  intros S H Hm. unfold rows_valid in H. rewrite S in H. cbn [nth] in H. unfold row.
  apply vidx_intro; [now rewrite map_length, seq_length|].
  intros k Hk. rewrite (nth_map_default _ _ k 0) by (rewrite seq_length; exact Hk). rewrite seq_nth by exact Hk.
  specialize (H m k Hm Hk). cbn [Nat.add]. lia.
Qed.

Definition digits (ix : itensor) (off m i : nat) : list (list nat) :=
  map (fun k => [Z.to_nat (get ix [m; off + k])]) (seq 0 i).

Lemma digits_S ix off m i : digits ix off m (S i) = digits ix off m i ++ [[Z.to_nat (get ix [m; off + i])]].
Proof. unfold digits. now rewrite seq_S, map_app. Qed.
Lemma digits_length ix off m i : length (digits ix off m i) = i.
Proof. unfold digits. now rewrite map_length, seq_length. Qed.

Lemma tensor_core t i : wf t -> is_tt_matrix t = false -> i < ndims t ->
  shape (core t i) = bpre t ++ [rk t i; mode t 0 i; rk t (S i)].
Proof.
  intros Hw Hm Hi. destruct (wf_kind_cases _ t Hw) as [(E & Hl & M)|(E & Hl & M)]; [|congruence].
  rewrite core_shape by auto. rewrite M. reflexivity.
Qed.

Section G.
Variables (t : tt K) (ix : itensor) (M : nat).
Hypothesis Hw : wf t.
Hypothesis Hm : is_tt_matrix t = false.
Definition off := length (bpre t).
Hypothesis Si : shape ix = [M; off + ndims t].
Definition ixpre (m : nat) : list nat := map (fun k => Z.to_nat (get ix [m; k])) (seq 0 off).
Hypothesis Hv : forall m, m < M ->
  (match bsz t with Some B => (0 <= get ix [m; 0%nat] < Z.of_nat B)%Z | None => True end) /\
  forall k, k < ndims t -> (0 <= get ix [m; (off + k)%nat] < Z.of_nat (mode t 0 k))%Z.

Lemma gnd_slices i : i < ndims t ->
  exists sl, (if is_batch t then
          do c <- transpose (core t i) [0; 2; 1; 3];
          do i0 <- column ix 0; do i1 <- column ix (S i);
          do ci <- stack2 i0 i1; gather_nd2 c ci
        else
          do c <- transpose (core t i) [1; 0; 2];
          do ci <- column ix i; gather c ci) = Ok sl /\ shape sl = [M; rk t i; rk t (S i)] /\
    forall m a b, m < M -> a < rk t i -> b < rk t (S i) ->
      get sl [m; a; b] = coreG t (ixpre m) i a [Z.to_nat (get ix [m; off + i])] b.
Proof.
  intros Hi. pose proof (tensor_core t i Hw Hm Hi) as Sc. unfold ixpre, off, is_batch, bpre in *.
  destruct (bsz t) as [B|]; cbn [length app Nat.add seq map] in *.
  - destruct (transpose_ok K (core t i) [0; 2; 1; 3]) as (c & E & W & S & G); [unfold rank; rewrite Sc; reflexivity|].
    rewrite E. cbn [bind]. rewrite Sc in S. cbn [map nth] in S.
    destruct (column_ok ix M (1 + ndims t) 0 Si ltac:(lia)) as (i0 & E0 & W0 & S0 & G0). rewrite E0. cbn [bind].
    destruct (column_ok ix M (1 + ndims t) (1 + i) Si ltac:(lia)) as (i1 & E1 & W1 & S1 & G1).
    cbn [Nat.add] in E1. rewrite E1. cbn [bind].
    destruct (stack2_ok i0 i1 M S0 S1) as (ci & E2 & W2 & S2 & G2). rewrite E2. cbn [bind].
    destruct (gather_nd2_ok c ci _ _ _ M S S2) as (sl & E3 & W3 & S3 & G3).
    { intros m Hmm. destruct (G2 m Hmm) as [-> ->]. rewrite G0, G1 by auto. destruct (Hv m Hmm) as [H1 H2].
      split; [exact H1|]. exact (H2 i Hi). }
    exists sl. split; [exact E3|]. split; [exact S3|]. intros m a b Hmm Ha Hb.
    rewrite G3 by (auto; vsolve). destruct (G2 m Hmm) as [-> ->]. rewrite G0, G1 by auto.
    destruct (Hv m Hmm) as [H1 H2]. specialize (H2 i Hi).
    specialize (G [Z.to_nat (get ix [m; 0]); a; Z.to_nat (get ix [m; 1 + i]); b]). cbn [map nth Nat.add] in *.
    rewrite G by (rewrite Sc; vsolve). reflexivity.
  - destruct (transpose_ok K (core t i) [1; 0; 2]) as (c & E & W & S & G); [unfold rank; rewrite Sc; reflexivity|].
    rewrite E. cbn [bind]. rewrite Sc in S. cbn [map nth] in S.
    destruct (column_ok ix M (ndims t) i Si ltac:(lia)) as (i1 & E1 & W1 & S1 & G1). rewrite E1. cbn [bind].
    destruct (gather_ok c i1 _ _ M S S1 W1) as (sl & E3 & W3 & S3 & G3).
    { intros m Hmm. rewrite G1 by auto. destruct (Hv m Hmm) as [_ H2]. exact (H2 i Hi). }
    exists sl. split; [exact E3|]. split; [exact S3|]. intros m a b Hmm Ha Hb.
    rewrite G3 by (auto; vsolve). rewrite G1 by auto. destruct (Hv m Hmm) as [_ H2]. specialize (H2 i Hi).
    specialize (G [a; Z.to_nat (get ix [m; i]); b]). cbn [map nth] in G. rewrite G by (rewrite Sc; vsolve). reflexivity.
Qed.

Lemma gather_nd_ok : exists r, gather_nd t ix = Ok r /\ wft r /\ shape r = [M] /\
  forall m, m < M -> get r [m] = tt_entry t (ixpre m) (digits ix off m (ndims t)).
Proof.
  unfold gather_nd. rewrite Hm, Si. rewrite (lastr_app [M] (off + ndims t) : lastr [M; off + ndims t] = _). cbn [bind].
  assert (E : Nat.eqb (off + ndims t) (if is_batch t then S (ndims t) else ndims t) = true).
  { unfold off, is_batch, bpre. destruct (bsz t); cbn [length Nat.add]; apply Nat.eqb_refl. }
  rewrite E. cbn [negb removelast].
  assert (E0 : reshape (ones [M] : tensor K) [None; Some 1; Some 1] = Ok (Tensor [M; 1; 1] (data (ones [M] : tensor K)))).
  { apply (reshape_infer _ (ones [M]) [] [1; 1] M); [pns; lia|pns; lia|]. unfold size. change (shape (ones [M] : tensor K)) with [M]. pns. lia. }
  rewrite E0. cbn [bind].
  match goal with |- context [foldM ?f _ _] => destruct (foldM_seq f
    (fun i e => wft e /\ shape e = [M; 1; rk t i] /\
       forall m b, m < M -> b < rk t i -> get e [m; 0; b] = lv (coreG t (ixpre m)) (rk t) (digits ix off m i) b)
    (ndims t) 0 (Tensor [M; 1; 1] (data (ones [M] : tensor K)))) as (e & Ee & We & Se & Ge) end.
  - split; [|split].
    + unfold wft. cbn [shape data]. pose proof (wft_mk K [M] (fun _ => c1)) as W. unfold wft, ones in *. rewrite W. rewrite shape_mk. pns. lia.
    + now rewrite (wf_first Hw).
    + intros m b Hmm Hb. rewrite (wf_first Hw) in Hb. replace b with 0 by lia. unfold digits. cbn [seq map].
      rewrite lv_nil. unfold delta. cbn [Nat.eqb].
      rewrite (get_reshaped K [M; 1; 1] (data (ones [M])) (ones [M]) [m; 0; 0] [m]) by (auto; change (shape (ones [M] : tensor K)) with [M]; cbn [ravel]; pns; lia).
      apply get_ones. vsolve.
  - intros i e Hi (We & Se & Ge). destruct (gnd_slices i ltac:(lia)) as (sl & Es & Ss & Gs).
    destruct (elem_step e sl M _ _ Se Ss) as (e' & Ee & We' & Se' & Ge').
    exists e'. rewrite Es. cbn [bind]. split; [exact Ee|]. split; [exact We'|]. split; [exact Se'|].
    intros m b Hmm Hb. rewrite Ge' by auto. rewrite digits_S, lv_snoc; rewrite ?digits_length; auto.
    2:{ rewrite (wf_first Hw). lia. }
    apply sumn_ext. intros a Ha. now rewrite Ge, Gs by auto.
  - rewrite Ee. cbn [bind Nat.add] in *. rewrite (wf_last Hw) in *.
    assert (ER : reshape e (map Some [M]) = Ok (Tensor [M] (data e))).
    { apply reshape_exact. unfold size. rewrite Se. pns. lia. }
    rewrite ER. eexists. split; [reflexivity|]. split.
    { unfold wft in *. cbn [shape data]. rewrite We, Se. pns. lia. }
    split; [reflexivity|]. intros m Hmm.
    rewrite (get_reshaped K [M] (data e) e [m] [m; 0; 0]) by (auto; rewrite Se; cbn [ravel]; pns; lia).
    rewrite Ge by (auto; lia). unfold tt_entry. rewrite lv_last; rewrite ?digits_length; auto.
    + apply (wf_last Hw).
    + rewrite (wf_first Hw). lia.
Qed.
End G.

(** Dense level. *)
Lemma gather_nd_full t ix M : wf t -> is_tt_matrix t = false -> shape ix = [M; length (get_shape t)] ->
  rows_valid ix (get_shape t) ->
  exists d r, full t = Ok d /\ gather_nd t ix = Ok r /\ wft r /\ shape r = [M] /\
    forall m, m < M -> get r [m] = get d (row ix (length (get_shape t)) m).
Proof.
  intros Hw Hm Si Hv. destruct (full_tensor K t Hw Hm) as (d & Fd & Wd & Sd & Ed).
  assert (GS : get_shape t = bpre t ++ nth 0 (rshape t) []).
  { unfold get_shape, bpre. rewrite Hm. destruct (bsz t); reflexivity. }
  destruct (wf_kind_cases _ t Hw) as [(_ & Hl & _)|(E & _)]; [|congruence].
  assert (L : length (nth 0 (rshape t) []) = ndims t).
  { apply (Forall_nth' (fun s : list nat => length s = ndims t)); [apply (wf_rlen Hw)|lia]. }
  rewrite GS, app_length, L in Si.
  unfold rows_valid in Hv. rewrite GS, app_length, L, Si in Hv. cbn [nth] in Hv.
  assert (Hv' : forall m, m < M ->
    (match bsz t with Some B => (0 <= get ix [m; 0%nat] < Z.of_nat B)%Z | None => True end) /\
    forall k, k < ndims t -> (0 <= get ix [m; (length (bpre t) + k)%nat] < Z.of_nat (mode t 0 k))%Z).
  { intros m Hmm. split.
    - specialize (Hv m 0 Hmm). unfold bpre in Hv. destruct (bsz t); auto. apply Hv. cbn; lia.
    - intros k Hk. specialize (Hv m (length (bpre t) + k) Hmm ltac:(lia)).
      rewrite app_nth2 in Hv by lia. replace (length (bpre t) + k - length (bpre t)) with k in Hv by lia. exact Hv. }
  destruct (gather_nd_ok t ix M Hw Hm Si Hv') as (r & Er & Wr & Sr & Gr).
  exists d, r. repeat (split; [assumption|]). intros m Hmm. rewrite Gr by auto.
  rewrite GS, app_length, L. unfold row. rewrite seq_app, map_app. cbn [Nat.add].
  fold (off t). fold (ixpre t ix m).
  rewrite Ed.
  - f_equal. unfold digits. rewrite map_map.
    assert (ES : forall n k, seq (off t + k) n = map (fun x => off t + x) (seq k n)).
    { induction n; intros k; cbn [seq map]; [reflexivity|]. f_equal. rewrite <- Nat.add_succ_r. apply IHn. }
    specialize (ES (ndims t) 0). rewrite Nat.add_0_r in ES. rewrite ES, map_map. reflexivity.
  - unfold ixpre; apply vidx_intro; [now rewrite map_length, seq_length|].
    intros k Hk. rewrite (nth_map_default _ _ k 0) by (rewrite seq_length; exact Hk). rewrite seq_nth by exact Hk.
    cbn [Nat.add]. specialize (Hv m k Hmm). rewrite app_nth1 in Hv by exact Hk. specialize (Hv ltac:(lia)). lia.
  - apply vidx_intro; [now rewrite map_length, seq_length|].
    intros k Hk. rewrite L in Hk. rewrite (nth_map_default _ _ k 0) by (rewrite seq_length; exact Hk). rewrite seq_nth by exact Hk.
    destruct (Hv' m Hmm) as [_ H2]. specialize (H2 k Hk). unfold off, mode in *. lia.
Qed.

(** Errors. *)
Lemma gather_nd_matrix_err t ix : is_tt_matrix t = true -> gather_nd t ix = Err NotImplementedError.
Proof. intros H. unfold gather_nd. now rewrite H. Qed.

Lemma gather_nd_last_err t (ix : itensor) l n : wf t -> is_tt_matrix t = false -> shape ix = l ++ [n] -> n <> length (get_shape t) ->
  gather_nd t ix = Err ValueError.
Proof.
  intros Hw H Sx Hn. unfold gather_nd. rewrite H, Sx, lastr_app. cbn [bind].
  assert (E : length (get_shape t) = if is_batch t then S (ndims t) else ndims t).
  { unfold get_shape, is_batch. rewrite H.
    destruct (wf_kind_cases _ t Hw) as [(_ & Hl & _)|(E & _)]; [|congruence].
    assert (L : length (nth 0 (rshape t) []) = ndims t).
    { apply (Forall_nth' (fun s : list nat => length s = ndims t)); [apply (wf_rlen Hw)|lia]. }
    destruct (bsz t); cbn [length]; congruence. }
  rewrite <- E. destruct (Nat.eqb_spec n (length (get_shape t))); [contradiction|reflexivity].
Qed.

Lemma gather_nd_range_err t ix M : wf t -> is_tt_matrix t = false -> shape ix = [M; length (get_shape t)] ->
  ~ rows_valid ix (get_shape t) -> exists er, gather_nd t ix = Err er.
Proof.
  intros Hw Hm Si Hnv. destruct (gather_nd t ix) as [r|er] eqn:E; [|eauto]. exfalso. apply Hnv. clear Hnv.
  assert (GS : get_shape t = bpre t ++ nth 0 (rshape t) []).
  { unfold get_shape, bpre. rewrite Hm. destruct (bsz t); reflexivity. }
  destruct (wf_kind_cases _ t Hw) as [(_ & Hl & _)|(E' & _)]; [|congruence].
  assert (L : length (nth 0 (rshape t) []) = ndims t).
  { apply (Forall_nth' (fun s : list nat => length s = ndims t)); [apply (wf_rlen Hw)|lia]. }
  rewrite GS, app_length, L in Si.
  unfold gather_nd in E. rewrite Hm, Si, (lastr_app [M] (length (bpre t) + ndims t) : lastr [M; _] = _) in E. cbn [bind] in E.
  match type of E with (if ?c then _ else _) = _ => destruct c eqn:Ec; [discriminate|] end. clear Ec.
  match type of E with context [reshape ?x ?y] => destruct (reshape x y) as [e0|] eqn:E0; [|discriminate] end.
  cbn [bind] in E.
  match type of E with context [foldM ?f ?l ?s] => destruct (foldM f l s) as [e1|] eqn:E1; [|discriminate] end.
  clear E E0.
  assert (H : forall i, i < ndims t -> forall m, m < M ->
    (match bsz t with Some B => (0 <= get ix [m; 0%nat] < Z.of_nat B)%Z | None => True end) /\
    (0 <= get ix [m; (length (bpre t) + i)%nat] < Z.of_nat (mode t 0 i))%Z).
  { intros i Hi m Hmm. destruct (foldM_ok_each _ _ _ _ i E1) as (s1 & s2 & Es); [apply in_seq; lia|].
    pose proof (tensor_core t i Hw Hm Hi) as Sc. unfold is_batch, bpre in *. clear E1.
    destruct (bsz t) as [B|]; cbn [length app Nat.add] in *.
    - destruct (transpose_ok K (core t i) [0; 2; 1; 3]) as (c & E & W & S & _); [unfold rank; rewrite Sc; reflexivity|].
      rewrite E in Es. cbn [bind] in Es. rewrite Sc in S. cbn [map nth] in S.
      destruct (column_ok ix M (1 + ndims t) 0 Si ltac:(lia)) as (i0 & E0 & W0 & S0 & G0). rewrite E0 in Es. cbn [bind] in Es.
      destruct (column_ok ix M (1 + ndims t) (1 + i) Si ltac:(lia)) as (i1 & E1 & W1 & S1 & G1).
      cbn [Nat.add] in E1. rewrite E1 in Es. cbn [bind] in Es.
      destruct (stack2_ok i0 i1 M S0 S1) as (ci & E2 & W2 & S2 & G2). rewrite E2 in Es. cbn [bind] in Es.
      destruct (gather_nd2 c ci) as [sl|] eqn:E3; [|discriminate].
      pose proof (gather_nd2_ok_inv c ci _ _ _ M sl S S2 E3 m Hmm) as H. destruct (G2 m Hmm) as [G2a G2b].
      rewrite G2a, G2b, G0, G1 in H by auto. exact H.
    - destruct (transpose_ok K (core t i) [1; 0; 2]) as (c & E & W & S & _); [unfold rank; rewrite Sc; reflexivity|].
      rewrite E in Es. cbn [bind] in Es. rewrite Sc in S. cbn [map nth] in S.
      destruct (column_ok ix M (ndims t) i Si ltac:(lia)) as (i1 & E1 & W1 & S1 & G1). rewrite E1 in Es. cbn [bind] in Es.
      destruct (gather c i1) as [sl|] eqn:E3; [|discriminate]. split; [exact I|].
      rewrite <- G1 by auto. exact (gather_ok_inv c i1 _ _ M sl S S1 W1 E3 m Hmm). }
  intros m k Hmm Hk. rewrite Si in Hmm. cbn [nth] in Hmm. rewrite GS in *. rewrite app_length, L in Hk.
  destruct (Nat.lt_ge_cases k (length (bpre t))) as [Hk1|Hk1].
  - rewrite app_nth1 by auto. destruct (H 0 (wf_d Hw) m Hmm) as [H1 _]. unfold bpre in *.
    destruct (bsz t); cbn [length] in Hk1; [|lia]. replace k with 0 by lia. exact H1.
  - rewrite app_nth2 by auto. destruct (H (k - length (bpre t)) ltac:(lia) m Hmm) as [_ H2].
    replace (length (bpre t) + (k - length (bpre t))) with k in H2 by lia. exact H2.
Qed.


Lemma tcols_pairs' d I J : length I = d -> length J = d ->
  map (fun k => [nth k I 0; nth k J 0]) (seq 0 d) = pairs I J.
Proof.
  revert I J; induction d as [|d IH]; intros [|i I] [|j J] H1 H2; cbn [length] in *; try lia; [reflexivity|].
  cbn [seq map nth]. unfold pairs. cbn [map2]. f_equal. rewrite <- seq_shift, map_map. apply IH; lia.
Qed.

(** *** Inner product with a sparse tensor *)
Lemma sparse_tail (elems vals : tensor K) M : size elems = M -> shape vals = [M] ->
  exists r, (do e1 <- reshape elems [Some 1; None]; do e2 <- reshape vals [None; Some 1];
             do r <- matmul e1 e2; getitem r [IInt 0; IInt 0]) = Ok r /\ shape r = [] /\
    get r [] = sumn M (fun m => nth m (data elems) c0 * get vals [m])%K.
Proof.
  intros Se Sv.
  assert (E1 : reshape elems [Some 1; None] = Ok (Tensor [1; M] (data elems))).
  { apply (reshape_infer _ elems [1] [] M); [pns; lia|pns; lia|]. pns. lia. }
  assert (E2 : reshape vals [None; Some 1] = Ok (Tensor [M; 1] (data vals))).
  { apply (reshape_infer _ vals [] [1] M); [pns; lia|pns; lia|]. unfold size. rewrite Sv. pns. lia. }
  rewrite E1. cbn [bind]. rewrite E2. cbn [bind].
  destruct (matmul_ok2 K (Tensor [1; M] (data elems)) (Tensor [M; 1] (data vals)) 1 M 1 eq_refl eq_refl) as (p & Ep & Wp & Sp & Gp).
  rewrite Ep. cbn [bind].
  destruct (getitem_sel K p [IInt 0; IInt 0] [([0], false); ([0], false)]) as (r & Er & Wr & Sr & Gr).
  { rewrite Sp. reflexivity. }
  exists r. split; [exact Er|]. split; [exact Sr|]. rewrite Gr by constructor. cbn [sel_idx nth].
  rewrite Gp by lia. apply sumn_ext. intros m Hm. f_equal.
  - unfold get. cbn [shape data ravel]. f_equal; pns; lia.
  - unfold get. rewrite Sv. cbn [shape data ravel]. f_equal; pns; lia.
Qed.

Lemma bcast_same M : bcast [M] [M] = Some [M].
Proof. unfold bcast. cbn [rev app bcast_rev]. now rewrite Nat.eqb_refl. Qed.
Lemma bidx1 M m : m < M -> bidx [M] [m] = [m].
Proof.
  intros H. unfold bidx. cbn [length Nat.sub skipn map2]. destruct (Nat.eqb_spec M 1); [|reflexivity].
  f_equal. lia.
Qed.

Section SM.
Variables (a : tt K) (ix : itensor) (M : nat).
Hypothesis Hw : wf a.
Hypothesis Hm : is_tt_matrix a = true.
Hypothesis Hb : bsz a = None.
Hypothesis Si : shape ix = [M; 2].
Definition sm_rows := nth 0 (rshape a) [].
Definition sm_cols := nth 1 (rshape a) [].
Hypothesis Hv : forall m, m < M ->
  (0 <= get ix [m; 0%nat] < Z.of_nat (prodn sm_rows))%Z /\ (0 <= get ix [m; 1%nat] < Z.of_nat (prodn sm_cols))%Z.
Definition sm_r (m : nat) : list nat := unravel sm_rows (Z.to_nat (get ix [m; 0])).
Definition sm_c (m : nat) : list nat := unravel sm_cols (Z.to_nat (get ix [m; 1])).
Definition sm_J (m i : nat) : list (list nat) := map (fun k => [nth k (sm_r m) 0; nth k (sm_c m) 0]) (seq 0 i).

Lemma sm_J_S m i : sm_J m (S i) = sm_J m i ++ [[nth i (sm_r m) 0; nth i (sm_c m) 0]].
Proof. unfold sm_J. now rewrite seq_S, map_app. Qed.
Lemma sm_J_length m i : length (sm_J m i) = i.
Proof. unfold sm_J. now rewrite map_length, seq_length. Qed.

Lemma sm_digit sh z k : (0 <= z < Z.of_nat (prodn sh))%Z -> k < length sh ->
  ((z / Z.of_nat (prodn (skipn (S k) sh))) mod Z.of_nat (nth k sh 0%nat))%Z = Z.of_nat (nth k (unravel sh (Z.to_nat z)) 0%nat).
Proof.
  intros Hz Hk. rewrite <- (ravel_digit sh (unravel sh (Z.to_nat z)) k); auto.
  - rewrite ravel_unravel by lia. now rewrite Z2Nat.id by lia.
  - apply unravel_valid. lia.
Qed.

Lemma sm_ok : exists e,
  (do rowlin <- column ix 0; do row_idx <- unravel_index rowlin (nth 0 (rshape a) []);
   do collin <- column ix 1; do col_idx <- unravel_index collin (nth 1 (rshape a) []);
   foldM (fun i e =>
          do c <- transpose (core a i) [1; 2; 0; 3];
          do c <- reshape c [Some (mode a 0 i * mode a 1 i); Some (rk a i); Some (rk a (S i))];
          do ri <- column row_idx i;
          do ci <- column col_idx i;
          do lin <- ewise (K := Zring) (fun x y => x * Z.of_nat (mode a 1 i) + y)%Z ri ci;
          do sl <- gather c lin;
          matmul e sl)
        (seq 0 (ndims a)) (ones [M; 1; 1])) = Ok e /\ size e = M /\
  forall m, m < M -> nth m (data e) c0 = tt_entry a [] (pairs (sm_r m) (sm_c m)).
Proof.
  destruct (column_ok ix M 2 0 Si ltac:(lia)) as (i0 & E0 & W0 & S0 & G0). rewrite E0. cbn [bind].
  destruct (unravel_index_ok i0 M sm_rows S0) as (ri & Er & Wr & Sr & Gr). fold sm_rows. rewrite Er. cbn [bind].
  destruct (column_ok ix M 2 1 Si ltac:(lia)) as (i1 & E1 & W1 & S1 & G1). rewrite E1. cbn [bind].
  destruct (unravel_index_ok i1 M sm_cols S1) as (ci & Ec & Wc & Sc & Gc). fold sm_cols. rewrite Ec. cbn [bind].
  clear E0 Er E1 Ec. destruct (matrix_rows_len K a Hw Hm) as [L0 L1]. fold sm_rows in L0. fold sm_cols in L1.
  rewrite L0 in *. rewrite L1 in *.
  assert (Hr : forall m k, m < M -> k < ndims a -> get ri [m; k] = Z.of_nat (nth k (sm_r m) 0)).
  { intros m k Hmm Hk. rewrite Gr, G0 by auto. apply sm_digit; auto; [apply (Hv m Hmm)|congruence]. }
  assert (Hc : forall m k, m < M -> k < ndims a -> get ci [m; k] = Z.of_nat (nth k (sm_c m) 0)).
  { intros m k Hmm Hk. rewrite Gc, G1 by auto. apply sm_digit; auto; [apply (Hv m Hmm)|congruence]. }
  assert (Vr : forall m k, m < M -> k < ndims a -> nth k (sm_r m) 0 < mode a 0 k).
  { intros m k Hmm Hk. apply vidx_nth; [|unfold sm_rows in *; lia]. apply unravel_valid. destruct (Hv m Hmm). unfold sm_rows in *. lia. }
  assert (Vc : forall m k, m < M -> k < ndims a -> nth k (sm_c m) 0 < mode a 1 k).
  { intros m k Hmm Hk. apply vidx_nth; [|unfold sm_cols in *; lia]. apply unravel_valid. destruct (Hv m Hmm). unfold sm_cols in *. lia. }
  match goal with |- context [foldM ?f _ _] => destruct (foldM_seq f
    (fun i e => wft e /\ shape e = [M; 1; rk a i] /\
       forall m b, m < M -> b < rk a i -> get e [m; 0; b] = lv (coreG a []) (rk a) (sm_J m i) b)
    (ndims a) 0 (ones [M; 1; 1])) as (e & Ee & We & Se & Ge) end.
  - split; [apply wft_mk|]. split; [now rewrite (wf_first Hw)|].
    intros m b Hmm Hbb. rewrite (wf_first Hw) in Hbb. replace b with 0 by lia. unfold sm_J. cbn [seq map].
    rewrite lv_nil. rewrite get_ones by vsolve. reflexivity.
  - intros i e Hi (We & Se & Ge).
    assert (Hi' : i < ndims a) by lia.
    assert (Sca : shape (core a i) = [rk a i; mode a 0 i; mode a 1 i; rk a (S i)]).
    { destruct (wf_kind_cases _ a Hw) as [(E & _)|(_ & _ & Mo)]; [congruence|].
      rewrite core_shape, Mo by auto. unfold bpre. now rewrite Hb. }
    destruct (transpose_ok K (core a i) [1; 2; 0; 3]) as (c & Ec & Wc' & Sc' & Gc'); [unfold rank; rewrite Sca; reflexivity|].
    rewrite Ec. cbn [bind]. rewrite Sca in Sc'. cbn [map nth] in Sc'.
    assert (ER : reshape c (map Some [mode a 0 i * mode a 1 i; rk a i; rk a (S i)]) =
                 Ok (Tensor [mode a 0 i * mode a 1 i; rk a i; rk a (S i)] (data c))).
    { apply reshape_exact. unfold size. rewrite Sc'. pns. lia. }
    cbn [map] in ER. rewrite ER. cbn [bind].
    destruct (column_ok ri M (ndims a) i Sr Hi') as (ri' & E3 & W3 & S3 & G3). rewrite E3. cbn [bind].
    destruct (column_ok ci M (ndims a) i Sc Hi') as (ci' & E4 & W4 & S4 & G4). rewrite E4. cbn [bind].
    unfold ewise. rewrite S3, S4, bcast_same. cbn [bind].
    match goal with |- context [gather ?x ?l] => set (lin := l); set (cc := x) end.
    assert (GL : forall m, m < M -> get lin [m] = Z.of_nat (nth i (sm_r m) 0 * mode a 1 i + nth i (sm_c m) 0)).
    { intros m Hmm. unfold lin. rewrite get_mk by vsolve. rewrite bidx1 by auto. rewrite G3, G4, Hr, Hc by auto. lia. }
    destruct (gather_ok cc lin (mode a 0 i * mode a 1 i) [rk a i; rk a (S i)] M) as (sl & Es & Ws & Ss & Gs);
      [reflexivity|reflexivity|apply wft_mk| |].
    { intros m Hmm. rewrite GL by auto. specialize (Vr m i Hmm Hi'). specialize (Vc m i Hmm Hi'). nia. }
    rewrite Es. cbn [bind].
    destruct (elem_step e sl M _ _ Se Ss) as (e' & Ee & We' & Se' & Ge').
    exists e'. split; [exact Ee|]. split; [exact We'|]. split; [exact Se'|].
    intros m b Hmm Hbb. rewrite Ge' by auto. rewrite sm_J_S, lv_snoc; rewrite ?sm_J_length; auto.
    2:{ rewrite (wf_first Hw). lia. }
    apply sumn_ext. intros x Hx. rewrite Ge by auto. f_equal.
    rewrite Gs by (auto; vsolve). rewrite GL, Nat2Z.id by auto.
    specialize (Vr m i Hmm Hi'). specialize (Vc m i Hmm Hi').
    specialize (Gc' [x; nth i (sm_r m) 0; nth i (sm_c m) 0; b]). cbn [map nth] in Gc'.
    unfold coreG. cbn [app]. rewrite <- Gc' by (rewrite Sca; vsolve).
    unfold cc. apply get_reshaped; auto. rewrite Sc'. cbn [ravel]. pns. lia.
  - cbn [Nat.add] in *. rewrite (wf_last Hw) in *. exists e. split; [exact Ee|].
    split; [unfold size; rewrite Se; pns; lia|].
    intros m Hmm. specialize (Ge m 0 Hmm ltac:(lia)). unfold get in Ge. rewrite Se in Ge. cbn [ravel] in Ge.
    replace (m * prodn [1; 1] + (0 * prodn [1] + (0 * prodn [] + 0))) with m in Ge by (pns; lia).
    rewrite Ge. unfold tt_entry. rewrite lv_last; rewrite ?sm_J_length; [|apply (wf_last Hw)|rewrite (wf_first Hw); lia].
    f_equal. unfold sm_J. rewrite <- (tcols_pairs' (ndims a)); [reflexivity| |].
    + unfold sm_r. rewrite (vidx_length _ _ (unravel_valid sm_rows (Z.to_nat (get ix [m; 0])) ltac:(destruct (Hv m Hmm); lia))). exact L0.
    + unfold sm_c. rewrite (vidx_length _ _ (unravel_valid sm_cols (Z.to_nat (get ix [m; 1])) ltac:(destruct (Hv m Hmm); lia))). exact L1.
Qed.
End SM.

Lemma sparse_inner_full (a : tt K) (s : sparse K) M : wf a -> bsz a = None ->
  shape (sp_indices s) = [M; length (get_shape a)] -> shape (sp_values s) = [M] ->
  rows_valid (sp_indices s) (get_shape a) ->
  exists d r, full a = Ok d /\ tt_sparse_flat_inner a s = Ok r /\ shape r = [] /\
    get r [] = sumn M (fun m => get d (row (sp_indices s) (length (get_shape a)) m) * get (sp_values s) [m])%K.
Proof.
  intros Hw Hb Si Sv Hv. unfold tt_sparse_flat_inner. rewrite Si. unfold nthr at 1. cbn [nth_error bind].
  destruct (is_tt_matrix a) eqn:Hm.
  - assert (GS : get_shape a = [prodn (nth 0 (rshape a) []); prodn (nth 1 (rshape a) [])]).
    { unfold get_shape. now rewrite Hm, Hb. }
    rewrite GS in *. cbn [length] in *.
    assert (Hv' : forall m, m < M -> (0 <= get (sp_indices s) [m; 0%nat] < Z.of_nat (prodn (nth 0 (rshape a) [])))%Z /\
       (0 <= get (sp_indices s) [m; 1%nat] < Z.of_nat (prodn (nth 1 (rshape a) [])))%Z).
    { intros m Hmm. unfold rows_valid in Hv. rewrite Si in Hv. cbn [nth length] in Hv.
      split; [exact (Hv m 0 Hmm ltac:(lia))|exact (Hv m 1 Hmm ltac:(lia))]. }
    destruct (sm_ok a (sp_indices s) M Hw Hm Hb Si Hv') as (e & Ee & Se & Ge). rewrite Ee. cbn [bind].
    destruct (sparse_tail e (sp_values s) M Se Sv) as (r & Er & Sr & Gr).
    destruct (full_matrix K a Hw Hm) as (d & Fd & _ & _ & Ed).
    exists d, r. split; [exact Fd|]. split; [exact Er|]. split; [exact Sr|]. rewrite Gr.
    apply sumn_ext. intros m Hmm. rewrite Ge by auto. f_equal. unfold row. cbn [seq map].
    destruct (Hv' m Hmm).
    specialize (Ed [] (Z.to_nat (get (sp_indices s) [m; 0])) (Z.to_nat (get (sp_indices s) [m; 1]))). cbn [app] in Ed.
    rewrite Ed; [reflexivity|unfold bpre; rewrite Hb; apply vidx_nil|lia|lia].
  - destruct (gather_nd_full a (sp_indices s) M Hw Hm Si Hv) as (d & e & Fd & Ee & We & Se & Ge).
    rewrite Ee. cbn [bind].
    destruct (sparse_tail e (sp_values s) M) as (r & Er & Sr & Gr); auto.
    { unfold size. rewrite Se. pns. lia. }
    exists d, r. split; [exact Fd|]. split; [exact Er|]. split; [exact Sr|]. rewrite Gr.
    apply sumn_ext. intros m Hmm. rewrite <- Ge by auto. f_equal. unfold get. rewrite Se. cbn [ravel]. f_equal. pns. lia.
Qed.

End WithK.
