(** Proofs for Compress.v. *)
From Coq Require Import String List Arith ZArith Bool Reals Lia Lra Permutation.
From Verif Require Import Scalar Tensor TensorLemmas Base Spec BaseLemmas Ops OpsR Decomp DecompSpec SvdSpec Init Vars VarSpec VarProofs AssignProofs Layers LayerProofs
  TutorialSpec DescentThms Compress CompressSpec.
From Verif Require QRExists.
Import ListNotations.
Local Open Scope nat_scope.

Section S.
Context {loss : Type}.
Implicit Types (s : store Rring loss) (l : layer).

Definition wids (l : layer) : list nat := ids_of (lmatrix l) ++ match lbias l with Some b => [b] | None => [] end.

Lemma cores_are_ids s (o : vobj Rring) : is_variable s o -> vcores o = map (@CVar Rring) (ids_of o).
Proof.
  intros [_ H]. unfold ids_of. induction (vcores o) as [|c cs IH]; auto. cbn [flat_map]. destruct (H c (or_introl eq_refl)) as (id & v & -> & _).
  cbn [app map]. f_equal. apply IH. intros c' Hc. apply H. now right.
Qed.
Lemma ids_nodup s (o : vobj Rring) : is_variable s o -> NoDup (ids_of o).
Proof. intros HV. pose proof (proj1 HV) as N. rewrite (cores_are_ids s o HV) in N. now apply NoDup_map_inv in N. Qed.

Lemma layer_weights s l rows cols ranks : is_layer s l rows cols ranks ->
  weights l = map (@CVar Rring) (wids l) /\ NoDup (wids l) /\ (forall id, In id (wids l) -> id < length (heap s)).
Proof.
  intros [HV Hw _ _ _ (b & Eb & Nb & Lb & _)]. unfold weights, wids. rewrite Eb. split; [rewrite map_app; f_equal; now apply (cores_are_ids s)|].
  split.
  - apply (Permutation_NoDup (l := b :: ids_of (lmatrix l))); [apply (Permutation_app_comm [b])|]. constructor; [rewrite ids_in; exact Nb|now apply (ids_nodup s)].
  - intros id Hid. apply in_app_iff in Hid as [Hid|[<-|[]]]; auto. apply ids_in in Hid. destruct (proj2 HV _ Hid) as (i & v & E & H & _). injection E as <-. apply nth_error_Some. congruence.
Qed.

(** The operations of set_weights. *)
Lemma ops_of (ids : list nat) (vals : list rtensor) : length ids = length vals ->
  flat_map (fun p : cref Rring * rtensor => match fst p with CVar id => [(id, snd p)] | CTensor _ => [] end) (combine (map (@CVar Rring) ids) vals) = combine ids vals.
Proof. revert vals; induction ids as [|i ids IH]; intros [|v vals] L; cbn in L; try lia; auto. cbn. f_equal. apply IH. lia. Qed.

Lemma set_weights_ok s l rows cols ranks vals : is_layer s l rows cols ranks ->
  map shape vals = map (fun id => shape (value_of (heap s) id)) (wids l) ->
  exists s', set_weights l vals s = (s', Ok Datatypes.tt) /\ map (value_of (heap s')) (wids l) = vals /\
    only (wids l) (heap s) (heap s') /\ names s' = names s /\ coll s' = coll s /\ losses s' = losses s.
Proof.
  intros HL HS. destruct (layer_weights _ _ _ _ _ HL) as (EW & ND & LT). assert (L : length (wids l) = length vals) by (apply (f_equal (@length _)) in HS; rewrite !map_length in HS; lia).
  unfold set_weights. rewrite EW, map_length, L, Nat.eqb_refl. cbn [negb].
  replace (forallb _ _) with true.
  2:{ symmetry. apply forallb_forall. intros [c v] Hp. clear -HS Hp. revert vals HS Hp. induction (wids l) as [|i ids IH]; intros [|v' vals] HS Hp; cbn in HS, Hp; try tauto; try discriminate.
      injection HS as H1 H2. destruct Hp as [E|Hp]; [|now apply (IH vals)]. injection E as <- <-. cbn [fst snd read]. rewrite H1. now apply list_eqb_eq. }
  cbn [negb]. rewrite ops_of by auto. set (ops := combine (wids l) vals). exists (run_ops ops s). split; [reflexivity|].
  assert (F : map fst ops = wids l). { unfold ops. clear -L. revert vals L. induction (wids l) as [|i ids IH]; intros [|v vals] L; cbn in L |- *; try lia; auto. f_equal. apply IH. lia. }
  split.
  - apply nth_ext with (d := Tensor [] []) (d' := Tensor [] []); [now rewrite map_length|]. intros i Hi. rewrite map_length in Hi. rewrite (nth_map_default _ _ _ 0) by auto.
    apply run_ops_value; [now rewrite F| |].
    + intros p Hp. apply LT. rewrite <- F. now apply in_map.
    + unfold ops. rewrite <- (combine_nth (wids l) vals i 0 (Tensor [] [])) by auto. apply nth_In. rewrite combine_length. lia.
  - apply run_ops_only. intros id x Hin. unfold ops in Hin. split; [now apply in_combine_l in Hin|].
    clear -HS Hin. revert vals HS Hin. induction (wids l) as [|i ids IH]; intros [|v' vals] HS Hp; cbn in HS, Hp; try tauto; try discriminate.
    injection HS as H1 H2. destruct Hp as [E|Hp]; [|now apply (IH vals)]. now injection E as <- <-.
Qed.

Lemma set_weights_fails s l rows cols ranks vals : is_layer s l rows cols ranks ->
  map shape vals <> map (fun id => shape (value_of (heap s) id)) (wids l) -> set_weights l vals s = (s, Err ValueError).
Proof.
  intros HL HS. destruct (layer_weights _ _ _ _ _ HL) as (EW & ND & LT). unfold set_weights. rewrite EW, map_length.
  destruct (Nat.eqb_spec (length vals) (length (wids l))) as [L|]; cbn [negb]; [|reflexivity].
  destruct (forallb _ _) eqn:E; cbn [negb]; [|reflexivity]. exfalso. apply HS. clear -L E. revert vals L E.
  induction (wids l) as [|i ids IH]; intros [|v vals] L E; cbn in L, E |- *; try lia; auto. apply andb_true_iff in E as [E1 E2]. cbn [fst snd read] in E1. apply list_eqb_eq in E1. f_equal; [congruence|]. apply IH; auto.
Qed.

(** The shapes of the weights. *)
Lemma weight_shapes s l rows cols ranks : is_layer s l rows cols ranks ->
  map (fun id => shape (value_of (heap s) id)) (wids l) =
    map (fun k => [nth k ranks 0; nth k rows 0; nth k cols 0; nth (S k) ranks 0]) (seq 0 (length rows)) ++ [[prodn cols]].
Proof.
  intros [HV Hw Rs Ks Bs (b & Eb & Nb & Lb & Wb & Sb)]. unfold wids. rewrite Eb, map_app. cbn [map]. rewrite Sb. f_equal.
  set (w := value s (lmatrix l)) in *. assert (Rw : rshape w = [rows; cols]) by exact Rs. assert (Bw : bsz w = None) by exact Bs.
  assert (D : length rows = ndims w). { pose proof (wf_rlen Hw) as X. rewrite Rw in X. exact (Forall_inv X). }
  assert (EC : map (fun id => shape (value_of (heap s) id)) (ids_of (lmatrix l)) = map shape (cores w)).
  { unfold w, value, deref. cbn [cores]. rewrite (cores_are_ids s _ HV), !map_map. reflexivity. }
  rewrite EC. apply nth_ext with (d := []) (d' := []); [rewrite !map_length, seq_length, D; reflexivity|]. intros k Hk. rewrite map_length in Hk. change (length (cores w)) with (ndims w) in Hk.
  rewrite (nth_map_default _ _ _ (core0 Rring)) by auto. change (nth k (cores w) (core0 Rring)) with (core w k). rewrite core_shape by auto.
  rewrite (nth_map_default _ _ _ 0) by (rewrite seq_length; lia). rewrite seq_nth by lia. unfold bpre, modes. rewrite Bw, Rw. cbn [app map]. unfold rk. change (rks w) with (vrks (lmatrix l)). rewrite Ks. reflexivity.
Qed.
Lemma core_shapes (z : rtt) rows cols : wf z -> rshape z = [rows; cols] -> bsz z = None ->
  map shape (cores z) = map (fun k => [rk z k; nth k rows 0; nth k cols 0; rk z (S k)]) (seq 0 (length rows)).
Proof.
  intros Hw Rw Bw. assert (D : length rows = ndims z). { pose proof (wf_rlen Hw) as X. rewrite Rw in X. exact (Forall_inv X). }
  apply nth_ext with (d := []) (d' := []); [rewrite !map_length, seq_length, D; reflexivity|]. intros k Hk. rewrite map_length in Hk. change (length (cores z)) with (ndims z) in Hk.
  rewrite (nth_map_default _ _ _ (core0 Rring)) by auto. change (nth k (cores z) (core0 Rring)) with (core z k). rewrite core_shape by auto.
  rewrite (nth_map_default _ _ _ 0) by (rewrite seq_length; lia). rewrite seq_nth by lia. unfold bpre, modes. rewrite Bw, Rw. reflexivity.
Qed.

(** All TT-matrices of the shape and the ranks of the layer, all biases. *)
Lemma set_layer s l rows cols ranks (z : rtt) (b : rtensor) : is_layer s l rows cols ranks ->
  wf z -> rshape z = [rows; cols] -> rks z = ranks -> bsz z = None -> wft b -> shape b = [prodn cols] ->
  exists s', set_weights l (cores z ++ [b]) s = (s', Ok Datatypes.tt) /\ is_layer s' l rows cols ranks /\ value s' (lmatrix l) = z /\
    (forall i, lbias l = Some i -> value_of (heap s') i = b) /\
    names s' = names s /\ coll s' = coll s /\ losses s' = losses s /\ length (heap s') = length (heap s) /\
    forall id, ~ In (CVar id) (weights l) -> nth_error (heap s') id = nth_error (heap s) id.
Proof.
  intros HL Wz Rz Kz Bz Wb Sb. pose proof HL as [HV Hw Rs Ks Bs (bi & Eb & Nb & Lb & Wbb & Sbb)].
  destruct (set_weights_ok s l rows cols ranks (cores z ++ [b]) HL) as (s' & E & EV & O & N1 & N2 & N3).
  { rewrite (weight_shapes _ _ _ _ _ HL), map_app, (core_shapes z rows cols) by auto. cbn [map]. rewrite Sb. f_equal. apply map_ext. intros k. unfold rk. now rewrite Kz. }
  assert (LH : length (heap s') = length (heap s)) by apply (only_length _ _ _ O).
  unfold wids in EV. rewrite Eb, map_app in EV. cbn [map] in EV. apply app_inj_tail in EV as [EV EB].
  assert (EZ : value s' (lmatrix l) = z).
  { unfold value, deref. rewrite Rs, Ks, Bs. rewrite (cores_are_ids s _ HV), map_map. change (fun x => read (heap s') (CVar x)) with (value_of (heap s')). rewrite EV. destruct z as [cs rs ks bs]. cbn in *. now subst. }
  exists s'. split; [exact E|]. split.
  { constructor; auto; [|now rewrite EZ|].
    - destruct HV as [V1 V2]. split; [exact V1|]. intros c Hc. destruct (V2 c Hc) as (id & v & -> & H1 & H2). specialize (O id). rewrite H1 in O. destruct (nth_error (heap s') id) as [v'|] eqn:E'; [|tauto].
      exists id, v'. split; [reflexivity|]. split; [exact E'|]. destruct O as (_ & O & _). congruence.
    - exists bi. split; [exact Eb|]. split; [exact Nb|]. split; [now rewrite LH|]. rewrite EB. auto. }
  split; [exact EZ|]. split; [intros i Hi; rewrite Eb in Hi; now injection Hi as <-|]. do 4 (split; [assumption|]).
  intros id Hid. specialize (O id). assert (NI : ~ In id (wids l)).
  { intros H. apply Hid. destruct (layer_weights _ _ _ _ _ HL) as (EW & _). rewrite EW. now apply in_map. }
  destruct (nth_error (heap s) id), (nth_error (heap s') id); try tauto. f_equal. now apply O.
Qed.

Lemma set_layer_raises s l rows cols ranks (z : rtt) (b : rtensor) : is_layer s l rows cols ranks ->
  wf z -> rshape z = [rows; cols] -> bsz z = None -> rks z <> ranks -> set_weights l (cores z ++ [b]) s = (s, Err ValueError).
Proof.
  intros HL Wz Rz Bz Kz. apply (set_weights_fails s l rows cols ranks); auto. rewrite (weight_shapes _ _ _ _ _ HL), map_app, (core_shapes z rows cols) by auto. intros E.
  cbn [map] in E. apply app_inj_tail in E as [E _]. apply Kz. pose proof HL as [HV Hw Rs Ks Bs _].
  assert (D : length rows = ndims z). { pose proof (wf_rlen Wz) as X. rewrite Rz in X. exact (Forall_inv X). }
  assert (D' : length rows = ndims (value s (lmatrix l))). { pose proof (wf_rlen Hw) as X. change (rshape (value s (lmatrix l))) with (vrshape (lmatrix l)) in X. rewrite Rs in X. exact (Forall_inv X). }
  assert (L2 : length ranks = S (length rows)). { pose proof (wf_klen Hw) as X. change (rks (value s (lmatrix l))) with (vrks (lmatrix l)) in X. rewrite Ks in X. lia. }
  apply nth_ext with (d := 0) (d' := 0); [rewrite (wf_klen Wz), L2, D; reflexivity|]. intros k Hk. rewrite (wf_klen Wz), <- D in Hk.
  assert (HK : forall k, k < length rows -> rk z k = nth k ranks 0 /\ rk z (S k) = nth (S k) ranks 0).
  { intros i Hi. apply (f_equal (fun u => nth i u [])) in E. rewrite !(nth_map_default _ _ _ 0) in E by (rewrite seq_length; lia). rewrite seq_nth in E by lia. cbn [Nat.add] in E. injection E as E1 E2. split; [exact E1|exact E2]. }
  destruct (Nat.eq_dec k (length rows)) as [->|]; [|apply HK; lia]. pose proof (wf_d Wz). destruct (length rows) as [|n]; [lia|]. apply (HK n). lia.
Qed.

Lemma sum_params s l rows cols ranks : is_layer s l rows cols ranks ->
  count_params l (heap s) = fold_right Nat.add 0 (map (fun k => nth k ranks 0 * nth k rows 0 * nth k cols 0 * nth (S k) ranks 0) (seq 0 (length rows))) + prodn cols.
Proof.
  intros HL. unfold count_params. destruct (layer_weights _ _ _ _ _ HL) as (EW & _). rewrite EW, map_map. cbn [read].
  rewrite <- (map_map (fun id => shape (value_of (heap s) id)) prodn), (weight_shapes _ _ _ _ _ HL), map_app, map_map. cbn [map].
  rewrite fold_right_app. cbn [fold_right].
  assert (G : forall L c, fold_right Nat.add c L = fold_right Nat.add 0 L + c) by (induction L as [|a L IH]; intros c; cbn; [reflexivity|rewrite IH; lia]).
  rewrite G. f_equal; [|unfold prodn; cbn; lia]. f_equal. apply map_ext. intros k. unfold prodn. cbn. lia.
Qed.
End S.

Local Ltac req := match goal with |- @eq _ ?u ?v => change (@eq R u v) end.
(** The effect of an error of the matrix on the output. *)
Lemma output_error M N P (x w w' y y' : rtensor) b : shape x = [M; N] -> shape w = [N; P] -> shape w' = [N; P] ->
  dense_layer x w b y -> dense_layer x w' b y' -> (sq_dist2 M P y y' <= sq_norm2 M N x * sq_dist [N; P] w w' [])%R.
Proof.
  intros Sx Sw Sw' (_ & m & n & p & A1 & A2 & A3 & G) (_ & m' & n' & p' & B1 & B2 & B3 & G').
  assert (m = M /\ n = N /\ p = P /\ m' = M /\ n' = N /\ p' = P) as (-> & -> & -> & -> & -> & ->) by (repeat split; congruence).
  set (D := fun j k => (get w [j; k] - get w' [j; k])%R).
  assert (SD : sq_dist [N; P] w w' [] = sumn (K := Rring) P (fun k => sumn (K := Rring) N (fun j => (D j k * D j k)%R))).
  { unfold sq_dist. cbn [isum app]. apply (sumn_swap Rring). }
  assert (E : forall i k, i < M -> k < P -> ((get y [i; k] - get y' [i; k]) * (get y [i; k] - get y' [i; k]) <=
     sumn (K := Rring) N (fun j => get x [i; j] * get x [i; j])%R * sumn (K := Rring) N (fun j => D j k * D j k)%R)%R).
  { intros i k Hi Hk. rewrite G, G' by auto. set (bb := match b with Some b => b k | None => 0%R end).
    replace (sumn (K := Rring) N (fun j => get x [i; j] * get w [j; k])%R + bb - (sumn (K := Rring) N (fun j => get x [i; j] * get w' [j; k])%R + bb))%R
      with (dot [N] (fun I => get x (i :: I)) (fun I => D (nth 0 I 0) k)).
    - pose proof (dot_cauchy [N] (fun I => get x (i :: I)) (fun I => D (nth 0 I 0) k)) as C. exact C.
    - transitivity (sumn (K := Rring) N (fun j => get x [i; j] * get w [j; k])%R - sumn (K := Rring) N (fun j => get x [i; j] * get w' [j; k])%R)%R; [|ring].
      unfold dot. cbn [isum nth]. etransitivity; [|apply (sumn_sub Rring N (fun j => get x [i; j] * get w [j; k])%R (fun j => get x [i; j] * get w' [j; k])%R)].
      apply (sumn_ext Rring). intros j Hj. unfold D. cbn. ring. }
  rewrite SD. unfold sq_dist2, sq_norm2.
  rewrite <- (QRExists.rsum_mul_r M (sumn (K := Rring) P (fun k => sumn (K := Rring) N (fun j => D j k * D j k)%R))). apply QRExists.rsum_le. intros i Hi.
  rewrite <- (QRExists.rsum_mul_l P). apply QRExists.rsum_le. intros k Hk. now apply E.
Qed.
