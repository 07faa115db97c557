(** C66: compressing a dense layer (docs/tutorials/tensor_nets.ipynb).

    [is_layer s l rows cols ranks] (CompressSpec.v): a KerasDense layer with bias in the store [s], as the constructor makes it
    (C66_new_layer).  [dense_layer x w b y]: y = x w + b (LayerProofs.v); [activate]: the activation function.
    [sq_dist]: squared Frobenius distance (SvdSpec.v).  [compress] (Compress.v) is the program of the notebook. *)
From Coq Require Import String List Arith ZArith Lia Lra Bool Reals.
From Verif Require Import Scalar Tensor TensorLemmas Base Spec BaseLemmas Dense Ops OpsR Decomp DecompSpec SvdSpec Init InitProofs Vars VarSpec Layers LayerProofs
  FullProofs Compress CompressSpec CompressProofs Properties_Svd Properties_Layers.
Import ListNotations.
Local Open Scope nat_scope.

(** TT-ranks 1, r, ..., r, 1. *)
Definition uniform (d r : nat) : list nat := 1 :: repeat r (d - 1) ++ [1].
Lemma uniform_nth d r k : 2 <= d -> nth k (uniform d r) 0 = if Nat.eqb k 0 then 1 else if Nat.ltb k d then r else if Nat.eqb k d then 1 else 0.
Proof.
  intros Hd. destruct k as [|k]; [reflexivity|]. change (Nat.eqb (S k) 0) with false. cbv iota. unfold uniform. cbn [nth]. destruct (Nat.ltb_spec (S k) d).
  - rewrite app_nth1 by (rewrite repeat_length; lia). apply nth_repeat_lt. lia.
  - rewrite app_nth2 by (rewrite repeat_length; lia). rewrite repeat_length. destruct (Nat.eqb_spec (S k) d) as [<-|].
    + now replace (k - (S k - 1)) with 0 by lia.
    + destruct (k - (d - 1)) as [|[|]] eqn:E; try lia; reflexivity.
Qed.

(** * C66 *)
(** The constructor makes such layers. *)
Theorem C66_new_layer : forall (loss : Type) xi sc rows cols r act ki init b0 (s : store Rring loss), initializer_named xi ki init ->
  2 <= length rows -> length cols = length rows -> Forall (fun n => 0 < n) rows -> Forall (fun n => 0 < n) cols -> 0 < r ->
  exists s' l, keras_dense xi true sc (nints rows) (nints cols) (RAnum (NI (Z.of_nat r))) act true ki b0 s = (s', Ok l) /\
    is_layer s' l rows cols (uniform (length rows) r) /\ lactivation l = act.
Proof.
  intros loss xi sc rows cols r act ki init b0 s HI H1 H2 H3 H4 Hr.
  destruct (C54_new_layer loss xi true sc rows cols (RAnum (NI (Z.of_nat r))) (uniform (length rows) r) act true ki init b0 s HI H1 H2 H3 H4) as (s' & l & w & E & _ & _ & V & Ww & Rw & Kw & Bw & HV & Ha & _ & (b & Eb & Vb & _ & Nb) & _).
  { left. exists r. auto. } { discriminate. }
  exists s', l. split; [exact E|]. split; [|exact Ha]. constructor; auto; try (rewrite <- V in *; assumption).
  exists b. split; [exact Eb|]. split; [exact Nb|]. split; [|rewrite Vb; split; [apply wft_mk|reflexivity]].
  destruct (Nat.lt_ge_cases b (length (heap s'))) as [|G]; auto. exfalso. unfold value_of in Vb. rewrite nth_overflow in Vb by now rewrite map_length. apply (f_equal (@shape _)) in Vb. discriminate.
Qed.
Print Assumptions C66_new_layer.

(** Weights of the right shapes are set: the layer then holds them, nothing else changes. *)
Theorem C66_set_weights : forall (loss : Type) (s : store Rring loss) l rows cols ranks (z : rtt) (b : rtensor), is_layer s l rows cols ranks ->
  wf z -> rshape z = [rows; cols] -> rks z = ranks -> bsz z = None -> wft b -> shape b = [prodn cols] ->
  exists s', set_weights l (cores z ++ [b]) s = (s', Ok Datatypes.tt) /\ is_layer s' l rows cols ranks /\ value s' (lmatrix l) = z /\
    (forall i, lbias l = Some i -> value_of (heap s') i = b) /\
    names s' = names s /\ coll s' = coll s /\ losses s' = losses s /\ length (heap s') = length (heap s) /\
    forall id, ~ In (CVar id) (weights l) -> nth_error (heap s') id = nth_error (heap s) id.
Proof. intros. now apply set_layer. Qed.
Print Assumptions C66_set_weights.

(** Other TT-ranks are refused and nothing is written. *)
Theorem C66_set_weights_raises : forall (loss : Type) (s : store Rring loss) l rows cols ranks (z : rtt) (b : rtensor), is_layer s l rows cols ranks ->
  wf z -> rshape z = [rows; cols] -> bsz z = None -> rks z <> ranks -> set_weights l (cores z ++ [b]) s = (s, Err ValueError).
Proof. intros. now apply (set_layer_raises s l rows cols ranks). Qed.
Print Assumptions C66_set_weights_raises.

(** The number of parameters. *)
Definition tt_params (rows cols ranks : list nat) : nat :=
  fold_right Nat.add 0 (map (fun k => nth k ranks 0 * nth k rows 0 * nth k cols 0 * nth (S k) ranks 0) (seq 0 (length rows))).
Theorem C66_parameters : forall (loss : Type) (s : store Rring loss) l rows cols ranks, is_layer s l rows cols ranks ->
  count_params l (heap s) = tt_params rows cols ranks + prodn cols.
Proof. intros. now apply sum_params. Qed.
Print Assumptions C66_parameters.
(** The numbers of the notebook: 1725 parameters for tt_rank 4; 21845 against 496885 for the network with tt_rank 16 and
    a second dense layer with 625 x 10 + 10 parameters. *)
Example C66_numbers : tt_params [7;4;7;4] [5;5;5;5] (uniform 4 4) + prodn [5;5;5;5] = 1725 /\
  (Z.of_nat (tt_params [7;4;7;4] [5;5;5;5] (uniform 4 16))%nat + 625 + (625 * 10 + 10) = 21845)%Z /\ (784 * 625 + 625 + (625 * 10 + 10) = 496885)%Z.
Proof. vm_compute. auto. Qed.

(** The mode sizes of core k multiplied. *)
Local Notation mode2 rows cols k := (nth k rows 0 * nth k cols 0).

Lemma compressed_ranks svd (w : rtensor) rows cols r : svd_ok svd -> shape w = [prodn rows; prodn cols] ->
  length rows = length cols -> 2 <= length rows -> Forall (fun n => 0 < n) rows -> Forall (fun n => 0 < n) cols -> 0 < r ->
  exists z, to_tt_matrix svd w (Some rows) (Some cols) (RkNum (Z.of_nat r)) None = Ok z /\ wf z /\ rshape z = [rows; cols] /\ bsz z = None /\
    (rks z = uniform (length rows) r <-> r <= mode2 rows cols 0 /\ r <= mode2 rows cols (length rows - 1)).
Proof.
  intros Hs Sw L Hd P0 P1 Hr. set (d := length rows) in *.
  assert (HL : rank_limits false (RkNum (Z.of_nat r)) None d (fun _ => r)) by (split; [exact I|]; split; [lia|]; intros; now rewrite Nat2Z.id).
  destruct (C30_exact_ranks svd w rows cols _ None _ Hs Sw L Hd P0 P1 HL) as (z & Ez & K0 & Kd & Kk). fold d in Kd, Kk.
  destruct (C30_ranks svd w rows cols _ None _ Hs Sw L Hd P0 P1 HL) as (z' & Ez' & Wz & Rz & Bz & _). rewrite Ez in Ez'. injection Ez' as <-.
  exists z. do 4 (split; [assumption|]).
  assert (Dz : ndims z = d). { pose proof (wf_rlen Wz) as X. rewrite Rz in X. symmetry. exact (Forall_inv X). }
  set (n := fun k => mode2 rows cols k).
  assert (Pn : forall k, k < d -> 0 < n k).
  { intros k Hk. unfold n. assert (0 < nth k rows 0) by (apply (Forall_nth' (fun n => 0 < n)); auto). assert (0 < nth k cols 0) by (apply (Forall_nth' (fun n => 0 < n)); auto; lia). nia. }
  assert (EQ : rks z = uniform d r <-> forall k, 0 < k < d -> rk z k = r).
  { split.
    - intros E k Hk. unfold rk. rewrite E, uniform_nth by auto. destruct (Nat.eqb_spec k 0), (Nat.ltb_spec k d); lia.
    - intros H. apply nth_ext with (d := 0) (d' := 0); [rewrite (wf_klen Wz), Dz; unfold uniform; cbn [length]; rewrite app_length, repeat_length; cbn; lia|].
      intros k Hk. rewrite (wf_klen Wz), Dz in Hk. rewrite uniform_nth by auto. fold (rk z k). destruct (Nat.eqb_spec k 0) as [->|]; [exact K0|]. destruct (Nat.ltb_spec k d); [apply H; lia|].
      destruct (Nat.eqb_spec k d) as [->|]; [exact Kd|lia]. }
  assert (PR : forall k, 0 < k < d -> n (d - 1) <= prodn (map n (seq k (d - k))) /\ prodn (map n (seq (d - 1) (d - (d - 1)))) = n (d - 1)).
  { intros k Hk. split; [|replace (d - (d - 1)) with 1 by lia; cbn [seq map]; unfold prodn; cbn; lia].
    replace (d - k) with ((d - 1 - k) + 1) by lia. rewrite seq_app, map_app, prodn_app. replace (k + (d - 1 - k)) with (d - 1) by lia. cbn [seq map].
    assert (0 < prodn (map n (seq k (d - 1 - k)))).
    { apply prodn_pos. apply Forall_forall. intros y Hy. apply in_map_iff in Hy as (j & <- & Hj). apply in_seq in Hj. apply Pn. lia. }
    change (prodn [n (d - 1)]) with (n (d - 1) * 1). nia. }
  change (nth 0 rows 0 * nth 0 cols 0) with (n 0). change (nth (d - 1) rows 0 * nth (d - 1) cols 0) with (n (d - 1)).
  change (forall k, 0 < k < d -> rk z k = Nat.min r (Nat.min (rk z (k - 1) * n (k - 1)) (prodn (map n (seq k (d - k)))))) in Kk.
  rewrite EQ. split.
  - intros H. split.
    + pose proof (H 1 ltac:(lia)) as E. rewrite Kk in E by lia. cbn [Nat.sub] in E. rewrite K0 in E. lia.
    + pose proof (H (d - 1) ltac:(lia)) as E. rewrite Kk in E by lia. rewrite (proj2 (PR (d - 1) ltac:(lia))) in E. lia.
  - intros [H0 H1]. induction k as [|k IH]; intros Hk; [lia|]. rewrite Kk by auto. cbn [Nat.sub]. rewrite Nat.sub_0_r. pose proof (proj1 (PR (S k) Hk)).
    destruct k as [|k]; [rewrite K0; lia|]. rewrite IH by lia. pose proof (Pn (S k) ltac:(lia)). nia.
Qed.

(** The compression: if the first and the last cores are large enough for the TT-rank, the weights can be set; the
    output then is the one of a dense layer whose matrix [dz] is near [w] as C30 says; the outputs differ by at most
    the norm of the input times that of the error. *)
Theorem C66_compress : forall (loss : Type) svd activations (s : store Rring loss) l (w b : rtensor) rows cols r, svd_ok svd ->
  length rows = length cols -> 2 <= length rows -> Forall (fun n => 0 < n) rows -> Forall (fun n => 0 < n) cols -> 0 < r ->
  is_layer s l rows cols (uniform (length rows) r) -> shape w = [prodn rows; prodn cols] -> wft b -> shape b = [prodn cols] ->
  r <= mode2 rows cols 0 -> r <= mode2 rows cols (length rows - 1) ->
  exists s' z dz, compress svd l w b rows cols (RkNum (Z.of_nat r)) s = (s', Ok z) /\ is_layer s' l rows cols (uniform (length rows) r) /\
    full z = Ok dz /\ shape dz = shape w /\
    (forall n U sv V, (forall k, 0 < k < length rows ->
       unfolding_svd [rows; cols] (fun i => [nth i rows 0; nth i cols 0]) (length rows) w [] k (n k) (U k) (sv k) (V k)) ->
       (sq_dist (shape w) w dz [] <= sum_cuts (length rows) (fun k => discarded (n k) r (sv k)))%R) /\
    forall x M, wft x -> shape x = [M; prodn rows] -> exists y0 y,
      dense_layer x w (Some (fun k => get (K := Rring) b [k])) y0 /\ dense_layer x dz (Some (fun k => get (K := Rring) b [k])) y /\
      call_layer activations l x (heap s') = activate activations (lactivation l) y /\
      (sq_dist2 M (prodn cols) y0 y <= sq_norm2 M (prodn rows) x * sq_dist (shape w) w dz [])%R.
Proof.
  intros loss svd acts s l w b rows cols r Hs L Hd P0 P1 Hr HL Sw Wb Sb H0 H1.
  destruct (compressed_ranks svd w rows cols r Hs Sw L Hd P0 P1 Hr) as (z & Ez & Wz & Rz & Bz & HK). pose proof (proj2 HK (conj H0 H1)) as Kz.
  destruct (set_layer s l rows cols _ z b HL Wz Rz Kz Bz Wb Sb) as (s' & Es & HL' & EV & EB & _).
  destruct (full_correct Rring z Wz) as (dz & Fz & _ & Sz & _).
  assert (Sz' : shape dz = shape w) by (rewrite Sz, get_shape_ishape, Sw; unfold bpre, ishape, is_tt_matrix; now rewrite Bz, Rz).
  exists s', z, dz. split; [unfold compress, bindM, liftR; rewrite Ez, Es; reflexivity|]. split; [exact HL'|]. do 2 (split; [assumption|]). split.
  { intros n U sv V HU. assert (HLm : rank_limits false (RkNum (Z.of_nat r)) None (length rows) (fun _ => r)) by (split; [exact I|]; split; [lia|]; intros; now rewrite Nat2Z.id).
    destruct (C30_error_bound svd w rows cols _ None _ n U sv V Hs Sw L Hd P0 P1 HLm HU) as (z' & dz' & E1 & F1 & Bd). rewrite Ez in E1. injection E1 as <-. rewrite Fz in F1. injection F1 as <-. exact Bd. }
  intros x M Wx Sx. pose proof HL' as [_ _ _ _ _ (bi & Ebi & _ & _ & _)].
  destruct (C54_call acts l x (heap s') M) as (dw & y & Fw & Dy & Sy & Cy); fold (value s' (lmatrix l)); rewrite ?EV, ?Rz; auto.
  { unfold is_tt_matrix. now rewrite Rz. }
  { intros i Hi. rewrite (EB i Hi). auto. }
  fold (value s' (lmatrix l)) in Fw, Sy. rewrite EV in Fw. rewrite Fz in Fw. injection Fw as <-.
  rewrite Ebi in Dy. cbn [option_map] in Dy. rewrite (EB bi Ebi) in Dy.
  set (y0 := mk (K := Rring) [M; prodn cols] (fun I => (sumn (K := Rring) (prodn rows) (fun j => (get (K := Rring) x [nth 0 I O; j] * get (K := Rring) w [j; nth 1 I O])%R) + get (K := Rring) b [nth 1 I O])%R)).
  assert (D0 : dense_layer x w (Some (fun k => get (K := Rring) b [k])) y0).
  { split; [apply wft_mk|]. exists M, (prodn rows), (prodn cols). do 2 (split; [assumption|]). split; [reflexivity|]. intros i k Hi Hk. unfold y0. rewrite get_mk by vsolve. reflexivity. }
  exists y0, y. do 2 (split; [assumption|]). split; [exact Cy|]. rewrite Sw. apply (output_error M (prodn rows) (prodn cols) x w dz y0 y (Some (fun k => get (K := Rring) b [k]))); auto. congruence.
Qed.
Print Assumptions C66_compress.

(** A matrix of TT-ranks at most r is not changed: the layer computes the same as the dense layer. *)
Theorem C66_low_rank_exact : forall (loss : Type) svd activations (s : store Rring loss) l (w b : rtensor) (t : rtt) rows cols r, svd_ok svd ->
  length rows = length cols -> 2 <= length rows -> Forall (fun n => 0 < n) rows -> Forall (fun n => 0 < n) cols -> 0 < r ->
  is_layer s l rows cols (uniform (length rows) r) -> wft b -> shape b = [prodn cols] ->
  r <= mode2 rows cols 0 -> r <= mode2 rows cols (length rows - 1) ->
  wf t -> rshape t = [rows; cols] -> bsz t = None -> (forall k, 0 < k < length rows -> rk t k <= r) -> full t = Ok w ->
  exists s' z, compress svd l w b rows cols (RkNum (Z.of_nat r)) s = (s', Ok z) /\
    forall x M, wft x -> shape x = [M; prodn rows] -> exists y,
      dense_layer x w (Some (fun k => get (K := Rring) b [k])) y /\ call_layer activations l x (heap s') = activate activations (lactivation l) y.
Proof.
  intros loss svd acts s l w b t rows cols r Hs L Hd P0 P1 Hr HL Wb Sb H0 H1 Wt Rt Bt Kt Ft.
  assert (Sw : shape w = [prodn rows; prodn cols]).
  { destruct (full_correct Rring t Wt) as (dt & Ft' & _ & St & _). rewrite Ft in Ft'. injection Ft' as <-. rewrite St, get_shape_ishape. unfold bpre, ishape, is_tt_matrix. now rewrite Bt, Rt. }
  destruct (C66_compress loss svd acts s l w b rows cols r Hs L Hd P0 P1 Hr HL Sw Wb Sb H0 H1) as (s' & z & dz & Ec & _ & Fz & Sz & _ & HC).
  assert (HLm : rank_limits false (RkNum (Z.of_nat r)) None (length rows) (fun _ => r)) by (split; [exact I|]; split; [lia|]; intros; now rewrite Nat2Z.id).
  destruct (C30_exact_low_rank svd w rows cols _ None _ t Hs Sw L Hd P0 P1 HLm Wt Rt Bt Ft Kt) as (z' & dz' & E1 & _ & _ & _ & F1 & S1 & G1).
  assert (z' = z). { unfold compress, bindM, liftR in Ec. rewrite E1 in Ec. destruct (set_weights l (cores z' ++ [b]) s) as [s1 [u|e]]; [|discriminate]. now injection Ec as _ ->. }
  subst z'. rewrite Fz in F1. injection F1 as <-. exists s', z. split; [exact Ec|]. intros x M Wx Sx. destruct (HC x M Wx Sx) as (y0 & y & D0 & (Wy & m & n & p & A1 & A2 & A3 & G) & C & _).
  exists y. split; [|exact C]. split; [exact Wy|]. exists m, n, p. split; [exact A1|]. split; [congruence|]. split; [exact A3|]. intros i k Hi Hk. rewrite G by auto. f_equal. apply (sumn_ext Rring). intros j Hj. f_equal.
  apply G1. rewrite <- S1, A2. vsolve.
Qed.
Print Assumptions C66_low_rank_exact.

(** A TT-rank that is too large for the first or the last core: the ranks of the decomposition are smaller
    than those of the layer and set_weights raises; nothing is written. *)
Theorem C66_large_rank_raises : forall (loss : Type) svd (s : store Rring loss) l (w b : rtensor) rows cols r, svd_ok svd ->
  length rows = length cols -> 2 <= length rows -> Forall (fun n => 0 < n) rows -> Forall (fun n => 0 < n) cols -> 0 < r ->
  is_layer s l rows cols (uniform (length rows) r) -> shape w = [prodn rows; prodn cols] ->
  mode2 rows cols 0 < r \/ mode2 rows cols (length rows - 1) < r ->
  compress svd l w b rows cols (RkNum (Z.of_nat r)) s = (s, Err ValueError).
Proof.
  intros loss svd s l w b rows cols r Hs L Hd P0 P1 Hr HL Sw H.
  destruct (compressed_ranks svd w rows cols r Hs Sw L Hd P0 P1 Hr) as (z & Ez & Wz & Rz & Bz & HK).
  unfold compress, bindM, liftR. rewrite Ez. rewrite (set_layer_raises s l rows cols _ z b HL Wz Rz Bz); [reflexivity|]. intros E. apply HK in E. lia.
Qed.
Print Assumptions C66_large_rank_raises.

(** The layer of the notebook (28 x 28 pixels to 625 numbers): TT-rank 16 works, for any weights; TT-rank 21 raises, since the last core has 4 x 5
    rows and columns. *)
Local Notation rws := [7;4;7;4].
Local Notation cls := [5;5;5;5].
Example C66_case : forall xi activations (w b : rtensor), shape w = [prodn rws; prodn cls] -> wft b -> shape b = [prodn cls] ->
  exists svd, svd_ok svd /\
  (exists (s s' : store Rring unit) l z, keras_dense xi true (Scope "net" NoReuse) (nints rws) (nints cls) (RAnum (NI 16)) (Some "relu"%string) true "glorot" 0%R empty_store = (s, Ok l) /\
     compress svd l w b rws cls (RkNum 16) s = (s', Ok z) /\
     forall x M, wft x -> shape x = [M; prodn rws] -> exists y0 y, dense_layer x w (Some (fun k => get (K := Rring) b [k])) y0 /\
       call_layer activations l x (heap s') = activate activations (Some "relu"%string) y /\ exists dz, full z = Ok dz /\
       (sq_dist2 M (prodn cls) y0 y <= sq_norm2 M (prodn rws) x * sq_dist (shape w) w dz [])%R) /\
  exists (s : store Rring unit) l, keras_dense xi true (Scope "net" NoReuse) (nints rws) (nints cls) (RAnum (NI 21)) (Some "relu"%string) true "glorot" 0%R empty_store = (s, Ok l) /\
     compress svd l w b rws cls (RkNum 21) s = (s, Err ValueError).
Proof.
  intros xi acts w b Sw Wb Sb. destruct C29_svd_exists as [svd Hs]. exists svd. split; [exact Hs|].
  assert (HI : initializer_named xi "glorot" (glorot_initializer xi)) by (left; reflexivity).
  assert (F : Forall (fun n => 0 < n) rws) by (repeat constructor). assert (G : Forall (fun n => 0 < n) cls) by (repeat constructor).
  split.
  - destruct (C66_new_layer unit xi (Scope "net" NoReuse) rws cls 16 (Some "relu"%string) "glorot" _ 0%R empty_store HI) as (s & l & E & HL & Ha); try (cbn; lia); auto.
    destruct (C66_compress unit svd acts s l w b rws cls 16 Hs) as (s' & z & dz & E1 & _ & Fz & _ & _ & HC); try (cbn; lia); auto.
    exists s, s', l, z. split; [exact E|]. split; [exact E1|]. intros x M Wx Sx. destruct (HC x M Wx Sx) as (y0 & y & D0 & _ & C & B). exists y0, y. split; [exact D0|]. rewrite <- Ha. split; [exact C|]. exists dz. auto.
  - destruct (C66_new_layer unit xi (Scope "net" NoReuse) rws cls 21 (Some "relu"%string) "glorot" _ 0%R empty_store HI) as (s & l & E & HL & Ha); try (cbn; lia); auto.
    exists s, l. split; [exact E|]. apply (C66_large_rank_raises unit svd s l w b rws cls 21 Hs); auto; try (cbn; lia).
Qed.
