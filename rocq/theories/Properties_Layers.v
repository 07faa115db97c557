(** C54: the TT dense layer (nn.py); C55: regularizers (regularizers.py). *)
From Coq Require Import String List Arith ZArith Lia Lra Bool Reals.
From Verif Require Import Scalar Tensor TensorLemmas TensorLemmas2 Base Spec Chain BaseLemmas Ops OpsR Dense SliceProofs NormProofs OrthNorm FlatProofs DecompSpec Decomp Init InitProofs Vars VarSpec VarProofs VarThms AssignProofs Layers LayerProofs RiemFull Samples
  Properties_Decomp Properties_Vars.
Import ListNotations.
Local Open Scope nat_scope.
Local Open Scope string_scope.
Local Open Scope list_scope.

(** ** C54 *)
(** At any time, whatever is in the variables of the layer: x W + b, then the activation.  [dense_layer x w b y] says that
    y is the dense matrix x w + b; [activate] applies the activation of that name. *)
Theorem C54_call : forall activations (l : layer) (x : rtensor) (h : list (var Rring)) M, let w := deref h (lmatrix l) in
  wf w -> is_tt_matrix w = true -> bsz w = None -> wft x -> shape x = [M; prodn (nth 0 (rshape w) [])] ->
  (forall b, lbias l = Some b -> wft (value_of h b) /\ shape (value_of h b) = [prodn (nth 1 (rshape w) [])]) ->
  exists dw y, full w = Ok dw /\ dense_layer x dw (option_map (fun b k => get (K := Rring) (value_of h b) [k]) (lbias l)) y /\
    shape y = [M; prodn (nth 1 (rshape w) [])] /\ call_layer activations l x h = activate activations (lactivation l) y.
Proof. exact call_full. Qed.
Print Assumptions C54_call.

Theorem C54_wrong_input_raises : forall activations (l : layer) (x : rtensor) (h : list (var Rring)) M n, let w := deref h (lmatrix l) in
  wf w -> is_tt_matrix w = true -> bsz w = None -> wft x -> shape x = [M; n] -> n <> prodn (nth 0 (rshape w) []) -> call_layer activations l x h = Err TypeError.
Proof. exact call_mismatch. Qed.
Print Assumptions C54_wrong_input_raises.

(** The initializer with that name. *)
Definition initializer_named xi (ki : string) (init : shape2 -> rarg -> res rtt) : Prop :=
  In (ki, init) [("glorot", glorot_initializer xi); ("he", he_initializer xi); ("lecun", lecun_initializer xi)].
Lemma named xi ki init sh r w : initializer_named xi ki init -> kernel xi ki sh r = Ok w -> init sh r = Ok w.
Proof. intros [E|[E|[E|[]]]]; injection E as <- <-; auto. Qed.
Lemma named_in xi ki init : initializer_named xi ki init -> In ki ["glorot"; "he"; "lecun"].
Proof. intros [E|[E|[E|[]]]]; injection E as <- <-; cbn; auto. Qed.

(** A new layer, in eager mode, or in graph mode if no variable has the name: its matrix is the one the initializer
    draws, its bias is constant, all its variables are new, the others are as before. *)
Theorem C54_new_layer : forall (loss : Type) xi eager sc rows cols r rk act (bias : bool) ki init b0 (s : store Rring loss), initializer_named xi ki init ->
  2 <= length rows -> length cols = length rows -> Forall (fun n => 0 < n) rows -> Forall (fun n => 0 < n) cols -> rank_arg (length rows) r rk ->
  (eager = false -> sreuse sc = NoReuse /\ forall i, i < length rows -> lookup (core_path (full_path sc "matrix") i) s = None /\ valid_op_name (core_path (full_path sc "matrix") i) = true) ->
  exists s' l w, keras_dense xi eager sc (nints rows) (nints cols) r act bias ki b0 s = (s', Ok l) /\ keeps s s' /\
    init (S2Rows [Some (nints rows); Some (nints cols)]) r = Ok w /\ value s' (lmatrix l) = w /\ wf w /\ rshape w = [rows; cols] /\ rks w = rk /\ bsz w = None /\
    is_variable s' (lmatrix l) /\ lactivation l = act /\ lout l = prodn cols /\
    (if bias then exists b, lbias l = Some b /\ value_of (heap s') b = mk (K := Rring) [prodn cols] (fun _ => b0) /\ nth_error (heap s) b = None /\ ~ In (CVar b) (vcores (lmatrix l)) else lbias l = None) /\
    forall id, In (CVar id) (vcores (lmatrix l)) -> nth_error (heap s) id = None.
Proof.
  intros loss xi eager sc rows cols r rk act bias ki init b0 s H0 H1 H2 H3 H4 H5 He.
  destruct (new_layer xi eager sc rows cols r rk act bias ki b0 s (named_in _ _ _ H0) H1 H2 H3 H4 H5) as (s' & l & w & E1 & E2 & E3 & R).
  2: { exists s', l, w. do 2 (split; [assumption|]). split; [now apply (named xi ki)|exact R]. } intros E. destruct (He E) as [A B]. split; [auto|].
  assert (full_path sc "matrix" <> ""). { unfold full_path. destruct (String.eqb (sname sc) ""); [discriminate|]. destruct (sname sc); discriminate. }
  intros i Hi. rewrite cname_path by auto. now apply B.
Qed.
Print Assumptions C54_new_layer.

(** A new layer applied to x: the sizes are those of compute_output_shape. *)
Theorem C54_new_layer_call : forall (loss : Type) xi activations sc rows cols r rk act (bias : bool) ki init b0 (s : store Rring loss) (x : rtensor) M, initializer_named xi ki init ->
  2 <= length rows -> length cols = length rows -> Forall (fun n => 0 < n) rows -> Forall (fun n => 0 < n) cols -> rank_arg (length rows) r rk ->
  wft x -> shape x = [M; prodn rows] ->
  exists s' l w dw y, keras_dense xi true sc (nints rows) (nints cols) r act bias ki b0 s = (s', Ok l) /\
    init (S2Rows [Some (nints rows); Some (nints cols)]) r = Ok w /\ full w = Ok dw /\
    dense_layer x dw (if bias then Some (fun _ => b0) else None) y /\ call_layer activations l x (heap s') = activate activations act y /\
    compute_output_shape l (shape x) = Ok (shape y).
Proof.
  intros loss xi acts sc rows cols r rk act bias ki init b0 s x M H0 H1 H2 H3 H4 H5 Wx Sx.
  destruct (new_layer xi true sc rows cols r rk act bias ki b0 s (named_in _ _ _ H0) H1 H2 H3 H4 H5) as (s' & l & w & E & _ & Ew & V & Hw & R1 & R2 & R3 & _ & Ea & Eo & HB & _); [discriminate|].
  apply (named xi ki init) in Ew; [|exact H0]. unfold value in V. destruct (call_full acts l x (heap s') M) as (dw & y & F & D & S & C); rewrite ?V, ?R1; auto.
  { unfold is_tt_matrix. now rewrite R1. }
  { intros b Eb. destruct bias; [|congruence]. destruct HB as (b' & Eb' & Vb & _). assert (b' = b) by congruence. subst b'. rewrite Vb. split; [apply wft_mk|reflexivity]. }
  rewrite V in F, S. rewrite R1 in S. cbn [nth] in S. exists s', l, w, dw, y. do 3 (split; [assumption|]). split; [|split; [now rewrite C, Ea|unfold compute_output_shape; rewrite Sx; cbn; now rewrite Eo, S]].
  destruct bias; [|now rewrite HB in D]. destruct HB as (b & Eb & Vb & _). rewrite Eb in D. cbn [option_map] in D. destruct D as (Wy & m & n & p & S1 & S2 & S3 & G). split; [auto|]. exists m, n, p. do 3 (split; [auto|]).
  intros i k Hi Hk. rewrite G by auto. f_equal. rewrite Vb. apply get_mk. assert (p = prodn cols) by congruence. subst p. vsolve.
Qed.
Print Assumptions C54_new_layer_call.

(** After an assignment to the matrix of the layer (C50): x times the new matrix. *)
Theorem C54_call_after_assign : forall (loss : Type) activations (l : layer) (x : rtensor) (s : store Rring loss) val M,
  is_variable s (lmatrix l) -> wf (value s (lmatrix l)) -> wf (value s val) -> vrshape val = vrshape (lmatrix l) -> vrks val = vrks (lmatrix l) -> vbsz val = vbsz (lmatrix l) -> vdt val = vdt (lmatrix l) ->
  no_alias (lmatrix l) val -> vbsz (lmatrix l) = None -> length (vrshape (lmatrix l)) = 2 -> wft x -> shape x = [M; prodn (nth 0 (vrshape val) [])] ->
  (forall b, lbias l = Some b -> ~ In (CVar b) (vcores (lmatrix l)) /\ wft (value_of (heap s) b) /\ shape (value_of (heap s) b) = [prodn (nth 1 (vrshape val) [])]) ->
  exists s' dw y, assign (lmatrix l) val s = (s', Ok (lmatrix l)) /\ full (value s val) = Ok dw /\ dense_layer x dw (option_map (fun b k => get (K := Rring) (value_of (heap s) b) [k]) (lbias l)) y /\
    call_layer activations l x (heap s') = activate activations (lactivation l) y.
Proof.
  intros loss acts l x s val M HV W1 W2 R1 R2 R3 R4 HA B0 L2 Wx Sx HB. destruct (C50_assign Rring loss s (lmatrix l) val HV W1 W2 R1 R2 R3 R4 HA) as (s' & E & EV & _ & _ & _ & _ & HO).
  assert (BV : forall b, lbias l = Some b -> value_of (heap s') b = value_of (heap s) b).
  { intros b Hb. destruct (HB b Hb) as [N _]. specialize (HO b N). unfold value_of. destruct (nth_error (heap s) b) as [v|] eqn:E1.
    - now rewrite (value_of_error _ _ _ HO : nth b (map vval (heap s')) _ = _), (value_of_error _ _ _ E1 : nth b (map vval (heap s)) _ = _).
    - apply nth_error_None in HO as H1. apply nth_error_None in E1 as H2. now rewrite !nth_overflow by (rewrite map_length; lia). }
  exists s'. destruct (call_full acts l x (heap s') M) as (dw & y & F & D & _ & C); fold (value s' (lmatrix l)) in *; rewrite ?EV; auto.
  { unfold is_tt_matrix, value. cbn [deref rshape]. rewrite R1, L2. reflexivity. } { unfold value. cbn [deref bsz]. congruence. }
  { intros b Hb. rewrite (BV b Hb). now apply HB. }
  rewrite EV in F. exists dw, y. do 2 (split; [auto|]). split; [|exact C]. destruct (lbias l) as [b|]; auto. cbn [option_map] in *. now rewrite (BV b eq_refl) in D.
Qed.
Print Assumptions C54_call_after_assign.

Theorem C54_unknown_initializer_raises : forall (loss : Type) xi eager sc i o r act bias ki b0 (s : store Rring loss), ~ In ki ["glorot"; "he"; "lecun"] ->
  keras_dense xi eager sc i o r act bias ki b0 s = (s, Err ValueError).
Proof.
  intros loss xi eager sc i o r act bias ki b0 s H. unfold keras_dense, kernel. destruct (String.eqb_spec ki "glorot") as [->|]; [now destruct H; left|].
  destruct (String.eqb_spec ki "he") as [->|]; [destruct H; right; now left|]. destruct (String.eqb_spec ki "lecun") as [->|]; [destruct H; right; right; now left|]. reflexivity.
Qed.
Print Assumptions C54_unknown_initializer_raises.

(** The documentation says that an unknown activation is refused; the constructor takes it, calls raise. *)
Theorem C54_unknown_activation_refuted : forall (loss : Type) xi activations sc, activations "foo" = None ->
  exists s' l, keras_dense xi true sc (nints [2;3]) (nints [2;2]) (RAnum (NI 2)) (Some "foo") true "glorot" 0 (empty_store (loss := loss)) = (s', Ok l) /\
  forall x M, wft x -> shape x = [M; 6] -> call_layer activations l x (heap s') = Err ValueError.
Proof.
  intros loss xi acts sc Ha. destruct (new_layer xi true sc [2;3] [2;2] (RAnum (NI 2)) [1;2;1] (Some "foo") true "glorot" 0%R (empty_store (loss := loss))) as (s' & l & w & E & _ & Ew & V & Hw & R1 & R2 & R3 & _ & Ea & Eo & HB & _);
    try discriminate.
  { cbn; auto. } { cbn; lia. } { reflexivity. } { repeat constructor. } { repeat constructor. } { left. exists 2. cbn. auto. }
  exists s', l. split; [exact E|]. intros x M Wx Sx. unfold value in V. destruct (call_full acts l x (heap s') M) as (dw & y & F & D & S & C); rewrite ?V, ?R1; auto.
  { unfold is_tt_matrix. now rewrite R1. }
  { intros b Eb. destruct HB as (b' & Eb' & Vb & _). assert (b' = b) by congruence. subst b'. rewrite Vb. split; [apply wft_mk|reflexivity]. }
  rewrite C, Ea. cbn. now rewrite Ha.
Qed.
Print Assumptions C54_unknown_activation_refuted.

(** In graph mode two layers in one scope are not possible: the second one raises, at any later time. *)
Theorem C54_graph_mode_second_layer_raises : forall (loss : Type) xi calls sc i o r act bias ki b0 (s1 : store Rring loss) l calls' xi' i' o' r' act' bias' ki' b0',
  sreuse sc = NoReuse -> keras_dense xi false sc i o r act bias ki b0 (run false calls empty_store) = (s1, Ok l) ->
  let s2 := run false calls' s1 in exists e, keras_dense xi' false sc i' o' r' act' bias' ki' b0' s2 = (s2, Err e).
Proof.
  intros loss xi calls sc i o r act bias ki b0 s1 l calls' xi' i' o' r' act' bias' ki' b0' HN E. unfold keras_dense, bindM, liftR in E. destruct (kernel xi ki _ r) as [w|]; [|discriminate].
  destruct (get_variable false sc "matrix" None _ None _) as [s1' [v|]] eqn:EG; [|discriminate]. cbn in E.
  assert (X : exists cs, s1 = run false cs s1'). { destruct bias; injection E as <- _; [|exists []; reflexivity]. eexists [CallVariable _ _ _]. reflexivity. }
  destruct X as (cs & ->). intros s2. assert (X : s2 = run false (cs ++ calls') s1') by (unfold s2, run; now rewrite fold_left_app). 
  unfold keras_dense at 1, bindM, liftR. destruct (kernel xi' ki' _ r') as [w'|e]; [|exists e; auto]. rewrite X.
  assert (Y : (cores w' = [] \/ cores w' <> [])) by (destruct (cores w'); [left|right]; congruence). destruct Y as [Y|Y].
  - unfold get_variable. rewrite HN, Y. cbn [orb negb andb truthy map create_cores length seq forM vcores]. unfold bindM, create_cores. cbn. unfold liftR, construct. cbn.
    destruct (bsz w'), (rshape w'); cbn; eexists; reflexivity.
  - rewrite (C49_second_creation_raises Rring loss calls sc "matrix" None _ None s1' v (cs ++ calls') sc "matrix") with (2 := EG); auto; [exists ValueError; auto|].
    intros i0 Hi. injection Hi as <-. cbn. destruct (cores w'); [congruence|discriminate].
Qed.
Print Assumptions C54_graph_mode_second_layer_raises.

Example C54_case : rank_arg (length [2;3]) (RAnum (NI 2)) [1;2;1] /\ Forall (fun n => 0 < n) [2;3] /\ (forall xi, initializer_named xi "he" (he_initializer xi)) /\
  lookup (core_path (full_path (Scope "net" NoReuse) "matrix") 1) (empty_store (K := Rring) (loss := unit)) = None /\ valid_op_name (core_path (full_path (Scope "net" NoReuse) "matrix") 1) = true /\
  core_path (full_path (Scope "net" NoReuse) "matrix") 1 = "net/matrix/core_1".
Proof. split; [left; exists 2; cbn; auto|]. split; [repeat constructor|]. split; [intros xi; right; left; reflexivity|]. cbn. auto 6. Qed.

(** ** C55 *)
(** l2_regularizer: scale times the squared norm, for each element of a batch. *)
Theorem C55_l2 : forall qr s my d (t : rtt), qr_ok qr -> wf t ->
  ((exists x, s = SFloat x /\ (0 < x)%R /\ my = x /\ (d = Float32 \/ d = Float64)) \/ s = STensor d my) ->
  exists reg r x, l2_regularizer qr TF1 s = Ok reg /\ reg d t = Ok (Some r) /\ full t = Ok x /\ wft r /\ shape r = bpre t /\
    forall o, inrange (bsz t) o -> get (K := Rring) r (bo (bsz t) o) = (my * sum_squares (K := Rring) t x o)%R.
Proof.
  intros qr s my d t Hq Hw Hs. destruct (convert_float s d my Hs) as [E1 E2]. destruct (C16_frobenius_norm_squared qr t false Hq Hw) as (r & x & E & W & Sr & F & G).
  unfold l2_regularizer. rewrite E1. cbn [bind]. eexists _, _, x. split; [reflexivity|]. cbn [name_scope2 bind]. rewrite E2. cbn [bind]. rewrite E. cbn [bind]. split; [reflexivity|]. split; [exact F|].
  split; [now apply wft_tmap|]. split; [exact Sr|]. intros o Ho. rewrite get_tmap; auto; [now rewrite G|]. rewrite Sr. unfold bpre, bo, inrange in *. destruct (bsz t); [vsolve|apply vidx_nil].
Qed.
Print Assumptions C55_l2.

(** cores_regularizer: scale times the sum of the penalties of the cores. *)
Theorem C55_cores : forall (f : rtensor -> res R) g s my d (t : rtt),
  ((exists x, s = SFloat x /\ (0 < x)%R /\ my = x /\ (d = Float32 \/ d = Float64)) \/ s = STensor d my) -> (forall i, i < ndims t -> f (core t i) = Ok (g i)) ->
  exists reg, cores_regularizer TF1 f s = Ok reg /\ reg d t = Ok (Some (Tensor (K := Rring) [] [(my * sumn (K := Rring) (ndims t) g)%R])).
Proof.
  intros f g s my d t Hs Hf. destruct (convert_float s d my Hs) as [E1 E2]. unfold cores_regularizer. rewrite E1. cbn [bind]. eexists. split; [reflexivity|]. cbn [name_scope2 bind]. rewrite E2. cbn [bind].
  rewrite (fold_sum f g t) by auto. reflexivity.
Qed.
Print Assumptions C55_cores.

(** A penalty that raises: the exception comes out. *)
Theorem C55_core_failure : forall (f : rtensor -> res R) g e k s my d (t : rtt),
  ((exists x, s = SFloat x /\ (0 < x)%R /\ my = x /\ (d = Float32 \/ d = Float64)) \/ s = STensor d my) -> k < ndims t -> (forall i, i < k -> f (core t i) = Ok (g i)) -> f (core t k) = Err e ->
  exists reg, cores_regularizer TF1 f s = Ok reg /\ reg d t = Err e.
Proof.
  intros f g e k s my d t Hs Hk Hf He. destruct (convert_float s d my Hs) as [E1 E2]. unfold cores_regularizer. rewrite E1. cbn [bind]. eexists. split; [reflexivity|]. cbn [name_scope2 bind]. rewrite E2. cbn [bind].
  replace (ndims t) with (k + S (ndims t - S k)) by lia. rewrite seq_app, foldM_app, (fold_sum f g t) by auto. cbn [bind plus seq foldM]. now rewrite He.
Qed.
Print Assumptions C55_core_failure.

(** Integers and negative numbers are refused when the regularizer is made, in both versions of the API. *)
Theorem C55_rejects : forall qr a f s, (exists z, s = SInt z) \/ (exists x, s = SFloat x /\ (x < 0)%R) ->
  l2_regularizer qr a s = Err ValueError /\ cores_regularizer a f s = Err ValueError.
Proof. intros qr a f s [[z ->]|(x & -> & Hx)]; unfold l2_regularizer, cores_regularizer; cbn; [auto|]. destruct (Rlt_dec x 0); [auto|contradiction]. Qed.
Print Assumptions C55_rejects.

(** Scale 0.0 disables. *)
Theorem C55_zero_disables : forall qr f, exists reg reg', l2_regularizer qr TF1 (SFloat 0) = Ok reg /\ cores_regularizer TF1 f (SFloat 0) = Ok reg' /\ forall d t, reg d t = Ok None /\ reg' d t = Ok None.
Proof.
  intros qr f. unfold l2_regularizer, cores_regularizer. cbn. destruct (Rlt_dec 0 0); [exfalso; lra|]. destruct (Req_EM_T 0 0); [|contradiction]. cbn. eexists _, _. split; [reflexivity|]. split; [reflexivity|auto].
Qed.
Print Assumptions C55_zero_disables.

(** A scale of another type than the object: TypeError, ValueError. *)
Theorem C55_wrong_type_raises : forall qr x d d' n (t : rtt), (0 < x)%R -> d <> d' ->
  (exists reg, l2_regularizer qr TF1 (SFloat x) = Ok reg /\ reg (OtherType n) t = Err TypeError) /\ (exists reg, l2_regularizer qr TF1 (STensor d x) = Ok reg /\ reg d' t = Err ValueError).
Proof.
  intros qr x d d' n t Hx Hd. unfold l2_regularizer. cbn. destruct (Rlt_dec x 0); [exfalso; lra|]. destruct (Req_EM_T x 0); [exfalso; lra|]. split; eexists; (split; [reflexivity|]); [reflexivity|].
  cbn. destruct (dtype_eqb d d') eqn:E; [|reflexivity]. now apply dtype_eqb_eq in E.
Qed.
Print Assumptions C55_wrong_type_raises.

(** With get_variable (graph mode, C49): the loss is collected. *)
Theorem C55_collected : forall qr (s : store Rring rtensor) sc name dt init x reg, let p := full_path sc name in
  qr_ok qr -> (0 < x)%R -> vdt init = Float32 -> l2_regularizer qr TF1 (SFloat x) = Ok reg ->
  sreuse sc = NoReuse -> p <> "" -> valid_op_name p = true -> wf (value s init) -> bsz (value s init) = None -> refs_ok s init -> (dt = None \/ dt = Some (vdt init)) ->
  (forall i, i < ndims (value s init) -> lookup (core_path p i) s = None) ->
  exists s' v r d, get_variable false sc name dt (Some init) (Some (reg (vdt init))) s = (s', Ok v) /\ value s' v = value s init /\ losses s' = losses s ++ [r] /\
    full (value s init) = Ok d /\ shape r = [] /\ get (K := Rring) r [] = (x * sum_squares (K := Rring) (value s init) d 0)%R.
Proof.
  intros qr s sc name dt init x reg p Hq Hx Hdt Er HN Hp Hv Hw Hb HR Hd HL.
  destruct (C55_l2 qr (SFloat x) x (vdt init) (value s init) Hq Hw) as (reg' & r & d & E1 & E2 & F & W & Sr & G); [left; exists x; auto|]. rewrite Er in E1. injection E1 as <-.
  destruct (C49_creates_one_variable_per_core Rring rtensor s sc name dt init (Some (reg (vdt init))) (Some r)) as (s' & v & E & _ & _ & _ & V & _ & _ & _ & _ & L); auto.
  exists s', v, r, d. do 4 (split; [auto|]). specialize (G 0). unfold bpre, bo, inrange in *. rewrite Hb in *. split; [exact Sr|]. now apply G.
Qed.
Print Assumptions C55_collected.

(** In TF2, which the code is written for otherwise, neither regularizer ever gives a value: 0.0 raises when it is
    made, other scales raise when it is used. *)
Theorem C55_tf2_refuted : forall qr f s, (s = SFloat 0 -> l2_regularizer qr TF2 s = Err AttributeError /\ cores_regularizer TF2 f s = Err AttributeError) /\
  (forall reg d t, l2_regularizer qr TF2 s = Ok reg -> reg d t = Err TypeError) /\ (forall reg d t, cores_regularizer TF2 f s = Ok reg -> reg d t = Err TypeError).
Proof.
  intros qr f s. unfold l2_regularizer, cores_regularizer. split; [|split].
  - intros ->. cbn. destruct (Rlt_dec 0 0); [exfalso; lra|]. destruct (Req_EM_T 0 0); [auto|contradiction].
  - intros reg d t. destruct s as [z|x|d' x]; cbn; [discriminate| |intros E; now injection E as <-]. destruct (Rlt_dec x 0); [discriminate|]. destruct (Req_EM_T x 0); [discriminate|]. cbn. intros E. now injection E as <-.
  - intros reg d t. destruct s as [z|x|d' x]; cbn; [discriminate| |intros E; now injection E as <-]. destruct (Rlt_dec x 0); [discriminate|]. destruct (Req_EM_T x 0); [discriminate|]. cbn. intros E. now injection E as <-.
Qed.
Print Assumptions C55_tf2_refuted.

(** The tensor [[-3, 6], [-1, 2]] with scale 1/2; the number of parameters as the penalty of a core. *)
Example C55_case : forall qr, qr_ok qr -> (exists reg r, l2_regularizer qr TF1 (SFloat (1/2)) = Ok reg /\ reg Float32 (toR s_t2) = Ok (Some r) /\ get (K := Rring) r [] = 25%R) /\
  exists reg, cores_regularizer TF1 (fun c => Ok (INR (length (data c)))) (SFloat 3) = Ok reg /\ reg Float64 (toR s_t2) = Ok (Some (Tensor (K := Rring) [] [12%R])).
Proof.
  intros qr Hq. split.
  - destruct (C55_l2 qr (SFloat (1/2)) (1/2) Float32 (toR s_t2) Hq r_t2_wf) as (reg & r & x & E1 & E2 & F & _ & _ & G); [left; exists (1/2)%R; repeat split; auto; lra|].
    exists reg, r. split; [auto|]. split; [auto|]. specialize (G 0 I). cbn [bsz toR] in G. etransitivity; [exact G|].
    assert (Vx : forall i, vidx [2;2] i -> get x i = tt_entry (toR s_t2) [] (split_idx (toR s_t2) i)).
    { destruct (dense (toR s_t2) r_t2_wf) as (da & F' & _ & V). rewrite F in F'. injection F' as <-. intros i Hi. apply (V [] i); [constructor|exact Hi]. }
    unfold sum_squares. cbn. rewrite !Vx by (repeat constructor). cbn. unfold coreG, Tensor.get. cbn. unfold prodn. cbn. lra.
  - destruct (C55_cores (fun c => Ok (INR (length (data c)))) (fun i => INR (length (data (core (toR s_t2) i)))) (SFloat 3) 3 Float64 (toR s_t2)) as (reg & E1 & E2); auto; [left; exists 3%R; repeat split; auto; lra|].
    exists reg. split; [auto|]. rewrite E2. do 4 f_equal. cbn. lra.
Qed.
