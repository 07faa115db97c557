(** Proofs about the layer and the regularizers. *)
From Coq Require Import String List Arith ZArith Lia Lra Bool Reals FinFun.
From Verif Require Import Scalar Tensor TensorLemmas TensorLemmas2 Base Spec Chain BaseLemmas Ops OpsR Dense MatmulProofs DenseMatmul SliceProofs NormProofs OrthNorm DecompSpec Decomp Init InitProofs Vars VarSpec VarProofs VarThms AssignProofs Layers.
Import ListNotations.
Local Open Scope nat_scope.
Local Open Scope string_scope.
Local Open Scope list_scope.

(** [r] is x W + b. *)
Definition dense_layer (x w : rtensor) (b : option (nat -> R)) (r : rtensor) : Prop :=
  wft r /\ exists M N P, shape x = [M; N] /\ shape w = [N; P] /\ shape r = [M; P] /\
    forall i k, i < M -> k < P -> get (K := Rring) r [i; k] = (sumn (K := Rring) N (fun j => (get (K := Rring) x [i; j] * get (K := Rring) w [j; k])%R) + match b with Some b => b k | None => 0 end)%R.

Section Layer.
Variable activations : string -> option (rtensor -> res rtensor).
Definition activate (a : option string) (y : rtensor) : res rtensor :=
  match a with None => Ok y | Some n => match activations n with Some f => f y | None => Err ValueError end end.

Lemma add_row M P (y b : rtensor) : wft y -> shape y = [M; P] -> wft b -> shape b = [P] ->
  exists r, ewise (K := Rring) Rplus y b = Ok r /\ wft r /\ shape r = [M; P] /\ forall i k, i < M -> k < P -> get (K := Rring) r [i; k] = (get (K := Rring) y [i; k] + get (K := Rring) b [k])%R.
Proof.
  intros Wy Sy Wb Sb. unfold ewise. rewrite Sy, Sb. unfold bcast. cbn [rev app bcast_rev]. rewrite Nat.eqb_refl. cbn [rev app]. eexists. split; [reflexivity|]. split; [apply wft_mk|]. split; [reflexivity|].
  intros i k Hi Hk. rewrite get_mk by vsolve. unfold bidx. cbn [length Nat.sub skipn map2].
  assert (Z : forall n j, j < n -> (if Nat.eqb n 1 then 0 else j) = j) by (intros n j Hj; destruct (Nat.eqb_spec n 1); lia). now rewrite !Z.
Qed.

Lemma call_full (l : layer) (x : rtensor) (h : list (var Rring)) M : let w := deref h (lmatrix l) in
  wf w -> is_tt_matrix w = true -> bsz w = None -> wft x -> shape x = [M; prodn (nth 0 (rshape w) [])] ->
  (forall b, lbias l = Some b -> wft (value_of h b) /\ shape (value_of h b) = [prodn (nth 1 (rshape w) [])]) ->
  exists dw y, full w = Ok dw /\ dense_layer x dw (option_map (fun b k => get (K := Rring) (value_of h b) [k]) (lbias l)) y /\
    shape y = [M; prodn (nth 1 (rshape w) [])] /\ call_layer activations l x h = activate (lactivation l) y.
Proof.
  intros w Hw Mw Bw Wx Sx HB. destruct (dense_tt_full Rring x w M Hw Mw Bw Wx Sx) as (dw & r & F & E & Wr & m & n & p & S1 & S2 & S3 & G).
  destruct (full_matrix Rring w Hw Mw) as (dw' & F' & _ & S' & _). rewrite F in F'. injection F' as <-. unfold bpre in S'. rewrite Bw in S'. cbn [app] in S'.
  assert (m = M) by congruence. assert (n = prodn (nth 0 (rshape w) [])) by congruence. assert (p = prodn (nth 1 (rshape w) [])) by congruence. subst m n p.
  unfold call_layer. cbn [matmul_any]. fold w. unfold is_batch. rewrite Bw, E. cbn [bind].
  destruct (lbias l) as [b|]; cbn [option_map].
  - destruct (HB b eq_refl) as [Wb Sb]. destruct (add_row M _ r (value_of h b) Wr S3 Wb Sb) as (y & Ey & Wy & Sy & Gy). exists dw, y. split; [auto|]. split; [|split; [exact Sy|now rewrite Ey]].
    split; [auto|]. do 3 eexists. do 3 (split; [eassumption|]). intros i k Hi Hk. now rewrite Gy, G.
  - exists dw, r. split; [auto|]. split; [|split; [auto|reflexivity]]. split; [auto|]. do 3 eexists. do 3 (split; [eassumption|]). intros i k Hi Hk. rewrite G by auto. symmetry. apply Rplus_0_r.
Qed.

Lemma call_mismatch (l : layer) (x : rtensor) (h : list (var Rring)) M n : let w := deref h (lmatrix l) in
  wf w -> is_tt_matrix w = true -> bsz w = None -> wft x -> shape x = [M; n] -> n <> prodn (nth 0 (rshape w) []) -> call_layer activations l x h = Err TypeError.
Proof. intros w Hw Mw Bw Wx Sx Hn. unfold call_layer. cbn [matmul_any]. fold w. unfold is_batch. rewrite Bw, (dense_tt_mis Rring x w M n) by auto. reflexivity. Qed.
End Layer.

Section New.
Context {loss : Type}.
Variable xi : nat -> list nat -> R.
Lemma kernel_ok ki rows cols r rk : In ki ["glorot"; "he"; "lecun"] -> 2 <= length rows -> length cols = length rows ->
  Forall (fun n => 0 < n) rows -> Forall (fun n => 0 < n) cols -> rank_arg (length rows) r rk ->
  exists w, kernel xi ki (S2Rows [Some (nints rows); Some (nints cols)]) r = Ok w /\ wf w /\ rshape w = [rows; cols] /\ rks w = rk /\ bsz w = None.
Proof.
  intros Hk H1 H2 H3 H4 H5. assert (RO : rows_of rows cols (S2Rows [Some (nints rows); Some (nints cols)])) by now left.
  unfold kernel. destruct Hk as [<-|[<-|[<-|[]]]]; cbn [String.eqb Ascii.eqb Bool.eqb];
  (match goal with |- exists w, ?f _ _ _ = _ /\ _ => unfold f end);
  (match goal with |- exists t, variance_initializer _ ?lb _ _ = _ /\ _ => destruct (variance_ok xi lb rows cols (S2Rows [Some (nints rows); Some (nints cols)]) r rk) as (t & Et & []); auto end); eauto 8.
Qed.

Lemma new_layer eager sc rows cols r rk act (bias : bool) ki b0 (s : store Rring loss) : In ki ["glorot"; "he"; "lecun"] -> 2 <= length rows -> length cols = length rows ->
  Forall (fun n => 0 < n) rows -> Forall (fun n => 0 < n) cols -> rank_arg (length rows) r rk ->
  (eager = false -> sreuse sc = NoReuse /\ forall i, i < length rows -> lookup (cname (full_path sc "matrix") i) s = None /\ valid_op_name (cname (full_path sc "matrix") i) = true) ->
  exists s' l w, keras_dense xi eager sc (nints rows) (nints cols) r act bias ki b0 s = (s', Ok l) /\ keeps s s' /\
    kernel xi ki (S2Rows [Some (nints rows); Some (nints cols)]) r = Ok w /\ value s' (lmatrix l) = w /\ wf w /\ rshape w = [rows; cols] /\ rks w = rk /\ bsz w = None /\
    is_variable s' (lmatrix l) /\ lactivation l = act /\ lout l = prodn cols /\
    (if bias then exists b, lbias l = Some b /\ value_of (heap s') b = mk (K := Rring) [prodn cols] (fun _ => b0) /\ nth_error (heap s) b = None /\ ~ In (CVar b) (vcores (lmatrix l)) else lbias l = None) /\
    forall id, In (CVar id) (vcores (lmatrix l)) -> nth_error (heap s) id = None.
Proof.
  intros Hk H1 H2 H3 H4 H5 He. destruct (kernel_ok ki rows cols r rk Hk H1 H2 H3 H4 H5) as (w & Ew & Hw & R1 & R2 & R3).
  set (init := VObj (map CTensor (cores w)) (rshape w) (rks w) (bsz w) Float32).
  assert (DR : deref (heap s) init = w). { unfold deref, init. cbn. rewrite map_map. cbn. rewrite map_id. now destruct w. }
  assert (LW : length (vcores init) = length rows). { unfold init. cbn. rewrite map_length. pose proof (wf_rlen Hw) as X. rewrite R1 in X. unfold ndims in X. symmetry. exact (Forall_inv X). }
  destruct (create_full eager sc "matrix" None init s) with (reg := @None (tt Rring -> res (option loss))) as (s' & Eh & Ec & El & HK & HL & HN & HD & EG).
  { now rewrite DR. } { now left. } { intros id Hid. apply in_map_iff in Hid as (? & ? & _). discriminate. } { intros E0. destruct (He E0) as [A B]. split; [auto|]. intros j Hj. apply B. lia. }
  cbn [run_reg] in EG. rewrite DR in HD.
  assert (PC : prodn (map to_nat (nints cols)) = prodn cols). { f_equal. unfold nints. rewrite map_map. cbn. rewrite (map_ext _ (fun x => x)); [apply map_id|]. intros. apply Nat2Z.id. }
  assert (LH : length (heap s') = length (heap s) + length (vcores init)) by (rewrite Eh, app_length, map_length, seq_length; auto).
  assert (VV : forall id, In (CVar id) (vcores (new_object init s)) -> length (heap s) <= id < length (heap s')).
  { intros id Hid. apply in_map_iff in Hid as (i & E & Hi). injection E as <-. apply in_seq in Hi. lia. }
  assert (IV : forall s2 : store Rring loss, (forall id v, nth_error (heap s') id = Some v -> nth_error (heap s2) id = Some v) -> is_variable s2 (new_object init s)).
  { intros s2 H. split; [apply Injective_map_NoDup; [intros a b E; now injection E|apply seq_NoDup]|].
    intros c Hc. pose proof Hc as Hc'. apply in_map_iff in Hc as (id & <- & Hid). apply in_seq in Hid. destruct (nth_error (heap s') id) as [v|] eqn:EV; [|apply nth_error_None in EV; lia].
    exists id, v. split; [auto|]. split; [auto|]. rewrite Eh, nth_error_app2 in EV by lia. rewrite nth_error_map, (nth_error_nth' _ 0) in EV by (rewrite seq_length; lia). injection EV as <-. reflexivity. }
  unfold keras_dense. rewrite PC. unfold bindM at 1, liftR at 1. rewrite Ew. unfold bindM at 1. fold init. rewrite EG.
  destruct bias.
  - unfold bindM, new_variable. cbn [heap names coll losses]. do 2 eexists. exists w. split; [reflexivity|]. cbn [lmatrix lbias lactivation lout].
    set (s2 := Store _ _ _ _).
    assert (K2 : keeps s s2). { destruct HK as (A & B & C & D). split; [|split; [exact B|split; [exact C|exact D]]]. intros id v Hv. cbn [heap s2]. rewrite nth_error_app1; auto. apply nth_error_Some. rewrite (A id v Hv). discriminate. }
    split; [exact K2|]. split; [auto|]. split.
    { unfold value, deref in *. rewrite <- HD. f_equal. apply map_ext_in. intros c Hc. unfold new_object in Hc. cbn [vcores] in Hc. pose proof Hc as Hc'. apply in_map_iff in Hc as (id & <- & Hid). apply VV in Hc'. cbn [read]. unfold value_of, s2. cbn [heap]. rewrite map_app, app_nth1; auto. rewrite map_length. lia. }
    do 4 (split; [auto|]). split; [apply IV; intros id v Hv; cbn [heap s2]; rewrite nth_error_app1; auto; apply nth_error_Some; congruence|]. do 2 (split; [auto|]). split.
    + eexists. split; [reflexivity|]. split; [unfold value_of, s2; cbn [heap]; rewrite map_app, app_nth2 by (rewrite map_length; lia); now rewrite map_length, Nat.sub_diag|]. split; [apply nth_error_None; lia|].
      intros H. apply VV in H. lia.
    + intros id Hid. apply VV in Hid. apply nth_error_None. lia.
  - do 2 eexists. exists w. split; [reflexivity|]. cbn [lmatrix lbias lactivation lout]. split; [exact HK|]. split; [auto|]. split; [exact HD|]. do 4 (split; [auto|]). split; [apply IV; auto|]. do 3 (split; [auto|]).
    intros id Hid. apply VV in Hid. apply nth_error_None. lia.
Qed.
End New.

(** ** Regularizers *)
Section Reg.
Variable qr : rtensor -> rtensor * rtensor.
Lemma convert_float s d my : (exists x, s = SFloat x /\ (0 < x)%R /\ my = x /\ (d = Float32 \/ d = Float64)) \/ (s = STensor d my) ->
  check_scale TF1 s = Ok false /\ convert_scale s d = Ok my.
Proof.
  intros [(x & -> & Hx & -> & Hd)| ->]; cbn.
  - destruct (Rlt_dec x 0); [exfalso; lra|]. destruct (Req_EM_T x 0); [exfalso; lra|]. split; [auto|]. destruct Hd as [-> | ->]; reflexivity.
  - split; [auto|]. now rewrite (proj2 (dtype_eqb_eq d d) eq_refl).
Qed.
Lemma fold_sum (f : rtensor -> res R) (g : nat -> R) (t : rtt) n : (forall i, i < n -> f (core t i) = Ok (g i)) ->
  foldM (fun i p => do x <- f (core t i); Ok (p + x)%R) (seq 0 n) 0%R = Ok (sumn (K := Rring) n g).
Proof.
  induction n as [|n IH]; intros H; [reflexivity|]. rewrite seq_S, foldM_app, IH by (intros; apply H; lia). cbn. now rewrite H by lia.
Qed.
End Reg.
