(** C65: the program of docs/tutorials/riemannian.ipynb.

    Definitions used below (TutorialSpec.v): [half_sq_dist x a]: half the squared Frobenius norm of
    x - a; [tangent], [full_tt_ranks], [admissible] (RiemSpec.v); [riemannian_gradient x a G]: [G] is the
    orthogonal projection of x - a onto the tangent space of x; [stationary x a]: x - a is orthogonal to the
    tangent space; [ready s X A r]: X is a variable with at least two cores, A has the same shape and
    shares no variable with X, [r] limits the ranks to the ranks of X; [only_changes X s s']: no variable is
    created, and only the values of the variables of X differ between [s] and [s'].  [value s X]: the current value (VarSpec.v).
    [descent_step] is the function step of the notebook, [descent] the loop calling it. *)
From Coq Require Import String List Arith ZArith Lia Lra Bool Reals.
From Verif Require Import Scalar Tensor TensorLemmas Base Spec BaseLemmas Dense
  OpsR Decomp DecompSpec SvdSpec QRExists Riem RiemSpec RiemFull RiemMade Vars VarSpec Samples Properties_Svd Properties_Riem
  Tutorial TutorialSpec TutorialProofs DescentProofs DescentThms DescentVars.
Import ListNotations.
Local Open Scope nat_scope.

(** * C65 *)
(** One step: nothing is raised, the returned number is the loss at the new X, X stays a variable of the same
    shape and ranks, A and everything else is left alone. *)
Theorem C65_step : forall (loss : Type) qr svd (s : store Rring loss) X A addr alpha r, qr_ok qr -> svd_ok svd ->
  ready s X A r -> admissible (value s X) ->
  exists s', descent_step qr svd X A addr alpha r s = (s', Ok (half_sq_dist (value s' X) (value s A))) /\
    ready s' X A r /\ value s' A = value s A /\ only_changes X s s'.
Proof.
  intros loss qr svd s X A addr alpha r Hq Hs HR HA. destruct (step_ok qr svd s X A addr alpha r Hq Hs HR HA) as (s' & p & E & _ & W & V & EA & OC & _).
  exists s'. split; [exact E|]. split; [now apply (ready_next s)|]. split; assumption.
Qed.
Print Assumptions C65_step.

(** Any number of steps. *)
Theorem C65_any_number_of_steps : forall (loss : Type) qr svd (s : store Rring loss) X A addr alpha r n, qr_ok qr -> svd_ok svd ->
  ready s X A r -> admissible (value s X) ->
  exists s' log, descent qr svd X A addr alpha r n s = (s', Ok log) /\ length log = n /\
    ready s' X A r /\ value s' A = value s A /\ only_changes X s s' /\ (0 < n -> last log 0%R = half_sq_dist (value s' X) (value s A)).
Proof.
  intros loss qr svd s X A addr alpha r n Hq Hs HR HA. destruct (steps_ok qr svd X A addr alpha r Hq Hs n 0 s [] HR HA) as (s' & log & H).
  exists s', log. exact H.
Qed.
Print Assumptions C65_any_number_of_steps.

(** What the step does, at a point with minimal ranks: with the Riemannian gradient [G], the point X - alpha G
    (whose loss is given exactly) is rounded; the error is at most sqrt(d-1) times that of any tensor with
    the ranks of X. *)
Theorem C65_gradient_step : forall (loss : Type) qr svd (s : store Rring loss) X A addr alpha r, qr_ok qr -> svd_ok svd ->
  ready s X A r -> full_tt_ranks (value s X) ->
  let x := value s X in let a := value s A in
  exists s' f G, descent_step qr svd X A addr alpha r s = (s', Ok f) /\ riemannian_gradient x a G /\
    let off := fun (c : rtt) i => (tt_at x i - alpha * G i - tt_at c i)%R in
    dot (ishape x) (off a) (off a) = (2 * half_sq_dist x a - alpha * (2 - alpha) * dot (ishape x) G G)%R /\
    (forall b : rtt, wf b -> rshape b = rshape x -> bsz b = None -> (forall k, 0 < k < ndims x -> rk b k <= rk x k) ->
       (dot (ishape x) (off (value s' X)) (off (value s' X)) <= INR (ndims x - 1) * dot (ishape x) (off b) (off b))%R) /\
    (sqrt (2 * f) <= sqrt (2 * half_sq_dist x a - alpha * (2 - alpha) * dot (ishape x) G G) + sqrt (INR (ndims x - 1)) * Rabs alpha * sqrt (dot (ishape x) G G))%R.
Proof.
  intros loss qr svd s X A addr alpha r Hq Hs HR HF x a. pose proof (rd_wf _ _ _ _ HR) as Wx. fold x in Wx.
  destruct (step_ok qr svd s X A addr alpha r Hq Hs HR (full_admissible _ Wx HF)) as (s' & p & E & _ & W & V & EA & OC & HG & HB). fold x a in E, W, HG, HB.
  exists s', (half_sq_dist (value s' X) a), (tt_at p). split; [exact E|]. split; [auto|].
  assert (En : (2 * half_sq_dist x a)%R = dot (ishape x) (minus x a) (minus x a)) by (unfold half_sq_dist; field).
  destruct (new_loss x a (value s' X) (tt_at p) alpha _ (HG HF) (same_ishape _ x eq_refl) eq_refl) as (N1 & N2 & _). rewrite <- En in N1, N2.
  split; [exact N1|]. split; [intros b Wb Rb Bb Kb; apply (HB b); auto|].
  eapply Rle_trans; [exact N2|]. apply Rplus_le_compat_l. specialize (HB x Wx eq_refl (rd_nb _ _ _ _ HR) ltac:(intros; lia)). cbv beta zeta in HB.
  eapply Rle_trans; [apply sqrt_le_1_alt; exact HB|].
  rewrite (dot_ext (ishape x) (fun i => tt_at x i - alpha * tt_at p i - tt_at x i)%R (fun i => tt_at x i - alpha * tt_at p i - tt_at x i)%R (fun i => 0 + (- alpha) * tt_at p i)%R (fun i => 0 + (- alpha) * tt_at p i)%R) by (intros; split; ring).
  rewrite (dot_sq (ishape x) (fun _ => 0%R)). set (g := dot (ishape x) (tt_at p) (tt_at p)).
  assert (Z : forall h, dot (ishape x) (fun _ => 0%R) h = 0%R). { intros h. unfold dot. rewrite (isum_ext Rring _ _ (fun _ => 0%R)); [apply (isum_zero Rring); reflexivity|]. intros; apply Rmult_0_l. }
  rewrite !Z. replace (0 + 2 * - alpha * 0 + - alpha * - alpha * g)%R with (Rabs alpha * Rabs alpha * g)%R by (rewrite <- sq_abs; ring).
  pose proof (dot_pos (ishape x) (tt_at p)) as Pg. fold g in Pg. pose proof (Rabs_pos alpha). pose proof (pos_INR (ndims x - 1)).
  rewrite sqrt_mult by nra. rewrite (sqrt_mult (Rabs alpha * Rabs alpha)) by nra. rewrite sqrt_square by lra. apply Req_le. ring.
Qed.
Print Assumptions C65_gradient_step.

(** The loss decreases for every small enough step, at every point that is not stationary. *)
Theorem C65_small_steps_descend : forall (loss : Type) (s : store Rring loss) X A r, ready s X A r -> full_tt_ranks (value s X) ->
  ~ stationary (value s X) (value s A) ->
  exists a0, (0 < a0)%R /\ forall qr svd addr alpha, qr_ok qr -> svd_ok svd -> (0 < alpha < a0)%R ->
    exists s' f, descent_step qr svd X A addr alpha r s = (s', Ok f) /\ (f < half_sq_dist (value s X) (value s A))%R.
Proof.
  intros loss s X A r HR HF HS. pose proof HR as [HV Wx Bx Hd Wa Ra Ba Hap (m & Hm & Hmr)].
  destruct (update_descends (value s X) (value s A) Wx Bx Hd HF Wa Ra Ba HS) as (a0 & P0 & H). exists a0. split; [exact P0|].
  intros qr svd addr alpha Hq Hs Hal. destruct (H qr svd addr alpha r m Hq Hs Hm Hmr Hal) as (z & Ez & L).
  destruct (step_ok qr svd s X A addr alpha r Hq Hs HR (full_admissible _ Wx HF)) as (s' & p & E & Eu & _).
  exists s'. eexists. split; [exact E|]. rewrite Ez in Eu. injection Eu as Eu. now rewrite <- Eu.
Qed.
Print Assumptions C65_small_steps_descend.

(** At a stationary point the step changes nothing but the cores: the tensor stays the same. *)
Theorem C65_stationary_points_stay : forall (loss : Type) qr svd (s : store Rring loss) X A addr alpha r, qr_ok qr -> svd_ok svd ->
  ready s X A r -> full_tt_ranks (value s X) -> stationary (value s X) (value s A) ->
  exists s', descent_step qr svd X A addr alpha r s = (s', Ok (half_sq_dist (value s X) (value s A))) /\ same_full (value s' X) (value s X).
Proof.
  intros loss qr svd s X A addr alpha r Hq Hs HR HF HS. pose proof HR as [HV Wx Bx Hd Wa Ra Ba Hap (m & Hm & Hmr)].
  destruct (update_stationary qr svd (value s X) (value s A) addr alpha r m Hq Hs Wx Bx Hd HF Wa Ra Ba Hm Hmr HS) as (z & Ez & Z).
  destruct (step_ok qr svd s X A addr alpha r Hq Hs HR (full_admissible _ Wx HF)) as (s' & p & E & Eu & W & _).
  rewrite Ez in Eu. injection Eu as ->. exists s'. split.
  - rewrite E. do 2 f_equal. unfold half_sq_dist. rewrite (same_ishape (value s' X) (value s X) eq_refl). f_equal. apply dot_ext. intros i Hi. unfold minus. now rewrite Z.
  - destruct (dense_at (value s' X) W Bx) as (d' & F' & S' & V'). destruct (dense_at (value s X) Wx Bx) as (d & F & Sd & V).
    exists d', d. do 2 (split; [assumption|]). split; [rewrite S', Sd; reflexivity|]. intros i Hi. rewrite S' in Hi. rewrite V' by auto. rewrite V by auto. now apply Z.
Qed.
Print Assumptions C65_stationary_points_stay.

(** Limits below the ranks of X, and ranks of X larger than the sizes on one side of the cut, make the step raise: assign
    refuses the result (after overwriting the cores before the first one that does not fit, C50). *)
Theorem C65_other_ranks_raise : forall (loss : Type) qr svd (s : store Rring loss) X A addr alpha r m, qr_ok qr -> svd_ok svd ->
  is_variable s X -> wf (value s X) -> vbsz X = None -> 2 <= ndims (value s X) ->
  wf (value s A) -> vrshape A = vrshape X -> vbsz A = None -> rank_limits false r None (ndims (value s X)) m ->
  let x := value s X in let size := fun l => prodn (map (fun j => prodn (modes x j)) l) in
  (exists k, 0 < k < ndims x /\ (m k < rk x k \/ size (seq 0 k) < rk x k \/ size (seq k (ndims x - k)) < rk x k)) ->
  exists s', descent_step qr svd X A addr alpha r s = (s', Err ValueError).
Proof. intros loss qr svd s X A addr alpha r m Hq Hs HV Wx Bx Hd Wa Ra Ba Hm x size H. now apply (step_raises qr svd s X A addr alpha r m). Qed.
Print Assumptions C65_other_ranks_raise.

(** ** Cases *)
Definition var_of (l : list (tensor Rring)) : list (var Rring) := map (Var "v" Float32) l.
Definition v_obj (n : nat) (t : rtt) : vobj Rring := VObj (map (@CVar Rring) (seq n (ndims t))) (rshape t) (rks t) (bsz t) Float32.
Definition two_vars (x a : rtt) : store Rring unit := Store (var_of (cores x ++ cores a)) [] [] [].

Lemma two_X x a : value (two_vars x a) (v_obj 0 x) = x.
Proof.
  unfold value, deref, v_obj. cbn [vcores vrshape vrks vbsz two_vars heap]. destruct x as [cs rs ks bs]. cbn [cores rshape rks bsz ndims]. f_equal.
  unfold ndims. cbn [cores]. rewrite map_map. apply nth_ext with (d := Tensor [] []) (d' := Tensor [] []); [now rewrite map_length, seq_length|].
  intros i Hi. rewrite map_length, seq_length in Hi. rewrite (nth_map_default _ _ _ 0) by (rewrite seq_length; auto). rewrite seq_nth by auto. cbn [read Nat.add]. unfold value_of, var_of. rewrite map_map. cbn [vval]. rewrite map_id, app_nth1; auto.
Qed.
Lemma two_A x a : value (two_vars x a) (v_obj (ndims x) a) = a.
Proof.
  unfold value, deref, v_obj. cbn [vcores vrshape vrks vbsz two_vars heap]. destruct a as [cs rs ks bs]. cbn [cores rshape rks bsz]. f_equal.
  change (ndims (TT cs rs ks bs)) with (length cs). rewrite map_map. apply nth_ext with (d := Tensor [] []) (d' := Tensor [] []); [now rewrite map_length, seq_length|].
  intros i Hi. rewrite map_length, seq_length in Hi. rewrite (nth_map_default _ _ _ 0) by (rewrite seq_length; auto). rewrite seq_nth by auto. cbn [read]. unfold value_of, var_of. rewrite map_map. cbn [vval]. rewrite map_id, app_nth2 by (unfold ndims; lia).
  f_equal. unfold ndims. lia.
Qed.
Lemma two_isvar x a : is_variable (two_vars x a) (v_obj 0 x).
Proof.
  split.
  - cbn [v_obj vcores]. apply FinFun.Injective_map_NoDup; [intros u v E; now injection E|apply seq_NoDup].
  - intros c Hc. cbn [v_obj vcores] in Hc. apply in_map_iff in Hc as (id & <- & Hid). apply in_seq in Hid. exists id.
    assert (L : id < length (cores x)) by (unfold ndims in Hid; lia). exists (Var "v" Float32 (nth id (cores x) (Tensor [] []))). split; [reflexivity|]. split; [|reflexivity].
    cbn [two_vars heap]. unfold var_of. rewrite nth_error_map, nth_error_app1 by auto. now rewrite (nth_error_nth' _ (Tensor [] [])) by auto.
Qed.
Lemma two_ready x a r m : wf x -> bsz x = None -> 2 <= ndims x -> wf a -> rshape a = rshape x -> bsz a = None -> rank_limits false r None (ndims x) m ->
  (forall k, 0 < k < ndims x -> m k = rk x k) -> ready (two_vars x a) (v_obj 0 x) (v_obj (ndims x) a) r.
Proof.
  intros Wx Bx Hd Wa Ra Ba Hm Hmr. constructor; rewrite ?two_X, ?two_A; auto; [apply two_isvar| |exists m; auto].
  intros id H1 H2. cbn [v_obj vcores] in *. apply in_map_iff in H1 as (i & E1 & I1). apply in_map_iff in H2 as (j & E2 & I2). apply in_seq in I1, I2. assert (i = id) by congruence. assert (j = id) by congruence. lia.
Qed.

(** Three cores, ranks 2. *)
Example C65_case : ready (two_vars (toR s_a) (toR s_b)) (v_obj 0 (toR s_a)) (v_obj 3 (toR s_b)) (RkNum 2) /\ full_tt_ranks (value (two_vars (toR s_a) (toR s_b)) (v_obj 0 (toR s_a))) /\
  vrks (v_obj 0 (toR s_a)) = [1;2;2;1].
Proof.
  rewrite two_X. split; [|split; [exact r_a_full|reflexivity]]. change (v_obj 3 (toR s_b)) with (v_obj (ndims (toR s_a)) (toR s_b)). apply (two_ready _ _ _ (fun _ => 2)); auto using r_a_wf, r_b_wf; [cbn; lia| |].
  - split; [exact I|]. split; [lia|]. intros; reflexivity.
  - intros k Hk. change (ndims (toR s_a)) with 3 in Hk. assert (k = 1 \/ k = 2) as [-> | ->] by lia; reflexivity.
Qed.

(** Ranks 4 on modes 2, 2, 2, which random_tensor accepts: the program raises at the first step. *)
Definition x_big : rtt := toR (TT [zt [1;2;4] (repeat 1%Z 8); zt [4;2;4] (repeat 1%Z 32); zt [4;2;1] (repeat 1%Z 8)] [[2;2;2]] [1;4;4;1] None).
Theorem C65_large_ranks_refuted : forall qr svd, qr_ok qr -> svd_ok svd -> forall addr alpha, exists (s s' : store Rring unit) X A,
  is_variable s X /\ wf (value s X) /\ vrks X = [1;4;4;1] /\ vrshape X = [[2;2;2]] /\
  descent_step qr svd X A addr alpha (RkNum 4) s = (s', Err ValueError).
Proof.
  intros qr svd Hq Hs addr alpha. assert (W : wf x_big) by (apply wfb_wf; vm_compute; reflexivity).
  destruct (C65_other_ranks_raise unit qr svd (two_vars x_big x_big) (v_obj 0 x_big) (v_obj (ndims x_big) x_big) addr alpha (RkNum 4) (fun _ => 4) Hq Hs) as (s' & E); rewrite ?two_X, ?two_A; auto; try reflexivity.
  - apply two_isvar.
  - cbn; lia.
  - split; [exact I|]. split; [lia|]. reflexivity.
  - exists 1. split; [cbn; lia|]. right. left. vm_compute. lia.
  - exists (two_vars x_big x_big), s', (v_obj 0 x_big), (v_obj (ndims x_big) x_big). rewrite two_X. split; [apply two_isvar|]. auto.
Qed.
Print Assumptions C65_large_ranks_refuted.

(** "Each step decreases the loss" is false: X = [[3, 0], [0, 0]], A = [[3, 2], [2, -100]], alpha = 1. *)
Definition x_up : rtt := toR (TT [zt [1;2;1] [3;0]%Z; zt [1;2;1] [1;0]%Z] [[2;2]] [1;1;1] None).
Definition a_up : rtt := toR (TT [zt [1;2;2] [1;0;0;1]%Z; zt [2;2;1] [3;2;2;-100]%Z] [[2;2]] [1;2;1] None).
Definition b_up : rtt := toR (TT [zt [1;2;1] [2;1]%Z; zt [1;2;1] [2;1]%Z] [[2;2]] [1;1;1] None).
Definition g_up (i : list nat) : R := match i with [0;1] | [1;0] => (-2)%R | _ => 0%R end.

Lemma x_up_full : full_tt_ranks x_up.
Proof.
  intros k Hk. change (ndims x_up) with 2 in Hk. assert (k = 1) as -> by lia.
  split; intros c H a Ha; change (rk x_up 1) with 1 in *; use H [[0]]; (destruct a; [lra|lia]).
Qed.
Definition i00 := [0;0]. Definition i01 := [0;1]. Definition i10 := [1;0]. Definition i11 := [1;1].
Lemma up_idx i : vidx [2;2] i -> i = i00 \/ i = i01 \/ i = i10 \/ i = i11.
Proof.
  intros H. inversion H as [|a n i' ns Ha H1]; subst. inversion H1 as [|b m i'' ms Hb H2]; subst. inversion H2; subst.
  destruct a as [|[|]]; try lia; destruct b as [|[|]]; try lia; tauto.
Qed.
Lemma up_dot f g : dot [2;2] f g = (f i00 * g i00 + f i01 * g i01 + f i10 * g i10 + f i11 * g i11)%R.
Proof. cbv -[Rplus Rmult IZR]. ring. Qed.
Lemma up_tangent T : tangent x_up T -> T i11 = 0%R.
Proof.
  intros [dG H]. rewrite H by (repeat constructor). cbv -[Rplus Rmult IZR]. ring.
Qed.
Lemma up_gradient : riemannian_gradient x_up a_up g_up.
Proof.
  split.
  - exists (fun k _ j _ => match j with [1] => match k with 0 => (-2)%R | _ => (-2 / 3)%R end | _ => 0%R end).
    intros i Hi. destruct (up_idx i Hi) as [-> | [-> | [-> | ->]]]; cbv -[Rplus Rmult Rdiv IZR]; field.
  - intros T HT. change (ishape x_up) with [2;2]. rewrite !up_dot, (up_tangent T HT). cbv -[Rplus Rmult IZR Rminus]. ring.
Qed.
Lemma up_rank_one (z : rtt) : wf z -> rshape z = [[2;2]] -> rks z = [1;1;1] -> bsz z = None ->
  (tt_at z i00 * tt_at z i11 = tt_at z i01 * tt_at z i10)%R.
Proof.
  intros W Rz Kz Bz. assert (E : forall i j, tt_at z [i;j] = (coreG z [] O O [i] O * coreG z [] 1%nat O [j] O)%R).
  { intros i j. unfold tt_at, tt_entry, split_idx, is_tt_matrix, rk. rewrite Rz, Kz, Bz. cbv -[Rplus Rmult IZR get core]. ring. }
  unfold i00, i01, i10, i11. rewrite !E. ring.
Qed.

Theorem C65_every_step_descends_refuted : forall qr svd, qr_ok qr -> svd_ok svd -> forall addr, exists (s s' : store Rring unit) X A r f,
  ready s X A r /\ full_tt_ranks (value s X) /\ descent_step qr svd X A addr 1 r s = (s', Ok f) /\
  half_sq_dist (value s X) (value s A) = 5004%R /\ (5008 < f)%R.
Proof.
  intros qr svd Hq Hs addr. set (s := two_vars x_up a_up). set (X := v_obj 0 x_up). set (A := v_obj (ndims x_up) a_up).
  assert (Wx : wf x_up) by (apply wfb_wf; vm_compute; reflexivity). assert (Wa : wf a_up) by (apply wfb_wf; vm_compute; reflexivity). assert (Wb : wf b_up) by (apply wfb_wf; vm_compute; reflexivity).
  assert (HR : ready s X A (RkNum 1)).
  { apply (two_ready _ _ _ (fun _ => 1)); auto; [split; [exact I|split; [lia|reflexivity]]|]. intros k Hk. change (ndims x_up) with 2 in Hk. now assert (k = 1) as -> by lia. }
  assert (EX : value s X = x_up) by apply two_X. assert (EA : value s A = a_up) by apply two_A.
  assert (HF : full_tt_ranks (value s X)) by (rewrite EX; exact x_up_full).
  destruct (C65_gradient_step unit qr svd s X A addr 1 (RkNum 1) Hq Hs HR HF) as (s' & f & G & E & HG & _ & HB & _). rewrite EX in HG, HB. rewrite EA in HG. cbv zeta in HB.
  destruct (C65_step unit qr svd s X A addr 1 (RkNum 1) Hq Hs HR (full_admissible _ (rd_wf _ _ _ _ HR) HF)) as (s1 & E1 & R1 & _). rewrite E in E1. injection E1 as <- ->. rewrite EA in E.
  exists s, s', X, A, (RkNum 1), (half_sq_dist (value s' X) a_up). rewrite EX, EA. split; [exact HR|]. split; [exact x_up_full|]. split; [exact E|].
  split. { unfold half_sq_dist. change (ishape x_up) with [2;2]. rewrite up_dot. cbv -[Rplus Rmult IZR Rminus Rinv]. field. }
  specialize (HB b_up Wb eq_refl eq_refl ltac:(intros k Hk; change (ndims x_up) with 2 in Hk; assert (k = 1) as -> by lia; cbn; lia)).
  pose proof (gradient_unique x_up a_up _ _ Wx ltac:(cbn; lia) HG up_gradient) as GU. change (ishape x_up) with [2;2] in *. change (ndims x_up) with 2 in *.
  rewrite !up_dot in HB. rewrite (GU i00), (GU i01), (GU i10), (GU i11) in HB by (repeat constructor).
  pose proof (up_rank_one (value s' X) (rd_wf _ _ _ _ R1) eq_refl eq_refl eq_refl) as Q1.
  unfold half_sq_dist. change (ishape (value s' X)) with [2;2]. rewrite up_dot. unfold minus.
  revert HB Q1. generalize (tt_at (value s' X) i00) as p, (tt_at (value s' X) i01) as q, (tt_at (value s' X) i10) as t, (tt_at (value s' X) i11) as v. clear.
  intros p q t v. assert (Ea : tt_at a_up i00 = 3%R /\ tt_at a_up i01 = 2%R /\ tt_at a_up i10 = 2%R /\ tt_at a_up i11 = (-100)%R) by (repeat split; cbv -[Rplus Rmult IZR]; ring).
  assert (Ex : tt_at x_up i00 = 3%R /\ tt_at x_up i01 = 0%R /\ tt_at x_up i10 = 0%R /\ tt_at x_up i11 = 0%R) by (repeat split; cbv -[Rplus Rmult IZR]; ring).
  assert (Eb : tt_at b_up i00 = 4%R /\ tt_at b_up i01 = 2%R /\ tt_at b_up i10 = 2%R /\ tt_at b_up i11 = 1%R) by (repeat split; cbv -[Rplus Rmult IZR]; ring).
  destruct Ea as (-> & -> & -> & ->), Ex as (-> & -> & -> & ->), Eb as (-> & -> & -> & ->). change (g_up i00) with 0%R. change (g_up i01) with (-2)%R. change (g_up i10) with (-2)%R. change (g_up i11) with 0%R.
  change (INR (2 - 1)) with 1%R. intros HB Q1.
  assert (B1 : ((3 - p) * (3 - p) + (2 - q) * (2 - q) + (2 - t) * (2 - t) + v * v <= 2)%R) by (replace (3 - 1 * 0 - p)%R with (3 - p)%R in HB by ring; lra).
  pose proof (Rle_0_sqr (3 - p)) as S1. pose proof (Rle_0_sqr (2 - q)) as S2. pose proof (Rle_0_sqr (2 - t)) as S3. pose proof (Rle_0_sqr v) as S4. unfold Rsqr in *.
  assert (P1 : (1 <= p)%R) by nra. assert (P2 : (p <= 5)%R) by nra.
  assert (QT : (1 <= q * t)%R) by (pose proof (Rle_0_sqr (q + t - 2)) as S5; unfold Rsqr in S5; nra).
  assert (V : (/ 5 <= v)%R). { destruct (Rle_dec (/ 5) v) as [|N]; auto. exfalso. apply Rnot_le_lt in N. assert ((p * v < 1)%R) by nra. lra. }
  nra.
Qed.
Print Assumptions C65_every_step_descends_refuted.

Example C65_stationary_case : ready (two_vars (toR s_a) (toR s_a)) (v_obj 0 (toR s_a)) (v_obj (ndims (toR s_a)) (toR s_a)) (RkList [1;2;2;1]%Z) /\ stationary (toR s_a) (toR s_a).
Proof.
  split.
  - apply (two_ready _ _ _ (fun k => nth k [1;2;2;1] 0)); try reflexivity; try exact r_a_wf; [cbn; lia|].
    split; [exact I|]. split; [reflexivity|]. split; [reflexivity|]. split; [repeat constructor; lia|]. intros k Hk. change (ndims (toR s_a)) with 3 in Hk. do 4 (destruct k; [reflexivity|]). lia.
  - intros T _. unfold dot. rewrite (isum_ext Rring _ _ (fun _ => 0%R)); [apply (isum_zero Rring); reflexivity|]. intros i _. unfold minus. rewrite Rminus_diag_eq by reflexivity. apply Rmult_0_l.
Qed.
Example C65_not_stationary_case : full_tt_ranks x_up /\ ~ stationary x_up a_up.
Proof.
  split; [exact x_up_full|]. intros H. pose proof (proj1 (gradient_zero x_up a_up g_up up_gradient) H i01 ltac:(repeat constructor)) as E. cbv -[IZR] in E. lra.
Qed.
