(** Riemannian gradients and Hessian-by-vector products: the dense values. *)
From Coq Require Import String Ascii List Arith ZArith Lia Lra Bool Ring Reals.
From Verif Require Import Scalar Tensor TensorLemmas TensorLemmas2 Base Spec Chain BaseLemmas Ops
  FullProofs ResultLemmas Dense AddProofs DenseMatmul Sweep FlatProofs MatmulProofs OpsR Decomp DecompSpec GaugeProofs OrthProofs OrthNorm
  TangentProofs Riem RiemBlock RiemProofs RiemThms RiemMatmul RiemSpec TangentSpace RiemFull RiemDelta RiemInner RiemAddN RiemMade Autodiff AutoSpec AutoProofs.
Import ListNotations.
Local Open Scope nat_scope.
Local Notation train := (nat -> nat -> list nat -> nat -> Rring).
Local Notation fn := (list (list nat) -> Rring).
Local Notation get := (@get Rring).
Add Ring Rring10 : (cth Rring).
Local Ltac req := match goal with |- @eq _ ?u ?v => change (@eq R u v) end.
Local Ltac kreq := match goal with |- @eq _ ?u ?v => change (@eq (car Rring) u v) end.

Lemma derivable_sumn n (f : nat -> R -> R) (f' : nat -> R) : (forall k, k < n -> derivable_pt_lim (f k) 0%R (f' k)) ->
  derivable_pt_lim (fun t => sumn (K := Rring) n (fun k => f k t)) 0%R (sumn (K := Rring) n f').
Proof.
  induction n as [|n IH]; intros H; cbn [sumn]; [apply derivable_pt_lim_const|].
  apply (derivable_pt_lim_plus (fun t => sumn (K := Rring) n (fun k => f k t)) (f n) 0%R (sumn (K := Rring) n f') (f' n)); [apply IH; intros; apply H; lia|apply H; lia].
Qed.
Lemma derivable_isum s (f : list nat -> R -> R) (f' : list nat -> R) : (forall i, vidx s i -> derivable_pt_lim (f i) 0%R (f' i)) ->
  derivable_pt_lim (fun t => isum (K := Rring) s (fun i => f i t)) 0%R (isum (K := Rring) s f').
Proof.
  revert f f'. induction s as [|n s IH]; intros f f' H; cbn [isum]; [apply H; constructor|].
  apply (derivable_sumn n (fun k t => isum (K := Rring) s (fun i => f (k :: i) t)) (fun k => isum (K := Rring) s (fun i => f' (k :: i)))).
  intros k Hk. apply (IH (fun i => f (k :: i)) (fun i => f' (k :: i))). intros i Hi. apply H. now apply vidx_cons.
Qed.
Lemma isum_swap s s' (f : list nat -> list nat -> R) : isum (K := Rring) s (fun i => isum (K := Rring) s' (fun j => f i j)) = isum (K := Rring) s' (fun j => isum (K := Rring) s (fun i => f i j)).
Proof.
  revert f. induction s as [|n s IH]; intros f; cbn [isum]; [reflexivity|].
  rewrite (isum_sumn_swap Rring). apply (sumn_ext Rring). intros k _. apply (IH (fun i => f (k :: i))).
Qed.
Lemma all_some {A} (os : list (option A)) gs : Forall2 (fun o g => o = Some g \/ o = None) os gs -> ~ In None os -> os = map Some gs.
Proof.
  intros H. induction H as [|o g os gs Ho _ IH]; intros N; [reflexivity|]. cbn [map]. destruct Ho as [-> | ->]; [|exfalso; apply N; now left].
  f_equal. apply IH. intros Hn. apply N. now right.
Qed.

Lemma Forall2_len {A B} (P : A -> B -> Prop) l m : Forall2 P l m -> length l = length m.
Proof. intros H. induction H; cbn; congruence. Qed.
Lemma Forall2_at {A B} (P : A -> B -> Prop) l m : Forall2 P l m -> forall k a b, k < length l -> P (nth k l a) (nth k m b).
Proof. intros H. induction H; intros k a b Hk; cbn in Hk; [lia|]. destruct k; [assumption|]. apply IHForall2. lia. Qed.
Lemma mapM_inv {A B} (f : A -> res B) l bs : mapM f l = Ok bs -> forall a, In a l -> exists b, f a = Ok b.
Proof.
  revert bs. induction l as [|c l IH]; intros bs H a Ha; [destruct Ha|]. cbn in H. destruct (f c) eqn:E; cbn in H; [|discriminate]. destruct (mapM f l); cbn in H; [|discriminate].
  destruct Ha as [<-|Ha]; eauto.
Qed.
Lemma mapM_err {A B} (f : A -> res B) l e : (forall a, In a l -> (exists b, f a = Ok b) \/ f a = Err e) -> (exists a, In a l /\ f a = Err e) -> mapM f l = Err e.
Proof.
  induction l as [|c l IH]; intros H (a & Ha & E); [destruct Ha|]. cbn. destruct (H c (or_introl eq_refl)) as [(b & Eb)|Eb]; rewrite Eb; cbn; [|reflexivity].
  destruct Ha as [->|Ha]; [congruence|]. rewrite IH; [reflexivity| |eauto]. intros. apply H. now right.
Qed.

Lemma product_ok (g h : rtensor) : shape h = shape g -> product (Some g) h = Ok (inner (shape g) (get g) (get h)).
Proof.
  intros H. unfold product. destruct (ewise_same Rmult g h (shape g) eq_refl H) as (y & E & _ & S & G). rewrite E. cbn [bind]. f_equal. unfold sum_all, inner. rewrite S.
  apply (isum_ext Rring). intros i Hi. now apply G.
Qed.
Lemma products_ok gs hs : same_shapes gs hs -> exists ps, mapM (fun ab => product (fst ab) (snd ab)) (combine (map Some gs) hs) = Ok ps /\ length ps = length gs /\
  forall a, fold_left Rplus ps a = (a + inners gs hs)%R.
Proof.
  intros H. induction H as [|g h gs hs [_ Hh] _ (ps & E & L & S)]; [exists []; repeat split; intros; cbn; lra|].
  exists (inner (shape g) (get g) (get h) :: ps). cbn [map combine mapM fst snd]. rewrite product_ok by auto. cbn [bind]. rewrite E. cbn [bind]. split; [reflexivity|]. split; [cbn; congruence|].
  intros a. cbn [fold_left inners]. rewrite S. lra.
Qed.
Lemma check_near (g : R -> R) c : derivable_pt_lim g 0%R c -> g 0%R <> 0%R ->
  exists eps, (0 < eps)%R /\ forall t, (Rabs t < eps)%R -> is_invariant_to_input_transforms (g t) (g 0%R) = Ok Datatypes.tt.
Proof.
  intros HD H0. assert (HC : continuity_pt g 0) by (apply derivable_continuous_pt; exists c; exact HD).
  pose proof (Rabs_pos_lt _ H0) as P0. destruct (HC (Rabs (g 0) / 200000)%R ltac:(lra)) as (eps & He & Hc). exists eps. split; [exact He|]. intros t Ht.
  assert (B : (Rabs (g t - g 0) < Rabs (g 0) / 200000)%R).
  { destruct (Req_dec t 0) as [->|N]; [rewrite Rminus_diag_eq by reflexivity; rewrite Rabs_R0; lra|].
    apply (Hc t). split; [split; [exact I|now apply not_eq_sym]|]. cbn. unfold R_dist. now rewrite Rminus_0_r. }
  assert (B2 : (Rabs (g t) > Rabs (g 0) * (199999 / 200000))%R).
  { pose proof (Rabs_triang (g t) (g 0%R - g t)%R) as T. replace (g t + (g 0 - g t))%R with (g 0%R) in T by ring. rewrite (Rabs_minus_sym (g 0%R)) in T. lra. }
  unfold is_invariant_to_input_transforms. destruct (Req_EM_T (g t) 0) as [E|N]; [rewrite E, Rabs_R0 in B2; lra|].
  destruct (Rlt_dec _ _) as [|C]; [reflexivity|]. exfalso. apply C. unfold Rdiv at 1. rewrite Rabs_mult, Rabs_inv. pose proof (Rabs_pos_lt _ N) as Pt.
  apply Rmult_lt_reg_r with (Rabs (g t)); [exact Pt|]. rewrite Rmult_assoc, Rinv_l by lra. lra.
Qed.

Section Result.
Variables (qr : rtensor -> rtensor * rtensor) (grad : (list rtensor -> res R) -> list rtensor -> list (option rtensor)).
Variables (func : rtt -> res R) (F : (list nat -> R) -> R) (addr : nat) (x : rtt) (dx : rtensor).
Hypothesis Hqr : qr_ok qr.
Hypothesis Hgrad : grad_ok grad.
Hypothesis Hx : wf x.
Hypothesis Bx : bsz x = None.
Hypothesis Hd : 2 <= ndims x.
Hypothesis HA : admissible x.
Hypothesis HFun : function_of_tensor x func F.
Hypothesis HDx : full x = Ok dx.

Lemma dense_x i : vidx (ishape x) i -> get dx i = tt_entry x [] (split_idx x i).
Proof.
  intros Hi. destruct (dense x Hx) as (dx' & F' & S & V). assert (dx' = dx) by congruence. subst dx'. rewrite Bx in V.
  apply (V [] i); [constructor|exact Hi].
Qed.
Lemma start_agree l r : is_frame x l r -> agree (ishape x) (Lval x l r (deltasD (start_deltas r))) (get dx).
Proof. intros HF i Hi. rewrite (start_val x l r Hx HF Hd) by auto. now rewrite dense_x. Qed.

Lemma check_same (b : bool) v : (b = true -> v <> 0%R) -> func x = Ok v ->
  (if b then do w <- func x; is_invariant_to_input_transforms v w else Ok Datatypes.tt) = Ok Datatypes.tt.
Proof.
  intros Hv E. destruct b; [|reflexivity]. rewrite E. cbn [bind]. unfold is_invariant_to_input_transforms.
  destruct (Req_EM_T v 0); [exfalso; now apply Hv|]. destruct (Rlt_dec _ _) as [|N]; [reflexivity|]. exfalso. apply N.
  replace ((v - v) / v)%R with 0%R by (field; auto). rewrite Rabs_R0. lra.
Qed.

(** The object made of the gradients [E]. *)
Lemma finish l r E : is_frame x l r -> exists ds t dt, enforce_gauge_conditions (map Some (grads x l r E)) l = Ok ds /\
  deltas_to_tangent_space qr ds addr x (Some l) (Some r) = Ok (Proj t (Some addr)) /\ wf t /\ rshape t = rshape x /\ bsz t = None /\
  full t = Ok dt /\ shape dt = ishape x /\ forall i, vidx (ishape x) i -> get dt i = fproj x l r (lift x E) (split_idx x i).
Proof.
  intros HF. pose proof (adm_eq x l r Hx HF Hd HA) as Heq.
  destruct (enforce_ok x l r HF Hd Heq E) as (ds & Eds & Ids).
  destruct (build_deltas x l r Hx Bx HF Hd Heq qr addr _ ds Ids) as (t & dt & Et & Wt & Rt & Bt & Ft & St & Vt).
  exists ds, t, dt. do 7 (split; [assumption|]). intros i Hi. rewrite Vt by auto. symmetry. apply (fp_terms x l r HF Hd). now apply split_vJ.
Qed.

(** It satisfies the gauge condition. *)
Lemma finish_made l r E ds t : frame qr x = Ok (l, r) -> is_frame x l r -> enforce_gauge_conditions (map Some (grads x l r E)) l = Ok ds ->
  deltas_to_tangent_space qr ds addr x (Some l) (Some r) = Ok (Proj t (Some addr)) -> made qr x addr (Proj t (Some addr)).
Proof.
  intros EF HF Eds Et. pose proof (adm_eq x l r Hx HF Hd HA) as Heq. destruct (enforce_ok x l r HF Hd Heq E) as (ds' & Eds' & Lds & Ids). assert (ds' = ds) by congruence. subst ds'.
  apply (made_deltas qr x addr None l r ds (Some l) (Some r)); auto; [constructor| |].
  - split; [exact Lds|]. intros i Hi. destruct (Ids i Hi) as (W & S & _). now split.
  - intros k o b c Hk Ho Hb Hc. inversion Ho; subst o. transitivity (sumn (K := Rring) (rk l k) (fun a => isum (K := Rring) (modes x k) (fun j => coreG l [] k a j b * fdelta x l r (lift x E) k a j c)%R)).
    + apply (sumn_ext Rring). intros a Ha. apply (isum_ext Rring). intros j Hj. f_equal. destruct (Ids k ltac:(lia)) as (_ & _ & G). rewrite (G [] a j c) by (auto; constructor). reflexivity.
    + exact (gauge_fdelta x Hd l r (lift x E) HF k b c Hk Hb Hc).
Qed.

Definition connected (l r : rtt) : Prop := ~ In None (grad (augmented qr func addr x l r) (start_deltas r)).

Lemma gradients_ok E b : (forall l r, frame qr x = Ok (l, r) -> connected l r) -> gradient_at (ishape x) F (get dx) E -> (b = true -> F (get dx) <> 0%R) ->
  exists l r p dp, frame qr x = Ok (l, r) /\ is_frame x l r /\ gradients qr grad func addr x b = Ok (Proj p (Some addr)) /\ made qr x addr (Proj p (Some addr)) /\ wf p /\ rshape p = rshape x /\ bsz p = None /\
    full p = Ok dp /\ shape dp = ishape x /\ forall i, vidx (ishape x) i -> get dp i = fproj x l r (lift x E) (split_idx x i).
Proof.
  intros HC HE HV. destruct (frame_ok qr x Hqr Hx Bx) as (l & r & EF & HF). pose proof (adm_eq x l r Hx HF Hd HA) as Heq.
  destruct (finish l r E HF) as (ds & t & dt & Eds & Et & Wt & Rt & Bt & Ft & St & Vt). exists l, r, t, dt. do 2 (split; [assumption|]). split; [|split; [exact (finish_made l r E ds t EF HF Eds Et)|]; do 5 (split; [assumption|]); assumption].
  unfold gradients. rewrite EF. cbn [bind]. unfold value_and_grad. rewrite (augmented_ok x l r Hx Bx HF Hd Heq qr addr func F HFun _ (get dx)) by (try apply start_agree; auto; now apply start_good).
  cbn [bind]. rewrite check_same; [|exact HV|apply (proj1 HFun); auto]. cbn [bind].
  rewrite (all_some _ _ (Hgrad _ _ _ (augmented_gradient x l r Hx Bx HF Hd Heq qr addr func F HFun _ (get dx) E (start_good x l r HF Hd Heq) (start_agree l r HF) HE)) (HC l r EF)).
  rewrite Eds. cbn [bind]. exact Et.
Qed.


Lemma enforce_none l r E os : is_frame x l r -> Forall2 (fun o g => o = Some g \/ o = None) os (grads x l r E) -> In None os -> enforce_gauge_conditions os l = Err ValueError.
Proof.
  intros HF HO HN. pose proof (adm_eq x l r Hx HF Hd HA) as Heq. destruct (enforce_ok x l r HF Hd Heq E) as (ds & Eds & _). unfold enforce_gauge_conditions in *.
  assert (LO : length os = ndims l). { rewrite (Forall2_len _ _ _ HO), (proj1 (grads_good x l r E)), (fr_nl _ _ _ HF). reflexivity. }
  pose proof (mapM_inv _ _ _ Eds) as HM. apply mapM_err.
  - intros k Hk. pose proof Hk as Hk'. apply in_seq in Hk. cbn [Nat.add] in Hk. destruct (HM k Hk') as (y & Ey).
    pose proof (Forall2_at _ _ _ HO k None rzero ltac:(lia)) as Q. rewrite (nthr_nth os k None) by lia.
    rewrite (nthr_nth (map Some (grads x l r E)) k None) in Ey by (rewrite map_length, <- (Forall2_len _ _ _ HO); lia).
    rewrite (nth_map_default _ _ _ rzero) in Ey by (rewrite <- (Forall2_len _ _ _ HO); lia).
    destruct Q as [-> | ->]; [left; eauto|right].
    destruct (nthr (lazy_tt_ranks l) (S k)); cbn [bind] in *; [|discriminate].
    destruct (nthr (cores l) k); cbn [bind] in *; [|discriminate].
    destruct (reshape a0 [None; Some a]); cbn [bind] in *; [reflexivity|discriminate].
  - apply In_nth with (d := None) in HN as (k & Hk & HN). exists k. split; [apply in_seq; lia|]. destruct (HM k) as (y & Ey); [apply in_seq; lia|].
    rewrite (nthr_nth os k None) by lia. rewrite HN.
    destruct (nthr (lazy_tt_ranks l) (S k)); cbn [bind] in *; [|discriminate].
    destruct (nthr (cores l) k); cbn [bind] in *; [|discriminate].
    destruct (reshape a0 [None; Some a]); cbn [bind] in *; [reflexivity|discriminate].
Qed.

Lemma gradients_none l r E b : frame qr x = Ok (l, r) -> gradient_at (ishape x) F (get dx) E -> (b = true -> F (get dx) <> 0%R) ->
  In None (grad (augmented qr func addr x l r) (start_deltas r)) -> gradients qr grad func addr x b = Err ValueError.
Proof.
  intros EF HE HV HC. destruct (frame_ok qr x Hqr Hx Bx) as (l' & r' & EF' & HF). assert (l' = l) by congruence. assert (r' = r) by congruence. subst l' r'.
  pose proof (adm_eq x l r Hx HF Hd HA) as Heq.
  unfold gradients. rewrite EF. cbn [bind]. unfold value_and_grad. rewrite (augmented_ok x l r Hx Bx HF Hd Heq qr addr func F HFun _ (get dx)) by (try apply start_agree; auto; now apply start_good).
  cbn [bind]. rewrite check_same; [|exact HV|apply (proj1 HFun); auto]. cbn [bind].
  pose proof (Hgrad _ _ _ (augmented_gradient x l r Hx Bx HF Hd Heq qr addr func F HFun _ (get dx) E (start_good x l r HF Hd Heq) (start_agree l r HF) HE)) as HO.
  rewrite (enforce_none l r E _ HF HO HC). reflexivity.
Qed.

(** With the check: value 0 raises. *)
Lemma gradients_zero_value : F (get dx) = 0%R -> gradients qr grad func addr x true = Err TFError.
Proof.
  intros HZ. destruct (frame_ok qr x Hqr Hx Bx) as (l & r & EF & HF). pose proof (adm_eq x l r Hx HF Hd HA) as Heq.
  unfold gradients. rewrite EF. cbn [bind]. unfold value_and_grad. rewrite (augmented_ok x l r Hx Bx HF Hd Heq qr addr func F HFun _ (get dx)) by (try apply start_agree; auto; now apply start_good).
  cbn [bind]. rewrite (proj1 HFun x dx) by auto. cbn [bind]. unfold is_invariant_to_input_transforms. destruct (Req_EM_T _ 0); [reflexivity|contradiction].
Qed.

(** ** Hessian by vector *)
Variables (vector : rtt) (E : (list nat -> R) -> list nat -> R) (H : list nat -> list nat -> R).
Hypothesis Hv : wf vector.
Hypothesis Rv : rshape vector = rshape x.
Hypothesis Bv : bsz vector = None.
Local Notation sh := (ishape x).
Local Notation X := (get dx).

Lemma vec_ok l r : frame qr x = Ok (l, r) -> is_frame x l r -> exists v dv vds, project qr vector addr x = Ok (Proj v (Some addr)) /\ full v = Ok dv /\
  tangent_space_to_deltas (Proj v (Some addr)) = Ok vds /\ good x l r vds /\ agree sh (Lval x l r (deltasD vds)) (get dv).
Proof.
  intros EF HF. pose proof (adm_eq x l r Hx HF Hd HA) as Heq.
  destruct (project_ok qr vector x addr Hqr Hx Bx Hd Hv Rv) as (l' & r' & v & EF' & _ & Ep & F' & B & EF1). assert (l' = l) by congruence. assert (r' = r) by congruence. subst l' r'.
  rewrite Bv in B, EF1. destruct (deltas_ok x l r Hx HF Hd Heq None _ v B addr) as (vds & Evds & Lvds & Pvds).
  pose proof (bl_wf x l r _ _ _ B) as Wv. pose proof (bl_bs x l r _ _ _ B) as BB. pose proof (bl_rs x l r _ _ _ B) as Rt.
  destruct (dense v Wv) as (dv & Fv & Sv & Vv). exists v, dv, vds. do 3 (split; [assumption|]). split.
  - split; [exact Lvds|]. intros i Hi. destruct (Pvds i Hi) as (W & S & _). now split.
  - intros i Hi. rewrite BB, (same_ishape v x Rt) in Vv. pose proof (Vv [] i ltac:(constructor) Hi) as Q. cbn [app] in Q. rewrite Q, (same_split v x i Rt).
    rewrite (blocks_entry x l r None _ (fr_l _ _ _ HF) (fr_r _ _ _ HF) (fr_nl _ _ _ HF) (fr_nr _ _ _ HF) Hd v [] _ B ltac:(constructor)) by now apply split_vJ.
    apply (Lval_ext x l r Hx HF Hd _ (fdelta x l r (F' []))); auto. intros m a j c Hm Ha Hj Hc. destruct (Pvds m Hm) as (_ & _ & G). apply (G [] a j c); auto. constructor.
Qed.

Lemma outer_ok l r b ds Y v dv vds : frame qr x = Ok (l, r) -> is_frame x l r -> project qr vector addr x = Ok (Proj v (Some addr)) ->
  tangent_space_to_deltas (Proj v (Some addr)) = Ok vds -> good x l r vds -> agree sh (Lval x l r (deltasD vds)) (get dv) ->
  good x l r ds -> agree sh (Lval x l r (deltasD ds)) Y -> gradient_at sh F Y (E Y) -> ~ In None (grad (augmented qr func addr x l r) ds) ->
  (b = true -> is_invariant_to_input_transforms (F Y) (F X) = Ok Datatypes.tt) ->
  outer qr grad func addr x l r vector b ds = Ok (inner sh (E Y) (get dv)).
Proof.
  intros EF HF Ep Ed Gv Av Gd Ad HE HC Hb. pose proof (adm_eq x l r Hx HF Hd HA) as Heq. unfold outer, value_and_grad.
  rewrite (augmented_ok x l r Hx Bx HF Hd Heq qr addr func F HFun _ Y) by auto. cbn [bind].
  assert (EC : (if b then do w <- func x; is_invariant_to_input_transforms (F Y) w else Ok Datatypes.tt) = Ok Datatypes.tt).
  { destruct b; [|reflexivity]. rewrite (proj1 HFun x dx) by auto. cbn [bind]. now apply Hb. }
  rewrite EC. cbn [bind]. rewrite Ep. cbn [bind]. rewrite Ed. cbn [bind].
  rewrite (all_some _ _ (Hgrad _ _ _ (augmented_gradient x l r Hx Bx HF Hd Heq qr addr func F HFun ds Y (E Y) Gd Ad HE)) HC).
  destruct (products_ok (grads x l r (E Y)) vds) as (ps & Eps & Lps & Sps); [apply (good_same x l r Hd); [apply grads_good|exact Gv]|].
  rewrite Eps. cbn [bind]. destruct ps as [|p ps]; [exfalso; rewrite (proj1 (grads_good x l r (E Y))) in Lps; cbn in Lps; lia|].
  pose proof (Sps 0%R) as Q. cbn [fold_left] in Q. rewrite Rplus_0_l in Q. rewrite Q, Rplus_0_l. f_equal.
  rewrite (grads_inner x l r Hx HF Hd) by auto. apply (isum_ext Rring). intros i Hi. now rewrite Av.
Qed.

Lemma outer_gradient l r b v dv vds : frame qr x = Ok (l, r) -> is_frame x l r -> project qr vector addr x = Ok (Proj v (Some addr)) ->
  tangent_space_to_deltas (Proj v (Some addr)) = Ok vds -> good x l r vds -> agree sh (Lval x l r (deltasD vds)) (get dv) ->
  (forall T, exists eps, (0 < eps)%R /\ forall t, (Rabs t < eps)%R -> gradient_at sh F (shift X T t) (E (shift X T t))) -> hessian_at sh E X H ->
  (b = true -> F X <> 0%R) -> (forall ds, ~ In None (grad (augmented qr func addr x l r) ds)) ->
  is_gradient (outer qr grad func addr x l r vector b) (start_deltas r) (grads x l r (fun j => inner sh (H j) (get dv))).
Proof.
  intros EF HF Ep Ed Gv Av HE [HH HS] HV C1. pose proof (adm_eq x l r Hx HF Hd HA) as Heq. set (G := fun j => inner sh (H j) (get dv)).
  pose proof (start_good x l r HF Hd Heq) as GS. pose proof (start_agree l r HF) as AS.
  assert (X0 : forall T, F (shift X T 0) = F X). { intros T. apply (proj2 HFun). intros i Hi. unfold shift. ring. }
  split; [apply (good_same x l r Hd); auto; apply grads_good|]. intros hs Hhs. set (T := Lval x l r (deltasD hs)).
    exists (fun t => inner sh (E (shift X T t)) (get dv)). destruct (HE T) as (e1 & P1 & HE1). split.
    - assert (HK : exists e2, (0 < e2)%R /\ forall t, (Rabs t < e2)%R -> b = true -> is_invariant_to_input_transforms (F (shift X T t)) (F X) = Ok Datatypes.tt).
      { destruct b; [|exists 1%R; split; [lra|discriminate]]. specialize (HE1 0%R ltac:(rewrite Rabs_R0; exact P1) T).
        destruct (check_near (fun t => F (shift X T t)) (inner sh (E (shift X T 0)) T)) as (e2 & P2 & Q2).
        - apply (derivable_pt_lim_ext (fun t => F (shift (shift X T 0) T t))); [|exact HE1]. intros z. apply (proj2 HFun). intros i Hi. unfold shift. ring.
        - cbv beta. rewrite X0. now apply HV.
        - exists e2. split; [exact P2|]. intros t0 Ht _. cbv beta in Q2. rewrite X0 in Q2. now apply Q2. }
      destruct HK as (e2 & P2 & Q2). exists (Rmin e1 e2). split; [now apply Rmin_glb_lt|]. intros t0 Ht.
      pose proof (Rmin_l e1 e2). pose proof (Rmin_r e1 e2).
      apply (outer_ok l r b _ (shift X T t0) v dv vds); auto; try (now apply move_good); try (apply HE1; lra); try (apply Q2; lra).
      intros i Hi. rewrite (move_val x l r Hx HF Hd) by auto. unfold shift. now rewrite AS.
    - rewrite (grads_inner x l r Hx HF Hd) by (eapply good_shapes; eauto). fold T.
      assert (Q : inner sh G T = isum (K := Rring) sh (fun i => get dv i * inner sh (H i) T)%R).
      { unfold inner, G. unfold inner.
        transitivity (isum (K := Rring) sh (fun j => isum (K := Rring) sh (fun i => (get dv i * (H i j * T j))%R))).
        - apply (isum_ext Rring). intros j Hj. rewrite <- (isum_mul_r Rring). apply (isum_ext Rring). intros i Hi. rewrite (HS i j) by auto. kreq. cbn. ring.
        - rewrite isum_swap. apply (isum_ext Rring). intros i Hi. rewrite (isum_mul_l Rring). reflexivity. }
      rewrite Q. apply (derivable_pt_lim_ext (fun t => isum (K := Rring) sh (fun i => get dv i * E (shift X T t) i)%R)).
      + intros z. apply (isum_ext Rring). intros i Hi. apply Rmult_comm.
      + apply (derivable_isum sh (fun i t => get dv i * E (shift X T t) i)%R). intros i Hi. apply (derivable_pt_lim_scal (fun t => E (shift X T t) i)). now apply HH.
Qed.

Lemma hvp_ok b : (forall T, exists eps, (0 < eps)%R /\ forall t, (Rabs t < eps)%R -> gradient_at sh F (shift X T t) (E (shift X T t))) -> hessian_at sh E X H ->
  (b = true -> F X <> 0%R) ->
  (forall l r ds, frame qr x = Ok (l, r) -> ~ In None (grad (augmented qr func addr x l r) ds)) ->
  (forall l r, frame qr x = Ok (l, r) -> ~ In None (grad (outer qr grad func addr x l r vector b) (start_deltas r))) ->
  exists l r v dv p dp, frame qr x = Ok (l, r) /\ is_frame x l r /\ project qr vector addr x = Ok (Proj v (Some addr)) /\ full v = Ok dv /\
    hessian_vector_product qr grad func addr x vector b = Ok (Proj p (Some addr)) /\ made qr x addr (Proj p (Some addr)) /\ wf p /\ rshape p = rshape x /\ bsz p = None /\
    full p = Ok dp /\ shape dp = sh /\ (forall k, 0 < k < ndims x -> rk p k <= 2 * rk x k) /\ forall i, vidx sh i -> get dp i = fproj x l r (lift x (fun j => inner sh (H j) (get dv))) (split_idx x i).
Proof.
  intros HE HH HV C1 C2. destruct (frame_ok qr x Hqr Hx Bx) as (l & r & EF & HF). pose proof (adm_eq x l r Hx HF Hd HA) as Heq.
  destruct (vec_ok l r EF HF) as (v & dv & vds & Ep & Fv & Ed & Gv & Av). set (G := fun j => inner sh (H j) (get dv)).
  destruct (finish l r G HF) as (ds & t & dt & Eds & Et & Wt & Rt & Bt & Ft & St & Vt). exists l, r, v, dv, t, dt. do 4 (split; [assumption|]). split; [|split; [exact (finish_made l r G ds t EF HF Eds Et)|]; do 5 (split; [assumption|]); split; [|assumption]].
  2:{ intros k Hk. destruct (enforce_ok x l r HF Hd Heq G) as (ds' & Eds' & Ids). assert (ds' = ds) by congruence. subst ds'.
    destruct (rebuild_ok x l r Hx HF Hd Heq qr None _ ds addr (Some l) (Some r) Bx (Forall_nil _) Ids eq_refl eq_refl) as (t' & Et' & B). assert (t' = t) by congruence. subst t'.
    rewrite (bl_rk x l r Hd Heq None _ _ B) by auto. rewrite (adm_r x l r Hx HF Hd HA) by lia. lia. }
  pose proof (start_good x l r HF Hd Heq) as GS. pose proof (start_agree l r HF) as AS.
  assert (X0 : forall T, F (shift X T 0) = F X). { intros T. apply (proj2 HFun). intros i Hi. unfold shift. ring. }
  pose proof (outer_gradient l r b v dv vds EF HF Ep Ed Gv Av HE HH HV (fun ds => C1 l r ds EF)) as HG. fold G in HG.
  unfold hessian_vector_product. rewrite EF. cbn [bind]. unfold value_and_grad.
  destruct (HE (fun _ => 0%R)) as (e & Pe & HE0). specialize (HE0 0%R ltac:(rewrite Rabs_R0; exact Pe)).
  rewrite (outer_ok l r b (start_deltas r) (shift X (fun _ => 0%R) 0) v dv vds); auto.
  - cbn [bind]. rewrite (all_some _ _ (Hgrad _ _ _ HG) (C2 l r EF)). rewrite Eds. cbn [bind]. exact Et.
  - intros i Hi. unfold shift. rewrite AS by auto. req. lra.
  - intros ->. rewrite X0. unfold is_invariant_to_input_transforms. destruct (Req_EM_T (F X) 0); [exfalso; now apply HV|]. destruct (Rlt_dec _ _) as [|N]; [reflexivity|]. exfalso. apply N.
    replace ((F X - F X) / F X)%R with 0%R by (field; auto). rewrite Rabs_R0. lra.
Qed.

Lemma products_some : forall (os : list (option rtensor)) (vs : list rtensor) y, length os = length vs -> mapM (fun ab => product (fst ab) (snd ab)) (combine os vs) = Ok y -> ~ In None os.
Proof.
  induction os as [|o os IH]; intros [|v vs] y L Q; try discriminate; [intros []|]. cbn [combine mapM fst snd] in Q. intros [->|HN]; [discriminate Q|].
  destruct (product o v); cbn [bind] in Q; [|discriminate]. destruct (mapM _ (combine os vs)) as [y'|] eqn:EM; cbn [bind] in Q; [|discriminate].
  injection L as L. exact (IH vs y' L EM HN).
Qed.

(** When it returns, the tape has returned no None, at the start. *)
Lemma hvp_some b q l r : frame qr x = Ok (l, r) ->
  (forall T, exists eps, (0 < eps)%R /\ forall t, (Rabs t < eps)%R -> gradient_at sh F (shift X T t) (E (shift X T t))) ->
  hessian_vector_product qr grad func addr x vector b = Ok q -> ~ In None (grad (augmented qr func addr x l r) (start_deltas r)).
Proof.
  intros EF HE Q. destruct (frame_ok qr x Hqr Hx Bx) as (l' & r' & EF' & HF). assert (l' = l) by congruence. assert (r' = r) by congruence. subst l' r'.
  pose proof (adm_eq x l r Hx HF Hd HA) as Heq. destruct (vec_ok l r EF HF) as (v & dv & vds & Ep & Fv & Ed & Gv & Av).
  pose proof (start_good x l r HF Hd Heq) as GS. pose proof (start_agree l r HF) as AS.
  destruct (HE (fun _ => 0%R)) as (e & Pe & HE0). specialize (HE0 0%R ltac:(rewrite Rabs_R0; exact Pe)).
  assert (AS0 : agree sh (Lval x l r (deltasD (start_deltas r))) (shift X (fun _ => 0%R) 0)) by (intros i Hi; unfold shift; rewrite AS by auto; req; lra).
  pose proof (Hgrad _ _ _ (augmented_gradient x l r Hx Bx HF Hd Heq qr addr func F HFun _ _ _ GS AS0 HE0)) as HO.
  assert (L : length (grad (augmented qr func addr x l r) (start_deltas r)) = length vds).
  { transitivity (length (grads x l r (E (shift X (fun _ => 0%R) 0)))); [clear - HO; induction HO; cbn; congruence|]. rewrite (proj1 (grads_good x l r _)). symmetry. exact (proj1 Gv). }
  unfold hessian_vector_product in Q. rewrite EF in Q. cbn [bind] in Q. unfold value_and_grad in Q at 1.
  destruct (outer qr grad func addr x l r vector b (start_deltas r)) as [w|] eqn:EO; cbn [bind] in Q; [|discriminate].
  unfold outer, value_and_grad in EO. destruct (augmented qr func addr x l r (start_deltas r)); cbn [bind] in EO; [|discriminate].
  destruct (if b then _ else _); cbn [bind] in EO; [|discriminate]. rewrite Ep in EO. cbn [bind] in EO. rewrite Ed in EO. cbn [bind] in EO.
  destruct (mapM _ _) as [y|] eqn:EM; cbn [bind] in EO; [|discriminate]. exact (products_some _ vds y L EM).
Qed.
(** Nor for the second derivatives, if it returns no None elsewhere. *)
Lemma hvp_some2 b q l r : frame qr x = Ok (l, r) ->
  (forall T, exists eps, (0 < eps)%R /\ forall t, (Rabs t < eps)%R -> gradient_at sh F (shift X T t) (E (shift X T t))) -> hessian_at sh E X H ->
  (b = true -> F X <> 0%R) -> (forall ds, ~ In None (grad (augmented qr func addr x l r) ds)) ->
  hessian_vector_product qr grad func addr x vector b = Ok q -> ~ In None (grad (outer qr grad func addr x l r vector b) (start_deltas r)).
Proof.
  intros EF HE HH HV C1 Q HN. destruct (frame_ok qr x Hqr Hx Bx) as (l' & r' & EF' & HF). assert (l' = l) by congruence. assert (r' = r) by congruence. subst l' r'.
  destruct (vec_ok l r EF HF) as (v & dv & vds & Ep & Fv & Ed & Gv & Av).
  pose proof (Hgrad _ _ _ (outer_gradient l r b v dv vds EF HF Ep Ed Gv Av HE HH HV C1)) as HO.
  unfold hessian_vector_product in Q. rewrite EF in Q. cbn [bind] in Q. unfold value_and_grad in Q at 1.
  destruct (outer qr grad func addr x l r vector b (start_deltas r)) as [w|] eqn:EO; cbn [bind] in Q; [|discriminate].
  rewrite (enforce_none l r _ _ HF HO HN) in Q. discriminate Q.
Qed.
End Result.
