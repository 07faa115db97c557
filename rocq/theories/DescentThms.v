(** One step of Riemannian gradient descent. *)
From Coq Require Import String List Arith ZArith Lia Lra Bool Reals Psatz.
From Verif Require Import Scalar Tensor TensorLemmas TensorLemmas2 Base Spec Chain BaseLemmas Ops FullProofs ResultLemmas Dense
  OpsR ScaleProofs FlatProofs NormProofs OrthNorm Decomp DecompSpec RoundProofs RoundThms SvdSpec RankArgs Riem RiemSpec RiemProofs TangentSpace RiemFull RiemMade IntrinsicThms QRExists Vars VarSpec VarProofs Tutorial TutorialSpec TutorialProofs DescentProofs.
Import ListNotations.
Local Open Scope nat_scope.
Local Notation get := (@get Rring).
Local Ltac req := match goal with |- @eq _ ?u ?v => change (@eq R u v) end.

(** ** Inner products *)
Section Dot.
Variable sh : list nat.
Local Open Scope R_scope.
Lemma dot_ext f g f' g' : (forall i, vidx sh i -> f i = f' i /\ g i = g' i) -> dot sh f g = dot sh f' g'.
Proof. intros H. unfold dot. apply (isum_ext Rring). intros i Hi. destruct (H i Hi) as [-> ->]. reflexivity. Qed.
Lemma dot_sym f g : dot sh f g = dot sh g f.
Proof. unfold dot. apply (isum_ext Rring). intros i _. apply Rmult_comm. Qed.
Lemma dot_lin_l f f' g c : dot sh (fun i => f i + c * f' i) g = dot sh f g + c * dot sh f' g.
Proof.
  unfold dot. transitivity (isum (K := Rring) sh (fun i => f i * g i + c * (f' i * g i))).
  - apply (isum_ext Rring). intros i _. req. ring.
  - etransitivity; [apply (isum_add Rring)|]. apply f_equal2; [reflexivity|]. apply (isum_mul_l Rring).
Qed.
Lemma dot_lin_r f f' g c : dot sh g (fun i => f i + c * f' i) = dot sh g f + c * dot sh g f'.
Proof. rewrite dot_sym, dot_lin_l, (dot_sym f), (dot_sym f'). reflexivity. Qed.
Lemma dot_sq f g c : dot sh (fun i => f i + c * g i) (fun i => f i + c * g i) = dot sh f f + 2 * c * dot sh f g + c * c * dot sh g g.
Proof. rewrite dot_lin_l, !dot_lin_r, (dot_sym g f). ring. Qed.
Lemma dot_pos f : 0 <= dot sh f f.
Proof. destruct (isum_zero_each sh (fun i => f i * f i)) as [H _]; [intros; apply Rle_0_sqr|exact H]. Qed.
Lemma dot_zero f : dot sh f f = 0 -> forall i, vidx sh i -> f i = 0.
Proof.
  intros H i Hi. destruct (isum_zero_each sh (fun i => f i * f i)) as [_ Z]; [intros; apply Rle_0_sqr|]. specialize (Z H i Hi). cbv beta in Z. apply Rmult_integral in Z. tauto.
Qed.
Lemma dot_young f g s : 0 < s -> 2 * dot sh f g <= s * dot sh f f + / s * dot sh g g.
Proof.
  intros Hs. pose proof (dot_pos (fun i => g i + (- s) * f i)) as H. rewrite dot_sq, (dot_sym g f) in H.
  apply (Rmult_le_reg_l s); [exact Hs|]. replace (s * (s * dot sh f f + / s * dot sh g g)) with (s * s * dot sh f f + dot sh g g) by (field; lra). nra.
Qed.
Lemma dot_cauchy f g : dot sh f g * dot sh f g <= dot sh f f * dot sh g g.
Proof.
  pose proof (dot_pos f) as Pf. pose proof (dot_pos g) as Pg. destruct (Req_dec (dot sh g g) 0) as [E|Hne].
  - rewrite E, Rmult_0_r. replace (dot sh f g) with 0; [lra|]. symmetry. unfold dot. rewrite (isum_ext Rring _ _ (fun _ => 0)); [apply (isum_zero Rring); reflexivity|].
    intros i Hi. rewrite (dot_zero g E i Hi). apply Rmult_0_r.
  - pose proof (dot_pos (fun i => f i + (- (dot sh f g / dot sh g g)) * g i)) as H. rewrite dot_sq in H.
    set (u := dot sh f g) in *. set (v := dot sh g g) in *. assert (0 < v) by lra.
    replace (dot sh f f + 2 * - (u / v) * u + - (u / v) * - (u / v) * v) with (dot sh f f - u * u / v) in H by (field; lra).
    assert (u * u / v <= dot sh f f) by lra. apply (Rmult_le_compat_r v) in H1; [|lra]. replace (u * u / v * v) with (u * u) in H1 by (field; lra). lra.
Qed.
Lemma dot_triangle f g : sqrt (dot sh (fun i => f i + g i) (fun i => f i + g i)) <= sqrt (dot sh f f) + sqrt (dot sh g g).
Proof.
  rewrite (dot_ext _ _ (fun i => f i + 1 * g i) (fun i => f i + 1 * g i)) by (intros; split; ring). rewrite dot_sq.
  pose proof (dot_pos f) as Pf. pose proof (dot_pos g) as Pg. pose proof (dot_cauchy f g) as C. pose proof (sqrt_pos (dot sh f f)). pose proof (sqrt_pos (dot sh g g)).
  pose proof (sqrt_sqrt _ Pf) as Sf. pose proof (sqrt_sqrt _ Pg) as Sg. set (a := sqrt (dot sh f f)) in *. set (b := sqrt (dot sh g g)) in *.
  rewrite <- (sqrt_square (a + b)) by lra. apply sqrt_le_1_alt.
  assert (dot sh f g <= a * b). { destruct (Rle_dec (dot sh f g) 0); [nra|]. apply Rsqr_incr_0_var; [unfold Rsqr|nra]. rewrite <- Sf, <- Sg in C. nra. }
  rewrite <- Sf, <- Sg. nra.
Qed.
End Dot.

(** ** The update *)
Lemma rks_ext (x z : rtt) : wf x -> wf z -> ndims z = ndims x -> (forall k, k <= ndims x -> rk z k = rk x k) -> rks z = rks x.
Proof.
  intros W W' D H. apply nth_ext with (d := 0) (d' := 0); [rewrite (wf_klen W), (wf_klen W'); congruence|]. intros k Hk. rewrite (wf_klen W') in Hk. apply H. lia.
Qed.

Lemma update_ok qr svd (x a : rtt) addr alpha r m : qr_ok qr -> svd_ok svd -> wf x -> bsz x = None -> 2 <= ndims x -> admissible x ->
  wf a -> rshape a = rshape x -> bsz a = None -> rank_limits false r None (ndims x) m -> (forall k, 0 < k < ndims x -> m k = rk x k) ->
  exists p z : rtt, descent_update qr svd x a addr alpha r = Ok z /\ wf z /\ rshape z = rshape x /\ rks z = rks x /\ bsz z = None /\
    (full_tt_ranks x -> riemannian_gradient x a (tt_at p)) /\
    forall b : rtt, wf b -> rshape b = rshape x -> bsz b = None -> (forall k, 0 < k < ndims x -> rk b k <= rk x k) ->
      (dot (ishape x) (fun i => tt_at x i - alpha * tt_at p i - tt_at z i) (fun i => tt_at x i - alpha * tt_at p i - tt_at z i) <=
       INR (ndims x - 1) * dot (ishape x) (fun i => tt_at x i - alpha * tt_at p i - tt_at b i) (fun i => tt_at x i - alpha * tt_at p i - tt_at b i))%R.
Proof.
  intros Hq Hs Hx Bx Hd HA Ha Ra Ba Hm Hmr.
  destruct (update_point qr svd x a addr alpha r Hq Hx Bx Hd Ha Ra Ba) as (p & y & Wy & Ry & By & Dy & Ky & Eu & Ay & HG).
  assert (By' : is_batch y = false) by (unfold is_batch; now rewrite By).
  destruct (limits_parse _ _ _ _ _ Hm ltac:(lia)) as (mr & Hp & Hn). rewrite <- By', <- Dy in Hp.
  assert (My : forall k, modes y k = modes x k) by (intros k; unfold modes; now rewrite Ry).
  destruct (round_reaches qr svd y r None mr (rk x) Hq Hs Wy Hp (wf_first Hx) ltac:(rewrite Dy; apply (wf_last Hx))) as (z & Ez & Wz & Rz & Bz & Dz & Kz).
  { intros k Hk. rewrite Dy in Hk. rewrite !My, Hn by lia. destruct (HA k Hk) as [A1 A2]. rewrite Hmr by auto. auto. }
  exists p, z. rewrite Eu. split; [exact Ez|]. split; [exact Wz|]. split; [congruence|]. split; [apply rks_ext; auto; try congruence; intros; apply Kz; lia|]. split; [congruence|].
  split; [exact HG|]. intros b Wb Rb Bb Kb.
  destruct (round_best qr svd Hq Hs y b r None mr Wy Hp Wb) as (z' & Ez' & _ & _ & _ & Q).
  { intros k Hk. rewrite Hn, Hmr by lia. apply Kb. lia. }
  rewrite Ez in Ez'. injection Ez' as <-. specialize (Q [] ltac:(unfold bpre; rewrite By; apply vidx_nil)).
  destruct (dense_at y Wy By) as (dy & Fy & Sy & Vy). destruct (dense_at z Wz ltac:(congruence)) as (dz & Fz & Sz & Vz). destruct (dense_at b Wb Bb) as (db & Fb & Sb & Vb).
  assert (V0 : vidx (bpre y) []) by (unfold bpre; rewrite By; apply vidx_nil).
  rewrite <- (sq_dist_entries y z dy dz []), <- (sq_dist_entries y b dy db []) in Q by (auto; congruence). unfold sq_dist in Q.
  rewrite (same_ishape y x Ry) in *. rewrite (same_ishape z x ltac:(congruence)) in *. rewrite (same_ishape b x ltac:(congruence)) in *. rewrite Dy in Q.
  assert (E : forall (c : rtt) dc, (forall i, vidx (ishape x) i -> get dc i = tt_at c i) ->
    isum (K := Rring) (ishape x) (fun i => ((get dy ([] ++ i) - get dc ([] ++ i)) * (get dy ([] ++ i) - get dc ([] ++ i)))%R) =
    dot (ishape x) (fun i => tt_at x i - alpha * tt_at p i - tt_at c i)%R (fun i => tt_at x i - alpha * tt_at p i - tt_at c i)%R).
  { intros c dc Hc. apply (isum_ext Rring). intros i Hi. cbn [app]. rewrite Vy, Hc, Ay by auto. reflexivity. }
  rewrite <- (E z dz Vz), <- (E b db Vb). exact Q.
Qed.

Lemma loss_ok qr (x a : rtt) : qr_ok qr -> wf x -> bsz x = None -> 2 <= ndims x -> wf a -> rshape a = rshape x -> bsz a = None ->
  descent_loss qr x a = Ok (half_sq_dist x a).
Proof.
  intros Hq Hx Bx Hd Ha Ra Ba. unfold descent_loss.
  destruct (tt_sub_full x a Hx Ha ltac:(congruence) Hd Bx Ba) as (g & Eg & Wg & Rg & Bg & Kg & (dx & da & dg & Fx & Fa & Fg & Sg & Vg)). rewrite Bg in Vg.
  rewrite Eg. cbn [bind]. unfold frobenius_norm_squared. destruct (frobenius_qr_full qr g Hq Wg) as (n & d & En & _ & _ & Fd & V). assert (d = dg) by congruence. subst d.
  rewrite En. cbn [bind]. rewrite Bg in V. specialize (V 0 I). cbn [bo] in V. rewrite V. unfold half_sq_dist. f_equal. unfold Rdiv. rewrite Rmult_1_l. f_equal.
  unfold sum_squares, dot. rewrite (same_ishape g x Rg). apply (isum_ext Rring). intros i Hi. rewrite Bg. cbn [bo app].
  destruct (dense_at x Hx Bx) as (dx' & Fx' & _ & Vx). destruct (dense_at a Ha Ba) as (da' & Fa' & _ & Va). destruct (dense_at g Wg Bg) as (dg' & Fg' & Sg' & _).
  assert (dx' = dx) by congruence. assert (da' = da) by congruence. assert (dg' = dg) by congruence. subst. rewrite (same_ishape a x Ra) in Va. rewrite (same_ishape g x Rg) in Sg'.
  unfold minus. rewrite <- Vx, <- Va by auto. rewrite Vg by (rewrite Sg'; auto). reflexivity.
Qed.

(** ** The loss of the new point *)
Lemma new_loss (x a z : rtt) G alpha e : riemannian_gradient x a G -> ishape z = ishape x ->
  dot (ishape x) (fun i => tt_at x i - alpha * G i - tt_at z i)%R (fun i => tt_at x i - alpha * G i - tt_at z i)%R = e ->
  let g := dot (ishape x) G G in let n := dot (ishape x) (minus x a) (minus x a) in
  dot (ishape x) (fun i => tt_at x i - alpha * G i - tt_at a i)%R (fun i => tt_at x i - alpha * G i - tt_at a i)%R = (n - alpha * (2 - alpha) * g)%R /\
  (sqrt (2 * half_sq_dist z a) <= sqrt (n - alpha * (2 - alpha) * g) + sqrt e)%R /\
  forall s, (0 < s)%R -> (2 * half_sq_dist z a <= (1 + s) * (n - alpha * (2 - alpha) * g) + (1 + / s) * e)%R.
Proof.
  intros [HT HG] Sz <- g n. set (sh := ishape x) in *. set (u := fun i => (tt_at x i - alpha * G i - tt_at a i)%R). set (w := fun i => (tt_at x i - alpha * G i - tt_at z i)%R).
  assert (Eu : dot sh u u = (n - alpha * (2 - alpha) * g)%R).
  { rewrite (dot_ext sh u u (fun i => minus x a i + (- alpha) * G i)%R (fun i => minus x a i + (- alpha) * G i)%R) by (intros; unfold u, minus; split; ring).
    rewrite dot_sq. rewrite <- (HG G HT). fold n g. ring. }
  assert (Ez : (2 * half_sq_dist z a)%R = dot sh (fun i => u i + (- 1) * w i)%R (fun i => u i + (- 1) * w i)%R).
  { unfold half_sq_dist. rewrite Sz. fold sh. rewrite (dot_ext sh (minus z a) (minus z a) (fun i => u i + (- 1) * w i)%R (fun i => u i + (- 1) * w i)%R); [field|]. intros. unfold u, w, minus. split; ring. }
  split; [exact Eu|]. split.
  - rewrite Ez, <- Eu. pose proof (dot_triangle sh u (fun i => - w i)%R) as T.
    assert (E1 : dot sh (fun i => - w i)%R (fun i => - w i)%R = dot sh w w). { unfold dot. apply (isum_ext Rring). intros i _. req. ring. }
    rewrite E1 in T. eapply Rle_trans; [|exact T]. apply Req_le. f_equal. apply dot_ext. intros; split; ring.
  - intros s Hs. rewrite Ez, dot_sq, Eu. pose proof (dot_young sh u (fun i => - w i)%R s Hs) as Y.
    assert (E1 : dot sh (fun i => - w i)%R (fun i => - w i)%R = dot sh w w). { unfold dot. apply (isum_ext Rring). intros i _. req. ring. }
    assert (E2 : dot sh u (fun i => - w i)%R = (- dot sh u w)%R). { pose proof (dot_lin_r sh (fun _ => 0%R) w u (-1)%R) as L. cbv beta in L. rewrite (dot_ext sh u (fun i => 0 + -1 * w i)%R u (fun i => - w i)%R) in L by (intros; split; ring).
      rewrite L. replace (dot sh u (fun _ => 0%R)) with 0%R; [ring|]. unfold dot. symmetry. rewrite (isum_ext Rring _ _ (fun _ => 0%R)); [apply (isum_zero Rring); reflexivity|]. intros. apply Rmult_0_r. }
    rewrite E1, E2, Eu in Y. fold w. lra.
Qed.

Lemma gradient_unique (x a : rtt) G G' : wf x -> 2 <= ndims x -> riemannian_gradient x a G -> riemannian_gradient x a G' -> forall i, vidx (ishape x) i -> G i = G' i.
Proof.
  intros Hx Hd [T1 H1] [T2 H2]. apply (proj_unique x G G' Hx Hd T1 T2). intros T HT. etransitivity; [apply (H1 T HT)|]. symmetry. apply (H2 T HT).
Qed.
Lemma gradient_zero (x a : rtt) G : riemannian_gradient x a G -> (stationary x a <-> forall i, vidx (ishape x) i -> G i = 0%R).
Proof.
  intros [HT HG]. split; intros H.
  - apply dot_zero. rewrite (HG G HT). now apply H.
  - intros T HT'. rewrite <- (HG T HT'). unfold dot. rewrite (isum_ext Rring _ _ (fun _ => 0%R)); [apply (isum_zero Rring); reflexivity|]. intros i Hi. rewrite H by auto. apply Rmult_0_l.
Qed.
Lemma gradient_exists (x a : rtt) : wf x -> bsz x = None -> 2 <= ndims x -> full_tt_ranks x -> wf a -> rshape a = rshape x -> bsz a = None -> exists G, riemannian_gradient x a G.
Proof.
  intros Hx Bx Hd HR Ha Ra Ba. destruct (update_point gram_schmidt (fun m => (m, m, m)) x a 0 0 RkNone gram_schmidt_ok Hx Bx Hd Ha Ra Ba) as (p & _ & _ & _ & _ & _ & _ & _ & _ & H).
  exists (tt_at p). auto.
Qed.

Lemma update_stationary qr svd (x a : rtt) addr alpha r m : qr_ok qr -> svd_ok svd -> wf x -> bsz x = None -> 2 <= ndims x -> full_tt_ranks x ->
  wf a -> rshape a = rshape x -> bsz a = None -> rank_limits false r None (ndims x) m -> (forall k, 0 < k < ndims x -> m k = rk x k) -> stationary x a ->
  exists z, descent_update qr svd x a addr alpha r = Ok z /\ forall i, vidx (ishape x) i -> tt_at z i = tt_at x i.
Proof.
  intros Hq Hs Hx Bx Hd HR Ha Ra Ba Hm Hmr HS.
  destruct (update_ok qr svd x a addr alpha r m Hq Hs Hx Bx Hd (full_admissible x Hx HR) Ha Ra Ba Hm Hmr) as (p & z & Ez & Wz & Rz & Kz & Bz & HG & HB).
  exists z. split; [exact Ez|]. pose proof (proj1 (gradient_zero x a _ (HG HR)) HS) as G0.
  specialize (HB x Hx eq_refl Bx ltac:(intros; lia)).
  assert (E : dot (ishape x) (fun i => tt_at x i - alpha * tt_at p i - tt_at x i)%R (fun i => tt_at x i - alpha * tt_at p i - tt_at x i)%R = 0%R).
  { unfold dot. rewrite (isum_ext Rring _ _ (fun _ => 0%R)); [apply (isum_zero Rring); reflexivity|]. intros i Hi. rewrite G0 by auto. req. ring. }
  rewrite E, Rmult_0_r in HB. intros i Hi. pose proof (dot_pos (ishape x) (fun i => tt_at x i - alpha * tt_at p i - tt_at z i)%R) as P.
  pose proof (dot_zero (ishape x) (fun i => tt_at x i - alpha * tt_at p i - tt_at z i)%R ltac:(lra) i Hi) as Z. cbv beta in Z. rewrite G0 in Z by auto. change (@eq R (tt_at z i) (tt_at x i)). lra.
Qed.

Lemma update_descends (x a : rtt) : wf x -> bsz x = None -> 2 <= ndims x -> full_tt_ranks x -> wf a -> rshape a = rshape x -> bsz a = None -> ~ stationary x a ->
  exists a0, (0 < a0)%R /\ forall qr svd addr alpha r m, qr_ok qr -> svd_ok svd -> rank_limits false r None (ndims x) m -> (forall k, 0 < k < ndims x -> m k = rk x k) ->
    (0 < alpha < a0)%R -> exists z, descent_update qr svd x a addr alpha r = Ok z /\ (half_sq_dist z a < half_sq_dist x a)%R.
Proof.
  intros Hx Bx Hd HR Ha Ra Ba HS. destruct (gradient_exists x a Hx Bx Hd HR Ha Ra Ba) as (G & HG).
  destruct (moved_close x G Hx Bx (proj1 HG)) as (C & HC & HM).
  set (g := dot (ishape x) G G). set (n := dot (ishape x) (minus x a) (minus x a)). set (q := (INR (ndims x - 1) * C)%R).
  assert (Pn : (0 <= n)%R) by apply dot_pos. assert (Pq : (0 <= q)%R) by (apply Rmult_le_pos; [apply pos_INR|auto]).
  assert (Pg : (0 < g)%R).
  { destruct (Rle_lt_or_eq_dec 0 g (dot_pos _ _)) as [H|E]; [exact H|]. exfalso. apply HS. apply (gradient_zero x a G HG). apply dot_zero. now symmetry. }
  assert (P0 : (0 < g / (n + 2 * q + 1))%R) by (apply Rdiv_lt_0_compat; lra).
  exists (Rmin 1 (g / (n + 2 * q + 1))). split; [apply Rmin_glb_lt; lra|]. intros qr svd addr alpha r m Hq Hs Hm Hmr [A1 A2].
  assert (A3 : (alpha < 1)%R) by (eapply Rlt_le_trans; [exact A2|apply Rmin_l]). assert (A4 : (alpha < g / (n + 2 * q + 1))%R) by (eapply Rlt_le_trans; [exact A2|apply Rmin_r]).
  destruct (update_ok qr svd x a addr alpha r m Hq Hs Hx Bx Hd (full_admissible x Hx HR) Ha Ra Ba Hm Hmr) as (p & z & Ez & Wz & Rz & Kz & Bz & HP & HB).
  exists z. split; [exact Ez|]. specialize (HP HR). pose proof (gradient_unique x a _ _ Hx Hd HP HG) as EG.
  destruct (HM (- alpha)%R) as (b & Wb & Rb & Bb & Db & Kb & Hb); [rewrite Rabs_Ropp, Rabs_right; lra|].
  specialize (HB b Wb Rb Bb ltac:(intros; unfold rk; rewrite Kb; lia)).
  destruct (new_loss x a z (tt_at p) alpha _ HP (same_ishape z x Rz) eq_refl) as (_ & _ & NL).
  specialize (NL (alpha * alpha)%R ltac:(nra)). set (e := dot (ishape x) (fun i => tt_at x i - alpha * tt_at p i - tt_at z i)%R (fun i => tt_at x i - alpha * tt_at p i - tt_at z i)%R) in HB, NL.
  assert (Eg : dot (ishape x) (tt_at p) (tt_at p) = g) by (apply dot_ext; auto).
  fold n in NL. rewrite Eg in NL.
  assert (Eb : (e <= q * (alpha * alpha * (alpha * alpha)))%R).
  { eapply Rle_trans; [exact HB|]. unfold q. rewrite Rmult_assoc. apply Rmult_le_compat_l; [apply pos_INR|].
    replace (alpha * alpha * (alpha * alpha))%R with (- alpha * - alpha * (- alpha * - alpha))%R by ring. eapply Rle_trans; [|exact Hb]. apply Req_le. unfold dot. apply (isum_ext Rring). intros i Hi.
    rewrite EG by auto. req. ring. }
  assert (A5 : (alpha * (n + 2 * q + 1) < g)%R). { apply (Rmult_lt_compat_r (n + 2 * q + 1)) in A4; [|lra]. replace (g / (n + 2 * q + 1) * (n + 2 * q + 1))%R with g in A4 by (field; lra). exact A4. }
  assert (Pe : (0 <= e)%R) by apply dot_pos.
  assert (X1 : ((1 + / (alpha * alpha)) * e <= (1 + / (alpha * alpha)) * (q * (alpha * alpha * (alpha * alpha))))%R).
  { apply Rmult_le_compat_l; [|exact Eb]. assert (0 < / (alpha * alpha))%R by (apply Rinv_0_lt_compat; nra). lra. }
  replace ((1 + / (alpha * alpha)) * (q * (alpha * alpha * (alpha * alpha))))%R with (q * (alpha * alpha) * (alpha * alpha + 1))%R in X1 by (field; lra).
  assert (S1 : (alpha * alpha <= 1)%R) by nra.
  assert (X2 : (q * (alpha * alpha) * (alpha * alpha + 1) <= 2 * q * (alpha * alpha))%R). { assert (0 <= q * (alpha * alpha))%R by (apply Rmult_le_pos; nra). nra. }
  assert (X3 : ((1 + alpha * alpha) * (n - alpha * (2 - alpha) * g) <= n + alpha * alpha * n - alpha * g)%R).
  { assert (0 <= alpha * g)%R by nra. assert (1 <= (1 + alpha * alpha) * (2 - alpha))%R by nra. nra. }
  assert (X4 : (alpha * alpha * n + 2 * q * (alpha * alpha) < alpha * g)%R) by nra.
  assert (Ex : (2 * half_sq_dist x a = n)%R) by (unfold half_sq_dist, n; field). lra.
Qed.
