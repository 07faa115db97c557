(** Projections and Riemannian gradients depend on the tensors only. *)
From Coq Require Import String Ascii List Arith ZArith Lia Lra Bool Ring Reals.
From Verif Require Import Scalar Tensor TensorLemmas TensorLemmas2 Base Spec Chain BaseLemmas Ops
  FullProofs ResultLemmas Dense Sweep FlatProofs OpsR Decomp DecompSpec GaugeProofs OrthProofs OrthNorm KronSpec DetProofs QRExists Trunc SvdExists
  MatmulProofs TangentProofs Riem RiemBlock RiemProofs RiemThms RiemMatmul RiemSpec TangentSpace RiemFull RiemMade Autodiff AutoSpec AutoProofs AutoThms AutoMain
  TangentIntrinsic.
Import ListNotations.
Local Open Scope nat_scope.
Local Notation fn := (list (list nat) -> Rring).
Local Notation get := (@get Rring).
Add Ring Rring6 : (cth Rring).
Local Ltac req := match goal with |- @eq _ ?u ?v => change (@eq R u v) end.

Lemma proj_unique (x : rtt) (g f : list nat -> R) : wf x -> 2 <= ndims x -> tangent x g -> tangent x f ->
  (forall T, tangent x T -> isum (K := Rring) (ishape x) (fun i => g i * T i)%R = isum (K := Rring) (ishape x) (fun i => f i * T i)%R) ->
  forall i, vidx (ishape x) i -> g i = f i.
Proof.
  intros Hx Hd Hg Hf HT i Hi. apply Rminus_diag_uniq. pose proof (HT _ (tangent_lin x Hx Hd _ _ 1%R (-1)%R Hg Hf)) as H4.
  assert (E : isum (K := Rring) (ishape x) (fun i => Rsqr (g i - f i)) = 0%R).
  { transitivity (isum (K := Rring) (ishape x) (fun i => g i * (1 * g i + -1 * f i) + (-1) * (f i * (1 * g i + -1 * f i)))%R).
    - apply (isum_ext Rring). intros k Hk. unfold Rsqr. req. ring.
    - etransitivity; [apply (isum_add Rring)|]. etransitivity; [apply f_equal2; [exact H4|apply (isum_mul_l Rring)]|]. req. cbn [cadd cmul Rring]. ring. }
  destruct (isum_zero_each (ishape x) (fun i => Rsqr (g i - f i))) as [_ Q]; [intros; apply Rle_0_sqr|].
  apply Rsqr_0_uniq. apply (Q E); auto.
Qed.

Lemma same_full_eq {K : cring} (a b : tt K) da db : wf a -> wf b -> same_full a b -> full a = Ok da -> full b = Ok db -> da = db.
Proof.
  intros Ha Hb (xa & xb & Fa & Fb & E & V) Fa' Fb'. assert (xa = da) by congruence. assert (xb = db) by congruence. subst.
  destruct (full_correct K a Ha) as (ea & Ga & Wa & _). destruct (full_correct K b Hb) as (eb & Gb & Wb & _).
  assert (ea = da) by congruence. assert (eb = db) by congruence. subst. now apply tensor_ext.
Qed.
Lemma same_full_bsz {K : cring} (a b : tt K) : wf a -> wf b -> rshape a = rshape b -> same_full a b -> bsz a = bsz b.
Proof.
  intros Ha Hb Er (xa & xb & Fa & Fb & E & V).
  destruct (full_correct K a Ha) as (ea & Ga & _ & Sa & _). destruct (full_correct K b Hb) as (eb & Gb & _ & Sb & _).
  assert (ea = xa) by congruence. assert (eb = xb) by congruence. subst. rewrite get_shape_ishape in Sa, Sb by auto.
  assert (Ei : ishape a = ishape b) by (unfold ishape, is_tt_matrix; now rewrite Er). rewrite Ei in Sa.
  assert (Sa' : shape xa = pre_of (bsz a) ++ ishape b) by exact Sa. assert (Sb' : shape xb = pre_of (bsz b) ++ ishape b) by exact Sb.
  assert (P : pre_of (bsz a) = pre_of (bsz b)) by (apply (app_inv_tail (ishape b)); congruence).
  destruct (bsz a), (bsz b); cbn in P; congruence.
Qed.

Section XY.
Variables (x y : rtt).
Hypothesis Hx : wf x.
Hypothesis Hy : wf y.
Hypothesis Rxy : rshape y = rshape x.
Hypothesis Bx : bsz x = None.
Hypothesis By : bsz y = None.
Hypothesis Hd : 2 <= ndims x.
Hypothesis HS : same_full x y.
Hypothesis Hrx : full_tt_ranks x.
Hypothesis Hry : full_tt_ranks y.

Lemma ty T : tangent y T <-> tangent x T.
Proof. symmetry. now apply tangent_iff. Qed.
Lemma dy : 2 <= ndims y.
Proof. now rewrite (nd_xy x y Hx Hy Rxy). Qed.

Lemma i_project qr qr' (z z' : rtt) addr addr' : qr_ok qr -> qr_ok qr' -> wf z -> wf z' -> rshape z = rshape x -> rshape z' = rshape x -> same_full z z' ->
  exists p p', project qr z addr x = Ok (Proj p (Some addr)) /\ project qr' z' addr' y = Ok (Proj p' (Some addr')) /\
    wf p /\ wf p' /\ rshape p = rshape x /\ rshape p' = rshape x /\ bsz p = bsz z /\ bsz p' = bsz z /\ same_full p p'.
Proof.
  intros Hq Hq' Hz Hz' Rz Rz' Zz. pose proof dy as Hd'. assert (Rz2 : rshape z' = rshape y) by congruence.
  pose proof (same_full_bsz z z' Hz Hz' ltac:(congruence) Zz) as Bz.
  destruct (project_dense qr z x addr Hq Hx Bx Hd Hz Rz) as (l & r & p & dp & dz & _ & _ & Ep & Wp & Rp & Bp & _ & Fp & Fz & Sp & Sz & _).
  destruct (project_dense qr' z' y addr' Hq' Hy By Hd' Hz' Rz2) as (l' & r' & p' & dp' & dz' & _ & _ & Ep' & Wp' & Rp' & Bp' & _ & Fp' & Fz' & Sp' & Sz' & _).
  assert (dz' = dz) by (symmetry; now apply (same_full_eq z z')). subst dz'.
  exists p, p'. do 5 (split; [assumption|]). split; [congruence|]. split; [assumption|]. split; [congruence|].
  exists dp, dp'. do 2 (split; [assumption|]). split; [congruence|].
  destruct (c43_tangent qr x addr Hq Hx Bx Hd z Hrx Hz Rz) as (q & dq & dw & Eq & Fq & Fw & H).
  destruct (c43_tangent qr' y addr' Hq' Hy By Hd' z' Hry Hz' Rz2) as (q' & dq' & dw' & Eq' & Fq' & Fw' & H').
  assert (q = p) by congruence. assert (q' = p') by congruence. assert (dw = dz) by congruence. assert (dw' = dz) by congruence. subst.
  assert (dq = dp) by congruence. assert (dq' = dp') by congruence. subst.
  intros i Hi. rewrite Sp, Sz in Hi. apply vidx_app_inv in Hi as (o & i' & -> & Ho & Hi').
  destruct (H o Ho) as [H1 H2]. rewrite Bz in Ho. destruct (H' o Ho) as [H1' H2'].
  apply (proj_unique x (fun i => get dp (o ++ i)) (fun i => get dp' (o ++ i))); auto.
  - now apply ty.
  - intros T HT. rewrite (H2 T HT). symmetry. rewrite <- (same_ishape y x Rxy). apply H2'. now apply ty.
Qed.

Lemma i_sum qr qr' (z z' : rtt) addr addr' weights : qr_ok qr -> qr_ok qr' -> wf z -> wf z' -> rshape z = rshape x -> rshape z' = rshape x -> same_full z z' ->
  good_weights (match bsz z with Some b => b | None => 1 end) weights ->
  exists p p', project_sum qr z addr x weights = Ok (Proj p (Some addr)) /\ project_sum qr' z' addr' y weights = Ok (Proj p' (Some addr')) /\ same_full p p'.
Proof.
  intros Hq Hq' Hz Hz' Rz Rz' Zz Hw. pose proof (same_full_bsz z z' Hz Hz' ltac:(congruence) Zz) as Bz.
  destruct (i_project qr qr' z z' addr addr' Hq Hq' Hz Hz' Rz Rz' Zz) as (p & p' & Ep & Ep' & Wp & Wp' & Rp & Rp' & Bp & Bp' & Sp).
  destruct (c44_sum qr z x addr weights Hq Hx Bx Hd Hz Rz Hw) as (q & t & dq & dt & Eq & Et & Wt & Rt & Bt & _ & Fq & Ft & V).
  assert (Hw' := Hw). rewrite Bz in Hw'.
  destruct (c44_sum qr' z' y addr' weights Hq' Hy By dy Hz' ltac:(congruence) Hw') as (q' & t' & dq' & dt' & Eq' & Et' & Wt' & Rt' & Bt' & _ & Fq' & Ft' & V').
  assert (q = p) by congruence. assert (q' = p') by congruence. subst.
  assert (dq' = dq) by (symmetry; now apply (same_full_eq p p')). subst dq'.
  exists t, t'. do 2 (split; [assumption|]). exists dt, dt'. do 2 (split; [assumption|]).
  destruct (dense t Wt) as (et & Gt & St & _). destruct (dense t' Wt') as (et' & Gt' & St' & _).
  assert (et = dt) by congruence. assert (et' = dt') by congruence. subst.
  rewrite Bt, (same_ishape t x Rt) in St. rewrite Bt', (same_ishape t' x ltac:(congruence)) in St'.
  split; [congruence|]. intros i Hi. rewrite St in Hi. apply vidx_app_inv in Hi as (o & i' & -> & Ho & Hi').
  rewrite V, V' by (auto; now rewrite (same_ishape y x Rxy)). rewrite Bz. reflexivity.
Qed.

Lemma i_matmul qr qr' (w w' m m' : rtt) addr addr' B : qr_ok qr -> qr_ok qr' -> is_tt_matrix x = true ->
  wf w -> wf w' -> rshape w = rshape x -> rshape w' = rshape x -> bsz w = Some B -> same_full w w' ->
  wf m -> wf m' -> bsz m = None -> rshape m = [nth 0 (rshape x) []; nth 0 (rshape x) []] -> rshape m' = rshape m -> same_full m m' ->
  exists p p', project_matmul qr w addr x m = Ok (Proj p (Some addr)) /\ project_matmul qr' w' addr' y m' = Ok (Proj p' (Some addr')) /\ same_full p p'.
Proof.
  intros Hq Hq' Kx Hw Hw' Rw Rw' Bw Sw Hm Hm' Bm Rm Rm' Sm.
  pose proof (same_full_bsz w w' Hw Hw' ltac:(congruence) Sw) as Bw'. pose proof (same_full_bsz m m' Hm Hm' ltac:(congruence) Sm) as Bm'.
  rewrite Bw in Bw'. rewrite Bm in Bm'. symmetry in Bw', Bm'.
  assert (Ky : is_tt_matrix y = true) by (unfold is_tt_matrix in *; now rewrite Rxy).
  destruct (dense w Hw) as (dw & Fw & _). destruct (dense w' Hw') as (dw' & Fw' & _).
  destruct (dense m Hm) as (dm & Fm & _). destruct (dense m' Hm') as (dm' & Fm' & _).
  assert (dw' = dw) by (symmetry; now apply (same_full_eq w w')). assert (dm' = dm) by (symmetry; now apply (same_full_eq m m')). subst.
  destruct (project_matmul_ok qr w x m addr B Hq Hx Bx Hd Kx Hw Bw Rw Hm Bm Rm) as (l & r & t & Ef & HF & Et & HP).
  destruct (project_matmul_ok qr' w' y m' addr' B Hq' Hy By dy Ky Hw' Bw' ltac:(congruence) Hm' Bm' ltac:(congruence)) as (l' & r' & t' & Ef' & HF' & Et' & HP').
  pose proof HP as (F1 & (Wt & Rt & Bt & _) & _). destruct (dense t Wt) as (dt & Ft & St & Vt).
  pose proof HP' as (F1' & (Wt' & Rt' & Bt' & _) & _). destruct (dense t' Wt') as (dt' & Ft' & St' & Vt').
  rewrite (same_ishape t x Rt), Bt in *. rewrite (same_ishape t' x ltac:(congruence)), Bt' in *.
  exists t, t'. do 2 (split; [assumption|]). exists dt, dt'. do 2 (split; [assumption|]). split; [congruence|].
  intros i Hi. rewrite St in Hi. apply vidx_app_inv in Hi as (o & i' & -> & Ho & Hi').
  rewrite Vt, Vt' by auto. rewrite (same_split t x i' Rt), (same_split t' x i') by congruence.
  rewrite (projection_entry x l r HF Hd (Some B) _ t o (split_idx x i') HP) by (auto; now apply split_vJ).
  rewrite <- (same_split y x i' Rxy) at 2.
  rewrite (projection_entry y l' r' HF' dy (Some B) _ t' o (split_idx y i') HP') by (auto; apply split_vJ; auto using dy; now rewrite (same_ishape y x)).
  refine (proj_unique x (fun i => fproj x l r (mm_entry m w o) (split_idx x i)) (fun i => fproj y l' r' (mm_entry m' w' o) (split_idx y i)) Hx Hd _ _ _ i' Hi').
  - now apply fp_tangent.
  - apply ty. apply fp_tangent; auto using dy.
  - intros T HT. rewrite fp_inner by auto. symmetry. rewrite <- (same_ishape y x Rxy). rewrite fp_inner by (auto using dy; now apply ty).
    apply (isum_ext Rring). intros k Hk. rewrite (same_ishape y x Rxy) in Hk. f_equal.
    unfold ishape in Hk. rewrite Kx in Hk. pose proof Hk as Hk'. apply vidx_2_inv in Hk as (i & j & -> & Hi & Hj).
    assert (Hij : vidx (ishape x) [i; j]) by (unfold ishape; now rewrite Kx).
    rewrite (mm_dense m w x dm dw) by (auto; now rewrite Bw).
    rewrite (mm_dense m' w' y dm dw) by (auto; try congruence; first [rewrite Bw'; exact Ho|rewrite (same_ishape y x Rxy); exact Hij]).
    now rewrite Rxy.
Qed.

Lemma i_gradients qr qr' grad grad' func F addr addr' E b b' dx : qr_ok qr -> qr_ok qr' -> grad_ok grad -> grad_ok grad' -> full x = Ok dx ->
  function_of_tensor x func F -> gradient_at (ishape x) F (get dx) E -> F (get dx) <> 0%R ->
  (forall l r, frame qr x = Ok (l, r) -> ~ In None (grad (augmented qr func addr x l r) (start_deltas r))) ->
  (forall l r, frame qr' y = Ok (l, r) -> ~ In None (grad' (augmented qr' func addr' y l r) (start_deltas r))) ->
  exists p p', gradients qr grad func addr x b = Ok (Proj p (Some addr)) /\ gradients qr' grad' func addr' y b' = Ok (Proj p' (Some addr')) /\ same_full p p'.
Proof.
  intros Hq Hq' Hg Hg' Fx [HF1 HF2] HE HN HC HC'.
  destruct (dense y Hy) as (dy' & Fy & Sy & _). assert (dy' = dx) by (symmetry; now apply (same_full_eq x y)). subst dy'.
  assert (HFy : function_of_tensor y func F) by (split; [intros; apply HF1; auto; congruence|now rewrite (same_ishape y x Rxy)]).
  destruct (c48_gradients qr grad func F addr x dx Hq Hg Hx Bx Hd (conj HF1 HF2) Fx E b Hrx HE (fun _ => HN) HC) as (p & dp & Ep & Wp & Rp & Bp & Fp & Tp & Vp).
  rewrite <- (same_ishape y x Rxy) in HE.
  destruct (c48_gradients qr' grad' func F addr' y dx Hq' Hg' Hy By dy HFy Fy E b' Hry HE (fun _ => HN) HC') as (p' & dp' & Ep' & Wp' & Rp' & Bp' & Fp' & Tp' & Vp').
  exists p, p'. do 2 (split; [assumption|]). exists dp, dp'. do 2 (split; [assumption|]).
  destruct (dense p Wp) as (ep & Gp & Sp & _). destruct (dense p' Wp') as (ep' & Gp' & Sp' & _).
  assert (ep = dp) by congruence. assert (ep' = dp') by congruence. subst.
  rewrite Bp, (same_ishape p x Rp) in Sp. rewrite Bp', (same_ishape p' x ltac:(congruence)) in Sp'. cbn [pre_of app] in *.
  split; [congruence|]. intros i Hi. rewrite Sp in Hi. apply (proj_unique x (get dp) (get dp')); auto.
  - now apply ty.
  - intros T HT. specialize (Vp T HT). specialize (Vp' T (proj2 (ty T) HT)). rewrite (same_ishape y x Rxy) in Vp'. unfold inner in *. congruence.
Qed.

Lemma i_hvp qr qr' grad grad' func F addr addr' (v v' : rtt) (E : (list nat -> R) -> list nat -> R) H b b' dx : qr_ok qr -> qr_ok qr' -> grad_ok grad -> grad_ok grad' -> full x = Ok dx ->
  wf v -> wf v' -> rshape v = rshape x -> rshape v' = rshape x -> bsz v = None -> same_full v v' ->
  function_of_tensor x func F ->
  (forall T, exists eps, (0 < eps)%R /\ forall t, (Rabs t < eps)%R -> gradient_at (ishape x) F (shift (get dx) T t) (E (shift (get dx) T t))) ->
  hessian_at (ishape x) E (get dx) H -> F (get dx) <> 0%R ->
  (forall l r ds, frame qr x = Ok (l, r) -> ~ In None (grad (augmented qr func addr x l r) ds)) ->
  (forall l r, frame qr x = Ok (l, r) -> ~ In None (grad (outer qr grad func addr x l r v b) (start_deltas r))) ->
  (forall l r ds, frame qr' y = Ok (l, r) -> ~ In None (grad' (augmented qr' func addr' y l r) ds)) ->
  (forall l r, frame qr' y = Ok (l, r) -> ~ In None (grad' (outer qr' grad' func addr' y l r v' b') (start_deltas r))) ->
  exists p p', hessian_vector_product qr grad func addr x v b = Ok (Proj p (Some addr)) /\
    hessian_vector_product qr' grad' func addr' y v' b' = Ok (Proj p' (Some addr')) /\ same_full p p'.
Proof.
  intros Hq Hq' Hg Hg' Fx Hv Hv' Rv Rv' Bv Sv [HF1 HF2] HE HH HN C1 C2 C1' C2'.
  pose proof (same_full_bsz v v' Hv Hv' ltac:(congruence) Sv) as Bv'. rewrite Bv in Bv'. symmetry in Bv'.
  destruct (dense y Hy) as (dy' & Fy & Sy & _). assert (dy' = dx) by (symmetry; now apply (same_full_eq x y)). subst dy'.
  assert (HFy : function_of_tensor y func F) by (split; [intros; apply HF1; auto; congruence|now rewrite (same_ishape y x Rxy)]).
  destruct (c48_hvp qr grad func F addr x dx Hq Hg Hx Bx Hd (conj HF1 HF2) Fx v E H b Hrx Hv Rv Bv HE HH (fun _ => HN) C1 C2)
    as (u & du & p & dp & Eu & Fu & Ep & Wp & Rp & Bp & Fp & Tp & Vp).
  rewrite <- (same_ishape y x Rxy) in HE, HH.
  destruct (c48_hvp qr' grad' func F addr' y dx Hq' Hg' Hy By dy HFy Fy v' E H b' Hry Hv' ltac:(congruence) Bv' HE HH (fun _ => HN) C1' C2')
    as (u' & du' & p' & dp' & Eu' & Fu' & Ep' & Wp' & Rp' & Bp' & Fp' & Tp' & Vp').
  destruct (i_project qr qr' v v' addr addr' Hq Hq' Hv Hv' Rv Rv' Sv) as (q & q' & Eq & Eq' & Wq & Wq' & _ & _ & _ & _ & Sq).
  assert (q = u) by congruence. assert (q' = u') by congruence. subst.
  assert (du' = du) by (symmetry; now apply (same_full_eq u u')). subst du'.
  exists p, p'. do 2 (split; [assumption|]). exists dp, dp'. do 2 (split; [assumption|]).
  destruct (dense p Wp) as (ep & Gp & Sp & _). destruct (dense p' Wp') as (ep' & Gp' & Sp' & _).
  assert (ep = dp) by congruence. assert (ep' = dp') by congruence. subst.
  rewrite Bp, (same_ishape p x Rp) in Sp. rewrite Bp', (same_ishape p' x ltac:(congruence)) in Sp'. cbn [pre_of app] in *.
  split; [congruence|]. intros i Hi. rewrite Sp in Hi. apply (proj_unique x (get dp) (get dp')); auto.
  - now apply ty.
  - intros T HT. specialize (Vp T HT). specialize (Vp' T (proj2 (ty T) HT)). rewrite (same_ishape y x Rxy) in Vp'. unfold inner in *. congruence.
Qed.
End XY.

(** ** Too large ranks: the projection is then not determined by the tensor. *)
(** A square left frame: nothing is projected away. *)
Lemma full_frame qr (z x : rtt) addr n k : qr_ok qr -> wf x -> bsz x = None -> ndims x = 2 -> wf z -> rshape z = rshape x ->
  rshape x = [[n; k]] -> rk x 1 = n ->
  exists p, project qr z addr x = Ok (Proj p (Some addr)) /\ same_full p z.
Proof.
  intros Hq Hx Bx Hd Hz Rz Rx Kx. assert (Hd2 : 2 <= ndims x) by lia.
  destruct (project_dense qr z x addr Hq Hx Bx Hd2 Hz Rz) as (l & r & p & dp & dz & Ef & HF & Ep & Wp & Rp & Bp & _ & Fp & Fz & Sp & Sz & Vz & Vp).
  exists p. split; [assumption|]. exists dp, dz. do 3 (split; [assumption|]). intros i Hi. rewrite Sp, Sz in Hi. apply vidx_app_inv in Hi as (o & i' & -> & Ho & Hi').
  rewrite Vz, Vp by auto.
  assert (M0 : modes x 0 = [n]) by (unfold modes; now rewrite Rx).
  assert (L1 : rk l 1 = n).
  { rewrite (fr_lk x l r HF 0) by lia. rewrite (fr_l0 x l r HF), M0, Kx. unfold prodn. cbn. lia. }
  assert (OU : ortho n n (fun i a => coreG l [] 0 0 [i] a)).
  { intros a b Ha Hb. pose proof (fr_HU1 x l r HF Hd2 0 a b ltac:(lia) ltac:(lia) ltac:(lia)) as Q. rewrite (fr_l0 x l r HF), M0, sumn_1 in Q. rewrite kron_delta. exact Q. }
  set (F := tt_entry z o).
  set (D := fun m a (j : list nat) (c : nat) => if Nat.eqb m 1 then sumn (K := Rring) n (fun i => coreG l [] 0 0 [i] a * F [[i]; j])%K else 0%R).
  assert (E : forall J, vJ x J -> F J = sumn (K := Rring) (ndims x) (fun m => tterm Rring (coreG l []) (coreG r []) (rk l) (rk r) m (D m) J)).
  { intros J [HJ LJ]. rewrite Hd in *. destruct J as [|j0 [|j1 [|]]]; cbn in LJ; try lia. cbn [vchain] in HJ. destruct HJ as (V0 & V1 & _).
    rewrite M0 in V0. apply vidx_1_inv in V0 as (i0 & -> & Hi0). cbn [sumn].
    assert (Z0 : tterm Rring (coreG l []) (coreG r []) (rk l) (rk r) 0 (D 0) [[i0]; j1] = c0).
    { etransitivity; [exact (tterm_at' (coreG l []) (coreG r []) (rk l) (rk r) 0 (D 0) [] [i0] [j1] eq_refl)|]. apply sumn_zero. intros a Ha. apply sumn_zero. intros c Hc. unfold D. cbn [Nat.eqb].
      change (0%R) with (c0 (c := Rring)). ring. }
    rewrite Z0. pose proof (tterm_at' (coreG l []) (coreG r []) (rk l) (rk r) 1 (D 1) [[i0]] j1 [] eq_refl) as Q. cbn [app] in Q. rewrite Q. rewrite L1.
    replace (rk r 2) with 1 by (rewrite <- Hd; symmetry; apply (fr_qd x l r HF)).
    transitivity (sumn (K := Rring) n (fun i => delta i0 i * F [[i]; j1]))%K; [rewrite sumn_deltal by auto; reflexivity|].
    assert (A : forall u : Rring, (c0 + c0 + u)%K = u) by (intros; ring). rewrite A.
    transitivity (sumn (K := Rring) n (fun a => sumn n (fun i => coreG l [] 0 0 [i0] a * coreG l [] 0 0 [i] a * F [[i]; j1])))%K.
    - rewrite sumn_swap. apply sumn_ext. intros i Hi. rewrite sumn_mul_r. f_equal. rewrite <- kron_delta. symmetry. exact (complete n _ OU i0 i Hi0 Hi).
    - apply sumn_ext. intros a Ha. rewrite sumn_1. unfold D. cbn [Nat.eqb]. unfold rv. cbn [chain].
      assert (El : lv (coreG l []) (rk l) [[i0]] a = coreG l [] 0 0 [i0] a).
      { unfold lv. cbn [chain]. rewrite L1. rewrite sumn_deltar by auto. reflexivity. }
      rewrite El. rewrite <- sumn_mul_l, <- sumn_mul_r. apply sumn_ext. intros. ring. }
  assert (HJ : vJ x (split_idx x i')) by now apply split_vJ.
  etransitivity; [apply (fp_ext x l r HF Hd2 F _ (split_idx x i') HJ E)|]. rewrite (fp_sum_terms x l r HF Hd2) by auto. symmetry. now apply E.
Qed.
