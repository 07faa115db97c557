(** Proofs for C56: Riemannian gradients. *)
From Coq Require Import List Arith Lia Bool Reals.
From Verif Require Import Scalar Tensor TensorLemmas TensorLemmas2 Base Spec BaseLemmas Ops FullProofs ResultLemmas Dense OpsR Decomp DecompSpec OrthNorm
  Riem RiemProofs RiemThms RiemSpec RiemFull RiemDelta RiemInner RiemAddN RiemMade Autodiff AutoSpec AutoProofs AutoThms AutoMain IntrinsicThms ProgSpec ProgRiem.
Import ListNotations.
Local Open Scope nat_scope.
Local Notation get := (@get Rring).

Section Result.
Variables (qr : rtensor -> rtensor * rtensor) (grad : (list rtensor -> res R) -> list rtensor -> list (option rtensor)).
Variables (func : rtt -> res R) (F : (list nat -> R) -> R) (addr : nat) (x : rtt) (dx : rtensor).
Hypothesis Hqr : qr_ok qr.
Hypothesis Hgrad : grad_ok grad.
Hypothesis Hx : wf x.
Hypothesis Bx : bsz x = None.
Hypothesis Hd : 2 <= ndims x.
Hypothesis HA : admissible x.
Hypothesis HFun : function_of_tensor x func F.
Hypothesis HDx : full x = Ok dx.

Lemma gradients_ranks E b p : (forall l r, frame qr x = Ok (l, r) -> ~ In None (grad (augmented qr func addr x l r) (start_deltas r))) ->
  gradient_at (ishape x) F (get dx) E -> (b = true -> F (get dx) <> 0%R) ->
  gradients qr grad func addr x b = Ok (Proj p (Some addr)) -> forall k, 0 < k < ndims x -> rk p k <= 2 * rk x k.
Proof.
  intros HC HE HV H k Hk. destruct (frame_ok qr x Hqr Hx Bx) as (l & r & EF & HF). pose proof (adm_eq x l r Hx HF Hd HA) as Heq.
  destruct (enforce_ok x l r HF Hd Heq E) as (ds & Eds & Ids).
  destruct (rebuild_ok x l r Hx HF Hd Heq qr None _ ds addr (Some l) (Some r) Bx (Forall_nil _) Ids eq_refl eq_refl) as (t & Et & B).
  unfold gradients in H. rewrite EF in H. cbn [bind] in H. unfold value_and_grad in H.
  pose proof (start_agree x dx Hx Bx Hd HDx l r HF) as AS. pose proof (start_good x l r HF Hd Heq) as GS.
  rewrite (augmented_ok x l r Hx Bx HF Hd Heq qr addr func F HFun _ (get dx) GS AS) in H.
  cbn [bind] in H. rewrite check_same in H; [|exact HV|apply (proj1 HFun); auto]. cbn [bind] in H.
  rewrite (all_some _ _ (Hgrad _ _ _ (augmented_gradient x l r Hx Bx HF Hd Heq qr addr func F HFun _ (get dx) E GS AS HE)) (HC l r EF)) in H.
  rewrite Eds in H. cbn [bind] in H. rewrite Et in H. injection H as ->. rewrite (bl_rk x l r Hd Heq None _ _ B) by auto.
  rewrite (adm_r x l r Hx HF Hd HA) by lia. lia.
Qed.
End Result.

(** When [gradients] returns, it returns the projection of the gradient. *)
Lemma gradients_means qr grad func F E b addr (t : rtt) x v q : qr_ok qr -> grad_ok grad -> denotes t x ->
  (forall u, wf u -> rshape u = d_modes x -> bsz u = None -> forall du, full u = Ok du -> func u = Ok (F (get du))) ->
  (forall T T', agree (d_shape (d_modes x) None) T T' -> F T = F T') -> gradient_at (d_shape (d_modes x) None) F (get (d_x x)) E ->
  (b = true -> F (get (d_x x)) <> 0%R) -> projections v x None (fun _ => E) ->
  gradients qr grad func addr t b = Ok q -> denotes (p_tt q) v /\ made qr t addr q.
Proof.
  intros Hq Hg Dt Hf HF HE HV HP Eg. pose proof HP as (Bx & Hd & HX & _). pose proof (axes_ndims t x Dt) as Na. rewrite Na in Hd.
  pose proof Dt as (Wt & Rt & Bt & Ft & Kt). rewrite Bx in Bt. pose proof (exact_full t x Dt Bx HX) as HR. pose proof (full_admissible t Wt HR) as HA.
  rewrite <- Rt, (d_shape_ishape t Wt) in HF, HE.
  assert (HFun : function_of_tensor t func F) by (split; [intros u du Wu Ru Bu Fu; apply Hf; auto; congruence|exact HF]).
  assert (HC : forall l r, frame qr t = Ok (l, r) -> ~ In None (grad (augmented qr func addr t l r) (start_deltas r))).
  { intros l r EF HN. rewrite (gradients_none qr grad func F addr t (d_x x) Hq Hg Wt Bt Hd HA HFun Ft l r E b EF HE HV HN) in Eg. discriminate. }
  destruct (c48_gradients qr grad func F addr t (d_x x) Hq Hg Wt Bt Hd HFun Ft E b HR HE HV HC) as (p & dp & Ep & Wp & Rp & Bp & Fp & T1 & T2).
  split; [|destruct (c48_made qr grad func F addr t (d_x x) Hq Hg Wt Bt Hd HFun Ft E b HA HE HV HC) as (q' & Eq & M); rewrite Eg in Eq; injection Eq as <-; exact M].
  rewrite Eg in Ep. injection Ep as ->. cbn [p_tt]. apply (projections_denote t x p v None (fun _ => E) dp Dt HP Wp Rp Bp Fp).
  - intros _. exact (gradients_ranks qr grad func F addr t (d_x x) Hq Hg Wt Bt Hd HA HFun Ft E b p HC HE HV Eg).
  - intros _ o Ho. inversion Ho. split; [exact T1|exact T2].
Qed.

(** It raises only if [grad] has returned None. *)
Lemma gradients_succeed qr grad func F E b addr (t : rtt) x v : qr_ok qr -> grad_ok grad -> denotes t x ->
  (forall u, wf u -> rshape u = d_modes x -> bsz u = None -> forall du, full u = Ok du -> func u = Ok (F (get du))) ->
  (forall T T', agree (d_shape (d_modes x) None) T T' -> F T = F T') -> gradient_at (d_shape (d_modes x) None) F (get (d_x x)) E ->
  (b = true -> F (get (d_x x)) <> 0%R) -> projections v x None (fun _ => E) -> (forall f ds, ~ In None (grad f ds)) ->
  exists q, gradients qr grad func addr t b = Ok q.
Proof.
  intros Hq Hg Dt Hf HF HE HV HP HC. pose proof HP as (Bx & Hd & HX & _). pose proof (axes_ndims t x Dt) as Na. rewrite Na in Hd.
  pose proof Dt as (Wt & Rt & Bt & Ft & Kt). rewrite Bx in Bt. pose proof (exact_full t x Dt Bx HX) as HR. pose proof (full_admissible t Wt HR) as HA.
  rewrite <- Rt, (d_shape_ishape t Wt) in HF, HE.
  assert (HFun : function_of_tensor t func F) by (split; [intros u du Wu Ru Bu Fu; apply Hf; auto; congruence|exact HF]).
  destruct (c48_gradients qr grad func F addr t (d_x x) Hq Hg Wt Bt Hd HFun Ft E b HR HE HV (fun _ _ _ => HC _ _)) as (p & dp & Ep & _). eauto.
Qed.

(** ** Hessian by vector *)
Section Hessian.
Variables (qr : rtensor -> rtensor * rtensor) (grad : (list rtensor -> res R) -> list rtensor -> list (option rtensor)).
Variables (func : rtt -> res R) (F : (list nat -> R) -> R) (E : (list nat -> R) -> list nat -> R) (H : list nat -> list nat -> R) (W : list nat -> R).
Variables (b : bool) (addr : nat) (t vec : rtt) (x z v : dval).
Hypothesis Hq : qr_ok qr.
Hypothesis Hg : grad_ok grad.
Hypothesis Dt : denotes t x.
Hypothesis Dz : denotes vec z.
Hypothesis M : d_modes z = d_modes x.
Hypothesis Bz : d_batch z = None.
Hypothesis Hf : forall u, wf u -> rshape u = d_modes x -> bsz u = None -> forall du, full u = Ok du -> func u = Ok (F (get du)).
Hypothesis HF : forall T T', agree (d_shape (d_modes x) None) T T' -> F T = F T'.
Hypothesis HE : forall T, exists eps, (0 < eps)%R /\ forall s, (Rabs s < eps)%R ->
  gradient_at (d_shape (d_modes x) None) F (shift (get (d_x x)) T s) (E (shift (get (d_x x)) T s)).
Hypothesis HH : hessian_at (d_shape (d_modes x) None) E (get (d_x x)) H.
Hypothesis HV : b = true -> F (get (d_x x)) <> 0%R.
Hypothesis HW : projection_at x (get (d_x z)) W.
Hypothesis HP : projections v x None (fun _ i => inner (d_shape (d_modes x) None) (H i) W).

Lemma hvp_none_free : (forall f ds, ~ In None (grad f ds)) -> exists q, hessian_vector_product qr grad func addr t vec b = Ok q.
Proof.
  intros HN. pose proof HP as (Bx & Hd & HX & _). rewrite (axes_ndims t x Dt) in Hd. pose proof Dt as (Wt & Rt & Bt & Ft & Kt). rewrite Bx in Bt.
  pose proof (exact_full t x Dt Bx HX) as HR. pose proof Dz as (Wz & Rz & Bz' & Fz & _). rewrite Bz in Bz'.
  pose proof HF as HF'. pose proof HE as HE'. pose proof HH as HH'. rewrite <- Rt, (d_shape_ishape t Wt) in HF', HE', HH'.
  assert (HFun : function_of_tensor t func F) by (split; [intros u du Wu Ru Bu Fu; apply Hf; auto; congruence|exact HF']).
  destruct (c48_hvp qr grad func F addr t (d_x x) Hq Hg Wt Bt Hd HFun Ft vec E H b HR Wz ltac:(congruence) Bz' HE' HH' HV (fun _ _ _ _ => HN _ _) (fun _ _ _ => HN _ _))
    as (? & ? & p & ? & _ & _ & Ep & _). eauto.
Qed.

Lemma hvp_means q : steady grad -> hessian_vector_product qr grad func addr t vec b = Ok q -> denotes (p_tt q) v /\ made qr t addr q.
Proof.
  intros HS Eg. pose proof HP as (Bx & Hd & HX & _). rewrite (axes_ndims t x Dt) in Hd. pose proof Dt as (Wt & Rt & Bt & Ft & Kt). rewrite Bx in Bt.
  pose proof (exact_full t x Dt Bx HX) as HR. pose proof (full_admissible t Wt HR) as HA. pose proof Dz as (Wz & Rz & Bz' & Fz & _). rewrite Bz in Bz'.
  pose proof HF as HF'. pose proof HE as HE'. pose proof HH as HH'. rewrite <- Rt, (d_shape_ishape t Wt) in HF', HE', HH'.
  assert (Rv : rshape vec = rshape t) by congruence.
  assert (HFun : function_of_tensor t func F) by (split; [intros u du Wu Ru Bu Fu; apply Hf; auto; congruence|exact HF']).
  assert (C1 : forall l r ds, frame qr t = Ok (l, r) -> ~ In None (grad (augmented qr func addr t l r) ds)).
  { intros l r ds EF HN. exact (hvp_some qr grad func F addr t (d_x x) Hq Hg Wt Bt Hd HA HFun Ft vec E Wz Rv Bz' b q l r EF HE' Eg (HS _ _ _ HN)). }
  assert (C2 : forall l r, frame qr t = Ok (l, r) -> ~ In None (grad (outer qr grad func addr t l r vec b) (start_deltas r))).
  { intros l r EF. exact (hvp_some2 qr grad func F addr t (d_x x) Hq Hg Wt Bt Hd HA HFun Ft vec E H Wz Rv Bz' b q l r EF HE' HH' HV (fun ds => C1 l r ds EF) Eg). }
  destruct (hvp_ok qr grad func F addr t (d_x x) Hq Hg Wt Bt Hd HA HFun Ft vec E H Wz Rv Bz' b HE' HH' HV C1 C2)
    as (l & r & u & du & p & dp & EF & HFr & Ep & Fu & Eh & Mp & Wp & Rp & Bp & Fp & Sp & Kp & Vp).
  destruct (c48_hvp qr grad func F addr t (d_x x) Hq Hg Wt Bt Hd HFun Ft vec E H b HR Wz Rv Bz' HE' HH' HV C1 C2) as (u' & du' & p' & dp' & Ep' & Fu' & Eh' & _ & _ & _ & Fp' & T1 & T2).
  assert (u' = u) by congruence. assert (p' = p) by congruence. subst u' p'. assert (du' = du) by congruence. assert (dp' = dp) by congruence. subst du' dp'.
  rewrite Eg in Eh. injection Eh as ->. cbn [p_tt]. split; [|exact Mp].
  destruct (c43_tangent qr t addr Hq Wt Bt Hd vec HR Wz Rv) as (u' & du' & dz & Eu & Fu2 & Fz2 & HPr). assert (u' = u) by congruence. subst u'.
  assert (du' = du) by congruence. assert (dz = d_x z) by congruence. subst du' dz. rewrite Bz' in HPr. destruct (HPr [] ltac:(constructor)) as [U1 U2]. cbn [app] in U1, U2.
  assert (AW : agree (ishape t) W (get du)).
  { destruct HW as [W1 W2]. rewrite <- Rt, (d_shape_ishape t Wt) in W2. intros i Hi.
    assert (TW : tangent t W) by now apply (tangent_at_iff t x).
    apply (IntrinsicThms.proj_unique t W (get du)); auto. intros T HT. etransitivity; [apply W2; now apply (tangent_at_iff t x)|]. symmetry. now apply U2. }
  apply (projections_denote t x p v None _ dp Dt HP Wp Rp Bp Fp).
  - intros _. exact Kp.
  - intros _ o Ho. inversion Ho. split; [exact T1|]. intros T HT. cbn [app]. etransitivity; [apply T2, HT|]. rewrite <- Rt, (d_shape_ishape t Wt).
    apply (isum_ext Rring). intros i Hi. f_equal. apply (isum_ext Rring). intros j Hj. now rewrite AW.
Qed.
End Hessian.
