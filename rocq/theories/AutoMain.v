(** Riemannian gradients and Hessian-by-vector products at the level of dense tensors; two functions of the
    library as examples. *)
From Coq Require Import String Ascii List Arith ZArith Lia Lra Bool Ring Reals.
From Verif Require Import Scalar Tensor TensorLemmas TensorLemmas2 Base Spec Chain BaseLemmas Ops
  FullProofs ResultLemmas Dense AddProofs DenseMatmul Sweep FlatProofs MatmulProofs NormProofs OpsR Decomp DecompSpec GaugeProofs OrthProofs OrthNorm
  TangentProofs Riem RiemBlock RiemProofs RiemThms RiemMatmul RiemSpec TangentSpace RiemFull RiemDelta RiemInner RiemAddN RiemMade RiemRefute Autodiff AutoSpec AutoProofs AutoThms.
Import ListNotations.
Local Open Scope nat_scope.
Local Notation fn := (list (list nat) -> Rring).
Local Notation get := (@get Rring).
Add Ring Rring11 : (cth Rring).
Local Ltac req := match goal with |- @eq _ ?u ?v => change (@eq R u v) end.

Section Main.
Variables (qr : rtensor -> rtensor * rtensor) (grad : (list rtensor -> res R) -> list rtensor -> list (option rtensor)).
Variables (func : rtt -> res R) (F : (list nat -> R) -> R) (addr : nat) (x : rtt) (dx : rtensor).
Hypothesis Hqr : qr_ok qr.
Hypothesis Hgrad : grad_ok grad.
Hypothesis Hx : wf x.
Hypothesis Bx : bsz x = None.
Hypothesis Hd : 2 <= ndims x.
Hypothesis HFun : function_of_tensor x func F.
Hypothesis HDx : full x = Ok dx.

Lemma tangent_of l r E dp : is_frame x l r -> full_tt_ranks x -> (forall i, vidx (ishape x) i -> get dp i = fproj x l r (lift x E) (split_idx x i)) ->
  tangent x (get dp) /\ forall T, tangent x T -> inner (ishape x) (get dp) T = inner (ishape x) E T.
Proof.
  intros HF HR V. split.
  - destruct (fp_tangent x l r Hx HF Hd (lift x E) HR Bx) as (D & HD). exists D. intros i Hi. rewrite V by auto. now apply HD.
  - intros T HT. unfold inner. transitivity (isum (K := Rring) (ishape x) (fun i => fproj x l r (lift x E) (split_idx x i) * T i)%R).
    + apply (isum_ext Rring). intros i Hi. now rewrite V.
    + rewrite (fp_inner x l r Hx HF Hd (lift x E) T HR Bx HT). apply (isum_ext Rring). intros i Hi. now rewrite lift_split.
Qed.

Lemma c48_gradients E b : full_tt_ranks x -> gradient_at (ishape x) F (get dx) E -> (b = true -> F (get dx) <> 0%R) ->
  (forall l r, frame qr x = Ok (l, r) -> ~ In None (grad (augmented qr func addr x l r) (start_deltas r))) ->
  exists p dp, gradients qr grad func addr x b = Ok (Proj p (Some addr)) /\ wf p /\ rshape p = rshape x /\ bsz p = None /\ full p = Ok dp /\
    tangent x (get dp) /\ forall T, tangent x T -> inner (ishape x) (get dp) T = inner (ishape x) E T.
Proof.
  intros HR HE HV HC.
  destruct (gradients_ok qr grad func F addr x dx Hqr Hgrad Hx Bx Hd (full_admissible x Hx HR) HFun HDx E b HC HE HV) as (l & r & p & dp & EF & HF & Eg & _ & Wp & Rp & Bp & Fp & Sp & Vp).
  exists p, dp. do 5 (split; [assumption|]). now apply (tangent_of l r).
Qed.

Lemma c48_made E b : admissible x -> gradient_at (ishape x) F (get dx) E -> (b = true -> F (get dx) <> 0%R) ->
  (forall l r, frame qr x = Ok (l, r) -> ~ In None (grad (augmented qr func addr x l r) (start_deltas r))) ->
  exists p, gradients qr grad func addr x b = Ok p /\ made qr x addr p.
Proof.
  intros HA HE HV HC.
  destruct (gradients_ok qr grad func F addr x dx Hqr Hgrad Hx Bx Hd HA HFun HDx E b HC HE HV) as (l & r & p & dp & EF & HF & Eg & Mp & _). eauto.
Qed.

Lemma c48_project E b z dz : admissible x -> gradient_at (ishape x) F (get dx) E -> (b = true -> F (get dx) <> 0%R) ->
  (forall l r, frame qr x = Ok (l, r) -> ~ In None (grad (augmented qr func addr x l r) (start_deltas r))) ->
  wf z -> rshape z = rshape x -> bsz z = None -> full z = Ok dz -> agree (ishape x) (get dz) E ->
  exists p p', gradients qr grad func addr x b = Ok (Proj p (Some addr)) /\ project qr z addr x = Ok (Proj p' (Some addr)) /\ same_full p p'.
Proof.
  intros HA HE HV HC Wz Rz Bz Fz HZ.
  destruct (gradients_ok qr grad func F addr x dx Hqr Hgrad Hx Bx Hd HA HFun HDx E b HC HE HV) as (l & r & p & dp & EF & HF & Eg & _ & Wp & Rp & Bp & Fp & Sp & Vp).
  destruct (project_dense qr z x addr Hqr Hx Bx Hd Wz Rz) as (l1 & r1 & p1 & dp1 & dz1 & EF1 & _ & Ep1 & _ & _ & _ & _ & Fp1 & Fz1 & Sp1 & Sz1 & Vz1 & Vp1).
  assert (l1 = l) by congruence. assert (r1 = r) by congruence. assert (dz1 = dz) by congruence. subst. rewrite Bz in *.
  exists p, p1. do 2 (split; [assumption|]). exists dp, dp1. do 2 (split; [assumption|]). split; [rewrite Sp, Sp1, Sz1; reflexivity|].
  intros i Hi. rewrite Sp in Hi. rewrite Vp by auto. specialize (Vp1 [] i ltac:(constructor) Hi). cbn [app] in Vp1. rewrite Vp1.
  apply (fp_ext x l r HF Hd); [now apply split_vJ|]. apply (same_entries x z); auto. intros k Hk. rewrite lift_split by auto.
  specialize (Vz1 [] k ltac:(constructor) Hk). cbn [app] in Vz1. rewrite <- Vz1. symmetry. now apply HZ.
Qed.

Lemma c48_hvp_made vector (E : (list nat -> R) -> list nat -> R) H b : admissible x -> wf vector -> rshape vector = rshape x -> bsz vector = None ->
  (forall T, exists eps, (0 < eps)%R /\ forall t, (Rabs t < eps)%R -> gradient_at (ishape x) F (shift (get dx) T t) (E (shift (get dx) T t))) ->
  hessian_at (ishape x) E (get dx) H -> (b = true -> F (get dx) <> 0%R) ->
  (forall l r ds, frame qr x = Ok (l, r) -> ~ In None (grad (augmented qr func addr x l r) ds)) ->
  (forall l r, frame qr x = Ok (l, r) -> ~ In None (grad (outer qr grad func addr x l r vector b) (start_deltas r))) ->
  exists p, hessian_vector_product qr grad func addr x vector b = Ok p /\ made qr x addr p.
Proof.
  intros HA Wv Rv Bv HE HH HV C1 C2.
  destruct (hvp_ok qr grad func F addr x dx Hqr Hgrad Hx Bx Hd HA HFun HDx vector E H Wv Rv Bv b HE HH HV C1 C2) as (l & r & v & dv & p & dp & EF & HF & Ep & Fv & Eh & Mp & _). eauto.
Qed.

Lemma c48_hvp vector (E : (list nat -> R) -> list nat -> R) H b : full_tt_ranks x -> wf vector -> rshape vector = rshape x -> bsz vector = None ->
  (forall T, exists eps, (0 < eps)%R /\ forall t, (Rabs t < eps)%R -> gradient_at (ishape x) F (shift (get dx) T t) (E (shift (get dx) T t))) ->
  hessian_at (ishape x) E (get dx) H -> (b = true -> F (get dx) <> 0%R) ->
  (forall l r ds, frame qr x = Ok (l, r) -> ~ In None (grad (augmented qr func addr x l r) ds)) ->
  (forall l r, frame qr x = Ok (l, r) -> ~ In None (grad (outer qr grad func addr x l r vector b) (start_deltas r))) ->
  exists v dv p dp, project qr vector addr x = Ok (Proj v (Some addr)) /\ full v = Ok dv /\
    hessian_vector_product qr grad func addr x vector b = Ok (Proj p (Some addr)) /\ wf p /\ rshape p = rshape x /\ bsz p = None /\ full p = Ok dp /\
    tangent x (get dp) /\ forall T, tangent x T -> inner (ishape x) (get dp) T = inner (ishape x) (fun i => inner (ishape x) (H i) (get dv)) T.
Proof.
  intros HR Wv Rv Bv HE HH HV C1 C2.
  destruct (hvp_ok qr grad func F addr x dx Hqr Hgrad Hx Bx Hd (full_admissible x Hx HR) HFun HDx vector E H Wv Rv Bv b HE HH HV C1 C2)
    as (l & r & v & dv & p & dp & EF & HF & Ep & Fv & Eh & _ & Wp & Rp & Bp & Fp & Sp & _ & Vp).
  exists v, dv, p, dp. do 7 (split; [assumption|]). now apply (tangent_of l r).
Qed.
End Main.

(** ** Derivatives of quadratic functions *)
Lemma quad_der (a b c : R) : derivable_pt_lim (fun t => a + b * t + c * t * t)%R 0 b.
Proof.
  intros eps He. pose proof (Rabs_pos c) as Pc. assert (P : (0 < eps / (1 + Rabs c))%R) by (apply Rdiv_lt_0_compat; lra).
  exists (mkposreal _ P). cbn [pos]. intros h Hh Hl.
  replace ((a + b * (0 + h) + c * (0 + h) * (0 + h) - (a + b * 0 + c * 0 * 0)) / h - b)%R with (c * h)%R by (field; auto).
  rewrite Rabs_mult. apply Rle_lt_trans with ((1 + Rabs c) * Rabs h)%R; [pose proof (Rabs_pos h); nra|].
  apply Rmult_lt_compat_l with (r := (1 + Rabs c)%R) in Hl; [|lra]. replace ((1 + Rabs c) * (eps / (1 + Rabs c)))%R with eps in Hl by (field; lra). exact Hl.
Qed.
Lemma inner_lin s (a b c : list nat -> R) u w : inner s (fun i => u * a i + w * b i)%R c = (u * inner s a c + w * inner s b c)%R.
Proof.
  unfold inner. etransitivity; [|apply f_equal2; apply (isum_mul_l Rring)]. etransitivity; [|apply (isum_add Rring)]. apply (isum_ext Rring). intros i _. cbn. req. ring.
Qed.
Lemma inner_ext s (a b c d : list nat -> R) : agree s a b -> agree s c d -> inner s a c = inner s b d.
Proof. intros H1 H2. apply (isum_ext Rring). intros i Hi. now rewrite H1, H2. Qed.
Lemma inner_sym s (a b : list nat -> R) : inner s a b = inner s b a.
Proof. apply (isum_ext Rring). intros i _. apply Rmult_comm. Qed.
Lemma inner_shift s X T t c : inner s (shift X T t) c = (inner s X c + t * inner s T c)%R.
Proof.
  rewrite <- (Rmult_1_l (inner s X c)), <- inner_lin. apply inner_ext; intros i Hi; unfold shift; [ring|reflexivity].
Qed.

(** ** flat_inner(x, a) *)
Definition linear_func (a : rtt) (t : rtt) : res R := do y <- flat_inner_any (ATT t) (ATT a); Ok (get y []).
Lemma linear_fun x a da : wf x -> wf a -> rshape a = rshape x -> bsz a = None -> full a = Ok da -> function_of_tensor x (linear_func a) (fun T => inner (ishape x) T (get da)).
Proof.
  intros Hx Ha Ra Ba Fa. split.
  - intros t dt Wt Rt Bt Ft. unfold linear_func. destruct (flat_inner_full Rring t a Wt Ha ltac:(congruence)) as (r & E1 & W & Sr & d1 & d2 & F1 & F2 & V); [now rewrite Bt|].
    assert (d1 = dt) by congruence. assert (d2 = da) by congruence. subst. cbn [flat_inner_any]. rewrite E1. cbn [bind]. f_equal.
    assert (E : mm_bs t a = None) by (unfold mm_bs; now rewrite Bt, Ba). rewrite E in V. specialize (V 0 I). rewrite Bt, Ba in V. cbn [bo opidx] in V.
    rewrite V. rewrite (same_ishape t x Rt). reflexivity.
  - intros T T' H. now apply (inner_ext _ T T' (get da) (get da) H).
Qed.
Lemma linear_grad s da X : gradient_at s (fun T => inner s T da) X da.
Proof.
  intros T. apply (derivable_pt_lim_ext (fun t => inner s X da + inner s da T * t + 0 * t * t)%R); [|apply quad_der].
  intros t. rewrite inner_shift, (inner_sym s T). ring.
Qed.

(** ** 0.5 * flat_inner(x, a) ** 2 *)
Definition half_square (a : rtt) (t : rtt) : res R := do y <- flat_inner_any (ATT t) (ATT a); Ok (/ 2 * (get y [] * get y []))%R.
Definition half_square_of (s : list nat) (da T : list nat -> R) : R := (/ 2 * (inner s T da * inner s T da))%R.
Lemma half_square_fun x a da : wf x -> wf a -> rshape a = rshape x -> bsz a = None -> full a = Ok da -> function_of_tensor x (half_square a) (half_square_of (ishape x) (get da)).
Proof.
  intros Hx Ha Ra Ba Fa. split.
  - intros t dt Wt Rt Bt Ft. unfold half_square. destruct (flat_inner_full Rring t a Wt Ha ltac:(congruence)) as (r & E1 & W & Sr & d1 & d2 & F1 & F2 & V); [now rewrite Bt|].
    assert (d1 = dt) by congruence. assert (d2 = da) by congruence. subst. cbn [flat_inner_any]. rewrite E1. cbn [bind]. f_equal.
    assert (E : mm_bs t a = None) by (unfold mm_bs; now rewrite Bt, Ba). rewrite E in V. specialize (V 0 I). rewrite Bt, Ba in V. cbn [bo opidx] in V. unfold half_square_of, inner.
    assert (Q : get r [] = isum (K := Rring) (ishape x) (fun i => get dt i * get da i)%R).
    { rewrite V. rewrite (same_ishape t x Rt). reflexivity. }
    now rewrite Q.
  - intros T T' H. unfold half_square_of. now rewrite (inner_ext _ T T' (get da) (get da) H (fun _ _ => eq_refl)).
Qed.
Lemma half_square_grad s da X : gradient_at s (half_square_of s da) X (fun i => inner s X da * da i)%R.
Proof.
  intros T. set (u := inner s X da). set (w := inner s T da).
  replace (inner s (fun i => u * da i)%R T) with (u * w)%R.
  - apply (derivable_pt_lim_ext (fun t => (/ 2 * (u * u)) + (u * w) * t + (/ 2 * (w * w)) * t * t)%R); [|apply quad_der].
    intros t. unfold half_square_of. rewrite inner_shift. fold u w. field.
  - unfold w. rewrite (inner_sym s T). unfold inner at 1. symmetry. etransitivity; [|apply (isum_mul_l Rring)]. apply (isum_ext Rring). intros i _. cbn. req. ring.
Qed.

(** ** The squared Frobenius norm *)
Definition norm_func (qr : rtensor -> rtensor * rtensor) (differentiable : bool) (t : rtt) : res R := do y <- frobenius_norm_squared qr t differentiable; Ok (get y []).
Lemma norm_fun qr df x : qr_ok qr -> wf x -> function_of_tensor x (norm_func qr df) (fun T => inner (ishape x) T T).
Proof.
  intros Hq Hx. split.
  - intros t dt Wt Rt Bt Ft. unfold norm_func.
    assert (Q : exists r d, frobenius_norm_squared qr t df = Ok r /\ wft r /\ shape r = bpre t /\ full t = Ok d /\
      forall o, inrange (bsz t) o -> get r (bo (bsz t) o) = sum_squares t d o).
    { destruct df; unfold frobenius_norm_squared; [now apply (frobenius_diff_full Rring)|now apply frobenius_qr_full]. }
    destruct Q as (r & d & Er & _ & _ & Fd & V). assert (d = dt) by congruence. subst. rewrite Er. cbn [bind]. f_equal.
    specialize (V 0). rewrite Bt in V. specialize (V I). cbn [bo] in V. rewrite V. unfold sum_squares. rewrite Bt, (same_ishape t x Rt). reflexivity.
  - intros T T' H. now apply inner_ext.
Qed.
Lemma norm_grad s X : gradient_at s (fun T => inner s T T) X (fun i => 2 * X i)%R.
Proof.
  intros T. replace (inner s (fun i => 2 * X i)%R T) with (2 * inner s X T)%R.
  - apply (derivable_pt_lim_ext (fun t => (inner s X X) + (2 * inner s X T) * t + (inner s T T) * t * t)%R); [|apply quad_der].
    intros t. rewrite inner_shift. rewrite (inner_sym s X (shift X T t)), (inner_sym s T (shift X T t)), !inner_shift. rewrite (inner_sym s T X). ring.
  - unfold inner. symmetry. etransitivity; [|apply (isum_mul_l Rring)]. apply (isum_ext Rring). intros i _. cbn. req. ring.
Qed.
Definition two_id (i j : list nat) : R := if list_eq_dec Nat.eq_dec i j then 2%R else 0%R.
Lemma isum_pick s i (T : list nat -> R) : vidx s i -> isum (K := Rring) s (fun j => if list_eq_dec Nat.eq_dec i j then T j else 0%R) = T i.
Proof.
  revert i T. induction s as [|n s IH]; intros i T Hi; [inversion Hi; subst; cbn [isum]; destruct (list_eq_dec _ [] []); congruence|].
  destruct i as [|a i]; [inversion Hi|]. apply vidx_cons_inv in Hi as [Ha Hi]. cbn [isum].
  rewrite (sumn_ext Rring n _ (fun k => (delta a k * isum (K := Rring) s (fun j => if list_eq_dec Nat.eq_dec i j then T (a :: j) else 0%R))%K)).
  - rewrite (sumn_deltal Rring) by auto. apply (IH i (fun j => T (a :: j)) Hi).
  - intros k Hk. unfold delta. destruct (Nat.eqb_spec k a) as [->|N].
    + etransitivity; [|symmetry; apply Rmult_1_l]. apply (isum_ext Rring). intros j _. destruct (list_eq_dec Nat.eq_dec (a :: i) (a :: j)), (list_eq_dec Nat.eq_dec i j); congruence.
    + etransitivity; [|symmetry; apply Rmult_0_l]. apply (isum_zero Rring). intros j _. destruct (list_eq_dec Nat.eq_dec (a :: i) (k :: j)); [exfalso; congruence|reflexivity].
Qed.
Lemma two_id_inner s i T : vidx s i -> inner s (two_id i) T = (2 * T i)%R.
Proof.
  intros Hi. unfold inner. rewrite (isum_ext Rring s _ (fun j => if list_eq_dec Nat.eq_dec i j then (2 * T j)%R else 0%R)).
  - now apply (isum_pick s i (fun j => 2 * T j)%R).
  - intros j _. unfold two_id. destruct (list_eq_dec _ i j); [reflexivity|apply Rmult_0_l].
Qed.
Lemma norm_hess s X : hessian_at s (fun Y i => 2 * Y i)%R X two_id.
Proof.
  split.
  - intros T i Hi. rewrite two_id_inner by auto. apply (derivable_pt_lim_ext (fun t => (2 * X i) + (2 * T i) * t + 0 * t * t)%R); [|apply quad_der]. intros t. unfold shift. ring.
  - intros i j _ _. unfold two_id. destruct (list_eq_dec _ i j), (list_eq_dec _ j i); congruence.
Qed.

(** ** A TT-rank that is too large *)
Lemma big_gradients qr grad func addr b : qr_ok qr -> gradients qr grad func addr x_big b = Err ValueError.
Proof.
  intros Hq. destruct (frame_ok qr x_big Hq x_big_wf eq_refl) as (l & r & Ef & HF).
  destruct (two_cores l 3 1 3 (fr_l _ _ _ HF) (fr_rl _ _ _ HF) (fr_bl _ _ _ HF) (big_l l r HF)) as (l0 & l1 & El & L0 & L1).
  destruct (two_cores r 3 1 1 (fr_r _ _ _ HF) (fr_rr _ _ _ HF) (fr_br _ _ _ HF) (big_r l r HF)) as (r0 & r1 & Er & R0 & R1).
  unfold gradients. rewrite Ef. cbn [bind]. unfold value_and_grad, augmented.
  assert (E : deltas_to_tangent_space qr (start_deltas r) addr x_big (Some l) (Some r) = Err ValueError).
  { clear HF Ef. subst l r. cbn in L0, L1, R0, R1. spread l0. spread l1. spread r0. spread r1. cbv -[Rplus Rmult IZR]. reflexivity. }
  rewrite E. reflexivity.
Qed.
