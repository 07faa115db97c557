(** The projections, in terms of the dense tensors. *)
From Coq Require Import String Ascii List Arith ZArith Lia Lra Bool Ring Reals.
From Verif Require Import Scalar Tensor TensorLemmas TensorLemmas2 Base Spec Chain BaseLemmas Ops
  FullProofs ResultLemmas Dense Sweep FlatProofs OpsR Decomp DecompSpec GaugeProofs OrthProofs OrthNorm
  MatmulProofs TangentProofs Riem RiemBlock RiemProofs RiemThms RiemMatmul RiemSpec TangentSpace.
Import ListNotations.
Local Open Scope nat_scope.
Local Notation train := (nat -> nat -> list nat -> nat -> Rring).
Local Notation fn := (list (list nat) -> Rring).
Local Notation get := (@get Rring).
Add Ring Rring4 : (cth Rring).
Local Ltac req := match goal with |- @eq _ ?u ?v => change (@eq R u v) end.

Lemma dense (t : rtt) : wf t -> exists dt, full t = Ok dt /\ shape dt = pre_of (bsz t) ++ ishape t /\
  forall o i, vidx (pre_of (bsz t)) o -> vidx (ishape t) i -> get dt (o ++ i) = tt_entry t o (split_idx t i).
Proof.
  intros Ht. destruct (full_correct Rring t Ht) as (dt & Ft & Wt & St & Vt). exists dt. split; [exact Ft|].
  rewrite get_shape_ishape in St by auto. split; [exact St|]. intros o i Ho Hi.
  rewrite Vt; [now apply tt_at_entry|]. rewrite get_shape_ishape by auto. now apply vidx_app.
Qed.
Lemma same_ishape (t x : rtt) : rshape t = rshape x -> ishape t = ishape x.
Proof. intros E. unfold ishape, is_tt_matrix. now rewrite E. Qed.
Lemma same_split (t x : rtt) i : rshape t = rshape x -> split_idx t i = split_idx x i.
Proof. intros E. unfold split_idx, is_tt_matrix. now rewrite E. Qed.

Section FP.
Variables (x l r : rtt).
Hypothesis Hx : wf x.
Hypothesis HF : is_frame x l r.
Hypothesis Hd : 2 <= ndims x.
Local Notation d := (ndims x).
Local Notation ms := (modes x).
Local Notation U := (coreG l []).
Local Notation V := (coreG r []).
Local Notation P := (fproj x l r).

Lemma split_vJ i : vidx (ishape x) i -> vJ x (split_idx x i).
Proof. intros Hi. destruct (split_idx_valid _ x i Hx Hi) as [H1 H2]. split; auto. lia. Qed.
Lemma isum_js (F : fn) : isum (ishape x) (fun i => F (split_idx x i)) = js Rring ms 0 d F.
Proof. rewrite isum_split by auto. unfold js, all_modes. now rewrite Nat.sub_0_r. Qed.

Lemma fp_ext F G J : vJ x J -> (forall J, vJ x J -> F J = G J) -> P F J = P G J.
Proof. intros. apply proj_ext; auto; try lia; [apply (fr_l0 x l r HF)|apply (fr_ld x l r HF)|apply (fr_qd x l r HF)]. Qed.
Lemma fp_lin F G a b J : P (fun J => a * F J + b * G J)%K J = (a * P F J + b * P G J)%K.
Proof. apply proj_lin. Qed.
Lemma fp_sym F G : js Rring ms 0 d (fun J => P F J * G J)%K = js Rring ms 0 d (fun J => F J * P G J)%K.
Proof. apply proj_sym; auto; try lia; [apply (fr_l0 x l r HF)|apply (fr_ld x l r HF)|apply (fr_qd x l r HF)]. Qed.
Lemma fp_terms (F : fn) J : vJ x J -> P F J = sumn d (fun m => tterm Rring U V (rk l) (rk r) m (fdelta x l r F m) J).
Proof. intros. apply proj_terms; auto; try lia; [apply (fr_l0 x l r HF)|apply (fr_ld x l r HF)|apply (fr_qd x l r HF)]. Qed.
Lemma fp_idem F J : vJ x J -> P (P F) J = P F J.
Proof. intros. apply proj_idem; auto; try lia; [apply (fr_l0 x l r HF)|apply (fr_ld x l r HF)|apply (fr_qd x l r HF)| |]; [now apply (fr_HU x l r)|now apply (fr_HV x l r)]. Qed.
Lemma fp_sum_terms (D : train) J : vJ x J -> P (fun J => sumn d (fun m => tterm Rring U V (rk l) (rk r) m (D m) J)) J = sumn d (fun m => tterm Rring U V (rk l) (rk r) m (D m) J).
Proof. intros. apply proj_sum_terms; auto; try lia; [apply (fr_l0 x l r HF)|apply (fr_ld x l r HF)|apply (fr_qd x l r HF)| |]; [now apply (fr_HU x l r)|now apply (fr_HV x l r)]. Qed.
Lemma fp_orth (F : fn) (D : train) : js Rring ms 0 d (fun J => P F J * sumn d (fun k => tterm Rring U V (rk l) (rk r) k (D k) J))%K =
  js Rring ms 0 d (fun J => F J * sumn d (fun k => tterm Rring U V (rk l) (rk r) k (D k) J))%K.
Proof. apply proj_orth; auto; try lia; [apply (fr_l0 x l r HF)|apply (fr_ld x l r HF)|apply (fr_qd x l r HF)| |]; [now apply (fr_HU x l r)|now apply (fr_HV x l r)]. Qed.
Lemma fp_x J : vJ x J -> P (tt_entry x []) J = tt_entry x [] J.
Proof.
  assert (E : forall J, vJ x J -> tt_entry x [] J = tterm Rring U V (rk l) (rk r) (d - 1) (fun a j c => U (d - 1) a j c) J).
  { intros J' HJ'. rewrite <- (fr_ent x l r HF) by exact HJ'. unfold tt_entry. apply (frame_entry Rring ms); auto; try lia; [apply (fr_l0 x l r HF)|apply (fr_ld x l r HF)|apply (fr_qd x l r HF)]. }
  intros HJ. rewrite (fp_ext _ _ J HJ E), E by auto.
  apply (proj_tterm Rring ms); auto; try lia; [apply (fr_l0 x l r HF)|apply (fr_ld x l r HF)|apply (fr_qd x l r HF)| |]; [now apply (fr_HU x l r)|now apply (fr_HV x l r)].
Qed.

(** Sums over the indices of the dense tensors. *)
Lemma fp_tangent (F : fn) : full_tt_ranks x -> bsz x = None -> tangent x (fun i => P F (split_idx x i)).
Proof.
  intros Hr Bx. apply (tangent_terms x l r Hx HF Hd Hr). exists (fdelta x l r F). intros i Hi. now apply fp_terms, split_vJ.
Qed.
Lemma fp_inner (F : fn) T : full_tt_ranks x -> bsz x = None -> tangent x T ->
  isum (K := Rring) (ishape x) (fun i => P F (split_idx x i) * T i)%R = isum (K := Rring) (ishape x) (fun i => F (split_idx x i) * T i)%R.
Proof.
  intros Hr Bx HT. apply (tangent_terms x l r Hx HF Hd Hr) in HT as (D & HT).
  transitivity (isum (ishape x) (fun i => (fun J => P F J * sumn d (fun k => tterm Rring U V (rk l) (rk r) k (D k) J)) (split_idx x i)))%K.
  { apply (isum_ext Rring). intros i Hi. rewrite HT by auto. reflexivity. }
  rewrite (isum_js (fun J => P F J * sumn d (fun k => tterm Rring U V (rk l) (rk r) k (D k) J))%K), fp_orth, <- isum_js.
  apply (isum_ext Rring). intros i Hi. rewrite HT by auto. reflexivity.
Qed.
Lemma fp_fixed (F : fn) : full_tt_ranks x -> bsz x = None -> tangent x (fun i => F (split_idx x i)) ->
  forall i, vidx (ishape x) i -> P F (split_idx x i) = F (split_idx x i).
Proof.
  intros Hr Bx HT i Hi. apply (tangent_terms x l r Hx HF Hd Hr) in HT as (D & HT).
  assert (E : forall J, vJ x J -> F J = sumn d (fun m => tterm Rring U V (rk l) (rk r) m (D m) J)).
  { intros J HJ. apply Rminus_diag_uniq. revert J HJ. apply (js_zero_each ms 0 d (fun J => F J - sumn d (fun m => tterm Rring U V (rk l) (rk r) m (D m) J))%K).
    rewrite <- (isum_js (fun J => (F J - sumn d (fun m => tterm Rring U V (rk l) (rk r) m (D m) J)) * (F J - sumn d (fun m => tterm Rring U V (rk l) (rk r) m (D m) J))))%K.
    transitivity (isum (K := Rring) (ishape x) (fun _ => c0)); [|apply isum_zero; reflexivity].
    apply isum_ext. intros k Hk. rewrite <- HT by auto. ring. }
  apply split_vJ in Hi. rewrite (fp_ext _ _ _ Hi E), fp_sum_terms, <- E by auto. reflexivity.
Qed.
End FP.

(** ** project *)
Lemma project_dense qr (z x : rtt) addr : qr_ok qr -> wf x -> bsz x = None -> 2 <= ndims x -> wf z -> rshape z = rshape x ->
  exists l r p dp dz, frame qr x = Ok (l, r) /\ is_frame x l r /\ project qr z addr x = Ok (Proj p (Some addr)) /\
    wf p /\ rshape p = rshape x /\ bsz p = bsz z /\ (forall k, 0 < k < ndims x -> rk p k = rk r k + rk l k) /\
    full p = Ok dp /\ full z = Ok dz /\ shape dp = shape dz /\ shape dz = pre_of (bsz z) ++ ishape x /\
    (forall o i, vidx (pre_of (bsz z)) o -> vidx (ishape x) i -> get dz (o ++ i) = tt_entry z o (split_idx x i)) /\
    forall o i, vidx (pre_of (bsz z)) o -> vidx (ishape x) i -> get dp (o ++ i) = fproj x l r (tt_entry z o) (split_idx x i).
Proof.
  intros Hqr Hx Bx Hd Hz Rz. destruct (project_ok qr z x addr Hqr Hx Bx Hd Hz Rz) as (l & r & t & Ef & HF & Ep & HP).
  pose proof HP as (F' & (Wt & Rt & Bt & Dt & Kt & _) & _).
  destruct (dense t Wt) as (dp & Fp & Sp & Vp). destruct (dense z Hz) as (dz & Fz & Sz & Vz).
  rewrite (same_ishape t x Rt), Bt in *. rewrite (same_ishape z x Rz) in *.
  exists l, r, t, dp, dz. do 6 (split; [assumption|]). split.
  { intros k Hk. rewrite Kt by lia. unfold brank. destruct (Nat.eqb_spec k 0); [lia|]. destruct (Nat.eqb_spec k (ndims x)); [lia|]. reflexivity. }
  do 2 (split; [assumption|]). split; [congruence|]. split; [exact Sz|]. split.
  - intros o i Ho Hi. rewrite Vz by auto. now rewrite (same_split z x i Rz).
  - intros o i Ho Hi. rewrite Vp by auto. rewrite (same_split t x i Rt). apply (projection_entry x l r HF Hd (bsz z)); auto. now apply split_vJ.
Qed.

Section C43.
Variables (qr : rtensor -> rtensor * rtensor) (x : rtt) (addr : nat).
Hypothesis Hqr : qr_ok qr.
Hypothesis Hx : wf x.
Hypothesis Bx : bsz x = None.
Hypothesis Hd : 2 <= ndims x.

Lemma tangent_lin T T' a b : tangent x T -> tangent x T' -> tangent x (fun i => a * T i + b * T' i)%R.
Proof.
  intros (D & HD) (E & HE). exists (fun m u j v => a * D m u j v + b * E m u j v)%R. intros i Hi. rewrite HD, HE by auto.
  assert (C : forall G : train, forall m, m < ndims x -> chain (K := Rring) (fun k => if Nat.eqb k m then G m else coreG x [] k) (rk x) 0 (split_idx x i) (fun _ => 1%R) 0 = tterm Rring (coreG x []) (coreG x []) (rk x) (rk x) m (G m) (split_idx x i)).
  { intros G m Hm. apply (chain_replaced (modes x) (ndims x)); auto; [rewrite (wf_first Hx); lia|now apply split_vJ]. }
  rewrite (sumn_ext Rring _ _ _ (C D)), (sumn_ext Rring _ _ _ (C E)).
  etransitivity; [|symmetry; apply (sumn_ext Rring); intros m Hm; apply (C (fun m u j v => a * D m u j v + b * E m u j v)%R m Hm)].
  etransitivity; [apply f_equal2; symmetry; [apply (sumn_mul_l Rring)|apply (sumn_mul_l Rring)]|].
  etransitivity; [symmetry; apply (sumn_add Rring)|]. apply (sumn_ext Rring). intros m Hm. unfold tterm.
  etransitivity; [apply f_equal2; symmetry; apply sumn_mul_l|]. etransitivity; [symmetry; apply (sumn_add Rring)|].
  apply (sumn_ext Rring). intros u Hu. etransitivity; [apply f_equal2; symmetry; apply sumn_mul_l|]. etransitivity; [symmetry; apply (sumn_add Rring)|].
  apply (sumn_ext Rring). intros v Hv. generalize (lv (coreG x []) (rk x) (firstn m (split_idx x i)) u) (rv Rring (coreG x []) (rk x) (S m) (skipn (S m) (split_idx x i)) v). intros e f. cbn. ring.
Qed.

Lemma c43_tangent z : full_tt_ranks x -> wf z -> rshape z = rshape x ->
  exists p dp dz, project qr z addr x = Ok (Proj p (Some addr)) /\ full p = Ok dp /\ full z = Ok dz /\
    forall o, vidx (pre_of (bsz z)) o ->
      tangent x (fun i => get dp (o ++ i)) /\
      forall T, tangent x T -> isum (K := Rring) (ishape x) (fun i => get dp (o ++ i) * T i)%R = isum (K := Rring) (ishape x) (fun i => get dz (o ++ i) * T i)%R.
Proof.
  intros Hr Hz Rz. destruct (project_dense qr z x addr Hqr Hx Bx Hd Hz Rz) as (l & r & p & dp & dz & Ef & HF & Ep & Wp & Rp & Bp & Kp & Fp & Fz & Sp & Sz & Vz & Vp).
  exists p, dp, dz. do 3 (split; [assumption|]). intros o Ho. split.
  - destruct (fp_tangent x l r Hx HF Hd (tt_entry z o) Hr Bx) as (D & HD). exists D. intros i Hi. rewrite Vp by auto. now apply HD.
  - intros T HT. etransitivity; [|etransitivity; [apply (fp_inner x l r Hx HF Hd (tt_entry z o) T Hr Bx HT)|]].
    + apply (isum_ext Rring). intros i Hi. rewrite Vp by auto. reflexivity.
    + apply (isum_ext Rring). intros i Hi. rewrite Vz by auto. reflexivity.
Qed.

Lemma c43_nearest z : full_tt_ranks x -> wf z -> rshape z = rshape x ->
  exists p dp dz, project qr z addr x = Ok (Proj p (Some addr)) /\ full p = Ok dp /\ full z = Ok dz /\
    forall o T, vidx (pre_of (bsz z)) o -> tangent x T ->
      (isum (K := Rring) (ishape x) (fun i => Rsqr (get dz (o ++ i) - get dp (o ++ i))) <= isum (K := Rring) (ishape x) (fun i => Rsqr (get dz (o ++ i) - T i)))%R.
Proof.
  intros Hr Hz Rz. destruct (c43_tangent z Hr Hz Rz) as (p & dp & dz & Ep & Fp & Fz & H). exists p, dp, dz. do 3 (split; [assumption|]).
  intros o T Ho HT. destruct (H o Ho) as [H1 H2]. pose proof (tangent_lin _ _ 1%R (-1)%R H1 HT) as H3. pose proof (H2 _ H3) as H4.
  set (f := fun i => get dz (o ++ i)) in *. set (g := fun i => get dp (o ++ i)) in *.
  assert (E : isum (K := Rring) (ishape x) (fun i => Rsqr (f i - T i)) =
    (isum (K := Rring) (ishape x) (fun i => Rsqr (f i - g i)) + isum (K := Rring) (ishape x) (fun i => Rsqr (g i - T i)))%R).
  { transitivity (isum (K := Rring) (ishape x) (fun i => Rsqr (f i - g i) + Rsqr (g i - T i) + 2 * (f i * (1 * g i + -1 * T i)) + (-2) * (g i * (1 * g i + -1 * T i)))%R).
    - apply (isum_ext Rring). intros i Hi. unfold Rsqr. req. ring.
    - etransitivity; [apply (isum_add Rring)|]. etransitivity; [apply f_equal2; [apply (isum_add Rring)|apply (isum_mul_l Rring)]|].
      etransitivity; [apply f_equal2; [apply f_equal2; [apply (isum_add Rring)|apply (isum_mul_l Rring)]|reflexivity]|].
      change (isum (K := Rring) (ishape x) (fun i => g i * (1 * g i + -1 * T i)) = isum (K := Rring) (ishape x) (fun i => f i * (1 * g i + -1 * T i)))%R in H4.
      rewrite H4. req. cbn [cadd cmul Rring]. ring. }
  change (isum (K := Rring) (ishape x) (fun i => Rsqr (f i - g i)) <= isum (K := Rring) (ishape x) (fun i => Rsqr (f i - T i)))%R.
  rewrite E. destruct (isum_zero_each (ishape x) (fun i => Rsqr (g i - T i))) as [Q _]; [intros; apply Rle_0_sqr|].
  change (@car Rring) with R in *. lra.
Qed.

Lemma c43_fixed z dz : full_tt_ranks x -> wf z -> rshape z = rshape x -> full z = Ok dz ->
  (forall o, vidx (pre_of (bsz z)) o -> tangent x (fun i => get dz (o ++ i))) ->
  exists p, project qr z addr x = Ok (Proj p (Some addr)) /\ same_full p z.
Proof.
  intros Hr Hz Rz Fz HT. destruct (project_dense qr z x addr Hqr Hx Bx Hd Hz Rz) as (l & r & p & dp & dz' & Ef & HF & Ep & Wp & Rp & Bp & Kp & Fp & Fz' & Sp & Sz & Vz & Vp).
  assert (dz' = dz) by congruence. subst dz'. exists p. split; [assumption|]. exists dp, dz. do 3 (split; [assumption|]).
  intros i Hi. rewrite Sp, Sz in Hi. apply vidx_app_inv in Hi as (o & i' & -> & Ho & Hi'). rewrite Vp, Vz by auto.
  apply fp_fixed; auto. destruct (HT o Ho) as (D & HD). exists D. intros k Hk. rewrite <- HD by auto. now rewrite Vz.
Qed.

Lemma c43_self : exists p, project qr x addr x = Ok (Proj p (Some addr)) /\ same_full p x.
Proof.
  destruct (project_dense qr x x addr Hqr Hx Bx Hd Hx eq_refl) as (l & r & p & dp & dz' & Ef & HF & Ep & Wp & Rp & Bp & Kp & Fp & Fz' & Sp & Sz & Vz & Vp).
  exists p. split; [assumption|]. exists dp, dz'. do 3 (split; [assumption|]).
  intros i Hi. rewrite Sp, Sz in Hi. apply vidx_app_inv in Hi as (o & i' & -> & Ho & Hi'). rewrite Vp, Vz by auto.
  rewrite Bx in Ho. inversion Ho; subst. apply fp_x; auto. now apply split_vJ.
Qed.

Lemma c43_linear z z1 z2 dz d1 d2 (a b : R) : wf z -> wf z1 -> wf z2 -> rshape z = rshape x -> rshape z1 = rshape x -> rshape z2 = rshape x ->
  bsz z1 = bsz z -> bsz z2 = bsz z -> full z = Ok dz -> full z1 = Ok d1 -> full z2 = Ok d2 ->
  (forall i, vidx (shape dz) i -> get dz i = (a * get d1 i + b * get d2 i)%R) ->
  exists p p1 p2 dp dp1 dp2, project qr z addr x = Ok (Proj p (Some addr)) /\ project qr z1 addr x = Ok (Proj p1 (Some addr)) /\
    project qr z2 addr x = Ok (Proj p2 (Some addr)) /\ full p = Ok dp /\ full p1 = Ok dp1 /\ full p2 = Ok dp2 /\
    forall i, vidx (shape dz) i -> get dp i = (a * get dp1 i + b * get dp2 i)%R.
Proof.
  intros Hz H1 H2 Rz R1 R2 B1 B2 Fz F1 F2 E.
  destruct (project_dense qr z x addr Hqr Hx Bx Hd Hz Rz) as (l & r & p & dp & dz' & Ef & HF & Ep & _ & _ & _ & _ & Fp & Fz' & Sp & Sz & Vz & Vp).
  destruct (project_dense qr z1 x addr Hqr Hx Bx Hd H1 R1) as (l1 & r1 & p1 & dp1 & dz1' & Ef1 & HF1 & Ep1 & _ & _ & _ & _ & Fp1 & Fz1' & Sp1 & Sz1 & Vz1 & Vp1).
  destruct (project_dense qr z2 x addr Hqr Hx Bx Hd H2 R2) as (l2 & r2 & p2 & dp2 & dz2' & Ef2 & HF2 & Ep2 & _ & _ & _ & _ & Fp2 & Fz2' & Sp2 & Sz2 & Vz2 & Vp2).
  assert (l1 = l) by congruence. assert (r1 = r) by congruence. assert (l2 = l) by congruence. assert (r2 = r) by congruence.
  assert (dz' = dz) by congruence. assert (dz1' = d1) by congruence. assert (dz2' = d2) by congruence. subst.
  exists p, p1, p2, dp, dp1, dp2. do 6 (split; [assumption|]). intros i Hi. rewrite Sz in Hi. apply vidx_app_inv in Hi as (o & i' & -> & Ho & Hi').
  rewrite B1, B2 in *. rewrite Vp, Vp1, Vp2 by auto. etransitivity; [|apply (fp_lin x l r (tt_entry z1 o) (tt_entry z2 o) a b)].
  change (car Rring) in a. change (car Rring) in b.
  apply fp_ext; auto; [now apply split_vJ|]. intros J HJ. apply Rminus_diag_uniq. revert J HJ.
  apply (js_zero_each (modes x) 0 (ndims x) (fun J => tt_entry z o J - (a * tt_entry z1 o J + b * tt_entry z2 o J))%K).
  rewrite <- (isum_js x Hx (fun J => (tt_entry z o J - (a * tt_entry z1 o J + b * tt_entry z2 o J)) * (tt_entry z o J - (a * tt_entry z1 o J + b * tt_entry z2 o J)))%K).
  transitivity (isum (K := Rring) (ishape x) (fun _ => c0)); [|apply isum_zero; reflexivity].
  apply isum_ext. intros k Hk. rewrite <- Vz, <- Vz1, <- Vz2 by auto. rewrite E by (rewrite Sz; now apply vidx_app). generalize (get d1 (o ++ k)) (get d2 (o ++ k)). intros e f. cbn. ring.
Qed.

Lemma c43_idempotent z : wf z -> rshape z = rshape x ->
  exists p p', project qr z addr x = Ok (Proj p (Some addr)) /\ project qr p addr x = Ok (Proj p' (Some addr)) /\ same_full p' p.
Proof.
  intros Hz Rz.
  destruct (project_dense qr z x addr Hqr Hx Bx Hd Hz Rz) as (l & r & p & dp & dz' & Ef & HF & Ep & Wp & Rp & Bp & _ & Fp & Fz' & Sp & Sz & Vz & Vp).
  destruct (project_dense qr p x addr Hqr Hx Bx Hd Wp Rp) as (l1 & r1 & p1 & dp1 & dz1' & Ef1 & HF1 & Ep1 & _ & _ & _ & _ & Fp1 & Fz1' & Sp1 & Sz1 & Vz1 & Vp1).
  assert (l1 = l) by congruence. assert (r1 = r) by congruence. assert (dz1' = dp) by congruence. subst. exists p, p1. do 2 (split; [assumption|]).
  exists dp1, dp. do 3 (split; [assumption|]). intros i Hi. rewrite Sp1, Sz1 in Hi. apply vidx_app_inv in Hi as (o & i' & -> & Ho & Hi').
  rewrite Vp1 by auto. rewrite Bp in *. rewrite Vp by auto. rewrite <- (fp_idem x l r HF Hd (tt_entry z o)) by now apply split_vJ.
  apply fp_ext; auto; [now apply split_vJ|]. intros J HJ. apply Rminus_diag_uniq. revert J HJ.
  apply (js_zero_each (modes x) 0 (ndims x) (fun J => tt_entry p o J - fproj x l r (tt_entry z o) J)%K).
  rewrite <- (isum_js x Hx (fun J => (tt_entry p o J - fproj x l r (tt_entry z o) J) * (tt_entry p o J - fproj x l r (tt_entry z o) J))%K).
  transitivity (isum (K := Rring) (ishape x) (fun _ => c0)); [|apply isum_zero; reflexivity].
  apply isum_ext. intros k Hk. rewrite <- Vz1, Vp by auto. ring.
Qed.

Lemma c43_symmetric z1 z2 : wf z1 -> wf z2 -> rshape z1 = rshape x -> rshape z2 = rshape x -> 
  exists p1 p2 dp1 dp2 d1 d2, project qr z1 addr x = Ok (Proj p1 (Some addr)) /\
    project qr z2 addr x = Ok (Proj p2 (Some addr)) /\ full p1 = Ok dp1 /\ full p2 = Ok dp2 /\ full z1 = Ok d1 /\ full z2 = Ok d2 /\
    forall o1 o2, vidx (pre_of (bsz z1)) o1 -> vidx (pre_of (bsz z2)) o2 ->
      isum (K := Rring) (ishape x) (fun i => get dp1 (o1 ++ i) * get d2 (o2 ++ i))%R = isum (K := Rring) (ishape x) (fun i => get d1 (o1 ++ i) * get dp2 (o2 ++ i))%R.
Proof.
  intros H1 H2 R1 R2.
  destruct (project_dense qr z1 x addr Hqr Hx Bx Hd H1 R1) as (l1 & r1 & p1 & dp1 & dz1' & Ef1 & HF1 & Ep1 & _ & _ & _ & _ & Fp1 & Fz1' & Sp1 & Sz1 & Vz1 & Vp1).
  destruct (project_dense qr z2 x addr Hqr Hx Bx Hd H2 R2) as (l2 & r2 & p2 & dp2 & dz2' & Ef2 & HF2 & Ep2 & _ & _ & _ & _ & Fp2 & Fz2' & Sp2 & Sz2 & Vz2 & Vp2).
  assert (l2 = l1) by congruence. assert (r2 = r1) by congruence. subst. exists p1, p2, dp1, dp2, dz1', dz2'. do 6 (split; [assumption|]).
  intros o1 o2 Ho1 Ho2.
  transitivity (isum (ishape x) (fun i => (fun J => fproj x l1 r1 (tt_entry z1 o1) J * tt_entry z2 o2 J) (split_idx x i)))%K.
  { apply (isum_ext Rring). intros i Hi. rewrite Vp1, Vz2 by auto. reflexivity. }
  rewrite (isum_js x Hx (fun J => fproj x l1 r1 (tt_entry z1 o1) J * tt_entry z2 o2 J)%K), (fp_sym x l1 r1 HF1 Hd), <- (isum_js x Hx).
  apply (isum_ext Rring). intros i Hi. rewrite Vp2, Vz1 by auto. reflexivity.
Qed.
End C43.

Lemma c43_qr_independent qr qr' (x z : rtt) addr : qr_ok qr -> qr_ok qr' -> wf x -> bsz x = None -> 2 <= ndims x -> full_tt_ranks x ->
  wf z -> rshape z = rshape x ->
  exists p p', project qr z addr x = Ok (Proj p (Some addr)) /\ project qr' z addr x = Ok (Proj p' (Some addr)) /\ same_full p p'.
Proof.
  intros Hq Hq' Hx Bx Hd Hr Hz Rz.
  destruct (project_dense qr z x addr Hq Hx Bx Hd Hz Rz) as (l & r & p & dp & dz & _ & _ & Ep & _ & _ & _ & _ & Fp & Fz & Sp & Sz & _).
  destruct (project_dense qr' z x addr Hq' Hx Bx Hd Hz Rz) as (l' & r' & p' & dp' & dz' & _ & _ & Ep' & _ & _ & _ & _ & Fp' & Fz' & Sp' & Sz' & _).
  assert (dz' = dz) by congruence. subst. exists p, p'. do 2 (split; [assumption|]). exists dp, dp'. do 2 (split; [assumption|]). split; [congruence|].
  destruct (c43_tangent qr x addr Hq Hx Bx Hd z Hr Hz Rz) as (q & dq & dw & Eq & Fq & Fw & H).
  destruct (c43_tangent qr' x addr Hq' Hx Bx Hd z Hr Hz Rz) as (q' & dq' & dw' & Eq' & Fq' & Fw' & H').
  assert (q = p) by congruence. assert (q' = p') by congruence. assert (dw = dz) by congruence. assert (dw' = dz) by congruence. subst.
  assert (dq = dp) by congruence. assert (dq' = dp') by congruence. subst.
  intros i Hi. rewrite Sp, Sz in Hi. apply vidx_app_inv in Hi as (o & i' & -> & Ho & Hi').
  destruct (H o Ho) as [H1 H2]. destruct (H' o Ho) as [H1' H2'].
  pose proof (tangent_lin x Hx Hd _ _ 1%R (-1)%R H1 H1') as H3. pose proof (H2 _ H3) as H4. pose proof (H2' _ H3) as H4'.
  set (g := fun i => get dp (o ++ i)) in *. set (f := fun i => get dp' (o ++ i)) in *.
  change (g i' = f i'). apply Rminus_diag_uniq.
  assert (E : isum (K := Rring) (ishape x) (fun i => Rsqr (g i - f i)) = 0%R).
  { transitivity (isum (K := Rring) (ishape x) (fun i => g i * (1 * g i + -1 * f i) + (-1) * (f i * (1 * g i + -1 * f i)))%R).
    - apply (isum_ext Rring). intros k Hk. unfold Rsqr. req. ring.
    - etransitivity; [apply (isum_add Rring)|]. etransitivity; [apply f_equal2; [exact H4|apply (isum_mul_l Rring)]|].
      etransitivity; [apply f_equal2; [reflexivity|apply f_equal; exact H4']|]. req. cbn [cadd cmul Rring]. ring. }
  destruct (isum_zero_each (ishape x) (fun i => Rsqr (g i - f i))) as [_ Q]; [intros; apply Rle_0_sqr|].
  apply Rsqr_0_uniq. apply (Q E); auto.
Qed.

(** ** project_sum, project_matmul *)
Lemma same_entries (x z : rtt) (F G : fn) : wf x -> (forall i, vidx (ishape x) i -> F (split_idx x i) = G (split_idx x i)) ->
  forall J, vJ x J -> F J = G J.
Proof.
  intros Hx E J HJ. apply Rminus_diag_uniq. revert J HJ. apply (js_zero_each (modes x) 0 (ndims x) (fun J => F J - G J)%K).
  rewrite <- (isum_js x Hx (fun J => (F J - G J) * (F J - G J))%K). transitivity (isum (K := Rring) (ishape x) (fun _ => c0)); [|apply isum_zero; reflexivity].
  apply isum_ext. intros k Hk. rewrite E by auto. ring.
Qed.
Lemma cf_add_sum (x l r : rtt) n (c : nat -> Rring) (F : nat -> fn) J : wf x -> is_frame x l r -> 2 <= ndims x -> vJ x J ->
  fproj x l r (fun J => sumn n (fun s => c s * F s J)%K) J = sumn n (fun s => c s * fproj x l r (F s) J)%K.
Proof.
  intros Hx HF Hd HJ. induction n as [|n IH].
  - cbn [sumn]. transitivity (fproj x l r (fun J => 0 * F 0%nat J + 0 * F 0%nat J)%K J); [|rewrite fp_lin; ring].
    apply fp_ext; auto. intros. ring.
  - cbn [sumn]. rewrite <- IH. transitivity (fproj x l r (fun J => 1 * sumn n (fun s => c s * F s J) + c n * F n J)%K J).
    + apply fp_ext; auto. intros. ring.
    + rewrite (fp_lin x l r (fun J => sumn n (fun s => c s * F s J))%K (F n)). ring.
Qed.

Lemma c44_sum qr (z x : rtt) addr weights : qr_ok qr -> wf x -> bsz x = None -> 2 <= ndims x -> wf z -> rshape z = rshape x ->
  let B := match bsz z with Some b => b | None => 1 end in
  let el s := match bsz z with Some _ => [s] | None => [] end in
  good_weights B weights ->
  exists p t dp dt, project qr z addr x = Ok (Proj p (Some addr)) /\ project_sum qr z addr x weights = Ok (Proj t (Some addr)) /\
    wf t /\ rshape t = rshape x /\ bsz t = wsize weights /\ rks t = rks p /\ full p = Ok dp /\ full t = Ok dt /\
    forall o i, vidx (pre_of (wsize weights)) o -> vidx (ishape x) i ->
      get dt (o ++ i) = sumn (K := Rring) B (fun s => wcoef weights s o * get dp (el s ++ i))%R.
Proof.
  intros Hqr Hx Bx Hd Hz Rz B el Hwt.
  destruct (project_dense qr z x addr Hqr Hx Bx Hd Hz Rz) as (l & r & p & dp & dz & Ef & HF & Ep & Wp & Rp & Bp & Kp & Fp & Fz & Sp & Sz & Vz & Vp).
  destruct (project_sum_ok qr z x addr weights Hqr Hx Bx Hd Hz Rz Hwt) as (l' & r' & t & Ef' & HF' & Et & HP).
  assert (l' = l) by congruence. assert (r' = r) by congruence. subst l' r'.
  pose proof HP as (F' & (Wt & Rt & Bt & Dt & Kt & _) & _). destruct (dense t Wt) as (dt & Ft & St & Vt).
  rewrite (same_ishape t x Rt), Bt in *. exists p, t, dp, dt. do 5 (split; [assumption|]). split.
  { destruct (project_ok qr z x addr Hqr Hx Bx Hd Hz Rz) as (l1 & r1 & t1 & Ef1 & _ & Et1 & F1 & (W1 & R1 & B1 & D1 & K1 & _) & _).
    assert (l1 = l) by congruence. assert (r1 = r) by congruence. assert (t1 = p) by congruence. subst.
    apply (nth_ext _ _ 0 0); [rewrite (wf_klen Wt), (wf_klen W1); congruence|]. intros k Hk. rewrite (wf_klen Wt) in Hk.
    change (rk t k = rk p k). rewrite Kt, K1 by lia. reflexivity. }
  do 2 (split; [assumption|]). intros o i Ho Hi. rewrite Vt by auto. rewrite (same_split t x i Rt).
  rewrite (projection_entry x l r HF Hd (wsize weights) _ t o (split_idx x i) HP) by (auto; now apply split_vJ).
  rewrite cf_add_sum by (auto; now apply split_vJ). apply sumn_ext. intros s Hs. unfold el. subst B. rewrite Vp; auto.
  destruct (bsz z); repeat constructor; auto.
Qed.

Lemma split_matrix (x : rtt) i j : is_tt_matrix x = true -> split_idx x [i; j] = pairs (unravel (nth 0 (rshape x) []) i) (unravel (nth 1 (rshape x) []) j).
Proof. intros E. unfold split_idx. rewrite E. reflexivity. Qed.
Lemma pairs_fst I J : length I = length J -> map (fun j => nth 0 j 0) (pairs I J) = I /\ map (fun j => nth 1 j 0) (pairs I J) = J.
Proof.
  revert J. induction I as [|i I IH]; intros [|j J] H; cbn in H; try lia; [split; reflexivity|].
  destruct (IH J ltac:(lia)) as [E1 E2]. cbn [pairs map2 map nth]. unfold pairs in *. now rewrite E1, E2.
Qed.

Lemma mm_dense (m what x : rtt) dm dw o i j : wf x -> is_tt_matrix x = true -> wf what -> rshape what = rshape x -> wf m -> bsz m = None ->
  rshape m = [nth 0 (rshape x) []; nth 0 (rshape x) []] -> full m = Ok dm -> full what = Ok dw -> vidx (pre_of (bsz what)) o -> vidx (ishape x) [i; j] ->
  mm_entry m what o (split_idx x [i; j]) = sumn (prodn (nth 0 (rshape x) [])) (fun k => get dm [i; k] * get dw (o ++ [k; j]))%K.
Proof.
  intros Hx Kx Hw Rw Hm Bm Rm Fm Fw Ho Hij.
  destruct (dense m Hm) as (dm' & Fm' & Sm & Vm). destruct (dense what Hw) as (dw' & Fw' & Sw & Vw).
  assert (dm' = dm) by congruence. assert (dw' = dw) by congruence. subst. clear Fm' Fw'.
  assert (Km : is_tt_matrix m = true) by (unfold is_tt_matrix; now rewrite Rm).
  assert (Kw : is_tt_matrix what = true) by (unfold is_tt_matrix; rewrite Rw; exact Kx).
  unfold ishape in Hij. rewrite Kx in Hij. apply vidx_cons_inv in Hij as [Hi Hj]. apply vidx_cons_inv in Hj as [Hj _].
  unfold mm_entry. rewrite split_matrix by auto. destruct (matrix_rows_len Rring x Hx Kx) as [L0 L1].
  destruct (pairs_fst (unravel (nth 0 (rshape x) []) i) (unravel (nth 1 (rshape x) []) j)) as [E0 E1]; [rewrite (vidx_length _ _ (unravel_valid _ i Hi)), (vidx_length _ _ (unravel_valid _ j Hj)); congruence|].
  rewrite E0, E1. rewrite Rm. cbn [nth]. 
  rewrite (isum_unravel Rring). apply sumn_ext. intros k Hk.
  rewrite (Vw o [k; j]); auto.
  2:{ unfold ishape. rewrite Kw, Rw. repeat constructor; auto. }
  pose proof (Vm [] [i; k]) as V. cbn [app] in V. rewrite V.
  2:{ rewrite Bm. constructor. }
  2:{ unfold ishape. rewrite Km, Rm. cbn [nth]. repeat constructor; auto. }
  rewrite !split_matrix by auto. rewrite Rm, Rw. reflexivity.
Qed.

Lemma c44_matmul qr (what x m z : rtt) addr B dm dw dz : qr_ok qr -> wf x -> bsz x = None -> 2 <= ndims x -> is_tt_matrix x = true ->
  wf what -> bsz what = Some B -> rshape what = rshape x -> wf m -> bsz m = None -> rshape m = [nth 0 (rshape x) []; nth 0 (rshape x) []] ->
  wf z -> bsz z = Some B -> rshape z = rshape x -> full m = Ok dm -> full what = Ok dw -> full z = Ok dz ->
  (forall s i j, s < B -> i < prodn (nth 0 (rshape x) []) -> j < prodn (nth 1 (rshape x) []) ->
     get dz [s; i; j] = sumn (K := Rring) (prodn (nth 0 (rshape x) [])) (fun k => get dm [i; k] * get dw [s; k; j])%R) ->
  exists t p, project_matmul qr what addr x m = Ok (Proj t (Some addr)) /\ project qr z addr x = Ok (Proj p (Some addr)) /\ 
    wf t /\ rshape t = rshape x /\ bsz t = Some B /\ same_full t p.
Proof.
  intros Hqr Hx Bx Hd Kx Hw Bw Rw Hm Bm Rm Hz Bz Rz Fm Fw Fz E.
  destruct (project_dense qr z x addr Hqr Hx Bx Hd Hz Rz) as (l & r & p & dp & dz' & Ef & HF & Ep & Wp & Rp & Bp & Kp & Fp & Fz' & Sp & Sz & Vz & Vp).
  assert (dz' = dz) by congruence. subst dz'.
  destruct (project_matmul_ok qr what x m addr B Hqr Hx Bx Hd Kx Hw Bw Rw Hm Bm Rm) as (l' & r' & t & Ef' & HF' & Et & HP).
  assert (l' = l) by congruence. assert (r' = r) by congruence. subst l' r'.
  pose proof HP as (F' & (Wt & Rt & Bt & Dt & Kt & _) & _). destruct (dense t Wt) as (dt & Ft & St & Vt).
  rewrite (same_ishape t x Rt), Bt in *. exists t, p. do 5 (split; [assumption|]). exists dt, dp. do 2 (split; [assumption|]).
  split; [now rewrite St, Sp, Sz, Bz|]. intros i Hi. rewrite St in Hi. apply vidx_app_inv in Hi as (o & i' & -> & Ho & Hi').
  rewrite Vt by auto. rewrite Bz in *. rewrite Vp by auto. rewrite (same_split t x i' Rt).
  rewrite (projection_entry x l r HF Hd (Some B) _ t o (split_idx x i') HP) by (auto; now apply split_vJ).
  apply fp_ext; auto; [now apply split_vJ|]. apply (same_entries x z); auto. intros k Hk.
  unfold ishape in Hk. rewrite Kx in Hk. pose proof Hk as Hk'. apply vidx_2_inv in Hk as (i & j & -> & Hi & Hj).
  assert (Hij : vidx (ishape x) [i; j]) by (unfold ishape; now rewrite Kx).
  rewrite (mm_dense m what x dm dw) by (auto; now rewrite Bw). rewrite <- Vz by auto.
  apply vidx_1_inv in Ho as (s & -> & Hs). cbn [app]. rewrite E by auto. reflexivity.
Qed.
