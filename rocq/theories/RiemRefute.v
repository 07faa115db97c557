(** Tangent points where the functions of riemannian.py do not do what they promise: a tensor whose
    TT-ranks are larger than those of the tensor, and one whose TT-rank is larger than a core allows. *)
From Coq Require Import String Ascii List Arith ZArith Lia Lra Bool Ring Reals.
From Verif Require Import Scalar Tensor TensorLemmas TensorLemmas2 Base Spec Chain BaseLemmas Ops
  FullProofs ResultLemmas Dense AddProofs DenseMatmul Sweep FlatProofs GatherProofs RoundProofs OpsR InitProofs Decomp DecompSpec GaugeProofs OrthProofs OrthNorm
  TangentProofs Riem RiemBlock RiemProofs RiemThms RiemSpec TangentSpace RiemFull RiemDelta RiemInner RiemAddN RiemMade Samples.
Import ListNotations.
Local Open Scope nat_scope.
Local Notation get := (@get Rring).
Local Ltac req := match goal with |- @eq _ ?u ?v => change (@eq R u v) end.

(** ** Zero with TT-rank 1 *)
Definition x_zero : rtt := toR (TT [zt [1;1;1] [0%Z]; zt [1;1;1] [0%Z]] [[1;1]] [1;1;1] None).
Definition z_one : rtt := toR (TT [zt [1;1;1] [1%Z]; zt [1;1;1] [1%Z]] [[1;1]] [1;1;1] None).
Lemma x_zero_wf : wf x_zero. Proof. apply wfb_wf; vm_compute; reflexivity. Qed.
Lemma z_one_wf : wf z_one. Proof. apply wfb_wf; vm_compute; reflexivity. Qed.

Lemma x_zero_tangent T : tangent x_zero T -> T [0;0] = 0%R.
Proof.
  intros (dG & H). rewrite H by (repeat constructor). cbn. unfold coreG, Tensor.get. cbn. unfold prodn. cbn. lra.
Qed.

Lemma x_zero_project qr addr : qr_ok qr -> exists p dp,
  project qr z_one addr x_zero = Ok (Proj p (Some addr)) /\ full p = Ok dp /\ get dp [0;0] = 1%R.
Proof.
  intros Hq. destruct (project_dense qr z_one x_zero addr Hq x_zero_wf eq_refl ltac:(cbn; lia) z_one_wf eq_refl)
    as (l & r & p & dp & dz & Ef & HF & Ep & Wp & Rp & Bp & Kp & Fp & Fz & Sp & Sz & Vz & Vp).
  exists p, dp. do 2 (split; [assumption|]). specialize (Vp [] [0;0] ltac:(constructor) ltac:(repeat constructor)). cbn [app] in Vp. rewrite Vp. clear Vp.
  change (split_idx x_zero [0;0]) with [[0];[0]].
  pose proof (fr_l0 _ _ _ HF) as L0. pose proof (fr_lk _ _ _ HF 0 ltac:(cbn; lia)) as L1. rewrite L0 in L1. change (Nat.min (1 * prodn (modes x_zero 0)) (rk x_zero 1)) with 1 in L1.
  pose proof (fr_HU1 x_zero l r HF ltac:(cbn; lia) 0 0 0 ltac:(cbn; lia) ltac:(lia) ltac:(lia)) as HU. rewrite L0 in HU. cbn in HU.
  set (u := coreG l [] 0 0 [0] 0) in *.
  assert (W : vJ x_zero [[0];[0]]) by (split; [cbn; repeat split; repeat constructor|reflexivity]).
  assert (S1 : forall J, vJ x_zero J -> J = [[0];[0]]).
  { intros J [H L]. destruct J as [|j [|j' [|? ?]]]; cbn in L; try discriminate. cbn in H. destruct H as (H1 & H2 & _).
    apply vidx_1_inv in H1 as (? & -> & ?). apply vidx_1_inv in H2 as (? & -> & ?). do 4 f_equal; lia. }
  assert (Q : rk r 2 = 1) by apply (fr_qd _ _ _ HF).
  assert (Q1 : rk r 1 = 1).
  { rewrite (fr_rk _ _ _ HF 1 ltac:(cbn; lia)), L1, Q. reflexivity. }
  pose (D := fun (m a : nat) (j : list nat) (c : nat) => if Nat.eqb m 1 then (u : R) else 0%R).
  assert (E : forall J, vJ x_zero J -> tt_entry z_one [] J = sumn (K := Rring) 2 (fun m => tterm Rring (coreG l []) (coreG r []) (rk l) (rk r) m (D m) J)).
  { intros J HJ. rewrite (S1 J HJ). cbn [sumn]. unfold tterm. cbn [firstn skipn nth]. unfold D. cbn [Nat.eqb].
    rewrite L0, L1, Q, Q1. cbn [sumn]. unfold lv, rv. cbn [chain]. rewrite ?L1, ?Q. cbn [sumn]. unfold delta. cbn [Nat.eqb]. fold u.
    unfold delta in HU. cbn. unfold coreG, Tensor.get. cbn. unfold prodn. cbn. cbn in HU. change (@car Rring) with R in *. lra. }
  rewrite (fp_ext x_zero l r HF ltac:(cbn; lia) _ _ _ W E).
  rewrite (fp_sum_terms x_zero l r HF ltac:(cbn; lia)) by exact W. rewrite <- E by exact W. cbn. unfold coreG, Tensor.get. cbn. unfold prodn. cbn. lra.
Qed.

(** ** TT-rank 3 next to a core with one element per row *)
Definition x_big : rtt := toR (TT [zt [1;3;3] [1;0;0;0;1;0;0;0;1]%Z; zt [3;1;1] [1;2;3]%Z] [[3;1]] [1;3;1] None).
Definition z_nil : rtt := toR (TT [zt [1;3;1] [0;0;0]%Z; zt [1;1;1] [0]%Z] [[3;1]] [1;1;1] None).
Lemma x_big_wf : wf x_big. Proof. apply wfb_wf; vm_compute; reflexivity. Qed.
Lemma z_nil_wf : wf z_nil. Proof. apply wfb_wf; vm_compute; reflexivity. Qed.

(** A well-formed TT-tensor with two cores, written out. *)
Lemma two_cores (t : rtt) n0 n1 q : wf t -> rshape t = [[n0; n1]] -> bsz t = None -> rk t 1 = q ->
  exists d0 d1, t = TT [@Tensor Rring [1;n0;q] d0; @Tensor Rring [q;n1;1] d1] [[n0;n1]] [1;q;1] None /\
    length d0 = n0 * q /\ length d1 = q * n1.
Proof.
  intros W R B Q. pose proof (wf_rlen W) as RL. rewrite R in RL. apply Forall_cons_iff in RL as [RL _]. cbn in RL.
  assert (N : ndims t = 2) by congruence.
  pose proof (wf_klen W) as KL. rewrite N in KL. pose proof (wf_first W) as K0. pose proof (wf_last W) as K2. rewrite N in K2.
  pose proof (core_shape Rring t 0 W ltac:(lia)) as S0. pose proof (core_shape Rring t 1 W ltac:(lia)) as S1.
  pose proof (core_wft Rring t 0 W ltac:(lia)) as W0. pose proof (core_wft Rring t 1 W ltac:(lia)) as W1.
  unfold modes, bpre, wft, core in *. rewrite R, B, K0, Q in S0. rewrite R, B, K2, Q in S1. cbn [map app nth] in S0, S1.
  unfold ndims in N. destruct t as [cs rs ks b]. cbn [cores rshape bsz rks] in *.
  destruct cs as [|[s0 d0] [|[s1 d1] [|? ?]]]; cbn in N; try discriminate. cbn [nth shape data] in *. subst.
  destruct ks as [|k0 [|k1 [|k2 [|? ?]]]]; cbn in KL; try discriminate. unfold rk in *. cbn in *. subst.
  exists d0, d1. split; [reflexivity|]. unfold prodn in *. cbn in *. lia.
Qed.
Ltac spread d := repeat (destruct d as [|? d]; [discriminate|]); destruct d; [|discriminate].

Lemma fdelta_zero (w l r : rtt) F : (forall J, vJ w J -> F J = 0%R) -> forall m a j c, m < ndims w -> vidx (modes w m) j -> fdelta w l r F m a j c = 0%R.
Proof.
  intros H m a j c Hm Hj. unfold fdelta, delta_of.
  assert (C : forall p n M a c, p <= n <= ndims w -> vj (modes w) p n M -> cf Rring (modes w) (ndims w) (coreG l []) (coreG r []) (rk l) (rk r) p n F a c M = 0%R).
  { intros p n M a' c' Hp HM. unfold cf. apply js_zero. intros I HI. apply js_zero. intros I' HI'. rewrite H; [apply Rmult_0_r|].
    apply (vj_app (modes w) 0 p (ndims w)); [lia|auto|]. apply (vj_app (modes w) p n (ndims w)); auto. }
  rewrite C by (auto using vj_one; lia). unfold last0. destruct (Nat.eqb (S m) (ndims w)).
  - cbn. lra.
  - rewrite (sumn_zero Rring (rk l (S m))); [cbn; lra|]. intros b _. rewrite C; [apply Rmult_0_r|lia|]. split; [exact I|cbn; lia].
Qed.

Section Big.
Variables (qr : rtensor -> rtensor * rtensor) (addr : nat) (l r : rtt).
Hypothesis HF : is_frame x_big l r.
Lemma big_d : 2 <= ndims x_big. Proof. cbn. lia. Qed.
Lemma big_l : rk l 1 = 3.
Proof. rewrite (fr_lk _ _ _ HF 0) by (cbn; lia). rewrite (fr_l0 _ _ _ HF). reflexivity. Qed.
Lemma big_r : rk r 1 = 1.
Proof. rewrite (fr_rk _ _ _ HF 1) by (cbn; lia). rewrite big_l. change 2 with (ndims x_big). rewrite (fr_qd _ _ _ HF). reflexivity. Qed.
Lemma big_U : sumn (K := Rring) 3 (fun s => coreG l [] 0 0 [s] 0 * coreG l [] 0 0 [s] 0)%R = 1%R.
Proof.
  pose proof (fr_HU1 x_big l r HF big_d 0 0 0 ltac:(cbn; lia) ltac:(rewrite big_l; lia) ltac:(rewrite big_l; lia)) as H.
  rewrite (fr_l0 _ _ _ HF) in H. cbn in H. unfold delta in H. cbn in H. cbn. change (@car Rring) with R in *. lra.
Qed.

(** A projection on this tangent space, written out: the columns of the first core are the
    delta core and the three columns of the left frame. *)
Lemma big_blocks D t : blocks x_big l r None D t -> exists d0 d1 d2 v e0 e1 e2,
  t = @TT Rring [@Tensor Rring [1;3;4] [d0; coreG l [] 0 0 [0] 0; coreG l [] 0 0 [0] 1; coreG l [] 0 0 [0] 2;
                             d1; coreG l [] 0 0 [1] 0; coreG l [] 0 0 [1] 1; coreG l [] 0 0 [1] 2;
                             d2; coreG l [] 0 0 [2] 0; coreG l [] 0 0 [2] 1; coreG l [] 0 0 [2] 2];
         @Tensor Rring [4;1;1] [v; e0; e1; e2]] [[3;1]] [1;4;1] None /\
  d0 = D [] 0 0 [0] 0 /\ d1 = D [] 0 0 [1] 0 /\ d2 = D [] 0 0 [2] 0 /\ v = coreG r [] 1 0 [0] 0 /\
  e0 = D [] 1 0 [0] 0 /\ e1 = D [] 1 1 [0] 0 /\ e2 = D [] 1 2 [0] 0.
Proof.
  intros (W & R & B & N & Kt & G).
  assert (K1 : rk t 1 = 4) by (rewrite Kt by (cbn; lia); unfold brank; cbn [Nat.eqb ndims x_big]; rewrite big_l, big_r; reflexivity).
  pose proof (wf_first W) as K0. pose proof (wf_last W) as K2. rewrite N in K2. change (ndims x_big) with 2 in K2.
  assert (G0 : forall s b, s < 3 -> b < 4 -> coreG t [] 0 0 [s] b = if Nat.ltb b 1 then D [] 0 0 [s] b else coreG l [] 0 0 [s] (b - 1)).
  { intros s b Hs Hb. rewrite G; [|constructor|cbn; lia|lia|constructor; [exact Hs|constructor]|lia]. unfold blockG. cbn [Nat.eqb]. rewrite big_r. reflexivity. }
  assert (G1 : forall a, a < 4 -> coreG t [] 1 a [0] 0 = if Nat.ltb a 1 then coreG r [] 1 a [0] 0 else D [] 1 (a - 1) [0] 0).
  { intros a Ha. rewrite G; [|constructor|cbn; lia|lia|repeat constructor|lia]. change (ndims x_big) with 2. unfold blockG. cbn [Nat.eqb Nat.sub]. rewrite big_r. reflexivity. }
  destruct (two_cores t 3 1 4 W R B K1) as (d0 & d1 & E & L0 & L1). cbn in L0, L1. spread d0. spread d1. subst t.
  pose proof (G0 0) as A0. pose proof (G0 1) as A1. pose proof (G0 2) as A2. clear G0 G W R B N Kt K0 K1 K2 L0 L1.
  pose proof (A0 0 ltac:(lia) ltac:(lia)) as B0. pose proof (A0 1 ltac:(lia) ltac:(lia)) as B1. pose proof (A0 2 ltac:(lia) ltac:(lia)) as B2. pose proof (A0 3 ltac:(lia) ltac:(lia)) as B3.
  pose proof (A1 0 ltac:(lia) ltac:(lia)) as B4. pose proof (A1 1 ltac:(lia) ltac:(lia)) as B5. pose proof (A1 2 ltac:(lia) ltac:(lia)) as B6. pose proof (A1 3 ltac:(lia) ltac:(lia)) as B7.
  pose proof (A2 0 ltac:(lia) ltac:(lia)) as B8. pose proof (A2 1 ltac:(lia) ltac:(lia)) as B9. pose proof (A2 2 ltac:(lia) ltac:(lia)) as B10. pose proof (A2 3 ltac:(lia) ltac:(lia)) as B11.
  pose proof (G1 0 ltac:(lia)) as C0. pose proof (G1 1 ltac:(lia)) as C1. pose proof (G1 2 ltac:(lia)) as C2. pose proof (G1 3 ltac:(lia)) as C3.
  clear A0 A1 A2 G1. cbn in *.
  repeat match goal with H : coreG (TT _ _ _ _) _ _ _ _ _ = _ |- _ => unfold coreG at 1 in H; unfold Tensor.get in H at 1; cbn in H; unfold prodn in H; cbn in H end.
  subst. do 7 eexists. split; [reflexivity|]. repeat (split; [reflexivity|]). reflexivity.
Qed.
End Big.

(** What [project] makes at this point. *)
Lemma big_project qr addr z : qr_ok qr -> wf z -> rshape z = rshape x_big -> bsz z = None ->
  exists l r t, frame qr x_big = Ok (l, r) /\ is_frame x_big l r /\ project qr z addr x_big = Ok (Proj t (Some addr)) /\
    exists F, blocks x_big l r None (fun o => fdelta x_big l r (F o)) t /\ forall J, vJ x_big J -> F [] J = tt_entry z [] J.
Proof.
  intros Hq Wz Rz Bz. destruct (project_ok qr z x_big addr Hq x_big_wf eq_refl ltac:(cbn; lia) Wz Rz) as (l & r & t & Ef & HF & Ep & HP).
  rewrite Bz in HP. destruct HP as (F & HB & HE). exists l, r, t. do 3 (split; [assumption|]). exists F. split; [exact HB|]. intros J HJ. apply HE; auto. constructor.
Qed.
Lemma z_nil_entry J : vJ x_big J -> tt_entry z_nil [] J = 0%R.
Proof.
  intros [H L]. destruct J as [|j [|j' [|? ?]]]; cbn in L; try discriminate. cbn in H. destruct H as (H1 & H2 & _).
  apply vidx_1_inv in H1 as (a & -> & Ha). apply vidx_1_inv in H2 as (b & -> & Hb). assert (b = 0) as -> by lia.
  destruct a as [|[|[|a]]]; [| | |lia]; cbn; unfold coreG, Tensor.get; cbn; unfold prodn; cbn; lra.
Qed.
Lemma big_zero qr addr : qr_ok qr -> exists l r t u, frame qr x_big = Ok (l, r) /\ is_frame x_big l r /\ project qr z_nil addr x_big = Ok (Proj t (Some addr)) /\
  u = coreG r [] 1 0 [0] 0 /\
  t = @TT Rring [@Tensor Rring [1;3;4] [0%R; coreG l [] 0 0 [0] 0; coreG l [] 0 0 [0] 1; coreG l [] 0 0 [0] 2;
                             0%R; coreG l [] 0 0 [1] 0; coreG l [] 0 0 [1] 1; coreG l [] 0 0 [1] 2;
                             0%R; coreG l [] 0 0 [2] 0; coreG l [] 0 0 [2] 1; coreG l [] 0 0 [2] 2];
         @Tensor Rring [4;1;1] [u; 0%R; 0%R; 0%R]] [[3;1]] [1;4;1] None.
Proof.
  intros Hq. destruct (big_project qr addr z_nil Hq z_nil_wf eq_refl eq_refl) as (l & r & t & Ef & HF & Ep & F & HB & HE).
  assert (H0 : forall J, vJ x_big J -> F [] J = 0%R) by (intros J HJ; rewrite HE by auto; now apply z_nil_entry).
  destruct (big_blocks l r HF _ t HB) as (d0 & d1 & d2 & v & e0 & e1 & e2 & Et & E0 & E1 & E2 & Ev & F0 & F1 & F2).
  rewrite fdelta_zero in E0, E1, E2, F0, F1, F2; auto; try (cbn; lia); try (repeat constructor; fail); try (constructor; [cbn; lia|constructor]).
  subst d0 d1 d2 e0 e1 e2. exists l, r, t, v. do 4 (split; [assumption|]). exact Et.
Qed.

Lemma big_inner qr addr : qr_ok qr -> exists t w dt, project qr z_nil addr x_big = Ok (Proj t (Some addr)) /\
  pairwise_flat_inner_projected (Proj t (Some addr)) (Proj t (Some addr)) = Ok w /\ get w [0;0] = 1%R /\
  full t = Ok dt /\ shape dt = [3;1] /\ forall i, vidx [3;1] i -> get dt i = 0%R.
Proof.
  intros Hq. destruct (big_zero qr addr Hq) as (l & r & t & v & Ef & HF & Ep & _ & Et). pose proof (big_U l r HF) as HU.
  exists t. revert Ep. generalize (project qr z_nil addr x_big). intros y Ep. subst t. clear HF Ef. cbn in HU. revert Ep.
  generalize dependent (coreG l [] 0 0 [0] 0). intros u0. generalize (coreG l [] 0 0 [0] 1) (coreG l [] 0 0 [0] 2). intros u3 u6.
  generalize dependent (coreG l [] 0 0 [1] 0). intros u1. generalize (coreG l [] 0 0 [1] 1) (coreG l [] 0 0 [1] 2). intros u4 u7.
  generalize dependent (coreG l [] 0 0 [2] 0). intros u2. generalize (coreG l [] 0 0 [2] 1) (coreG l [] 0 0 [2] 2). intros u5 u8 HU Ep. do 2 eexists. split; [exact Ep|].
  split; [unfold pairwise_flat_inner_projected; cbn [p_on p_tt]; rewrite Nat.eqb_refl; cbv -[Rplus Rmult IZR]; reflexivity|].
  split.
  - unfold Tensor.get. cbn. unfold prodn. cbn. cbn in HU. lra.
  - split; [cbv -[Rplus Rmult IZR]; reflexivity|]. split; [reflexivity|]. intros i Hi. apply vidx_2_inv in Hi as (a & b & -> & Ha & Hb).
    assert (b = 0) as -> by lia. destruct a as [|[|[|a]]]; [| | |lia]; unfold Tensor.get; cbn; unfold prodn; cbn; lra.
Qed.

Lemma big_deltas qr addr : qr_ok qr -> exists t ds, project qr z_nil addr x_big = Ok (Proj t (Some addr)) /\
  tangent_space_to_deltas (Proj t (Some addr)) = Ok ds /\ deltas_to_tangent_space qr ds addr x_big None None = Err ValueError.
Proof.
  intros Hq. destruct (big_zero qr addr Hq) as (l & r & t & v & Ef & HF & Ep & _ & Et).
  destruct (two_cores l 3 1 3 (fr_l _ _ _ HF) (fr_rl _ _ _ HF) (fr_bl _ _ _ HF) (big_l l r HF)) as (l0 & l1 & El & L0 & L1).
  destruct (two_cores r 3 1 1 (fr_r _ _ _ HF) (fr_rr _ _ _ HF) (fr_br _ _ _ HF) (big_r l r HF)) as (r0 & r1 & Er & R0 & R1).
  unfold frame in Ef. destruct (orthogonalize_tt_cores qr x_big true) as [l'|] eqn:E1; cbn [bind] in Ef; [|discriminate].
  destruct (orthogonalize_tt_cores qr l' false) as [r'|] eqn:E2; cbn [bind] in Ef; [|discriminate]. injection Ef as -> ->.
  exists t. eexists. split; [exact Ep|]. subst t. split; [cbv -[Rplus Rmult IZR coreG]; reflexivity|].
  unfold deltas_to_tangent_space. rewrite E1. cbn [bind]. rewrite E2. cbn [bind].
  generalize (coreG l [] 0 0 [0] 0) (coreG l [] 0 0 [1] 0) (coreG l [] 0 0 [2] 0). intros u0 u1 u2. clear E1 E2 Ep HF. subst l r.
  cbn in L0, L1, R0, R1. spread l0. spread l1. spread r0. spread r1. cbv -[Rplus Rmult IZR]. reflexivity.
Qed.

Definition z_col (l : rtt) : rtt := TT [@Tensor Rring [1;3;1] [coreG l [] 0 0 [0] 0; coreG l [] 0 0 [1] 0; coreG l [] 0 0 [2] 0]; @Tensor Rring [1;1;1] [1%R]] [[3;1]] [1;1;1] None.
Lemma z_col_wf l : wf (z_col l). Proof. apply wfb_wf; vm_compute; reflexivity. Qed.

Lemma z_col_0 l s : s < 3 -> coreG (z_col l) [] 0 0 [s] 0 = coreG l [] 0 0 [s] 0.
Proof. intros Hs. destruct s as [|[|[|s]]]; [reflexivity..|lia]. Qed.
Lemma z_col_1 l : coreG (z_col l) [] 1 0 [0] 0 = 1%R.
Proof. reflexivity. Qed.
Lemma big_aux (d v u u1 u2 e1 e2 w : R) :
  (0 + (0 + d) * v + (u + u) * 1 + u1 * (0 + e1) + u2 * (0 + e2) =
   0 + 0 * w + u * 0 + u1 * 0 + u2 * 0 + (0 + d * v + u * 1 + u1 * e1 + u2 * e2))%R -> u = 0%R.
Proof. lra. Qed.

Lemma big_sum qr addr : qr_ok qr -> exists z t1 t2 t d1 d2 d i, wf z /\ rshape z = rshape x_big /\ bsz z = None /\
  project qr z_nil addr x_big = Ok (Proj t1 (Some addr)) /\ project qr z addr x_big = Ok (Proj t2 (Some addr)) /\
  add_n_projected [Proj t1 (Some addr); Proj t2 (Some addr)] None = Ok (Proj t (Some addr)) /\
  full t1 = Ok d1 /\ full t2 = Ok d2 /\ full t = Ok d /\ vidx [3;1] i /\ get d i <> (get d1 i + get d2 i)%R.
Proof.
  intros Hq. destruct (big_zero qr addr Hq) as (l & r & t1 & v & Ef & HF & Ep & Ev & Et).
  destruct (big_project qr addr (z_col l) Hq (z_col_wf l) eq_refl eq_refl) as (l' & r' & t2 & Ef' & _ & Ep' & F & HB & HE).
  assert (l' = l) by congruence. assert (r' = r) by congruence. subst l' r'.
  destruct (big_blocks l r HF _ t2 HB) as (d0 & d1 & d2 & v' & e0 & e1 & e2 & Et2 & E0 & E1 & E2 & Ev' & F0 & F1 & F2).
  pose proof (big_U l r HF) as HU. cbn in HU.
  assert (H1 : e0 = 1%R).
  { rewrite F0. unfold fdelta, delta_of, last0. change (ndims x_big) with 2. cbn [Nat.eqb]. unfold cf. rewrite js_one.
    etransitivity; [apply f_equal2; [apply (isum_ext Rring) with (g := fun j => (coreG l [] 0 0 j 0 * coreG l [] 0 0 j 0)%R)|reflexivity]|].
    { intros j Hj. rewrite js_nil. rewrite HE. 2:{ split; [cbn; split; [exact Hj|repeat constructor]|reflexivity]. }
      apply vidx_1_inv in Hj as (s & -> & Hs). unfold lv, rv. cbn [chain app]. rewrite (big_l l r HF). cbn [sumn]. unfold delta. cbn [Nat.eqb].
      unfold tt_entry. cbn [chain]. change (rk (z_col l) 1) with 1. change (rk (z_col l) 2) with 1. cbn [sumn]. rewrite z_col_0 by exact Hs. rewrite z_col_1. cbn. ring. }
    cbn. rewrite <- HU. req. ring. }
  clear HB HE F0 HF.
  assert (HS : exists s, s < 3 /\ coreG l [] 0 0 [s] 0 <> 0%R).
  { destruct (Req_dec (coreG l [] 0 0 [0] 0) 0); [|exists 0; split; [lia|auto]]. destruct (Req_dec (coreG l [] 0 0 [1] 0) 0); [|exists 1; split; [lia|auto]].
    exists 2. split; [lia|]. intros H2. rewrite H, H0, H2 in HU. lra. }
  destruct HS as (s & Hs & Us).
  assert (Evv : v' = v) by congruence. subst v'. clear Ev.
  exists (z_col l), t1, t2. subst t1 t2 e0. do 4 eexists. exists [s; 0]. split; [apply z_col_wf|]. do 2 (split; [reflexivity|]). do 2 (split; [eassumption|]).
  split; [unfold add_n_projected; unfold nthr at 1; cbn [forallb p_on p_tt nth_error tl negb andb bind last]; rewrite Nat.eqb_refl; cbv -[Rplus Rmult IZR coreG]; reflexivity|].
  do 3 (split; [cbv -[Rplus Rmult IZR coreG]; reflexivity|]). split; [constructor; [exact Hs|repeat constructor]|].
  destruct s as [|[|[|s]]]; [| | |lia]; unfold Tensor.get; cbn -[coreG]; unfold prodn; cbn -[coreG]; intros H; apply Us; exact (big_aux _ _ _ _ _ _ _ _ H).
Qed.
