(** Tangent points with admissible ranks, and everything that is made in one tangent space. *)
From Coq Require Import String Ascii List Arith ZArith Lia Lra Bool Ring Reals.
From Verif Require Import Scalar Tensor TensorLemmas TensorLemmas2 Base Spec Chain BaseLemmas Ops
  FullProofs ResultLemmas Dense AddProofs DenseMatmul Sweep FlatProofs OpsR Decomp DecompSpec GaugeProofs OrthProofs OrthNorm KronSpec DetProofs QRExists
  TangentProofs Riem RiemBlock RiemProofs RiemThms RiemMatmul RiemSpec TangentSpace RiemFull RiemDelta RiemInner RiemAddN.
Import ListNotations.
Local Open Scope nat_scope.
Local Notation train := (nat -> nat -> list nat -> nat -> Rring).
Local Notation fn := (list (list nat) -> Rring).
Local Notation get := (@get Rring).
Add Ring Rring8 : (cth Rring).

(** ** Ranks *)
Lemma inj_le m n (A : nat -> nat -> R) :
  (forall c : nat -> R, (forall i, i < m -> sumn (K := Rring) n (fun j => A i j * c j)%R = 0%R) -> forall j, j < n -> c j = 0%R) -> n <= m.
Proof.
  intros H. destruct (Nat.le_gt_cases n m) as [|Hlt]; [assumption|exfalso].
  destruct (injective_inverse n (fun i j => if Nat.ltb i m then A i j else 0%R)) as (B & HB).
  - intros c Hc j Hj. apply H; auto. intros i Hi. specialize (Hc i ltac:(lia)). cbn beta in Hc.
    destruct (Nat.ltb_spec i m); [exact Hc|lia].
  - specialize (HB m m Hlt Hlt). unfold mmul, kron in HB. rewrite Nat.eqb_refl in HB.
    assert (E : sumn (K := Rring) n (fun j => (if Nat.ltb m m then A m j else 0) * B j m)%R = 0%R).
    { apply (sumn_zero Rring). intros j _. rewrite Nat.ltb_irrefl. apply Rmult_0_l. }
    unfold rsum in HB. rewrite E in HB. lra.
Qed.

Lemma full_admissible (x : rtt) : wf x -> full_tt_ranks x -> admissible x.
Proof.
  intros Hx HR k Hk. destruct (HR k Hk) as [HL HRt]. split.
  - replace k with (S (k - 1)) at 1 by lia. set (k' := k - 1).
    apply (inj_le _ _ (fun i c => coreG x [] k' (i / prodn (modes x k')) (unravel (modes x k') (i mod prodn (modes x k'))) c)).
    intros c Hc a Ha. replace (S k') with k in * by lia. apply HL; [|exact Ha].
    intros J HJ LJ. destruct (vj_inv (modes x) 0 k' k J ltac:(lia)) as (I & I' & -> & VI & VI'). { split; [exact HJ|lia]. }
    destruct VI as [VI LI]. replace k with (S k') in VI' by lia. apply vj_one_inv in VI' as (j & -> & Hj).
    assert (P : 0 < prodn (modes x k')) by (pose proof (ravel_lt (modes x k') j Hj); lia).
    transitivity (sumn (K := Rring) (rk x k') (fun a => lv (coreG x []) (rk x) I a * sumn (K := Rring) (rk x k) (fun c' => coreG x [] k' a j c' * c c'))%K).
    + rewrite (sumn_ext Rring (rk x k) _ (fun c' => sumn (K := Rring) (rk x k') (fun a => lv (coreG x []) (rk x) I a * coreG x [] k' a j c') * c c')%K).
      * etransitivity; [|apply (sumn_ext Rring); intros a' _; apply (sumn_mul_l Rring)].
        etransitivity; [apply (sumn_ext Rring); intros c' _; symmetry; apply (sumn_mul_r Rring)|]. rewrite sumn_swap.
        apply (sumn_ext Rring). intros a' _. apply (sumn_ext Rring). intros c' _. ring.
      * intros c' Hc'. apply (f_equal (fun y => Rmult y (c c'))). unfold left_part. pose proof (lv_snoc Rring (coreG x []) (rk x) I j c') as E. unfold lv, delta in E.
        rewrite Nat.sub_0_r in LI. rewrite LI in E. 
        specialize (E ltac:(rewrite (wf_first Hx); lia) ltac:(replace (S k') with k by lia; exact Hc')). etransitivity; [|exact E].
        apply (chain_ext Rring (modes x)); [exact HJ|rewrite (wf_first Hx); lia|auto|]. intros b Hb. destruct (Nat.eqb_spec c' b), (Nat.eqb_spec b c'); try reflexivity; congruence.
    + apply (sumn_zero Rring). intros a' Ha'. specialize (Hc (a' * prodn (modes x k') + ravel (modes x k') j)).
      assert (E : sumn (K := Rring) (rk x k) (fun c' => coreG x [] k' a' j c' * c c')%K = 0%R).
      { etransitivity; [|apply Hc]. 2:{ pose proof (ravel_lt (modes x k') j Hj). nia. }
        apply (sumn_ext Rring). intros c' _. cbn beta. rewrite Nat.div_add_l by lia. rewrite (Nat.div_small (ravel _ _)) by (now apply ravel_lt).
        rewrite Nat.add_0_r. rewrite (Nat.add_comm (a' * _)), Nat.mod_add by lia. rewrite Nat.mod_small by (now apply ravel_lt). rewrite unravel_ravel by auto. reflexivity. }
      rewrite E. apply Rmult_0_r.
  - apply (inj_le _ _ (fun i c => coreG x [] k c (unravel (modes x k) (i / rk x (S k))) (i mod rk x (S k)))).
    intros c Hc a Ha. apply HRt; [|exact Ha].
    intros J HJ LJ. destruct (vj_first (modes x) k (ndims x) J ltac:(lia)) as (j & J' & -> & Hj & VJ'). { split; [exact HJ|lia]. }
    pose proof (rk_pos Rring x (S k) Hx ltac:(lia)) as P.
    transitivity (sumn (K := Rring) (rk x (S k)) (fun b => sumn (K := Rring) (rk x k) (fun a => coreG x [] k a j b * c a) * right_part x (S k) J' b)%K).
    + rewrite (sumn_ext Rring (rk x k) _ (fun a => sumn (K := Rring) (rk x (S k)) (fun b => coreG x [] k a j b * c a * right_part x (S k) J' b))%K).
      * rewrite sumn_swap. apply (sumn_ext Rring). intros b _. now rewrite sumn_mul_r.
      * intros a' Ha'. unfold right_part at 1. cbn [chain]. rewrite <- (sumn_mul_l Rring). apply (sumn_ext Rring). intros b _. unfold right_part.
        change (c a' : Rring) with (c a' : Rring). cbn. ring.
    + apply (sumn_zero Rring). intros b Hb. specialize (Hc (ravel (modes x k) j * rk x (S k) + b)).
      assert (E : sumn (K := Rring) (rk x k) (fun a => coreG x [] k a j b * c a)%K = 0%R).
      { etransitivity; [|apply Hc]. 2:{ pose proof (ravel_lt (modes x k) j Hj). nia. }
        apply (sumn_ext Rring). intros c' _. cbn beta. rewrite Nat.div_add_l by lia. rewrite (Nat.div_small b) by auto.
        rewrite Nat.add_0_r. rewrite (Nat.add_comm (_ * _)), Nat.mod_add by lia. rewrite Nat.mod_small by auto. rewrite unravel_ravel by auto. reflexivity. }
      rewrite E. apply Rmult_0_l.
Qed.

Section Adm.
Variables (x l r : rtt).
Hypothesis Hx : wf x.
Hypothesis HF : is_frame x l r.
Hypothesis Hd : 2 <= ndims x.
Hypothesis HA : admissible x.
Lemma adm_l k : k < ndims x -> rk l k = rk x k.
Proof.
  induction k as [|k IH]; intros Hk; [rewrite (fr_l0 x l r HF), (wf_first Hx); reflexivity|].
  rewrite (fr_lk _ _ _ HF) by lia. rewrite IH by lia. destruct (HA (S k) ltac:(lia)) as [H _]. rewrite Nat.sub_succ, Nat.sub_0_r in H. lia.
Qed.
Lemma adm_r k : 0 < k <= ndims x -> rk r k = rk x k.
Proof.
  intros Hk. remember (ndims x - k) as m eqn:E. revert k Hk E. induction m as [|m IH]; intros k Hk E.
  - replace k with (ndims x) by lia. now rewrite (fr_qd x l r HF), (wf_last Hx).
  - rewrite (fr_rk _ _ _ HF) by lia. rewrite (IH (S k)) by lia. rewrite adm_l by lia. destruct (HA k ltac:(lia)) as [_ H]. lia.
Qed.
Lemma adm_eq k : 0 < k < ndims x -> rk l k = rk r k.
Proof. intros Hk. rewrite adm_l, adm_r by lia. reflexivity. Qed.
End Adm.

Lemma tterm_comb (U V : train) l q m J n (c : nat -> Rring) (E : nat -> nat -> list nat -> nat -> Rring) :
  tterm Rring U V l q m (fun a j e => sumn n (fun k => c k * E k a j e))%K J = sumn n (fun k => c k * tterm Rring U V l q m (E k) J)%K.
Proof.
  induction n as [|n IH].
  - cbn [sumn]. unfold tterm. apply sumn_zero. intros a _. apply sumn_zero. intros e _. ring.
  - cbn [sumn]. rewrite <- IH. unfold tterm. rewrite <- sumn_mul_l, <- sumn_add. apply sumn_ext. intros a _.
    rewrite <- sumn_mul_l, <- sumn_add. apply sumn_ext. intros e _. ring.
Qed.
Lemma vchain_nth ms k J m : vchain ms k J -> m < length J -> vidx (ms (k + m)) (nth m J []).
Proof.
  revert k m. induction J as [|j J IH]; intros k m HJ Hm; cbn [length] in Hm; [lia|]. destruct HJ as [H1 H2]. destruct m as [|m]; cbn [nth].
  - now rewrite Nat.add_0_r.
  - replace (k + S m) with (S k + m) by lia. apply IH; auto. lia.
Qed.
Lemma of_deltas_eq (x l r : rtt) (D D' : train) i : wf x -> is_frame x l r -> vidx (ishape x) i -> (forall m a j c, m < ndims x -> a < rk l m -> vidx (modes x m) j -> c < rk r (S m) -> D m a j c = D' m a j c) ->
  sumn (K := Rring) (ndims x) (fun m => tterm Rring (coreG l []) (coreG r []) (rk l) (rk r) m (D m) (split_idx x i)) = of_deltas x l r D' i.
Proof.
  intros Hx HF Hi HD. unfold of_deltas. destruct (split_idx_valid _ x i Hx Hi) as [VJ LJ]. apply (sumn_ext Rring). intros m Hm. unfold tterm. apply (sumn_ext Rring). intros a Ha. apply (sumn_ext Rring). intros c Hc.
  assert (EL : lv (coreG l []) (rk l) (firstn m (split_idx x i)) a = left_part l (firstn m (split_idx x i)) a).
  { unfold lv, left_part, delta. 
    apply (chain_ext Rring (modes x)); [|rewrite (fr_l0 x l r HF); lia|auto|].
    - rewrite <- (firstn_skipn m (split_idx x i)) in VJ. now apply vchain_app in VJ.
    - intros b Hb. destruct (Nat.eqb_spec a b), (Nat.eqb_spec b a); try reflexivity; congruence. }
  rewrite EL. unfold rv, right_part. rewrite HD; auto.
  pose proof (vchain_nth (modes x) 0 (split_idx x i) m VJ ltac:(lia)) as Hv. exact Hv.
Qed.

(** ** Everything that is made in one tangent space *)
(** Delta cores of the right shapes. *)
Definition delta_shapes (x l r : rtt) (ob : option nat) (ds : list rtensor) : Prop :=
  length ds = ndims x /\ forall i, i < ndims x -> wft (nth i ds rzero) /\ shape (nth i ds rzero) = pre_of ob ++ rk l i :: modes x i ++ [rk r (S i)].
(** The gauge condition: except for the last one, they are orthogonal to the left-orthogonal cores. *)
Definition gauge_condition (x l r : rtt) (ob : option nat) (ds : list rtensor) : Prop :=
  forall k o b c, S k < ndims x -> vidx (pre_of ob) o -> b < rk l (S k) -> c < rk r (S k) ->
    sumn (K := Rring) (rk l k) (fun a => isum (K := Rring) (modes x k) (fun j => coreG l [] k a j b * get (nth k ds rzero) (o ++ a :: j ++ [c]))%R) = 0%R.

Inductive made (qr : rtensor -> rtensor * rtensor) (x : rtt) (addr : nat) : projected -> Prop :=
| made_project (z : rtt) p : wf z -> rshape z = rshape x -> project qr z addr x = Ok p -> made qr x addr p
| made_sum (z : rtt) weights p : wf z -> rshape z = rshape x -> good_weights (ocnt (bsz z)) weights -> project_sum qr z addr x weights = Ok p -> made qr x addr p
| made_matmul (z m : rtt) p : is_tt_matrix x = true -> wf z -> rshape z = rshape x -> is_batch z = true -> wf m -> bsz m = None ->
    rshape m = [nth 0 (rshape x) []; nth 0 (rshape x) []] -> project_matmul qr z addr x m = Ok p -> made qr x addr p
| made_add ob ps coef p : ps <> [] -> (forall q, In q ps -> made qr x addr q) -> (forall q, In q ps -> bsz (p_tt q) = ob) ->
    good_coef (length ps) ob coef -> add_n_projected ps coef = Ok p -> made qr x addr p
| made_deltas ob l r ds left right p : frame qr x = Ok (l, r) -> Forall (fun n => 0 < n) (pre_of ob) -> delta_shapes x l r ob ds -> gauge_condition x l r ob ds ->
    (left = None /\ right = None) \/ (left = Some l /\ right = Some r) -> deltas_to_tangent_space qr ds addr x left right = Ok p -> made qr x addr p.

Section Made.
Variables (qr : rtensor -> rtensor * rtensor) (x : rtt) (addr : nat).
Hypothesis Hqr : qr_ok qr.
Hypothesis Hx : wf x.
Hypothesis Bx : bsz x = None.
Hypothesis Hd : 2 <= ndims x.
Hypothesis HA : admissible x.

Definition gblocks (l r : rtt) (ob : option nat) (D : list nat -> train) (t : rtt) : Prop :=
  blocks x l r ob D t /\ forall o, vidx (pre_of ob) o -> gauge Rring (modes x) (ndims x) (coreG l []) (rk l) (rk r) (D o).

Lemma gauge_fdelta l r F : is_frame x l r -> gauge Rring (modes x) (ndims x) (coreG l []) (rk l) (rk r) (fdelta x l r F).
Proof.
  intros HF. apply delta_gauge; auto; try lia; [apply (fr_l0 x l r HF)|apply (fr_ld x l r HF)|apply (fr_qd x l r HF)|]. 
  intros m b b' Hm Hb Hb'. now apply (fr_HU1 x l r HF).
Qed.
Lemma projection_gblocks l r ob F t : is_frame x l r -> projection_of x l r ob F t -> exists D, gblocks l r ob D t.
Proof. intros HF (F' & B & _). eexists. split; [exact B|]. intros o _. now apply gauge_fdelta. Qed.

Lemma list_gblocks l r ob ps : (forall q, In q ps -> exists D t, q = Proj t (Some addr) /\ gblocks l r ob D t) ->
  exists ts Ds, ps = map (fun t => Proj t (Some addr)) ts /\ forall k t0, k < length ts -> gblocks l r ob (Ds k) (nth k ts t0).
Proof.
  induction ps as [|q ps IH]; intros H.
  - exists [], (fun _ _ _ _ _ _ => 0%R). split; [reflexivity|]. intros k t0 Hk. cbn in Hk. lia.
  - destruct (H q (or_introl eq_refl)) as (D & t & -> & G). destruct IH as (ts & Ds & -> & HG). { intros q Hq. apply H. now right. }
    exists (t :: ts), (fun k => match k with 0 => D | S k => Ds k end). split; [reflexivity|]. intros [|k] t0 Hk; cbn [nth]; [exact G|]. apply HG. cbn in Hk. lia.
Qed.

Lemma gauge_sum (l r : rtt) (ts : list rtt) (Ds : nat -> list nat -> train) coef o : (forall k, k < length ts -> gauge Rring (modes x) (ndims x) (coreG l []) (rk l) (rk r) (Ds k o)) ->
  gauge Rring (modes x) (ndims x) (coreG l []) (rk l) (rk r) (Dsum ts Ds coef o).
Proof.
  intros H m b c Hm Hb Hc. unfold Dsum.
  transitivity (sumn (K := Rring) (length ts) (fun k => (acoef coef k o : Rring) * sumn (rk l m) (fun a => isum (modes x m) (fun j => coreG l [] m a j b * Ds k o m a j c)))%K).
  - etransitivity; [|apply (sumn_ext Rring); intros k _; apply (sumn_mul_l Rring)]. rewrite sumn_swap. apply (sumn_ext Rring). intros a _.
    etransitivity; [|apply (sumn_ext Rring); intros k _; apply isum_mul_l]. rewrite <- isum_sumn_swap. apply (isum_ext Rring). intros j _.
    rewrite <- (sumn_mul_l Rring). apply (sumn_ext Rring). intros k _. generalize (acoef coef k o). intros y. cbn in *. ring.
  - apply (sumn_zero Rring). intros k Hk. rewrite (H k Hk m b c Hm Hb Hc). apply Rmult_0_r.
Qed.

Lemma made_gblocks l r p : frame qr x = Ok (l, r) -> is_frame x l r -> made qr x addr p -> exists ob D t, p = Proj t (Some addr) /\ gblocks l r ob D t.
Proof.
  intros EF HF M. induction M as [z p Hz Rz E|z weights p Hz Rz Hw E|z m p Kx Hz Rz Bz Hm Bm Rm E|ob ps coef p Hne HM IH HB Hc E|ob l' r' ds left right p EF' Hob [Lds Sds] HG HLR E].
  - destruct (project_ok qr z x addr Hqr Hx Bx Hd Hz Rz) as (l' & r' & t & EF' & _ & Et & HP). assert (l' = l) by congruence. assert (r' = r) by congruence. subst l' r'.
    destruct (projection_gblocks l r _ _ t HF HP) as (D & G). exists (bsz z), D, t. split; [congruence|exact G].
  - destruct (project_sum_ok qr z x addr weights Hqr Hx Bx Hd Hz Rz Hw) as (l' & r' & t & EF' & _ & Et & HP). assert (l' = l) by congruence. assert (r' = r) by congruence. subst l' r'.
    destruct (projection_gblocks l r _ _ t HF HP) as (D & G). exists (wsize weights), D, t. split; [congruence|exact G].
  - unfold is_batch in Bz. destruct (bsz z) as [B|] eqn:EB; [|discriminate].
    destruct (project_matmul_ok qr z x m addr B Hqr Hx Bx Hd Kx Hz EB Rz Hm Bm Rm) as (l' & r' & t & EF' & _ & Et & HP). assert (l' = l) by congruence. assert (r' = r) by congruence. subst l' r'.
    destruct (projection_gblocks l r _ _ t HF HP) as (D & G). exists (Some B), D, t. split; [congruence|exact G].
  - destruct (list_gblocks l r ob ps) as (ts & Ds & -> & HG).
    { intros q Hq. destruct (IH q Hq) as (ob' & D & t & -> & G). exists D, t. split; [reflexivity|]. pose proof (HB _ Hq) as E'. cbn [p_tt] in E'.
      destruct G as [G1 G2]. assert (ob' = ob) as -> by (destruct G1 as (_ & _ & B' & _); congruence). now split. }
    destruct ts as [|t0 ts0] eqn:Ets; [now contradiction Hne|]. rewrite <- Ets in *.
    rewrite map_length in Hc.
    destruct (add_n_ok x l r Hx Hd (adm_eq x l r Hx HF Hd HA) ob ts Ds t0) with (coef := coef) (addr := addr) as (t & Et & Bt).
    { rewrite Ets. cbn. lia. } { intros k Hk. now apply HG. } { now rewrite Ets. } { exact Hc. }
    exists ob, (Dsum ts Ds coef), t. split; [congruence|]. split; [exact Bt|]. intros o Ho. apply (gauge_sum l r). intros k Hk. now apply (HG k t0 Hk).
  - assert (l' = l) by congruence. assert (r' = r) by congruence. subst l' r'. clear EF'. pose proof (adm_eq x l r Hx HF Hd HA) as Heq.
    unfold frame in EF. destruct (orthogonalize_tt_cores qr x true) as [l'|] eqn:E1; cbn [bind] in EF; [|discriminate].
    destruct (orthogonalize_tt_cores qr l' false) as [r'|] eqn:E2; cbn [bind] in EF; [|discriminate]. injection EF as -> ->.
    set (D := fun (o : list nat) m a (j : list nat) c => get (nth m ds rzero) (o ++ a :: j ++ [c])).
    assert (ID : is_deltas x l r ob D ds).
    { split; [exact Lds|]. intros i Hi. destruct (Sds i Hi) as [W S]. split; [exact W|]. split; [exact S|]. reflexivity. }
    destruct (rebuild_ok x l r Hx HF Hd Heq qr ob D ds addr left right Bx Hob ID) as (t & Et & B); [destruct HLR as [[-> ->]|[-> ->]]; auto..|].
    exists ob, D, t. split; [congruence|]. split; [exact B|]. intros o Ho m b c Hm Hb Hc. exact (HG m o b c Hm Ho Hb Hc).
Qed.

Lemma o_valid ob p : p < ocnt ob -> vidx (pre_of ob) (osel ob p).
Proof. intros Hp. destruct ob; cbn in *; repeat constructor; auto. Qed.
Lemma o_inv ob o : vidx (pre_of ob) o -> exists p, p < ocnt ob /\ o = osel ob p.
Proof. intros Ho. destruct ob; cbn in *; [apply vidx_1_inv in Ho as (p & -> & Hp); now exists p|inversion Ho; exists 0; auto]. Qed.

Lemma c45_inner p1 p2 : made qr x addr p1 -> made qr x addr p2 ->
  exists w d1 d2, pairwise_flat_inner_projected p1 p2 = Ok w /\ wft w /\ full (p_tt p1) = Ok d1 /\ full (p_tt p2) = Ok d2 /\
    let b1 := bsz (p_tt p1) in let b2 := bsz (p_tt p2) in
    shape w = [ocnt b1; ocnt b2] /\
    forall p q, p < ocnt b1 -> q < ocnt b2 ->
      get w [p; q] = isum (K := Rring) (ishape x) (fun i => get d1 (osel b1 p ++ i) * get d2 (osel b2 q ++ i))%R.
Proof.
  intros M1 M2. destruct (frame_ok qr x Hqr Hx Bx) as (l & r & EF & HF).
  destruct (made_gblocks l r p1 EF HF M1) as (ob1 & D1 & t1 & -> & B1 & G1). destruct (made_gblocks l r p2 EF HF M2) as (ob2 & D2 & t2 & -> & B2 & G2).
  pose proof (bl_wf x l r _ _ _ B1) as W1. pose proof (bl_wf x l r _ _ _ B2) as W2. pose proof (bl_bs x l r _ _ _ B1) as E1. pose proof (bl_bs x l r _ _ _ B2) as E2.
  pose proof (bl_rs x l r _ _ _ B1) as R1. pose proof (bl_rs x l r _ _ _ B2) as R2.
  destruct (pairwise_inner x l r Hx HF Hd (adm_eq x l r Hx HF Hd HA) ob1 ob2 D1 D2 t1 t2 addr B1 B2) as (w & Ew & Ww & Sw & Gw).
  { intros p Hp. apply G1. now apply o_valid. } { intros p Hp. apply G2. now apply o_valid. }
  destruct (dense t1 W1) as (d1 & F1 & S1 & V1). destruct (dense t2 W2) as (d2 & F2 & S2 & V2). cbn [p_tt]. cbv zeta. rewrite E1, E2 in *.
  exists w, d1, d2. do 5 (split; [assumption|]). intros p q Hp Hq. rewrite Gw by auto. apply (isum_ext Rring). intros i Hi.
  rewrite V1, V2; try (apply o_valid; auto); try (rewrite (same_ishape t1 x R1); auto); try (rewrite (same_ishape t2 x R2); auto).
  rewrite (same_split t1 x i R1), (same_split t2 x i R2). reflexivity.
Qed.

Lemma c46_sum ps ob coef : ps <> [] -> (forall q, In q ps -> made qr x addr q) -> (forall q, In q ps -> bsz (p_tt q) = ob) -> good_coef (length ps) ob coef ->
  exists t dt ds, add_n_projected ps coef = Ok (Proj t (Some addr)) /\ made qr x addr (Proj t (Some addr)) /\ wf t /\ rshape t = rshape x /\ bsz t = ob /\
    (forall q, In q ps -> rks (p_tt q) = rks t) /\ full t = Ok dt /\ mapM (fun q => full (p_tt q)) ps = Ok ds /\
    forall o i, vidx (pre_of ob) o -> vidx (ishape x) i ->
      get dt (o ++ i) = sumn (K := Rring) (length ps) (fun k => acoef coef k o * get (nth k ds rzero) (o ++ i))%R.
Proof.
  intros Hne HM HB Hc. destruct (frame_ok qr x Hqr Hx Bx) as (l & r & EF & HF).
  destruct (list_gblocks l r ob ps) as (ts & Ds & -> & HG).
  { intros q Hq. destruct (made_gblocks l r q EF HF (HM q Hq)) as (ob' & D & t & -> & G). exists D, t. split; [reflexivity|]. pose proof (HB _ Hq) as E'. cbn [p_tt] in E'.
    destruct G as [G1 G2]. assert (ob' = ob) as -> by (destruct G1 as (_ & _ & B' & _); congruence). now split. }
  destruct ts as [|t0 ts0] eqn:Ets; [now contradiction Hne|]. rewrite <- Ets in *.
  assert (Hn : 0 < length ts) by (rewrite Ets; cbn; lia).
  pose proof Hc as Hc'. rewrite map_length in Hc.
  destruct (add_n_ok x l r Hx Hd (adm_eq x l r Hx HF Hd HA) ob ts Ds t0) with (coef := coef) (addr := addr) as (t & Et & Bt).
  { exact Hn. } { intros k Hk. now apply HG. } { now rewrite Ets. } { exact Hc. }
  pose proof (bl_wf x l r _ _ _ Bt) as Wt. pose proof (bl_rs x l r _ _ _ Bt) as Rt. pose proof (bl_bs x l r _ _ _ Bt) as BB. pose proof (bl_nd x l r _ _ _ Bt) as Nt.
  assert (exists ds, mapM (fun q => full (p_tt q)) (map (fun t => Proj t (Some addr)) ts) = Ok ds) as (ds & Eds).
  { exists (map (fun q => match full (p_tt q) with Ok y => y | Err _ => rzero end) (map (fun t => Proj t (Some addr)) ts)).
    apply mapM_ok. intros q Hq. apply in_map_iff in Hq as (s & <- & Hs). cbn [p_tt]. destruct (In_nth ts s t0 Hs) as (k & Hk & <-). destruct (HG k t0 Hk) as [Bk _].
    destruct (dense _ (bl_wf x l r _ _ _ Bk)) as (dk & Fk & _). rewrite Fk. reflexivity. }
  destruct (dense t Wt) as (dt & Ft & St & Vt). exists t, dt, ds. split; [exact Et|]. split; [exact (made_add qr x addr ob _ coef _ Hne HM HB Hc' Et)|].
  do 3 (split; [assumption|]). split; [|split; [exact Ft|split; [exact Eds|]]].
  - intros q Hq. apply in_map_iff in Hq as (s & <- & Hs). cbn [p_tt]. destruct (In_nth ts s t0 Hs) as (k & Hk & <-).
    destruct (HG k t0 Hk) as [Bk _]. pose proof (bl_wf x l r _ _ _ Bk) as Wk. pose proof (bl_nd x l r _ _ _ Bk) as Nk.
    apply (nth_ext _ _ 0 0); [rewrite (wf_klen Wt), (wf_klen Wk); lia|]. intros i Hi. rewrite (wf_klen Wk) in Hi.
    destruct Bk as (_ & _ & _ & _ & K1 & _). destruct Bt as (_ & _ & _ & _ & K2 & _). unfold rk in K1, K2. rewrite K1, K2 by lia. reflexivity.
  - intros o i Ho Hi. rewrite Vt by (rewrite ?BB, ?(same_ishape t x Rt); auto). rewrite (same_split t x i Rt).
    pose proof (split_vJ x Hx Hd i Hi) as VJ.
    rewrite (blocks_entry x l r ob _ (fr_l _ _ _ HF) (fr_r _ _ _ HF) (fr_nl _ _ _ HF) (fr_nr _ _ _ HF) Hd t o _ Bt Ho VJ).
    rewrite map_length.
    transitivity (sumn (K := Rring) (length ts) (fun k => (acoef coef k o : Rring) * sumn (ndims x) (fun m => tterm Rring (coreG l []) (coreG r []) (rk l) (rk r) m (Ds k o m) (split_idx x i)))%K).
    + etransitivity; [|apply (sumn_ext Rring); intros k _; apply (sumn_mul_l Rring)]. rewrite sumn_swap. apply (sumn_ext Rring). intros m Hm.
      unfold Dsum. apply (tterm_comb _ _ _ _ m _ (length ts) (fun k => acoef coef k o) (fun k => Ds k o m)).
    + apply (sumn_ext Rring). intros k Hk. cbn. f_equal. destruct (HG k t0 Hk) as [Bk _].
      pose proof (mapM_nth _ _ _ Eds k (Proj t0 (Some addr)) rzero ltac:(now rewrite map_length)) as Ek. rewrite (map_nth (fun t => Proj t (Some addr))) in Ek. cbn [p_tt] in Ek.
      destruct (dense (nth k ts t0) (bl_wf x l r _ _ _ Bk)) as (dk & Fk & Sk & Vk). assert (dk = nth k ds rzero) by congruence. subst dk.
      pose proof (bl_rs x l r _ _ _ Bk) as Rk. rewrite Vk by (rewrite ?(bl_bs x l r _ _ _ Bk), ?(same_ishape _ x Rk); auto). rewrite (same_split _ x i Rk).
      symmetry. apply (blocks_entry x l r ob _ (fr_l _ _ _ HF) (fr_r _ _ _ HF) (fr_nl _ _ _ HF) (fr_nr _ _ _ HF) Hd _ o _ Bk Ho VJ).
Qed.

(** ** Delta cores *)
Lemma deltas_ext (ds ds' : list rtensor) l r ob D : is_deltas x l r ob D ds -> is_deltas x l r ob D ds' -> ds = ds'.
Proof.
  intros [L1 H1] [L2 H2]. apply (nth_ext _ _ rzero rzero); [congruence|]. intros i Hi. rewrite L1 in Hi.
  destruct (H1 i Hi) as (W1 & S1 & G1). destruct (H2 i Hi) as (W2 & S2 & G2). apply tensor_ext; auto; [congruence|].
  intros idx Hidx. rewrite S1 in Hidx. apply vidx_app_inv in Hidx as (o & idx' & -> & Ho & Hidx). destruct idx' as [|a idx']; [inversion Hidx|].
  apply vidx_cons_inv in Hidx as [Ha Hidx]. apply vidx_app_inv in Hidx as (j & b & -> & Hj & Hb). apply vidx_1_inv in Hb as (c & -> & Hc).
  rewrite G1, G2 by auto. reflexivity.
Qed.

Lemma c47_project p : made qr x addr p ->
  exists l r ds dt, frame qr x = Ok (l, r) /\ tangent_space_to_deltas p = Ok ds /\ delta_shapes x l r (bsz (p_tt p)) ds /\
    deltas_to_tangent_space qr ds addr x None None = Ok p /\
    deltas_to_tangent_space qr ds addr x (Some l) (Some r) = Ok p /\
    full (p_tt p) = Ok dt /\ forall o i, vidx (pre_of (bsz (p_tt p))) o -> vidx (ishape x) i ->
      get dt (o ++ i) = of_deltas x l r (fun m a j c => get (nth m ds rzero) (o ++ a :: j ++ [c])) i.
Proof.
  intros M. destruct (frame_ok qr x Hqr Hx Bx) as (l & r & EF & HF). destruct (made_gblocks l r p EF HF M) as (ob & D & t & -> & B & _).
  pose proof (adm_eq x l r Hx HF Hd HA) as Heq.
  destruct (deltas_ok x l r Hx HF Hd Heq ob D t B addr) as (ds & Eds & Lds & Pds).
  pose proof (bl_wf x l r _ _ _ B) as Wt. pose proof (bl_bs x l r _ _ _ B) as BB. pose proof (bl_rs x l r _ _ _ B) as Rt.
  assert (Hob : Forall (fun n => 0 < n) (pre_of ob)) by (pose proof (wf_bpos Wt) as HB; unfold bpre in HB; now rewrite BB in HB).
  destruct (dense t Wt) as (dt & Ft & St & Vt). exists l, r, ds, dt. split; [exact EF|]. split; [exact Eds|]. cbn [p_tt]. rewrite BB in *.
  split; [split; [exact Lds|]; intros i Hi; destruct (Pds i Hi) as (H1 & H2 & _); now split|].
  unfold frame in EF. destruct (orthogonalize_tt_cores qr x true) as [l'|] eqn:E1; cbn [bind] in EF; [|discriminate].
  destruct (orthogonalize_tt_cores qr l' false) as [r'|] eqn:E2; cbn [bind] in EF; [|discriminate]. injection EF as -> ->.
  assert (ID : is_deltas x l r ob D ds) by (split; auto).
  split; [|split; [|split; [exact Ft|]]].
  - destruct (rebuild_ok x l r Hx HF Hd Heq qr ob D ds addr None None Bx Hob ID E1 E2) as (t' & Et' & B'). now rewrite (blocks_unique x l r Hd ob D t t' B B').
  - destruct (rebuild_ok x l r Hx HF Hd Heq qr ob D ds addr (Some l) (Some r) Bx Hob ID eq_refl eq_refl) as (t' & Et' & B'). now rewrite (blocks_unique x l r Hd ob D t t' B B').
  - intros o i Ho Hi. rewrite Vt by (rewrite ?(same_ishape t x Rt); auto). rewrite (same_split t x i Rt). pose proof (split_vJ x Hx Hd i Hi) as VJ.
    rewrite (blocks_entry x l r ob _ (fr_l _ _ _ HF) (fr_r _ _ _ HF) (fr_nl _ _ _ HF) (fr_nr _ _ _ HF) Hd t o _ B Ho VJ).
    apply of_deltas_eq; auto. intros m a j c Hm Ha Hj Hc. destruct (Pds m Hm) as (_ & _ & G). now rewrite G.
Qed.

Lemma c47_any l r ob ds : frame qr x = Ok (l, r) -> Forall (fun n => 0 < n) (pre_of ob) -> delta_shapes x l r ob ds ->
  exists t dt, deltas_to_tangent_space qr ds addr x None None = Ok (Proj t (Some addr)) /\
    deltas_to_tangent_space qr ds addr x (Some l) (Some r) = Ok (Proj t (Some addr)) /\
    wf t /\ rshape t = rshape x /\ bsz t = ob /\ tangent_space_to_deltas (Proj t (Some addr)) = Ok ds /\
    full t = Ok dt /\ forall o, vidx (pre_of ob) o ->
      (forall i, vidx (ishape x) i -> get dt (o ++ i) = of_deltas x l r (fun m a j c => get (nth m ds rzero) (o ++ a :: j ++ [c])) i) /\
      (full_tt_ranks x -> tangent x (fun i => get dt (o ++ i))).
Proof.
  intros EF Hob [Lds Sds]. destruct (frame_ok qr x Hqr Hx Bx) as (l' & r' & EF' & HF). assert (l' = l) by congruence. assert (r' = r) by congruence. subst l' r'. clear EF'.
  pose proof (adm_eq x l r Hx HF Hd HA) as Heq.
  unfold frame in EF. destruct (orthogonalize_tt_cores qr x true) as [l'|] eqn:E1; cbn [bind] in EF; [|discriminate].
  destruct (orthogonalize_tt_cores qr l' false) as [r'|] eqn:E2; cbn [bind] in EF; [|discriminate]. injection EF as -> ->.
  set (D := fun (o : list nat) m a (j : list nat) c => get (nth m ds rzero) (o ++ a :: j ++ [c])).
  assert (ID : is_deltas x l r ob D ds).
  { split; [exact Lds|]. intros i Hi. destruct (Sds i Hi) as [W S]. split; [exact W|]. split; [exact S|]. reflexivity. }
  destruct (rebuild_ok x l r Hx HF Hd Heq qr ob D ds addr None None Bx Hob ID E1 E2) as (t & Et & B).
  destruct (rebuild_ok x l r Hx HF Hd Heq qr ob D ds addr (Some l) (Some r) Bx Hob ID eq_refl eq_refl) as (t' & Et' & B'). assert (t' = t) by (apply (blocks_unique x l r Hd ob D t' t B' B)). subst t'.
  pose proof (bl_wf x l r _ _ _ B) as Wt. pose proof (bl_bs x l r _ _ _ B) as BB. pose proof (bl_rs x l r _ _ _ B) as Rt.
  destruct (dense t Wt) as (dt & Ft & St & Vt). exists t, dt. do 5 (split; [assumption|]). split.
  { destruct (deltas_ok x l r Hx HF Hd Heq ob D t B addr) as (ds' & Eds & Lds' & Pds). rewrite Eds. f_equal. apply (deltas_ext ds' ds l r ob D); auto. split; auto. }
  split; [exact Ft|]. rewrite BB in *. intros o Ho.
  assert (ENT : forall i, vidx (ishape x) i -> get dt (o ++ i) = sumn (K := Rring) (ndims x) (fun m => tterm Rring (coreG l []) (coreG r []) (rk l) (rk r) m (D o m) (split_idx x i))).
  { intros i Hi. rewrite Vt by (rewrite ?(same_ishape t x Rt); auto). rewrite (same_split t x i Rt). pose proof (split_vJ x Hx Hd i Hi) as VJ.
    apply (blocks_entry x l r ob _ (fr_l _ _ _ HF) (fr_r _ _ _ HF) (fr_nl _ _ _ HF) (fr_nr _ _ _ HF) Hd t o _ B Ho VJ). }
  split.
  - intros i Hi. rewrite ENT by auto. apply of_deltas_eq; auto.
  - intros HR. apply (tangent_terms x l r Hx HF Hd HR). exists (D o). exact ENT.
Qed.
End Made.
