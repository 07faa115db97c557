(** The step on the variables. *)
From Coq Require Import String List Arith ZArith Lia Lra Bool Reals.
From Verif Require Import Scalar Tensor TensorLemmas Base Spec BaseLemmas Dense
  OpsR Decomp DecompSpec SvdSpec RankArgs RoundProofs Riem RiemSpec RiemFull RiemMade Vars VarSpec VarProofs VarThms Properties_Vars Tutorial TutorialSpec TutorialProofs DescentProofs DescentThms.
Import ListNotations.
Local Open Scope nat_scope.

Section DV.
Context {loss : Type}.
Implicit Types s : store Rring loss.

Definition const_of (z : rtt) (d : dtype) : vobj Rring := VObj (map CTensor (cores z)) (rshape z) (rks z) (bsz z) d.
Lemma const_value s z d : value s (const_of z d) = z.
Proof. unfold value, deref, const_of. cbn [vcores vrshape vrks vbsz]. rewrite map_map. cbn [read]. rewrite map_id. now destruct z. Qed.
Lemma const_alias X z d : no_alias X (const_of z d).
Proof. intros i id H. cbn [const_of vcores] in H. apply nth_error_In in H. apply in_map_iff in H as (t & E & _). discriminate. Qed.
Lemma value_frame s s' (A : vobj Rring) : (forall id, In (CVar id) (vcores A) -> nth_error (heap s') id = nth_error (heap s) id) -> value s' A = value s A.
Proof.
  intros H. unfold value, deref. f_equal. apply map_ext_in. intros [t|id] Hc; [reflexivity|]. cbn [read]. unfold value_of. specialize (H id Hc).
  pose proof (nth_error_map (@vval Rring) id (heap s')) as E1. pose proof (nth_error_map (@vval Rring) id (heap s)) as E2. rewrite H in E1. rewrite <- E2 in E1.
  destruct (nth_error (map (@vval Rring) (heap s)) id) as [v|] eqn:E.
  - now rewrite (nth_error_nth _ _ _ E1), (nth_error_nth _ _ _ E).
  - rewrite !nth_overflow; auto; now apply nth_error_None.
Qed.

Lemma step_ok qr svd s X A addr alpha r : qr_ok qr -> svd_ok svd -> ready s X A r -> admissible (value s X) ->
  exists s' p, descent_step qr svd X A addr alpha r s = (s', Ok (half_sq_dist (value s' X) (value s A))) /\
    descent_update qr svd (value s X) (value s A) addr alpha r = Ok (value s' X) /\
    wf (value s' X) /\ is_variable s' X /\ value s' A = value s A /\ only_changes X s s' /\
    (full_tt_ranks (value s X) -> riemannian_gradient (value s X) (value s A) (tt_at (K := Rring) p)) /\
    forall b : rtt, wf b -> rshape b = vrshape X -> bsz b = None -> (forall k, 0 < k < ndims (value s X) -> rk b k <= rk (value s X) k) ->
      let d := fun c i => (tt_at (value s X) i - alpha * tt_at p i - tt_at (K := Rring) c i)%R in
      (dot (ishape (value s X)) (d (value s' X)) (d (value s' X)) <= INR (ndims (value s X) - 1) * dot (ishape (value s X)) (d b) (d b))%R.
Proof.
  intros Hq Hs [HV Hx Bx Hd Ha Ra Ba Hap (m & Hm & Hmr)] HA. set (x := value s X) in *. set (a := value s A) in *.
  destruct (update_ok qr svd x a addr alpha r m Hq Hs Hx Bx Hd HA Ha Ra Ba Hm Hmr) as (p & z & Ez & Wz & Rz & Kz & Bz & HG & HB).
  pose proof (const_value s z (vdt X)) as Cv.
  destruct (C50_assign Rring loss s X (const_of z (vdt X)) HV Hx ltac:(rewrite Cv; exact Wz)) as (s' & Ea & Ev & _ & E1 & E2 & E3 & E4); [exact Rz|exact Kz|cbn [const_of vbsz]; congruence|reflexivity|apply const_alias|].
  rewrite Cv in Ev. assert (EA : value s' A = a) by (apply value_frame; intros id Hid; apply E4; now apply Hap).
  exists s', p. rewrite Ev. split.
  { unfold descent_step, bindM. unfold liftR at 1. fold (value s X). fold (value s A). fold x a. rewrite Ez. fold (const_of z (vdt X)). rewrite Ea. fold (value s' X). fold (value s' A). rewrite Ev, EA.
    unfold liftR. f_equal. apply loss_ok; auto; [|rewrite Rz; exact Ra]. unfold ndims in *. assert (length (cores z) = length (cores x)); [|lia].
    pose proof (wf_klen Wz) as L1. pose proof (wf_klen Hx) as L2. rewrite Kz in L1. unfold ndims in *. lia. }
  split; [exact Ez|]. split; [exact Wz|]. split.
  { destruct HV as [ND HV]. split; [exact ND|]. intros c Hc. destruct (HV c Hc) as (id & v & -> & Hv & Hdt).
    destruct (C50_changes_no_other_variable Rring loss s X (const_of z (vdt X))) as [(KV & _) _]. rewrite Ea in KV. cbn [fst] in KV. destruct (KV id v Hv) as (w & Hw & _ & Dw & _). exists id, w. split; [reflexivity|]. split; [exact Hw|]. congruence. }
  split; [exact EA|]. split; [repeat split; assumption|]. split; [exact HG|]. intros b Wb Rb Bb Kb d. apply HB; auto.
Qed.

Lemma ndims_value s s' (X : vobj Rring) : ndims (value s' X) = ndims (value s X).
Proof. unfold ndims, value, deref. cbn [cores]. now rewrite !map_length. Qed.
Lemma ready_next s s' X A r : ready s X A r -> wf (value s' X) -> is_variable s' X -> value s' A = value s A -> ready s' X A r.
Proof.
  intros [HV Hx Bx Hd Ha Ra Ba Hap HL] W V E. constructor; auto; try (rewrite (ndims_value s s'); assumption). now rewrite E.
Qed.
Lemma admissible_next s s' (X : vobj Rring) : admissible (value s X) -> admissible (value s' X).
Proof. intros H k Hk. rewrite (ndims_value s s') in Hk. exact (H k Hk). Qed.
Lemma only_changes_trans X s1 s2 s3 : only_changes X s1 s2 -> only_changes X s2 s3 -> only_changes X s1 s3.
Proof. intros (A & B & C & D) (A' & B' & C' & D'). repeat split; try congruence. intros id N. rewrite D', D; auto. Qed.
Lemma only_changes_refl X s : only_changes X s s.
Proof. repeat split; auto. Qed.

Lemma steps_ok qr svd X A addr alpha r : qr_ok qr -> svd_ok svd -> forall n k s log, ready s X A r -> admissible (value s X) ->
  exists s' log', forM (fun _ log => bindM (descent_step qr svd X A addr alpha r) (fun f => ret (log ++ [f]))) (seq k n) log s = (s', Ok (log ++ log')) /\ length log' = n /\
    ready s' X A r /\ value s' A = value s A /\ only_changes X s s' /\ (0 < n -> last log' 0%R = half_sq_dist (value s' X) (value s A)).
Proof.
  intros Hq Hs n. induction n as [|n IH]; intros k s log HR HA; cbn [seq forM].
  - exists s, []. rewrite app_nil_r. split; [reflexivity|]. split; [reflexivity|]. split; [exact HR|]. split; [reflexivity|]. split; [apply only_changes_refl|]. intros; lia.
  - destruct (step_ok qr svd s X A addr alpha r Hq Hs HR HA) as (s1 & p & E & _ & W1 & V1 & EA & OC & _).
    destruct (IH (S k) s1 (log ++ [half_sq_dist (value s1 X) (value s A)]) (ready_next s s1 X A r HR W1 V1 EA) (admissible_next s s1 X HA)) as (s' & log' & E' & L & R' & EA' & OC' & HL).
    exists s', (half_sq_dist (value s1 X) (value s A) :: log'). split.
    { unfold bindM in *. rewrite E. unfold ret at 1. cbv beta iota. rewrite E'. now rewrite <- app_assoc. }
    split; [cbn; now rewrite L|]. split; [exact R'|]. split; [congruence|]. split; [now apply (only_changes_trans X s s1 s')|]. intros _.
    destruct n as [|n].
    + destruct log'; [|discriminate L]. cbn in E'. injection E' as <- _. reflexivity.
    + destruct log' as [|f log']; [discriminate L|]. change (last (half_sq_dist (value s1 X) (value s A) :: f :: log') 0%R) with (last (f :: log') 0%R). rewrite HL by lia. now rewrite EA.
Qed.

(** ** Ranks that rounding cannot reach *)
Lemma first_fail (P : nat -> Prop) (dec : forall i, {P i} + {~ P i}) n : ~ P n -> exists k, k <= n /\ ~ P k /\ forall i, i < k -> P i.
Proof.
  induction n as [n IH] using (well_founded_induction lt_wf). intros Hn.
  assert (D : {k | k < n /\ ~ P k} + {forall k, k < n -> P k}).
  { clear - dec. induction n as [|n [(k & H1 & H2)|H]]; [right; intros; lia|left; exists k; split; [lia|auto]|].
    destruct (dec n) as [H1|H1]; [right; intros k Hk; destruct (Nat.eq_dec k n) as [->|]; [auto|apply H; lia]|left; exists n; auto]. }
  destruct D as [(k & H1 & H2)|H]; [destruct (IH k H1 H2) as (j & J1 & J2 & J3); exists j; split; [lia|auto]|exists n; auto].
Qed.

Lemma step_raises qr svd s X A addr alpha r m : qr_ok qr -> svd_ok svd -> is_variable s X -> wf (value s X) -> vbsz X = None -> 2 <= ndims (value s X) ->
  wf (value s A) -> vrshape A = vrshape X -> vbsz A = None -> rank_limits false r None (ndims (value s X)) m ->
  let x := value s X in
  (exists k, 0 < k < ndims x /\ (m k < rk x k \/ prodn (map (fun j => prodn (modes x j)) (seq 0 k)) < rk x k \/ prodn (map (fun j => prodn (modes x j)) (seq k (ndims x - k))) < rk x k)) ->
  exists s', descent_step qr svd X A addr alpha r s = (s', Err ValueError).
Proof.
  intros Hq Hs HV Hx Bx Hd Ha Ra Ba Hm x (k & Hk & Hbig). fold x in Hx, Hd, Hm. set (a := value s A) in *.
  destruct (update_point qr svd x a addr alpha r Hq Hx Bx Hd Ha Ra Ba) as (p & y & Wy & Ry & By & Dy & _ & Eu & _).
  assert (By' : is_batch y = false) by (unfold is_batch; now rewrite By).
  destruct (limits_parse _ _ _ _ _ Hm ltac:(lia)) as (mr & Hp & Hn). rewrite <- By', <- Dy in Hp.
  assert (My : forall k, modes y k = modes x k) by (intros; unfold modes; now rewrite Ry).
  destruct (round_small qr svd y r None mr Hq Hs Wy Hp) as (z & Ez & Wz & Rz & Bz & Dz & Kz).
  destruct (round_ok qr svd y r None mr Hq Hs Wy Hp) as (z' & Ez' & _ & _ & _ & _ & Kz' & _). rewrite Ez in Ez'. injection Ez' as <-.
  assert (Hne : rk z k < rk x k).
  { destruct (Kz k ltac:(lia)) as [B1 B2]. destruct (Kz' k ltac:(lia)) as [B3 _]. rewrite Hn in B3 by lia. rewrite Dy in B2.
    rewrite (map_ext (fun j => prodn (modes y j)) (fun j => prodn (modes x j))) in B1, B2 by (intros; now rewrite My). lia. }
  pose proof (const_value s z (vdt X)) as Cv.
  assert (SX : forall i, i < ndims x -> shape (core x i) = rk x i :: modes x i ++ [rk x (S i)]).
  { intros i Hi. rewrite (core_shape _ x i Hx Hi). unfold bpre. change (bsz x) with (vbsz X). now rewrite Bx. }
  assert (SZ : forall i, i < ndims x -> shape (core z i) = rk z i :: modes x i ++ [rk z (S i)]).
  { intros i Hi. rewrite (core_shape _ z i Wz) by lia. unfold bpre. rewrite Bz, By. cbn [app]. unfold modes. now rewrite Rz, Ry. }
  assert (Lx : ndims x = length (vcores X)) by (unfold ndims, x, value, deref; cbn [cores]; apply map_length).
  assert (Lz : length (map (@CTensor Rring) (cores z)) = ndims x) by (rewrite map_length; fold (ndims z); lia).
  assert (HP : forall i, i < ndims x -> (passes X (const_of z (vdt X)) s i <-> shape (core z i) = shape (core x i))).
  { intros i Hi. destruct (nth_error (vcores X) i) as [c|] eqn:Ec; [|apply nth_error_None in Ec; lia]. destruct HV as [ND HV]. destruct (HV c (nth_error_In _ _ Ec)) as (id & v & -> & Hv & Hdt).
    assert (Hid : id < length (heap s)) by (apply nth_error_Some; congruence).
    assert (Ex : core x i = value_of (heap s) id). { unfold core, x, value, deref. cbn [cores]. apply nth_error_nth. rewrite nth_error_map, Ec. reflexivity. }
    assert (Ezc : nth_error (map (@CTensor Rring) (cores z)) i = Some (CTensor (core z i))). { rewrite nth_error_map. unfold core. rewrite (nth_error_nth' (cores z) (core0 Rring)) by (fold (ndims z); lia). reflexivity. }
    split.
    - intros (c & id' & H1 & H2 & _ & _ & H3). cbn [const_of vcores] in H1. rewrite Ezc in H1. injection H1 as <-. rewrite Ec in H2. injection H2 as <-. cbn [read] in H3. now rewrite Ex.
    - intros H. exists (CTensor (core z i)), id. split; [exact Ezc|]. split; [exact Ec|]. split; [exact Hid|]. split; [|cbn [read]; now rewrite <- Ex].
      cbn [const_of vdt]. rewrite <- Hdt. apply nth_error_nth. rewrite nth_error_map, Hv. reflexivity. }
  destruct (first_fail (fun i => shape (core z i) = shape (core x i)) (fun i => list_eq_dec Nat.eq_dec _ _) k) as (j & J1 & J2 & J3).
  { rewrite SX, SZ by lia. intros E. injection E as E _. lia. }
  destruct (C50_failure_overwrites_the_cores_before Rring loss s X (const_of z (vdt X)) j HV (const_alias _ _ _)) as (s' & Es & _); [lia| | |].
  { intros i Hi. apply HP; [lia|]. now apply J3. } { rewrite HP by lia. exact J2. }
  exists s'. unfold descent_step, bindM. unfold liftR at 1. fold (value s X). fold (value s A). fold x a. rewrite Eu, Ez. fold (const_of z (vdt X)). rewrite Es.
  cbn [const_of vcores]. rewrite Lz. destruct (Nat.ltb_spec j (ndims x)); [reflexivity|lia].
Qed.
End DV.
