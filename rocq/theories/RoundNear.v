(** [round] with an inexact QR and an inexact singular value decomposition. *)
From Coq Require Import String Ascii List Arith ZArith Lia Lra Bool Ring Reals.
From Verif Require Import Scalar Tensor TensorLemmas TensorLemmas2 Base Spec Chain BaseLemmas Ops
  FullProofs ResultLemmas Dense AddProofs MulProofs MatmulProofs DenseMatmul Sweep FlatProofs GatherProofs SliceProofs NormProofs OpsR ScaleProofs
  Decomp DecompSpec GaugeProofs OrthProofs OrthNorm QRExists Trunc TruncChain RoundProofs SvdSpec RoundThms FMat NearStep NearChain NearTrain NearSpec QRNearSpec QRNear QRNearRL RoundTrain RoundNearSpec.
Import ListNotations.
Local Open Scope nat_scope.
Local Notation get := (@get Rring).
Local Notation RT := (@Tensor Rring).
Local Notation core0 := (core0 Rring).
Add Ring Rring'' : (cth Rring).

Lemma mnorm_t a b (f : nat -> nat -> R) : mnorm b a (fun j i => f i j) = mnorm a b f.
Proof. unfold mnorm. f_equal. apply (rsum_swap b a (fun j i => f i j * f i j)%R). Qed.

Section Round.
Variable de : R.
Hypothesis Hde : (0 <= de)%R.
Variable svd : rtensor -> rtensor * rtensor * rtensor.
Hypothesis Hsvd : svd_near de svd.
Variables t o : rtt.
Hypothesis Hw : wf t.
Hypothesis Wo : wf o.
Hypothesis Ro : rshape o = rshape t.
Hypothesis Bo : bsz o = bsz t.
Hypothesis Do : ndims o = ndims t.
Variable mr : list nat.
Hypothesis Hmr : length mr = S (ndims t).
Hypothesis Hmp : Forall (fun n => 0 < n) mr.
Let d := ndims t.
Let ms := modes t.

Definition rn_inv (i : nat) (st : list rtensor * list nat) : Prop := exists vr,
  good t (fst st) vr /\ length (snd st) = S d /\ nth 0 (snd st) 0 = 1 /\
  (forall k, k <= i -> nth k vr 0 = rk o k) /\
  (forall k, i < k <= d -> nth k vr 0 = nth k (snd st) 0) /\
  (forall k, i < k < d -> shape (nth k (fst st) core0) = vshape t vr k) /\
  (forall k, k < i -> nth k (fst st) core0 = core o k) /\
  (forall k, i < k < d -> nth k (snd st) 0 = Nat.min (nth k mr 0) (Nat.min (rk o k) (prodn (ms k) * nth (S k) (snd st) 0))) /\
  (forall p, vidx (bpre t) p -> exists Q e Rx, lrn ms d de (coreG t p) (rk t) (coreG o p) (rk o) Q (d - 1) /\
    rtn ms d de Q (coreG o p) (rk o) (fun k => nth k mr 0) i (vG t (fst st) vr p) (vr_ vr) e Rx).

Lemma rn_step i' st : S i' < d -> rn_inv (S i') st -> exists st', round_step svd (bpre t) t mr (S i') st = Ok st' /\ rn_inv i' st'.
Proof.
  intros Hi (vr & g & Lr & R0 & Hlo & Hhi & Hsh & Hcs & Hmin & He). destruct st as [cs ranks]. cbn [fst snd] in *.
  pose proof (wf_d Hw) as Hd. pose proof (bpre_len t) as Bl.
  assert (Hi' : i' < d) by lia. set (i := S i') in *.
  pose proof (good_nth _ _ _ i' g ltac:(fold d; lia)) as P0. pose proof (good_nth _ _ _ i g ltac:(fold d; lia)) as P1.
  pose proof (good_nth _ _ _ (S i) g ltac:(fold d; lia)) as P2.
  pose proof (modes_prod_pos t i' Hw Hi') as Pm. pose proof (modes_prod_pos t i Hw Hi) as Pm1.
  assert (Pb : 0 < prodn (bpre t)) by (apply prodn_pos; apply (wf_bpos Hw)).
  unfold round_step. rewrite core_modes_eq by auto.
  rewrite (nthr_nth cs i core0) by (rewrite (g_len _ _ _ g); exact Hi). cbn [bind].
  rewrite (nthr_nth ranks (S i) 0) by lia. cbn [bind]. cbv zeta. rewrite <- (Hhi (S i)) by lia.
  set (r0 := nth i' vr 0) in *. set (r1 := nth i vr 0) in *. set (r2 := nth (S i) vr 0) in *.
  destruct (g_core _ _ _ g i Hi) as [Wc Sc]. destruct (g_core _ _ _ g i' Hi') as [Wn Sn].
  unfold vshape in Sc, Sn. fold i in Sc, Sn. fold r0 r1 r2 in Sc, Sn.
  set (c := nth i cs core0) in *. set (nc := nth i' cs core0) in *.
  change [None; Some (prodn (modes t i) * r2)] with (None :: map Some [prodn (modes t i) * r2]).
  rewrite (reshape_infer _ c (bpre t) [prodn (modes t i) * r2] r1 Pb).
  2:{ pns. nia. } 2:{ unfold size. rewrite Sc. pns. lia. }
  cbn [bind]. set (m := RT (bpre t ++ [r1; prodn (modes t i) * r2]) (data c)).
  assert (Wm : wft m). { apply (wft_reshaped Rring c); auto. rewrite Sc. pns. lia. }
  rewrite (nthr_nth (shape m) (length (bpre t)) 0) by (unfold m; cbn [shape]; rewrite app_length; cbn; lia).
  unfold m at 1. cbn [shape]. rewrite nth_middle. cbn [bind].
  rewrite (nthr_nth mr i 0) by (rewrite Hmr; fold d; lia). cbn [bind].
  rewrite new_rank_eq by nia.
  set (K := Nat.min r1 (prodn (modes t i) * r2)). set (rr := Nat.min (nth i mr 0) K).
  assert (Pk : 0 < K) by (unfold K; nia).
  assert (Pmr : 0 < nth i mr 0) by (apply Forall_nth'; [exact Hmp|rewrite Hmr; fold d; lia]).
  assert (Pr : 0 < rr) by (unfold rr; lia). assert (HrK : rr <= K) by (unfold rr; lia).
  assert (Fp : Forall (fun k => 0 < k) (bpre t ++ [r1; prodn (modes t i) * r2])).
  { apply Forall_app. split; [apply (wf_bpos Hw)|]. repeat constructor; nia. }
  pose proof (Hsvd (bpre t) r1 (prodn (modes t i) * r2) m Wm eq_refl Fp) as HS. fold K in HS.
  destruct (svd m) as [[s u] v]. cbv zeta in HS. destruct HS as (Ws & Ss & Wu & Su & Wv & Sv & HS).
  destruct (first_cols_ok u (bpre t ++ [r1]) K rr) as (u' & Eu & Wu' & Su' & Gu); [now rewrite <- app_assoc|auto|]. rewrite Eu. cbn [bind].
  destruct (first_cols_ok s (bpre t) K rr Ss HrK) as (s' & Es & Ws' & Ss' & Gs). rewrite Es. cbn [bind].
  destruct (first_cols_ok v (bpre t ++ [prodn (modes t i) * r2]) K rr) as (v' & Ev & Wv' & Sv' & Gv); [now rewrite <- app_assoc|auto|]. rewrite Ev. cbn [bind].
  rewrite <- app_assoc in Su', Sv'. cbn [app] in Su', Sv'.
  destruct (swap_last_ok (bpre t) v' _ _ Bl Wv' Sv') as (vt & Evt & Wvt & Svt & Gvt). rewrite Evt. cbn [bind].
  rewrite reshape_exact. 2:{ unfold size. rewrite Svt. pns. lia. }
  cbn [bind]. set (c' := RT (bpre t ++ rr :: modes t i ++ [r2]) (data vt)).
  replace (i - 1) with i' by (unfold i; lia).
  rewrite (nthr_nth _ i' core0) by (rewrite length_upd, (g_len _ _ _ g); exact Hi'). cbn [bind].
  rewrite nth_upd_other by (unfold i; lia). fold nc.
  change [None; Some r1] with (None :: map Some [r1]).
  rewrite (reshape_infer _ nc (bpre t) [r1] (r0 * prodn (modes t i')) Pb).
  2:{ pns. lia. } 2:{ unfold size. rewrite Sn. pns. lia. }
  cbn [bind]. set (n2 := RT (bpre t ++ [r0 * prodn (modes t i'); r1]) (data nc)).
  destruct (matmul_pre n2 u' (bpre t) (r0 * prodn (modes t i')) r1 rr Bl eq_refl Su') as (y1 & Ey1 & Wy1 & Sy1 & Gy1).
  rewrite Ey1. cbn [bind].
  destruct (tdiag_ok s' (bpre t) rr Ss') as (Wd & Sd & Gd).
  destruct (matmul_pre y1 (tdiag s') (bpre t) _ _ _ Bl Sy1 Sd) as (y & Ey & Wy & Sy & Gy).
  rewrite Ey. cbn [bind]. eexists. split; [reflexivity|].
  exists (upd i rr vr). cbn [fst snd].
  assert (Rl : i < length vr) by (rewrite (g_rlen _ _ _ g); fold d; lia).
  assert (Cl : length cs = d) by (apply (g_len _ _ _ g)).
  rewrite upd_comm by (unfold i; lia).
  set (cs' := upd i c' (upd i' y cs)). set (vr' := upd i rr vr).
  assert (g' : good t cs' vr').
  { unfold cs', vr', i. apply good_upd; auto; fold i; fold r0 r2.
    - rewrite Sy. pns. lia.
    - apply (wft_reshaped Rring vt); auto. rewrite Svt. pns. lia. }
  assert (Nvi : nth i vr' 0 = rr) by (unfold vr'; now apply nth_upd_same).
  assert (Nv : forall k, k <> i -> nth k vr' 0 = nth k vr 0) by (intros; unfold vr'; now apply nth_upd_other).
  assert (Nci : nth i cs' core0 = c') by (unfold cs'; apply nth_upd_same; rewrite length_upd; lia).
  assert (Nci' : nth i' cs' core0 = y) by (unfold cs'; rewrite nth_upd_other by lia; apply nth_upd_same; lia).
  assert (Nc : forall k, k <> i -> k <> i' -> nth k cs' core0 = nth k cs core0) by (intros; unfold cs'; now rewrite !nth_upd_other by auto).
  split; [exact g'|]. split; [now rewrite length_upd|]. split; [rewrite nth_upd_other by (unfold i; lia); exact R0|].
  split; [intros k Hk; rewrite Nv by (unfold i; lia); apply Hlo; lia|].
  split.
  { intros k Hk. destruct (Nat.eq_dec k i) as [->|Hne]; [rewrite nth_upd_same by lia; exact Nvi|].
    rewrite nth_upd_other, Nv by auto. apply Hhi. unfold i in *. lia. }
  split.
  { intros k Hk. destruct (Nat.eq_dec k i) as [->|Hne].
    - rewrite Nci. unfold vshape. rewrite Nvi, Nv by lia. reflexivity.
    - rewrite Nc by lia. rewrite Hsh by (unfold i in *; lia). unfold vshape. now rewrite !Nv by (unfold i in *; lia). }
  split; [intros k Hk; rewrite Nc by (unfold i; lia); apply Hcs; unfold i; lia|].
  split.
  { intros k Hk. destruct (Nat.eq_dec k i) as [->|Hne].
    - rewrite nth_upd_same by lia. rewrite nth_upd_other by lia. rewrite <- Hhi by lia. fold r2.
      rewrite <- Hlo by lia. fold r1. reflexivity.
    - rewrite !nth_upd_other by (unfold i in *; lia). apply Hmin. unfold i in *; lia. }
  (* one batch element *)
  intros p Hp. destruct (He p Hp) as (Q & e & Rx & HL & HI). destruct (HS p Hp) as (x' & u2 & v2 & HX & HU & HV & Hs0 & Hs1 & NX & NU & NV). clear He HS.
  pose proof (vidx_length _ _ Hp) as Lp.
  set (G := vG t cs vr p) in *. set (G' := vG t cs' vr' p).
  set (uf := fun a l => get u (p ++ [a; l])). set (sf := fun l => get s (p ++ [l])).
  set (vf := fun (j : list nat) b l => get v (p ++ [ravel (modes t i) j * r2 + b; l])).
  set (vf2 := fun (j : list nat) b l => v2 (ravel (modes t i) j * r2 + b) l).
  set (xf := fun a (j : list nat) b => x' a (ravel (modes t i) j * r2 + b)).
  assert (Hi0 : 0 < i < d) by (unfold i in *; lia).
  assert (Q1 : forall k, k <> i -> vr_ vr' k = vr_ vr k) by (intros; now apply Nv).
  assert (GM : forall a j b, a < r1 -> vidx (ms i) j -> b < r2 -> G i a j b = get m (p ++ [a; ravel (modes t i) j * r2 + b])).
  { intros a j b Ha Hj Hb. unfold G, vG. rewrite vtt_coreG by auto. unfold vcore, vshape. fold r1 r2. fold c.
    rewrite rview by (auto; apply (vidx_length _ _ Hj)). reflexivity. }
  assert (Q4 : forall l j b, l < rr -> vidx (ms i) j -> b < vr_ vr (S i) -> G' i l j b = vf j b l).
  { intros l j b Hl Hj Hb. unfold G', vG. rewrite vtt_coreG by auto. unfold vcore, vshape. rewrite Nvi, Nv, Nci by lia. fold r2.
    rewrite rview by (auto; apply (vidx_length _ _ Hj)). unfold c'. cbn [data].
    replace (RT (bpre t ++ [rr; prodn (modes t i) * r2]) (data vt)) with vt by (rewrite <- Svt; now destruct vt).
    pose proof (rview_lt (modes t i) r2 j b Hb Hj) as B.
    rewrite (Gvt p _ l Hp B Hl). unfold vf.
    pose proof (Gv (p ++ [ravel (modes t i) j * r2 + b]) l) as E. rewrite <- !app_assoc in E. cbn [app] in E. apply E; auto.
    apply vidx_app; [auto|vsolve]. }
  assert (Q5 : forall a j l, a < vr_ vr i' -> vidx (ms i') j -> l < rr ->
     G' i' a j l = rsum (vr_ vr i) (fun b => G i' a j b * (uf b l * sf l))%R).
  { intros a j l Ha Hj Hl. unfold G', G, vG. rewrite vtt_coreG by auto.
    unfold vcore, vshape. fold i. rewrite Nvi, Nv, Nci' by (unfold i; lia). fold r0.
    rewrite lview by (auto; apply (vidx_length _ _ Hj)).
    replace (RT (bpre t ++ [r0 * prodn (modes t i'); rr]) (data y)) with y by (rewrite <- Sy; now destruct y).
    pose proof (lview_lt (modes t i') r0 a j Ha Hj) as B. set (x := a * prodn (modes t i') + ravel (modes t i') j) in *. rewrite (Gy p _ l Hp B Hl).
    transitivity (rsum rr (fun k => get y1 (p ++ [x; k]) * get s' (p ++ [k]) * kron l k)%R).
    { unfold rsum. apply (sumn_ext Rring). intros k Hk. rewrite Gd by auto. rewrite kron_sym. rchange. ring. }
    rewrite rsum_kron_r by auto. rewrite Gs by auto. rewrite (Gy1 p _ l Hp B Hl).
    change (rsum r1 (fun b => get n2 (p ++ [x; b]) * get u' (p ++ [b; l]))%R * get s (p ++ [l]) =
      rsum (vr_ vr i) (fun b => coreG (vtt t cs vr) p i' a j b * (uf b l * sf l)))%R.
    rewrite <- rsum_mul_r. apply rsum_ext. intros b Hb. rewrite vtt_coreG by auto. unfold vcore, vshape. fold i. fold r0 r1 nc.
    rewrite lview by (auto; apply (vidx_length _ _ Hj)). fold x. fold n2.
    pose proof (Gu (p ++ [b]) l) as E. rewrite <- !app_assoc in E. cbn [app] in E. rewrite E; auto.
    2:{ apply vidx_app; [auto|]. constructor; [exact Hb|constructor]. }
    unfold uf, sf. ring. }
  change (nth i vr' 0) with (vr_ vr' i) in Nvi.
  exists Q.
  enough (exists e' Rx', rtn ms d de Q (coreG o p) (rk o) (fun k => nth k mr 0) i' G' (vr_ vr') e' Rx') as (e' & Rx' & HI') by (exists e', Rx'; split; [exact HL|exact HI']).
  apply (rtn_step ms d de Q (coreG o p) (rk o) (fun k => nth k mr 0) Hde (wf_first Wo) ltac:(unfold d; rewrite <- Do; apply (wf_last Wo)) ltac:(intros; apply rk_pos; auto; lia)
    (ln_orth _ _ _ _ _ _ _ _ _ HL) (ln_near _ _ _ _ _ _ _ _ _ HL) i' G G' (vr_ vr) (vr_ vr') K rr uf u2 sf vf vf2 xf e Rx); auto.
  - intros k a j b Hk _ _ _. unfold G, G', vG. fold i in Hk. rewrite !vtt_coreG by (fold d; lia). unfold vcore, vshape. now rewrite !Nv, Nc by (auto; unfold i in *; lia).
  - intros a j b _ _ _. unfold G, vG. rewrite vtt_coreG by auto. rewrite (vcore_o t o Wo Ro Bo Do mr Hmr); auto; try (apply Hlo; unfold i; lia).
  - intros a j b Ha Hj Hb. apply HX; [exact Ha|]. apply rview_lt; auto.
  - intros l l' Hl Hl'. rewrite lsum_seq. now apply HU.
  - intros l l' Hl Hl'. rewrite <- (HV l l' Hl Hl'). apply (sum_cols_view r2 (modes t i) (fun q => v2 q l * v2 q l')%R).
  - intros a b Hab Hb. split; [now apply Hs0|now apply Hs1].
  - fold i. change (vr_ vr (S i)) with r2. change (vr_ vr i) with r1.
    assert (F1 : forall f, frob (grows (fun _ => ms i) (fun _ => r2) i) (seq 0 r1) (fun p a => f a (ravel (modes t i) (snd p) * r2 + fst p)) = mnorm r1 (prodn (modes t i) * r2) f).
    { intros f. rewrite <- (mnorm_t r1 _ f), <- mnorm_cview. reflexivity. }
    rewrite (frob_ext _ _ (fun p a => G i a (snd p) (fst p)) (fun q a => get m (p ++ [a; ravel (modes t i) (snd q) * r2 + fst q]))).
    2:{ intros [b j] a Hq Ha. unfold grows in Hq. apply in_prod_iff in Hq as [Hb Hj]. apply in_seq in Ha, Hb. apply in_RI in Hj. apply GM; auto; cbn; lia. }
    rewrite (frob_ext _ _ (fun p a => xf a (snd p) (fst p) - G i a (snd p) (fst p))%R (fun q a => (fun a w => x' a w - get m (p ++ [a; w]))%R a (ravel (modes t i) (snd q) * r2 + fst q))).
    2:{ intros [b j] a Hq Ha. unfold grows in Hq. apply in_prod_iff in Hq as [Hb Hj]. apply in_seq in Ha, Hb. apply in_RI in Hj. cbn [fst snd]. rewrite GM by (auto; lia). reflexivity. }
    rewrite (F1 (fun a w => x' a w - get m (p ++ [a; w]))%R), (F1 (fun a w => get m (p ++ [a; w]))). exact NX.
  - eapply Rle_trans; [|exact NU]. apply Req_le. rewrite frob_sqrt. unfold mnorm. f_equal. unfold frob2. rewrite lsum_seq. apply rsum_ext. intros a _. rewrite lsum_seq. reflexivity.
  - eapply Rle_trans; [|exact NV]. apply Req_le. rewrite <- mnorm_cview. reflexivity.
Qed.
End Round.

Lemma rn_start de (t o : rtt) mr : wf t -> wf o -> rshape o = rshape t -> bsz o = bsz t -> ndims o = ndims t ->
  (forall p, vidx (bpre t) p -> exists Q, lrn (modes t) (ndims t) de (coreG t p) (rk t) (coreG o p) (rk o) Q (ndims t - 1)) ->
  rn_inv de t o mr (ndims t - 1) (cores o, repeat 1 (S (ndims t))).
Proof.
  intros Hw Wo Ro Bo Do HL. pose proof (wf_d Hw) as Hd. pose proof (modes_o t o Ro) as Mo. pose proof (bpre_o t o Bo) as Po. set (d := ndims t) in *.
  assert (Eg : good t (cores o) (rks o)).
  { destruct (good_init o Wo) as [L RL P F La C]. rewrite Do in L, RL, La, C. constructor; auto. intros k Hk. destruct (C k Hk) as [C1 C2].
    split; [exact C1|]. rewrite C2. unfold vshape. now rewrite Mo, Po. }
  assert (Ev : vtt t (cores o) (rks o) = o).
  { transitivity (vtt o (cores o) (rks o)); [|now apply vtt_init]. unfold vtt. rewrite Do, Ro, Bo. f_equal.
    apply map_ext. intros k. unfold vcore, vshape. now rewrite Mo, Po. }
  assert (Rd : nth d (rks o) 0 = 1) by (change (rk o d = 1); rewrite <- Do; apply (wf_last Wo)).
  exists (rks o). cbn [fst snd]. fold d. split; [exact Eg|]. split; [now rewrite repeat_length|]. split; [reflexivity|].
  split; [reflexivity|]. split.
  { intros k Hk. assert (k = d) by lia. subst k. rewrite Rd. now rewrite nth_repeat_lt by lia. }
  split; [intros; lia|]. split; [reflexivity|]. split; [intros; lia|].
  intros p Hpp. destruct (HL p Hpp) as (Q & L). exists Q, (fun _ => 0%R), (fun _ _ => 1%R). split; [exact L|].
  apply rtn_init; auto; [apply (wf_first Wo)|]. intros. unfold vG. now rewrite Ev.
Qed.

Lemma rn_end de (t o : rtt) mr cs ranks : wf t -> rn_inv de t o mr 0 (cs, ranks) ->
  round_end t (cs, ranks) = Ok (vtt t cs ranks) /\ wf (vtt t cs ranks) /\
  (forall k, 0 < k < ndims t -> nth k ranks 0 = Nat.min (nth k mr 0) (Nat.min (rk o k) (prodn (modes t k) * nth (S k) ranks 0))) /\
  (forall p, vidx (bpre t) p -> exists Q e Rx, lrn (modes t) (ndims t) de (coreG t p) (rk t) (coreG o p) (rk o) Q (ndims t - 1) /\
    rtn (modes t) (ndims t) de Q (coreG o p) (rk o) (fun k => nth k mr 0) 0 (vG t cs ranks p) (vr_ ranks) e Rx).
Proof.
  intros Hw Hst. pose proof (wf_d Hw) as Hd. set (d := ndims t) in *.
  destruct Hst as (vr & g & Lr & R0 & Hlo & Hhi & Hsh & _ & Hmin & He). cbn [fst snd] in *. fold d in Lr, Hhi, Hsh, Hmin.
  assert (Cl : length cs = d) by (apply (g_len _ _ _ g)). assert (Vl : length vr = S d) by (apply (g_rlen _ _ _ g)).
  assert (Evr : ranks = vr).
  { apply nth_ext with (d := 0) (d' := 0); [lia|]. intros k Hk. destruct k; [rewrite R0; symmetry; apply (g_first _ _ _ g)|].
    symmetry. apply Hhi. lia. }
  subst ranks. unfold round_end. rewrite (nthr_nth cs 0 core0), (nthr_nth vr 0 0), (nthr_nth vr 1 0) by lia. cbn [bind]. rewrite core_modes_eq by auto.
  destruct (g_core _ _ _ g 0 Hd) as [Wl Sl].
  rewrite reshape_exact by (unfold size; rewrite Sl; reflexivity). cbn [bind].
  set (lc := RT _ (data (nth 0 cs core0))).
  assert (Hcs : upd 0 lc cs = cores (vtt t cs vr)).
  { unfold vtt. cbn [cores]. apply nth_ext with (d := core0) (d' := core0); [rewrite length_upd, map_length, seq_length; auto|].
    intros k Hk. rewrite length_upd, Cl in Hk. rewrite (nth_map_default _ _ _ 0) by (rewrite seq_length; auto).
    rewrite seq_nth by auto. cbn [Nat.add]. unfold vcore.
    destruct (Nat.eq_dec k 0) as [->|Hne].
    - rewrite nth_upd_same by lia. reflexivity.
    - rewrite nth_upd_other by lia. rewrite <- Hsh by lia. now destruct (nth k cs core0). }
  pose proof (good_wf t cs vr Hw g) as Wv. pose proof (construct_ranks _ Wv) as HT.
  rewrite Hcs. change (rshape (vtt t cs vr)) with (rshape t) in HT. change (bsz (vtt t cs vr)) with (bsz t) in HT.
  change (rks (vtt t cs vr)) with vr in HT. rewrite HT. split; [reflexivity|]. split; [exact Wv|]. split; [exact Hmin|exact He].
Qed.

Lemma tcut_cut_dist (t : rtt) p k q P Z : 
  (tcut (modes t) (ndims t) (coreG t p) (rk t) k q P Z * tcut (modes t) (ndims t) (coreG t p) (rk t) k q P Z = cut_dist t (tt_entry t p) k q P Z)%R.
Proof.
  unfold tcut. fold (Rsqr (frob (RJ (map (modes t) (seq 0 k))) (RJ (map (modes t) (seq k (ndims t - k)))) (fun J1 J2 => rchain (coreG t p) (rk t) 0 (J1 ++ J2) (fun _ => 1%R) 0 - rsum q (fun c => P J1 c * Z J2 c))%R)).
  rewrite frob_sqrt, Rsqr_sqrt by (unfold frob2; apply lsum_nonneg; intros; apply lsum_nonneg; intros; apply Rle_0_sqr).
  unfold cut_dist, frob2. rewrite lsum_RJ. apply rj_ext. intros J1 _. rewrite lsum_RJ. apply rj_ext. intros J2 _. unfold tt_entry, rchain. reflexivity.
Qed.

Section Whole.
Variable de : R.
Hypothesis Hde : (0 <= de)%R.
Variable qr : rtensor -> rtensor * rtensor.
Hypothesis Hqr : qr_near de qr.
Variable svd : rtensor -> rtensor * rtensor * rtensor.
Hypothesis Hsvd : svd_near de svd.

Lemma round_near (t : rtt) a eps mr : wf t -> parse_ranks (is_batch t) a eps (ndims t) = Ok mr ->
  exists z dt dz, round qr svd t a eps = Ok z /\ wf z /\ rshape z = rshape t /\ bsz z = bsz t /\ ndims z = ndims t /\
    full t = Ok dt /\ full z = Ok dz /\
    (exists q : nat -> nat, q 0 = 1 /\ (forall k, S k < ndims t -> q (S k) = Nat.min (q k * prodn (modes t k)) (rk t (S k))) /\
      forall k, 0 < k < ndims t -> rk z k = Nat.min (nth k mr 0) (Nat.min (q k) (prodn (modes t k) * rk z (S k)))) /\
    forall p, vidx (bpre t) p -> forall q P Z, (forall k, 0 < k < ndims t -> q k <= nth k mr 0) ->
      (dist_at (ishape t) dt dz p <= sqrt (sum_cuts (ndims t) (fun k => cut_dist t (tt_entry t p) k (q k) (P k) (Z k))) + round_loss de (ndims t) * cores_norm t p)%R.
Proof.
  intros Hw Hp. destruct (parse_ranks_ok _ _ _ _ _ Hp) as [Hmr Hmp].
  destruct (orth_lr_near de Hde qr Hqr t Hw) as (o & Eo & Wo & Ro & Bo & Do & Ko & HL). pose proof (wf_d Hw) as Hd. set (d := ndims t) in *.
  unfold round. cbv zeta. fold d. rewrite Hp. cbn [bind]. 
  replace (orthogonalize_tt_cores qr t true) with (orth_lr qr (bpre t) t) by (unfold orthogonalize_tt_cores, bpre; destruct (bsz t); reflexivity).
  rewrite Eo. cbn [bind]. fold (bpre t).
  destruct (foldM_rev_seq1 (round_step svd (bpre t) t mr) (rn_inv de t o mr) (d - 1) (cores o, repeat 1 (S d))) as (st & Est & Hst).
  - now apply rn_start.
  - intros i s Hi Hs. destruct i as [|i']; [lia|]. rewrite Nat.sub_succ, Nat.sub_0_r. apply rn_step; auto; fold d; lia.
  - rewrite Est. cbn [bind]. destruct st as [cs vr]. destruct (rn_end de t o mr cs vr Hw Hst) as (Ez & Wv & Hmin & He).
    destruct (full_correct Rring t Hw) as (dt & Fd & _). destruct (full_correct Rring _ Wv) as (dz & Fz & _).
    exists (vtt t cs vr), dt, dz. split; [exact Ez|]. split; [exact Wv|]. split; [reflexivity|]. split; [reflexivity|]. split; [apply vtt_ndims|].
    split; [exact Fd|]. split; [exact Fz|]. split.
    { exists (rk o). split; [apply (wf_first Wo)|]. split; [intros k Hk; rewrite (Ko k) by lia; reflexivity|].
      intros k Hk. exact (Hmin k Hk). }
    intros p Hpp q P Z Hq. destruct (He p Hpp) as (Q & e & Rx & L & HI).
    rewrite (dist_at_entries t (vtt t cs vr) dt dz p) by auto. rewrite cores_norm_rprod. fold d.
    assert (O1 : rk o d = 1) by (rewrite <- Do; apply (wf_last Wo)).
    pose proof (train_round (modes t) d de (coreG t p) Q (coreG o p) (vG t cs vr p) (rk t) (rk o) (vr_ vr) (fun k => nth k mr 0) e Rx Hde Hd (wf_first Wo) O1
      ltac:(intros; apply rk_pos; auto; lia) (wf_first Wv) L HI q P Z Hq) as TR.
    eapply Rle_trans; [|eapply Rle_trans; [exact TR|]].
    + apply Req_le. unfold nrm. f_equal. apply lsum_ext. intros J _. unfold vG, vr_. change (rk (vtt t cs vr)) with (fun k => nth k vr 0). rchange. ring.
    + apply Req_le. f_equal. f_equal. unfold sum_cuts. apply rsum_ext. intros x Hx. rewrite <- tcut_cut_dist. reflexivity.
Qed.

(** Against the best tensor of the same ranks. *)
Lemma round_near_best (t b : rtt) db a eps mr : wf t -> parse_ranks (is_batch t) a eps (ndims t) = Ok mr ->
  wf b -> rshape b = rshape t -> bsz b = bsz t -> full b = Ok db -> (forall k, 0 < k < ndims t -> rk b k <= nth k mr 0) ->
  exists z dt dz, round qr svd t a eps = Ok z /\ full t = Ok dt /\ full z = Ok dz /\
    forall p, vidx (bpre t) p ->
    (dist_at (ishape t) dt dz p <= sqrt (INR (ndims t - 1)) * dist_at (ishape t) dt db p + round_loss de (ndims t) * cores_norm t p)%R.
Proof.
  intros Hw Hp Wb Rb Bb Fb Hb. destruct (round_near t a eps mr Hw Hp) as (z & dt & dz & Ez & Wz & Rz & Bz & Dz & Fd & Fz & _ & H).
  exists z, dt, dz. do 3 (split; [assumption|]). intros p Vp. 
  eapply Rle_trans; [apply (H p Vp (rk b) (fun k => lvec (coreG b p) (rk b)) (fun k => rvec (coreG b p) (rk b) k) Hb)|]. apply Rplus_le_compat_r.
  unfold dist_at. rewrite (sq_dist_entries t b dt db p) by auto. rewrite <- sqrt_mult_alt by apply pos_INR. apply sqrt_le_1_alt.
  unfold sum_cuts. apply rsum_le_const. intros i Hi. rewrite cut_dist_best by (auto; lia). apply Rle_refl.
Qed.

(** In terms of singular values of the unfoldings. *)
Lemma round_near_svd (t : rtt) dt a eps mr (n : nat -> nat) U s V p : wf t -> parse_ranks (is_batch t) a eps (ndims t) = Ok mr ->
  full t = Ok dt -> vidx (bpre t) p ->
  (forall k, 0 < k < ndims t -> unfolding_svd (rshape t) (modes t) (ndims t) dt p k (n k) (U k) (s k) (V k)) ->
  exists z dz, round qr svd t a eps = Ok z /\ full z = Ok dz /\
    (dist_at (ishape t) dt dz p <= sqrt (sum_cuts (ndims t) (fun k => discarded (n k) (nth k mr 0%nat) (s k))) + round_loss de (ndims t) * cores_norm t p)%R.
Proof.
  intros Hw Hp Fd Vp HU. destruct (round_near t a eps mr Hw Hp) as (z & dt' & dz & Ez & Wz & Rz & Bz & Dz & Fd' & Fz & _ & H).
  assert (dt' = dt) by congruence. subst dt'. exists z, dz. split; [exact Ez|]. split; [exact Fz|].
  eapply Rle_trans; [apply (H p Vp (fun k => Nat.min (nth k mr 0) (n k)) (fun k J l => U k J l * s k l)%R V)|].
  - intros. lia.
  - apply Req_le. f_equal. f_equal. unfold sum_cuts. apply rsum_ext. intros i Hi. rewrite <- discarded_min.
    apply (cut_dist_svd t dt p (S i) (n (S i)) (U (S i)) (s (S i)) (V (S i))); auto; try lia. apply HU; lia.
Qed.
End Whole.
