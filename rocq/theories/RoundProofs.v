(** [round]: the loop of _round_tt / _round_batch_tt. *)
From Coq Require Import String Ascii List Arith ZArith Lia Lra Bool Ring Reals.
From Verif Require Import Scalar Tensor TensorLemmas TensorLemmas2 Base Spec Chain BaseLemmas Ops
  FullProofs ResultLemmas Dense AddProofs MulProofs MatmulProofs DenseMatmul Sweep FlatProofs GatherProofs SliceProofs NormProofs OpsR ScaleProofs
  Decomp DecompSpec GaugeProofs OrthProofs OrthNorm QRExists Trunc TruncChain.
Import ListNotations.
Local Open Scope nat_scope.
Local Notation get := (@get Rring).
Local Notation RT := (@Tensor Rring).
Local Notation core0 := (core0 Rring).
Add Ring Rring' : (cth Rring).

(** *** Slices, diagonal matrices *)
Lemma slice_first n r : r <= n -> slice_positions n (Some 0%Z) (Some (Z.of_nat r)) None = Some (seq 0 r).
Proof.
  intros H. unfold slice_positions. cbn [Z.eqb Z.ltb Z.compare].
  assert (E1 : (Z.of_nat r <? 0)%Z = false) by (apply Z.ltb_ge; lia). rewrite ?E1.
  replace (clampZ 0 (Z.of_nat n) 0) with 0%Z by (unfold clampZ; lia).
  replace (clampZ 0 (Z.of_nat n) (Z.of_nat r)) with (Z.of_nat r) by (unfold clampZ; lia).
  replace (Z.to_nat (Z.max 0 ((Z.of_nat r - 0 + 1 - 1) / 1))) with r by (rewrite Z.div_1_r; lia).
  f_equal. transitivity (map (fun k => k) (seq 0 r)); [|apply map_id]. apply map_ext. intros; lia.
Qed.

Lemma resolve_app s1 sh1 ps1 s2 sh2 ps2 : resolve s1 sh1 = Ok ps1 -> resolve s2 sh2 = Ok ps2 ->
  resolve (s1 ++ s2) (sh1 ++ sh2) = Ok (ps1 ++ ps2).
Proof.
  revert sh1 ps1; induction s1 as [|x s1 IH]; intros [|n sh1] ps1 H1 H2; cbn [resolve app] in *; try discriminate.
  - injection H1 as <-. exact H2.
  - destruct (resolve1 x n); cbn [bind] in *; [|discriminate]. destruct (resolve s1 sh1) eqn:E; cbn [bind] in *; [|discriminate].
    injection H1 as <-. erewrite IH; eauto. reflexivity.
Qed.

Lemma sel_shape_app a b : sel_shape (a ++ b) = sel_shape a ++ sel_shape b.
Proof. induction a as [|[l [|]] a IH]; cbn [sel_shape app]; auto. now rewrite IH. Qed.

Lemma sel_idx_fulls_app sh p b idx : vidx sh p -> sel_idx (map (fun n => (seq 0 n, true)) sh ++ b) (p ++ idx) = p ++ sel_idx b idx.
Proof. induction 1 as [|i n ix sh' Hi Hv IH]; [reflexivity|]. cbn [map sel_idx app]. now rewrite nth_seq0, IH. Qed.

Lemma first_cols_ok (x : rtensor) pre n r : shape x = pre ++ [n] -> r <= n ->
  exists y, first_cols x r = Ok y /\ wft y /\ shape y = pre ++ [r] /\
    forall p l, vidx pre p -> l < r -> get y (p ++ [l]) = get x (p ++ [l]).
Proof.
  intros Sx Hr. unfold first_cols, rank. rewrite Sx, app_length. cbn [length].
  replace (length pre + 1 - 1) with (length pre) by lia.
  destruct (getitem_sel Rring x (repeat full_slice (length pre) ++ [ISlice (Some 0%Z) (Some (Z.of_nat r)) None])
     (map (fun n => (seq 0 n, true)) pre ++ [(seq 0 r, true)])) as (y & E & W & Sy & G).
  { rewrite Sx. apply resolve_app; [apply resolve_fulls|]. cbn [resolve resolve1]. now rewrite slice_first. }
  rewrite sel_shape_app, sel_shape_fulls in *. cbn [sel_shape] in *. rewrite seq_length in *.
  exists y. split; [exact E|]. split; [exact W|]. split; [exact Sy|].
  intros p l Hp Hl. rewrite G by (apply vidx_app; [auto|vsolve]). rewrite sel_idx_fulls_app by auto. cbn [sel_idx].
  now rewrite nth_seq0.
Qed.

Lemma tdiag_ok (x : rtensor) pre n : shape x = pre ++ [n] ->
  wft (tdiag x) /\ shape (tdiag x) = pre ++ [n; n] /\
  forall p a b, vidx pre p -> a < n -> b < n -> get (tdiag x) (p ++ [a; b]) = (kron a b * get x (p ++ [a]))%R.
Proof.
  intros Sx. unfold tdiag. split; [apply wft_mk|]. rewrite Sx, last_last. split; [cbn; now rewrite <- app_assoc|].
  intros p a b Hp Ha Hb. rewrite get_mk by (rewrite <- app_assoc; apply vidx_app; [auto|vsolve]).
  change [a; b] with ([a] ++ [b]). rewrite app_assoc, removelast_last, !last_last. unfold kron.
  destruct (Nat.eqb a b); lra.
Qed.

Lemma new_rank_eq m rows cols : 0 < rows -> 0 < cols -> new_rank m rows cols = Nat.min m (Nat.min rows cols).
Proof. intros H1 H2. unfold new_rank. destruct (Nat.eqb_spec m 1); lia. Qed.

(** *** The loop *)
Section Round.
Variable svd : rtensor -> rtensor * rtensor * rtensor.
Hypothesis Hsvd : svd_ok svd.
Variables t o : rtt.
Hypothesis Hw : wf t.
Hypothesis Wo : wf o.
Hypothesis Ro : rshape o = rshape t.
Hypothesis Bo : bsz o = bsz t.
Hypothesis Do : ndims o = ndims t.
Hypothesis Horth : forall p k, vidx (bpre t) p -> k < ndims t - 1 -> left_orthonormal o p k.
Variable mr : list nat.
Hypothesis Hmr : length mr = S (ndims t).
Hypothesis Hmp : Forall (fun n => 0 < n) mr.
Let d := ndims t.
Let ms := modes t.
Let cutX k := map ms (seq 0 k).
Let cutY k := map ms (seq k (d - k)).

(** Squared distance to a tensor of rank [q] at cut [k]. *)
Definition cut_dist (A : list (list nat) -> R) k q (P Z : list (list nat) -> nat -> R) : R :=
  rj (map (modes t) (seq 0 k)) (fun J1 => rj (map (modes t) (seq k (ndims t - k))) (fun J2 =>
    ((A (J1 ++ J2) - rsum q (fun c => P J1 c * Z J2 c)) * (A (J1 ++ J2) - rsum q (fun c => P J1 c * Z J2 c)))%R)).

Definition vG cs vr p : mtrain := coreG (vtt t cs vr) p.
Definition vr_ (vr : list nat) k := nth k vr 0.
Definition A (p : list nat) (J : list (list nat)) : R := tt_entry o p J.
Definition Av cs vr p (J : list (list nat)) : R := rchain (vG cs vr p) (vr_ vr) 0 J (fun _ => 1%R) 0.

Definition p_inv (i : nat) cs vr (e : nat -> R) p : Prop :=
  (forall b b', b < vr_ vr (S i) -> b' < vr_ vr (S i) ->
     rj (map ms (seq (S i) (d - S i))) (fun J => rvec (vG cs vr p) (vr_ vr) (S i) J b * rvec (vG cs vr p) (vr_ vr) (S i) J b')%R = kron b b') /\
  (forall J1 b, vjdx (map ms (seq 0 (S i))) J1 -> b < vr_ vr (S i) ->
     rj (map ms (seq (S i) (d - S i))) (fun J2 => (A p (J1 ++ J2) - Av cs vr p (J1 ++ J2)) * rvec (vG cs vr p) (vr_ vr) (S i) J2 b)%R = 0%R) /\
  rj (map ms (seq 0 d)) (fun J => (A p J - Av cs vr p J) * (A p J - Av cs vr p J))%R = rsum (d - 1 - i) (fun x => e (S i + x)) /\
  (forall k, i < k < d -> (0 <= e k)%R /\ forall q P Z, q <= nth k mr 0 -> (e k <= cut_dist (A p) k q P Z)%R).

Definition rd_inv (i : nat) (st : list rtensor * list nat) : Prop := exists vr,
  good t (fst st) vr /\ length (snd st) = S d /\ nth 0 (snd st) 0 = 1 /\
  (forall k, k <= i -> nth k vr 0 = rk o k) /\
  (forall k, i < k <= d -> nth k vr 0 = nth k (snd st) 0) /\
  (forall k, i < k < d -> shape (nth k (fst st) core0) = vshape t vr k) /\
  (forall k, k < i -> nth k (fst st) core0 = core o k) /\
  (forall k, i < k < d -> nth k (snd st) 0 = Nat.min (nth k mr 0) (Nat.min (rk o k) (prodn (ms k) * nth (S k) (snd st) 0))) /\
  (exists e, forall p, vidx (bpre t) p -> p_inv i (fst st) vr (e p) p).

Lemma modes_o k : modes o k = modes t k. Proof. unfold modes. now rewrite Ro. Qed.
Lemma bpre_o : bpre o = bpre t. Proof. unfold bpre. now rewrite Bo. Qed.

Lemma vcore_o cs vr k : k < d -> nth k cs core0 = core o k -> nth k vr 0 = rk o k -> nth (S k) vr 0 = rk o (S k) ->
  vcore t cs vr k = core o k.
Proof.
  intros Hk E1 E2 E3. unfold vcore, vshape. rewrite E1, E2, E3.
  pose proof (core_shape _ o k Wo ltac:(lia)) as S. rewrite modes_o, bpre_o in S. rewrite <- S. now destruct (core o k).
Qed.

Lemma left_frame i cs vr p : i < d -> vidx (bpre t) p -> (forall k, k < i -> nth k cs core0 = core o k) ->
  (forall k, k <= i -> nth k vr 0 = rk o k) ->
  forall a a', a < vr_ vr i -> a' < vr_ vr i ->
  rj (map ms (seq 0 i)) (fun J => lvec (vG cs vr p) (vr_ vr) J a * lvec (vG cs vr p) (vr_ vr) J a')%R = kron a a'.
Proof.
  intros Hi Hp Hcs Hvr a a' Ha Ha'. unfold vr_ in *.
  change (@penv Rring ms (vG cs vr p) (fun k => nth k vr 0) (vG cs vr p) (fun k => nth k vr 0) i a a' = kron a a').
  apply penv_orth; auto.
  - rewrite Hvr by lia. apply (wf_first Wo).
  - intros m b b' Hm Hb Hb'. rewrite !Hvr in * by lia.
    rewrite <- (left_orth_G o p m); auto; [|apply Horth; [auto|fold d; lia]]. rewrite modes_o.
    apply sumn_ext. intros x _. apply isum_ext. intros j _. unfold vG. rewrite !vtt_coreG by (fold d; lia).
    rewrite vcore_o; auto; try lia; apply Hvr; lia.
Qed.

Lemma rd_step i' st : S i' < d -> rd_inv (S i') st -> exists st', round_step svd (bpre t) t mr (S i') st = Ok st' /\ rd_inv i' st'.
Proof.
  intros Hi (vr & g & Lr & R0 & Hlo & Hhi & Hsh & Hcs & Hmin & (e & He)). destruct st as [cs ranks]. cbn [fst snd] in *.
  pose proof (wf_d Hw) as Hd. pose proof (bpre_len t) as Bl.
  assert (Hi' : i' < d) by lia. set (i := S i') in *.
  pose proof (good_nth _ _ _ i' g ltac:(fold d; lia)) as P0. pose proof (good_nth _ _ _ i g ltac:(fold d; lia)) as P1.
  pose proof (good_nth _ _ _ (S i) g ltac:(fold d; lia)) as P2.
  pose proof (modes_prod_pos t i' Hw Hi') as Pm. pose proof (modes_prod_pos t i Hw Hi) as Pm1.
  assert (Pb : 0 < prodn (bpre t)) by (apply prodn_pos; apply (wf_bpos Hw)).
  unfold round_step. rewrite core_modes_eq by auto.
  rewrite (nthr_nth cs i core0) by (rewrite (g_len _ _ _ g); exact Hi). cbn [bind].
  rewrite (nthr_nth ranks (S i) 0) by lia. cbn [bind]. cbv zeta. rewrite <- (Hhi (S i)) by lia.
  set (r0 := nth i' vr 0) in *. set (r1 := nth i vr 0) in *. set (r2 := nth (S i) vr 0) in *.
  destruct (g_core _ _ _ g i Hi) as [Wc Sc]. destruct (g_core _ _ _ g i' Hi') as [Wn Sn].
  unfold vshape in Sc, Sn. fold i in Sc, Sn. fold r0 r1 r2 in Sc, Sn.
  set (c := nth i cs core0) in *. set (nc := nth i' cs core0) in *.
  change [None; Some (prodn (modes t i) * r2)] with (None :: map Some [prodn (modes t i) * r2]).
  rewrite (reshape_infer _ c (bpre t) [prodn (modes t i) * r2] r1 Pb).
  2:{ pns. nia. } 2:{ unfold size. rewrite Sc. pns. lia. }
  cbn [bind]. set (m := RT (bpre t ++ [r1; prodn (modes t i) * r2]) (data c)).
  assert (Wm : wft m). { apply (wft_reshaped Rring c); auto. rewrite Sc. pns. lia. }
  rewrite (nthr_nth (shape m) (length (bpre t)) 0) by (unfold m; cbn [shape]; rewrite app_length; cbn; lia).
  unfold m at 1. cbn [shape]. rewrite nth_middle. cbn [bind].
  rewrite (nthr_nth mr i 0) by (rewrite Hmr; fold d; lia). cbn [bind].
  rewrite new_rank_eq by nia.
  set (K := Nat.min r1 (prodn (modes t i) * r2)). set (rr := Nat.min (nth i mr 0) K).
  assert (Pk : 0 < K) by (unfold K; nia).
  assert (Pmr : 0 < nth i mr 0) by (apply Forall_nth'; [exact Hmp|rewrite Hmr; fold d; lia]).
  assert (Pr : 0 < rr) by (unfold rr; lia). assert (HrK : rr <= K) by (unfold rr; lia).
  assert (Fp : Forall (fun k => 0 < k) (bpre t ++ [r1; prodn (modes t i) * r2])).
  { apply Forall_app. split; [apply (wf_bpos Hw)|]. repeat constructor; nia. }
  pose proof (Hsvd (bpre t) r1 (prodn (modes t i) * r2) m Wm eq_refl Fp) as HS. fold K in HS.
  destruct (svd m) as [[s u] v]. cbv zeta in HS. destruct HS as (Ws & Ss & Wu & Su & Wv & Sv & HS).
  destruct (first_cols_ok u (bpre t ++ [r1]) K rr) as (u' & Eu & Wu' & Su' & Gu); [now rewrite <- app_assoc|auto|]. rewrite Eu. cbn [bind].
  destruct (first_cols_ok s (bpre t) K rr Ss HrK) as (s' & Es & Ws' & Ss' & Gs). rewrite Es. cbn [bind].
  destruct (first_cols_ok v (bpre t ++ [prodn (modes t i) * r2]) K rr) as (v' & Ev & Wv' & Sv' & Gv); [now rewrite <- app_assoc|auto|]. rewrite Ev. cbn [bind].
  rewrite <- app_assoc in Su', Sv'. cbn [app] in Su', Sv'.
  destruct (swap_last_ok (bpre t) v' _ _ Bl Wv' Sv') as (vt & Evt & Wvt & Svt & Gvt). rewrite Evt. cbn [bind].
  rewrite reshape_exact. 2:{ unfold size. rewrite Svt. pns. lia. }
  cbn [bind]. set (c' := RT (bpre t ++ rr :: modes t i ++ [r2]) (data vt)).
  replace (i - 1) with i' by (unfold i; lia).
  rewrite (nthr_nth _ i' core0) by (rewrite length_upd, (g_len _ _ _ g); exact Hi'). cbn [bind].
  rewrite nth_upd_other by (unfold i; lia). fold nc.
  change [None; Some r1] with (None :: map Some [r1]).
  rewrite (reshape_infer _ nc (bpre t) [r1] (r0 * prodn (modes t i')) Pb).
  2:{ pns. lia. } 2:{ unfold size. rewrite Sn. pns. lia. }
  cbn [bind]. set (n2 := RT (bpre t ++ [r0 * prodn (modes t i'); r1]) (data nc)).
  destruct (matmul_pre n2 u' (bpre t) (r0 * prodn (modes t i')) r1 rr Bl eq_refl Su') as (y1 & Ey1 & Wy1 & Sy1 & Gy1).
  rewrite Ey1. cbn [bind].
  destruct (tdiag_ok s' (bpre t) rr Ss') as (Wd & Sd & Gd).
  destruct (matmul_pre y1 (tdiag s') (bpre t) _ _ _ Bl Sy1 Sd) as (y & Ey & Wy & Sy & Gy).
  rewrite Ey. cbn [bind]. eexists. split; [reflexivity|].
  exists (upd i rr vr). cbn [fst snd].
  assert (Rl : i < length vr) by (rewrite (g_rlen _ _ _ g); fold d; lia).
  assert (Cl : length cs = d) by (apply (g_len _ _ _ g)).
  rewrite upd_comm by (unfold i; lia).
  set (cs' := upd i c' (upd i' y cs)). set (vr' := upd i rr vr).
  assert (g' : good t cs' vr').
  { unfold cs', vr', i. apply good_upd; auto; fold i; fold r0 r2.
    - rewrite Sy. pns. lia.
    - apply (wft_reshaped Rring vt); auto. rewrite Svt. pns. lia. }
  assert (Nvi : nth i vr' 0 = rr) by (unfold vr'; now apply nth_upd_same).
  assert (Nv : forall k, k <> i -> nth k vr' 0 = nth k vr 0) by (intros; unfold vr'; now apply nth_upd_other).
  assert (Nci : nth i cs' core0 = c') by (unfold cs'; apply nth_upd_same; rewrite length_upd; lia).
  assert (Nci' : nth i' cs' core0 = y) by (unfold cs'; rewrite nth_upd_other by lia; apply nth_upd_same; lia).
  assert (Nc : forall k, k <> i -> k <> i' -> nth k cs' core0 = nth k cs core0) by (intros; unfold cs'; now rewrite !nth_upd_other by auto).
  split; [exact g'|]. split; [now rewrite length_upd|]. split; [rewrite nth_upd_other by (unfold i; lia); exact R0|].
  split; [intros k Hk; rewrite Nv by (unfold i; lia); apply Hlo; lia|].
  split.
  { intros k Hk. destruct (Nat.eq_dec k i) as [->|Hne]; [rewrite nth_upd_same by lia; exact Nvi|].
    rewrite nth_upd_other, Nv by auto. apply Hhi. unfold i in *. lia. }
  split.
  { intros k Hk. destruct (Nat.eq_dec k i) as [->|Hne].
    - rewrite Nci. unfold vshape. rewrite Nvi, Nv by lia. reflexivity.
    - rewrite Nc by lia. rewrite Hsh by (unfold i in *; lia). unfold vshape. now rewrite !Nv by (unfold i in *; lia). }
  split; [intros k Hk; rewrite Nc by (unfold i; lia); apply Hcs; unfold i; lia|].
  split.
  { intros k Hk. destruct (Nat.eq_dec k i) as [->|Hne].
    - rewrite nth_upd_same by lia. rewrite nth_upd_other by lia. rewrite <- Hhi by lia. fold r2.
      rewrite <- Hlo by lia. fold r1. reflexivity.
    - rewrite !nth_upd_other by (unfold i in *; lia). apply Hmin. unfold i in *; lia. }
  (* one batch element *)
  exists (fun p k => if Nat.eqb k i then tail K rr (fun l => get s (p ++ [l])) else e p k).
  intros p Hp. destruct (He p Hp) as (HR & HO & HE & HB). destruct (HS p Hp) as (HX & HU & HV & Hs0 & Hs1). clear He HS.
  pose proof (vidx_length _ _ Hp) as Lp.
  set (G := vG cs vr p) in *. set (G' := vG cs' vr' p).
  set (uf := fun a l => get u (p ++ [a; l])). set (sf := fun l => get s (p ++ [l])).
  set (vf := fun (j : list nat) b l => get v (p ++ [ravel (modes t i) j * r2 + b; l])).
  assert (Hi0 : 0 < i < d) by (unfold i in *; lia).
  assert (Q0 : vr_ vr 0 = 1) by apply (g_first _ _ _ g).
  assert (Q1 : forall k, k <> i -> vr_ vr' k = vr_ vr k) by (intros; now apply Nv).
  assert (Q2 : forall k a j b, k < d -> k <> i -> S k <> i -> a < vr_ vr k -> b < vr_ vr (S k) -> vidx (ms k) j -> G' k a j b = G k a j b).
  { intros k a j b Hk N1 N2 _ _ _. unfold G, G', vG. rewrite !vtt_coreG by auto. unfold vcore, vshape. now rewrite !Nv, Nc by (auto; unfold i in *; lia). }
  assert (Q3 : forall a j b, a < vr_ vr i -> vidx (ms i) j -> b < vr_ vr (S i) -> G i a j b = rsum K (fun l => uf a l * sf l * vf j b l)%R).
  { intros a j b Ha Hj Hb. unfold G, vG. rewrite vtt_coreG by auto. unfold vcore, vshape. fold r1 r2. fold c.
    rewrite rview by (auto; apply (vidx_length _ _ Hj)). fold m. apply HX; [exact Ha|]. apply rview_lt; auto. }
  assert (Q4 : forall l j b, l < rr -> vidx (ms i) j -> b < vr_ vr (S i) -> G' i l j b = vf j b l).
  { intros l j b Hl Hj Hb. unfold G', vG. rewrite vtt_coreG by auto. unfold vcore, vshape. rewrite Nvi, Nv, Nci by lia. fold r2.
    rewrite rview by (auto; apply (vidx_length _ _ Hj)). unfold c'. cbn [data].
    replace (RT (bpre t ++ [rr; prodn (modes t i) * r2]) (data vt)) with vt by (rewrite <- Svt; now destruct vt).
    pose proof (rview_lt (modes t i) r2 j b Hb Hj) as B.
    rewrite (Gvt p _ l Hp B Hl). unfold vf.
    pose proof (Gv (p ++ [ravel (modes t i) j * r2 + b]) l) as E. rewrite <- !app_assoc in E. cbn [app] in E. apply E; auto.
    apply vidx_app; [auto|vsolve]. }
  assert (Q5 : forall a j l, a < vr_ vr (i - 1) -> vidx (ms (i - 1)) j -> l < rr ->
     G' (i - 1) a j l = rsum (vr_ vr i) (fun b => G (i - 1)%nat a j b * (uf b l * sf l))%R).
  { replace (i - 1) with i' by (unfold i; lia). intros a j l Ha Hj Hl. unfold G', G, vG. rewrite vtt_coreG by auto.
    unfold vcore, vshape. fold i. rewrite Nvi, Nv, Nci' by (unfold i; lia). fold r0.
    rewrite lview by (auto; apply (vidx_length _ _ Hj)).
    replace (RT (bpre t ++ [r0 * prodn (modes t i'); rr]) (data y)) with y by (rewrite <- Sy; now destruct y).
    pose proof (lview_lt (modes t i') r0 a j Ha Hj) as B. set (x := a * prodn (modes t i') + ravel (modes t i') j) in *. rewrite (Gy p _ l Hp B Hl).
    transitivity (rsum rr (fun k => get y1 (p ++ [x; k]) * get s' (p ++ [k]) * kron l k)%R).
    { unfold rsum. apply (sumn_ext Rring). intros k Hk. rewrite Gd by auto. rewrite kron_sym. rchange. ring. }
    rewrite rsum_kron_r by auto. rewrite Gs by auto. rewrite (Gy1 p _ l Hp B Hl).
    change (rsum r1 (fun b => get n2 (p ++ [x; b]) * get u' (p ++ [b; l]))%R * get s (p ++ [l]) =
      rsum (vr_ vr i) (fun b => coreG (vtt t cs vr) p i' a j b * (uf b l * sf l)))%R.
    rewrite <- rsum_mul_r. apply rsum_ext. intros b Hb. rewrite vtt_coreG by auto. unfold vcore, vshape. fold i. fold r0 r1 nc.
    rewrite lview by (auto; apply (vidx_length _ _ Hj)). fold x. fold n2.
    pose proof (Gu (p ++ [b]) l) as E. rewrite <- !app_assoc in E. cbn [app] in E. rewrite E; auto.
    2:{ apply vidx_app; [auto|]. constructor; [exact Hb|constructor]. }
    unfold uf, sf. ring. }
  assert (Q6 : forall l l', l < K -> l' < K -> rsum (vr_ vr i) (fun a => uf a l * uf a l')%R = kron l l') by (intros; now apply HU).
  assert (Q7 : forall l l', l < K -> l' < K -> ri (ms i) (fun j => rsum (vr_ vr (S i)) (fun b => vf j b l * vf j b l'))%R = kron l l').
  { intros l l' Hl Hl'. rewrite <- HV by auto. rewrite sumn_prod, sumn_ravel. reflexivity. }
  assert (Q8 : forall a b, a <= b -> b < K -> (0 <= sf b <= sf a)%R) by (intros; split; [now apply Hs0|now apply Hs1]).
  assert (Q9 := left_frame i cs vr p Hi Hp ltac:(intros; apply Hcs; auto) Hlo). fold G in Q9.
  pose proof (step_error ms d i G G' (vr_ vr) (vr_ vr') K rr uf sf vf (A p) Hi0 Q0 Q1 Nvi HrK Q2 Q3 Q4 Q5 Q6 Q7 Q9 HR HO) as SE.
  pose proof (step_orth ms d i G G' (vr_ vr) (vr_ vr') K rr uf sf vf (A p) Hi0 Q0 Q1 Nvi HrK Q2 Q3 Q4 Q5 Q7 HR HO) as SO.
  pose proof (step_right ms d i G G' (vr_ vr) (vr_ vr') K rr vf Hi0 Q0 Q1 Nvi HrK Q2 Q4 Q7 HR) as SR.
  pose proof (step_best ms d i G (vr_ vr) (vr_ vr') K rr uf sf vf (A p) Hi0 Q0 Nvi HrK Q3 Q6 Q7 Q8 Q9 HR HO (nth i mr 0)) as SB.
  unfold p_inv. fold i. fold G'. change (vr_ vr' i) with (nth i vr' 0). rewrite Nvi.
  split; [exact SR|]. split; [exact SO|]. split.
  - match type of SE with ?l = _ => transitivity l; [reflexivity|] end.
    match type of HE with ?l = _ => transitivity (l + tail K rr sf)%R; [exact SE|] end. rewrite HE. replace (d - 1 - i') with (1 + (d - 1 - i)) by (unfold i; lia). rewrite rsum_app_range.
    rewrite (rsum_ext 1 _ (fun _ => tail K rr sf)).
    2:{ intros x Hx. replace (i + x) with i by lia. rewrite Nat.eqb_refl. reflexivity. }
    rewrite (rsum_ext (d - 1 - i) (fun l => if i + (1 + l) =? i then _ else _) (fun x => e p (S i + x))).
    + rewrite rsum_S. change (rsum 0 _) with 0%R. lra.
    + intros l Hl. destruct (Nat.eqb_spec (i + (1 + l)) i); [lia|]. f_equal. lia.
  - intros k Hk. destruct (Nat.eqb_spec k i) as [->|Hne].
    + split; [apply tail_nonneg|]. intros q P Z Hq. apply SB; auto.
    + apply HB. unfold i in *. lia.
Qed.
End Round.

(** *** The whole function *)
Lemma construct_ranks (o : rtt) : wf o ->
  match bsz o with
  | None => TensorTrain (cores o) (STuple (rshape o)) (Some (rks o))
  | Some b => TensorTrainBatch (cores o) (STuple (rshape o)) (Some (rks o)) (Some b)
  end = Ok o.
Proof.
  intros Wv. pose proof (wf_shaped _ _ Wv) as HS.
  assert (Hne : rshape o <> []). { intros E. pose proof (wf_kind Wv) as [H|H]; rewrite E in H; discriminate. }
  destruct o as [cs rs ks bs]. cbn [bsz cores rshape rks] in *. unfold bpre in *. cbn [bsz] in *.
  destruct bs as [B|].
  - apply TensorTrainBatch_ok; try apply Wv; auto.
  - apply TensorTrain_ok; try apply Wv; auto.
Qed.

Lemma parse_ranks_ok batch a eps d mr : parse_ranks batch a eps d = Ok mr -> length mr = S d /\ Forall (fun n => 0 < n) mr.
Proof.
  unfold parse_ranks. destruct (to_int32 a) as [l|]; cbn [bind]; [|discriminate].
  destruct (batch && (1 <? length l)); [discriminate|].
  destruct (existsb (fun z => (z <? 1)%Z) l) eqn:E; [discriminate|].
  destruct (match eps with Some e => if Rlt_dec e 0 then true else false | None => false end); [discriminate|].
  assert (P : Forall (fun z => (1 <= z)%Z) l).
  { clear - E. induction l as [|z l IH]; [constructor|]. cbn in E. apply orb_false_iff in E. destruct E as [E1 E2].
    constructor; [apply Z.ltb_ge in E1; lia|auto]. }
  assert (Q : length (map Z.to_nat l) = length l /\ Forall (fun n => 0 < n) (map Z.to_nat l)).
  { split; [apply map_length|]. apply Forall_map. eapply Forall_impl; [|exact P]. cbn. intros; lia. }
  assert (C : forall l', (if negb (length l =? S d) then Err ValueError else Ok (map Z.to_nat l)) = Ok l' ->
    length l' = S d /\ Forall (fun n => 0 < n) l').
  { intros l'. destruct (Nat.eqb_spec (length l) (S d)) as [EL|]; cbn [negb]; [|discriminate]. injection 1 as <-. rewrite <- EL. tauto. }
  destruct l as [|z [|z' l]]; auto. intros E'. assert (E2 : repeat (Z.to_nat z) (S d) = mr) by congruence. rewrite <- E2, repeat_length. split; auto.
  apply Forall_forall. intros x Hx. apply repeat_spec in Hx. inversion P; subst. lia.
Qed.

Lemma nth_repeat_lt (x : nat) n k z : k < n -> nth k (repeat x n) z = x.
Proof. revert k; induction n; intros [|k] H; cbn; auto; try lia. apply IHn. lia. Qed.

Lemma vjdx_chain ms n J : vchain ms 0 J -> length J = n -> vjdx (map ms (seq 0 n)) J.
Proof. intros H <-. now apply vchain_vjdx. Qed.

(** The loop starts and ends well. *)
Lemma rd_start (t o : rtt) mr : wf t -> wf o -> rshape o = rshape t -> bsz o = bsz t -> ndims o = ndims t ->
  rd_inv t o mr (ndims t - 1) (cores o, repeat 1 (S (ndims t))).
Proof.
  intros Hw Wo Ro Bo Do. pose proof (wf_d Hw) as Hd. pose proof (modes_o t o Ro) as Mo. pose proof (bpre_o t o Bo) as Po. set (d := ndims t) in *.
  assert (Eg : good t (cores o) (rks o)).
  { destruct (good_init o Wo) as [L RL P F La C]. rewrite Do in L, RL, La, C. constructor; auto. intros k Hk. destruct (C k Hk) as [C1 C2].
    split; [exact C1|]. rewrite C2. unfold vshape. now rewrite Mo, Po. }
  assert (Ev : vtt t (cores o) (rks o) = o).
  { transitivity (vtt o (cores o) (rks o)); [|now apply vtt_init]. unfold vtt. rewrite Do, Ro, Bo. f_equal.
    apply map_ext. intros k. unfold vcore, vshape. now rewrite Mo, Po. }
  assert (Rd : nth d (rks o) 0 = 1) by (change (rk o d = 1); rewrite <- Do; apply (wf_last Wo)).
  assert (EvA : forall p J, Av t (cores o) (rks o) p J = A o p J) by (intros; unfold Av, vG; rewrite Ev; reflexivity).
  exists (rks o). cbn [fst snd]. fold d. split; [exact Eg|]. split; [now rewrite repeat_length|]. split; [reflexivity|].
  split; [reflexivity|]. split.
  { intros k Hk. assert (k = d) by lia. subst k. rewrite Rd. now rewrite nth_repeat_lt by lia. }
  split; [intros; lia|]. split; [reflexivity|]. split; [intros; lia|].
  exists (fun _ _ => 0%R). intros p Hpp. unfold p_inv. fold d. replace (S (d - 1)) with d by lia. rewrite !Nat.sub_diag.
  cbn [seq map]. unfold vr_. rewrite Rd. split; [|split; [|split]].
  - intros b b' Hb Hb'. assert (b = 0) by lia. assert (b' = 0) by lia. subst. unfold rj, rvec, rchain, kron. cbn. lra.
  - intros J1 b HJ Hb. apply rj_zero. intros J2 _. rewrite EvA. lra.
  - replace (d - 1 - (d - 1)) with 0 by lia. change (rsum 0 _) with 0%R. apply rj_zero. intros J HJ. rewrite EvA. lra.
  - intros; lia.
Qed.

(** The last lines of round. *)
Definition round_end (t : rtt) (st : list rtensor * list nat) : res rtt :=
  let '(cs, ranks) := st in
  do c <- nthr cs 0;
  do r0 <- nthr ranks 0;
  do r1 <- nthr ranks 1;
  do c <- reshape c (map Some (bpre t ++ r0 :: core_modes t 0 ++ [r1]));
  let cs := upd 0 c cs in
  match bsz t with
  | None => TensorTrain cs (STuple (rshape t)) (Some ranks)
  | Some b => TensorTrainBatch cs (STuple (rshape t)) (Some ranks) (Some b)
  end.
Lemma rd_end (t o : rtt) mr cs ranks : wf t -> rd_inv t o mr 0 (cs, ranks) ->
  good t cs ranks /\ round_end t (cs, ranks) = Ok (vtt t cs ranks) /\ wf (vtt t cs ranks) /\
  (forall k, 0 < k < ndims t -> nth k ranks 0 = Nat.min (nth k mr 0) (Nat.min (rk o k) (prodn (modes t k) * nth (S k) ranks 0))) /\
  exists e, forall p, vidx (bpre t) p -> p_inv t o mr 0 cs ranks (e p) p.
Proof.
  intros Hw Hst. pose proof (wf_d Hw) as Hd. set (d := ndims t) in *.
  destruct Hst as (vr & g & Lr & R0 & Hlo & Hhi & Hsh & _ & Hmin & He). cbn [fst snd] in *. fold d in Lr, Hhi, Hsh, Hmin.
  assert (Cl : length cs = d) by (apply (g_len _ _ _ g)). assert (Vl : length vr = S d) by (apply (g_rlen _ _ _ g)).
  assert (Evr : ranks = vr).
  { apply nth_ext with (d := 0) (d' := 0); [lia|]. intros k Hk. destruct k; [rewrite R0; symmetry; apply (g_first _ _ _ g)|].
    symmetry. apply Hhi. lia. }
  subst ranks. split; [exact g|]. unfold round_end. rewrite (nthr_nth cs 0 core0), (nthr_nth vr 0 0), (nthr_nth vr 1 0) by lia. cbn [bind]. rewrite core_modes_eq by auto.
  destruct (g_core _ _ _ g 0 Hd) as [Wl Sl].
  rewrite reshape_exact by (unfold size; rewrite Sl; reflexivity). cbn [bind].
  set (lc := RT _ (data (nth 0 cs core0))).
  assert (Hcs : upd 0 lc cs = cores (vtt t cs vr)).
  { unfold vtt. cbn [cores]. apply nth_ext with (d := core0) (d' := core0); [rewrite length_upd, map_length, seq_length; auto|].
    intros k Hk. rewrite length_upd, Cl in Hk. rewrite (nth_map_default _ _ _ 0) by (rewrite seq_length; auto).
    rewrite seq_nth by auto. cbn [Nat.add]. unfold vcore.
    destruct (Nat.eq_dec k 0) as [->|Hne].
    - rewrite nth_upd_same by lia. reflexivity.
    - rewrite nth_upd_other by lia. rewrite <- Hsh by lia. now destruct (nth k cs core0). }
  pose proof (good_wf t cs vr Hw g) as Wv. pose proof (construct_ranks _ Wv) as HT.
  rewrite Hcs. change (rshape (vtt t cs vr)) with (rshape t) in HT. change (bsz (vtt t cs vr)) with (bsz t) in HT.
  change (rks (vtt t cs vr)) with vr in HT. rewrite HT. split; [reflexivity|]. split; [exact Wv|]. split; [exact Hmin|exact He].
Qed.

(** Also with the exact ranks: [q] are those left by the orthogonalization. *)
Lemma round_ok_ranks qr svd (t : rtt) a eps mr : qr_ok qr -> svd_ok svd -> wf t ->
  parse_ranks (is_batch t) a eps (ndims t) = Ok mr ->
  exists z, round qr svd t a eps = Ok z /\ wf z /\ rshape z = rshape t /\ bsz z = bsz t /\ ndims z = ndims t /\
    (exists q : nat -> nat, q 0 = 1 /\ (forall k, S k < ndims t -> q (S k) = Nat.min (q k * prodn (modes t k)) (rk t (S k))) /\
      forall k, 0 < k < ndims t -> rk z k = Nat.min (nth k mr 0) (Nat.min (q k) (prodn (modes t k) * rk z (S k)))) /\
    forall p, vidx (bpre t) p -> exists e,
      rj (map (modes t) (seq 0 (ndims t))) (fun J => (tt_entry t p J - tt_entry z p J) * (tt_entry t p J - tt_entry z p J))%R =
        rsum (ndims t - 1) (fun x => e (S x)) /\
      forall k, 0 < k < ndims t -> (0 <= e k)%R /\
        forall q P Z, q <= nth k mr 0 -> (e k <= cut_dist t (tt_entry t p) k q P Z)%R.
Proof.
  intros Hqr Hsvd Hw Hp. destruct (parse_ranks_ok _ _ _ _ _ Hp) as [Hmr Hmp].
  destruct (orth_ok qr t true Hqr Hw ltac:(discriminate)) as (o & Eo & Wo & Ro & Bo & Do & Ent & Hl & _).
  destruct (Hl eq_refl) as [Ko Orth]. clear Hl. pose proof (wf_d Hw) as Hd. set (d := ndims t) in *.
  unfold round. cbv zeta. fold d. rewrite Hp. cbn [bind]. rewrite Eo. cbn [bind]. fold (bpre t).
  destruct (foldM_rev_seq1 (round_step svd (bpre t) t mr) (rd_inv t o mr) (d - 1) (cores o, repeat 1 (S d))) as (st & Est & Hst).
  - now apply rd_start.
  - intros i s Hi Hs. destruct i as [|i']; [lia|]. rewrite Nat.sub_succ, Nat.sub_0_r. apply rd_step; auto; fold d; try lia; congruence.
  - rewrite Est. cbn [bind]. destruct st as [cs vr]. destruct (rd_end t o mr cs vr Hw Hst) as (g & Ez & Wv & Hmin & e & He).
    exists (vtt t cs vr). split; [exact Ez|]. split; [exact Wv|]. split; [reflexivity|]. split; [reflexivity|]. split; [apply vtt_ndims|].
    split.
    { exists (rk o). split; [apply (wf_first Wo)|]. split; [intros k Hk; rewrite (Ko k) by lia; reflexivity|].
      intros k Hk. exact (Hmin k Hk). }
    intros p Hpp. exists (e p). destruct (He p Hpp) as (_ & _ & HE & HB).
    assert (EA : forall J, vjdx (map (modes t) (seq 0 d)) J -> A o p J = tt_entry t p J).
    { intros J HJ. apply vjdx_seq in HJ as [V1 V2]. now apply Ent. }
    split.
    + rewrite Nat.sub_0_r in HE. fold d in HE. etransitivity; [|exact HE]. apply rj_ext. intros J HJ. rewrite EA by auto. reflexivity.
    + intros k Hk. destruct (HB k Hk) as [B1 B2]. split; [exact B1|]. intros q P Z Hq. eapply Rle_trans; [apply (B2 q P Z Hq)|].
      apply Req_le. unfold cut_dist. fold d. apply rj_ext. intros J1 H1. apply rj_ext. intros J2 H2.
      rewrite EA; [reflexivity|]. replace (seq 0 d) with (seq 0 k ++ seq k (d - k)).
      * rewrite map_app. now apply Forall2_app.
      * rewrite <- seq_app. f_equal. lia.
Qed.

Lemma round_ok qr svd (t : rtt) a eps mr : qr_ok qr -> svd_ok svd -> wf t ->
  parse_ranks (is_batch t) a eps (ndims t) = Ok mr ->
  exists z, round qr svd t a eps = Ok z /\ wf z /\ rshape z = rshape t /\ bsz z = bsz t /\ ndims z = ndims t /\
    (forall k, 0 < k < ndims t -> rk z k <= nth k mr 0 /\ rk z k <= rk t k) /\
    forall p, vidx (bpre t) p -> exists e,
      rj (map (modes t) (seq 0 (ndims t))) (fun J => (tt_entry t p J - tt_entry z p J) * (tt_entry t p J - tt_entry z p J))%R =
        rsum (ndims t - 1) (fun x => e (S x)) /\
      forall k, 0 < k < ndims t -> (0 <= e k)%R /\
        forall q P Z, q <= nth k mr 0 -> (e k <= cut_dist t (tt_entry t p) k q P Z)%R.
Proof.
  intros Hqr Hsvd Hw Hp. destruct (round_ok_ranks qr svd t a eps mr Hqr Hsvd Hw Hp) as (z & Ez & Wz & Rz & Bz & Dz & (q & _ & Q1 & Q2) & H).
  exists z. do 5 (split; [assumption|]). split; [|exact H]. intros k Hk. rewrite (Q2 k Hk). destruct k as [|k]; [lia|]. rewrite (Q1 k) by lia. lia.
Qed.
