(** Right-to-left orthogonalization with an inexact QR decomposition: the sweep from left to right of
    the train with the cores in reverse order. *)
From Coq Require Import String Ascii List Arith ZArith Lia Lra Bool Ring Reals.
From Verif Require Import Scalar Tensor TensorLemmas TensorLemmas2 Base Spec Chain BaseLemmas Ops
  FullProofs ResultLemmas Dense AddProofs MulProofs MatmulProofs DenseMatmul Sweep FlatProofs NormProofs OpsR ScaleProofs
  Decomp DecompSpec GaugeProofs OrthProofs OrthNorm QRExists Trunc TruncChain SvdSpec RoundProofs RoundThms TTSvdStep FMat NearStep NearChain NearTrain NearSpec QRNearSpec QRNear.
Import ListNotations.
Local Open Scope nat_scope.
Local Notation get := (@get Rring).
Local Notation RT := (@Tensor Rring).
Local Notation core0 := (core0 Rring).
Add Ring Rring'' : (cth Rring).

(** ** Trains in reverse order *)
Definition grev (d : nat) (G : nat -> nat -> list nat -> nat -> R) : nat -> nat -> list nat -> nat -> R := fun k a j b => G (d - 1 - k) b j a.
Definition rrev (d : nat) (r : nat -> nat) : nat -> nat := fun k => r (d - k).
Definition mrev (d : nat) (ms : nat -> list nat) : nat -> list nat := fun k => ms (d - 1 - k).

Lemma lvec_rev d (G : nat -> nat -> list nat -> nat -> R) r : r d = 1 -> (forall k, k <= d -> 0 < r k) -> forall J b, length J <= d -> b < r (d - length J) ->
  lvec (grev d G) (rrev d r) J b = rvec G r (d - length J) (rev J) b.
Proof.
  intros Rd HP J. induction J as [|j J IH] using rev_ind; intros b HL Hb.
  - cbn [length rev] in *. rewrite Nat.sub_0_r in *. rewrite Rd in Hb. assert (b = 0) by lia. subst. reflexivity.
  - rewrite app_length in *. cbn [length] in *. rewrite rev_app_distr. cbn [rev app].
    rewrite lvec_snoc; [|unfold rrev; rewrite Nat.sub_0_r, Rd; lia|unfold rrev; replace (d - S (length J)) with (d - (length J + 1)) by lia; exact Hb].
    unfold rvec. rewrite rchain_cons. replace (S (d - (length J + 1))) with (d - length J) by lia. unfold rrev at 1. apply rsum_ext. intros a Ha.
    rewrite IH by (auto; lia). unfold grev, rvec. replace (d - 1 - length J) with (d - (length J + 1)) by lia. ring.
Qed.
Lemma chain_rev d (G : nat -> nat -> list nat -> nat -> R) r J : r 0 = 1 -> r d = 1 -> (forall k, k <= d -> 0 < r k) -> length J = d ->
  rchain (grev d G) (rrev d r) 0 J (fun _ => 1%R) 0 = rchain G r 0 (rev J) (fun _ => 1%R) 0.
Proof.
  intros R0 Rd HP L. transitivity (lvec (grev d G) (rrev d r) J 0).
  - unfold lvec. rewrite (lv_last Rring); [reflexivity| |]; unfold rrev; [now rewrite L, Nat.sub_diag|rewrite Nat.sub_0_r, Rd; lia].
  - rewrite lvec_rev by (auto; rewrite ?L, ?Nat.sub_diag, ?R0; lia). rewrite L, Nat.sub_diag. reflexivity.
Qed.
Lemma rei_rev X : rei (RJ (rev X)) (RJ X) (@rev (list nat)).
Proof.
  intros f. rewrite !lsum_RJ. revert f. induction X as [|m X IH]; intros f; [reflexivity|].
  cbn [rev]. rewrite rj_app, rj_cons, <- rj_ri_swap. rewrite IH. apply rj_ext. intros J _. rewrite rj_cons. apply ri_ext. intros j _. reflexivity.
Qed.
Lemma mrev_seq d ms : map (mrev d ms) (seq 0 d) = rev (map ms (seq 0 d)).
Proof.
  apply nth_ext with (d := []) (d' := []); [now rewrite rev_length, !map_length|]. intros k Hk. rewrite map_length, seq_length in Hk.
  rewrite rev_nth by (now rewrite map_length, seq_length). rewrite map_length, seq_length.
  rewrite !(nth_map_default _ _ _ 0) by (rewrite seq_length; lia). rewrite !seq_nth by lia. unfold mrev. f_equal. lia.
Qed.
Lemma nrm_rev d ms f : nrm (RJ (map (mrev d ms) (seq 0 d))) f = nrm (RJ (map ms (seq 0 d))) (fun J => f (rev J)).
Proof. rewrite mrev_seq. apply rei_nrm, rei_rev. Qed.

(** Columns of the matrix view of a core, as rows of the reversed core. *)
Lemma sum_cols_view r ms (h : nat -> R) :
  lsum (list_prod (seq 0 r) (RI ms)) (fun p => h (ravel ms (snd p) * r + fst p)%nat) = rsum (prodn ms * r) h.
Proof.
  rewrite lsum_prod, lsum_seq. rewrite (rsum_ext r _ (fun b => rsum (prodn ms) (fun q => h (q * r + b)%nat))).
  2:{ intros b _. rewrite lsum_RI. unfold ri, rsum. cbn [fst snd]. now rewrite (sumn_ravel Rring). }
  rewrite rsum_swap. unfold rsum at 3. rewrite (sumn_prod Rring). reflexivity.
Qed.
Lemma mnorm_cview r ms n (f : nat -> nat -> R) :
  frob (list_prod (seq 0 r) (RI ms)) (seq 0 n) (fun p b => f (ravel ms (snd p) * r + fst p)%nat b) = mnorm (prodn ms * r) n f.
Proof.
  rewrite frob_sqrt. unfold mnorm. f_equal. unfold frob2.
  rewrite (lsum_ext _ _ (fun p => rsum n (fun w => f (ravel ms (snd p) * r + fst p)%nat w * f (ravel ms (snd p) * r + fst p)%nat w)%R)) by (intros; now rewrite lsum_seq).
  rewrite (sum_cols_view r ms (fun q => rsum n (fun w => f q w * f q w)%R)). reflexivity.
Qed.

Section RL.
Variable de : R.
Hypothesis Hde : (0 <= de)%R.
Variable qr : rtensor -> rtensor * rtensor.
Hypothesis Hqr : qr_near de qr.
Variable t : rtt.
Hypothesis Hw : wf t.
Hypothesis Hb : bsz t = None.
Let d := ndims t.

Definition rln_at (cs : list rtensor) (ranks : list nat) (Q : nat -> nat -> list nat -> nat -> R) (i : nat) : Prop :=
  lrn (mrev d (modes t)) d de (grev d (coreG t [])) (rrev d (rk t)) (grev d (coreG (vtt t cs ranks) [])) (rrev d (fun k => nth k ranks 0)) Q (d - 1 - i).

Definition rl_ninv (i : nat) (st : list rtensor * nat) : Prop := exists ranks,
  good t (fst st) ranks /\ nth (S i) ranks 0 = snd st /\
  (forall k, k <= i -> nth k ranks 0 = rk t k) /\
  (forall k, i < k < d -> shape (nth k (fst st) core0) = vshape t ranks k) /\
  (forall k, i < k < d -> nth k ranks 0 = Nat.min (rk t k) (prodn (modes t k) * nth (S k) ranks 0)) /\
  exists Q, rln_at (fst st) ranks Q i.

Lemma rl_nstep i' st : S i' < d -> rl_ninv (S i') st -> exists st', orth_rl_step qr t (S i') st = Ok st' /\ rl_ninv i' st'.
Proof.
  intros Hi (ranks & g & Hr & Hrest & Hsh & Hmin & Q & LN). destruct st as [cs r]. cbn [fst snd] in *. subst r.
  pose proof (wf_d Hw) as Hd. pose proof (bpre_nil t Hb) as Bn.
  assert (Hi' : i' < d) by lia. set (i := S i') in *.
  pose proof (good_nth _ _ _ i' g ltac:(fold d; lia)) as P0. pose proof (good_nth _ _ _ i g ltac:(fold d; lia)) as P1.
  pose proof (good_nth _ _ _ (S i) g ltac:(fold d; lia)) as P2.
  pose proof (modes_prod_pos t i' Hw Hi') as Pm. pose proof (modes_prod_pos t i Hw Hi) as Pm1.
  unfold orth_rl_step, lazy_tt_ranks. rewrite core_modes_eq by auto.
  rewrite (nthr_nth cs i core0) by (rewrite (g_len _ _ _ g); exact Hi). cbn [bind].
  rewrite (nthr_nth (rks t) i 0) by (rewrite (wf_klen Hw); fold d; lia). cbn [bind]. cbv zeta.
  change (nth i (rks t) 0) with (rk t i). rewrite <- (Hrest i) by lia.
  set (r0 := nth i' ranks 0) in *. set (r1 := nth i ranks 0) in *. set (r2 := nth (S i) ranks 0) in *.
  destruct (g_core _ _ _ g i Hi) as [Wc Sc]. destruct (g_core _ _ _ g i' Hi') as [Wn Sn].
  unfold vshape in Sc, Sn. fold i in Sc, Sn. fold r0 r1 r2 in Sc, Sn. rewrite Bn in Sc, Sn. cbn [app] in Sc, Sn.
  set (c := nth i cs core0) in *. set (nc := nth i' cs core0) in *.
  rewrite reshape_exact. 2:{ unfold size. rewrite Sc. pns. lia. }
  cbn [bind]. set (m := RT ([] ++ [r1; prodn (modes t i) * r2]) (data c)). change (RT [r1; prodn (modes t i) * r2] (data c)) with m.
  assert (Wm : wft m). { apply (wft_reshaped Rring c); auto. rewrite Sc. cbn [app]. pns. lia. }
  destruct (swap_last_ok [] m r1 (prodn (modes t i) * r2) ltac:(cbn; lia) Wm eq_refl) as (mt & Emt & Wmt & Smt & Gmt).
  rewrite Emt. cbn [bind].
  pose proof (Hqr [] (prodn (modes t i) * r2) r1 mt Wmt Smt ltac:(cbn [app]; repeat constructor; nia)) as HQ0.
  destruct (qr mt) as [q rr]. destruct HQ0 as (Wq & Sq & Wr & Sr & HQ). cbv zeta in *. set (k := Nat.min (prodn (modes t i) * r2) r1) in *.
  assert (Pk : 0 < k) by (unfold k; nia).
  destruct (swap_last_ok [] q _ _ ltac:(cbn; lia) Wq Sq) as (qt & Eqt & Wqt & Sqt & Gqt). rewrite Eqt. cbn [bind].
  destruct (swap_last_ok [] rr _ _ ltac:(cbn; lia) Wr Sr) as (rt & Ert & Wrt & Srt & Grt). rewrite Ert. cbn [bind].
  rewrite Srt. cbn [app].
  change (nthr [r1; k] 1) with (Ok (A := nat) k). change (nthr [r1; k] 0) with (Ok (A := nat) r1). cbn [bind].
  rewrite reshape_exact. 2:{ unfold size. rewrite Sqt. cbn [app]. pns. lia. }
  cbn [bind]. set (q' := RT (k :: modes t i ++ [r2]) (data qt)).
  replace (i - 1) with i' by (unfold i; lia).
  rewrite (nthr_nth _ i' core0) by (rewrite length_upd, (g_len _ _ _ g); exact Hi'). cbn [bind].
  rewrite nth_upd_other by (unfold i; lia). fold nc.
  change [None; Some r1] with (map Some [] ++ None :: map Some [r1]).
  rewrite (reshape_infer _ _ _ _ (r0 * prodn (modes t i'))).
  2:{ pns. nia. } 2:{ pns. lia. } 2:{ unfold size. rewrite Sn. pns. lia. }
  cbn [bind app]. set (n2 := RT ([] ++ [r0 * prodn (modes t i'); r1]) (data nc)).
  change (RT [r0 * prodn (modes t i'); r1] (data nc)) with n2.
  destruct (matmul_pre n2 rt [] (r0 * prodn (modes t i')) r1 k ltac:(cbn; lia) eq_refl Srt) as (y & Ey & Wy & Sy & Gy).
  rewrite Ey. cbn [bind]. eexists. split; [reflexivity|].
  exists (upd i k ranks). cbn [fst snd].
  assert (Rl : i < length ranks) by (rewrite (g_rlen _ _ _ g); fold d; lia).
  assert (Cl : length cs = d) by (apply (g_len _ _ _ g)).
  rewrite upd_comm by (unfold i; lia).
  split.
  { unfold i. apply good_upd; auto; fold i; fold r0 r2; rewrite ?Bn; cbn [app].
    - rewrite Sy. cbn [app]. pns. lia.
    - apply (wft_reshaped Rring qt); auto. rewrite Sqt. cbn [app]. pns. lia.
    - unfold q'. cbn [shape]. reflexivity. }
  split; [now apply nth_upd_same|]. split.
  { intros k' Hk'. rewrite nth_upd_other by (unfold i; lia). apply Hrest. lia. }
  split.
  { intros k' Hk'. destruct (Nat.eq_dec k' i) as [->|Hne].
    - rewrite nth_upd_same by (rewrite length_upd; lia). unfold vshape. rewrite nth_upd_same by lia. rewrite nth_upd_other by lia.
      rewrite Bn. reflexivity.
    - rewrite !nth_upd_other by lia. rewrite Hsh by lia. unfold vshape. now rewrite !nth_upd_other by lia. }
  split.
  { intros k' Hk'. destruct (Nat.eq_dec k' i) as [->|Hne].
    - rewrite nth_upd_same by lia. rewrite nth_upd_other by lia. fold r2. rewrite <- (Hrest i) by lia. fold r1. unfold k. lia.
    - rewrite !nth_upd_other by lia. apply Hmin. lia. }
  assert (Vn : vidx ([] : list nat) []) by constructor.
  destruct (HQ [] Vn) as (xq & qq & X1 & X2 & X3 & X4).
  unfold rln_at in *. set (i0 := d - 1 - i) in *.
  assert (E0 : d - 1 - i' = S i0) by (unfold i0, i in *; lia). assert (E1 : d - 1 - i0 = i) by (unfold i0; lia). assert (E2 : d - 1 - S i0 = i') by (unfold i0, i in *; lia).
  assert (E3 : d - S i0 = i) by (unfold i0; lia). assert (E4 : d - i0 = S i) by (unfold i0; lia). assert (E5 : d - S (S i0) = i') by (unfold i0, i in *; lia).
  rewrite E0.
  exists (gset Q i0 (fun b j l => qq (ravel (modes t i) j * r2 + b)%nat l)).
  assert (KS : nth i (upd i k ranks) 0 = k) by now apply nth_upd_same.
  assert (KO : forall k', k' <> i -> nth k' (upd i k ranks) 0 = nth k' ranks 0) by (intros; now apply nth_upd_other).
  assert (GM : forall a j b, a < r1 -> vidx (modes t i) j -> b < r2 -> coreG (vtt t cs ranks) [] i a j b = get mt [(ravel (modes t i) j * r2 + b)%nat; a]).
  { intros a j b Ha Hj Hb'. rewrite vtt_coreG by auto. unfold vcore, vshape. fold r1 r2 c. rewrite Bn. pose proof (vidx_length _ _ Hj) as Lj.
    pose proof (rview [] [] r1 (modes t i) r2 (data c) a j b eq_refl Lj) as V. cbn [app] in V |- *. rewrite V.
    change (RT [r1; prodn (modes t i) * r2] (data c)) with m. symmetry. apply (Gmt [] a _ Vn Ha). apply rview_lt; auto. }
  assert (MN : mnorm (prodn (modes t i) * r2) r1 (fun i j => get mt [i; j]) = gnorm (mrev d (modes t)) (rrev d (fun k => nth k ranks 0)) (grev d (coreG (vtt t cs ranks) [])) i0).
  { rewrite <- mnorm_cview. unfold gnorm, grows, rrev, mrev. rewrite E1, E3, E4. fold r1 r2. apply frob_ext. intros [b j] a Hq Ha. apply in_prod_iff in Hq as [Hb' Hj]. apply in_seq in Ha, Hb'. apply in_RI in Hj.
    unfold gmat, grev. cbn [fst snd]. rewrite E1. symmetry. apply GM; auto; lia. }
  apply (lrn_step _ d de _ _ (grev d (coreG (vtt t cs ranks) [])) (rrev d (fun k => nth k ranks 0)) Q i0 _ _ _ (fun l b => get rr [l; b])); auto.
  - unfold i0, i in *. lia.
  - unfold rrev. rewrite Nat.sub_0_r. apply (g_last _ _ _ g).
  - unfold rrev. rewrite Nat.sub_diag. apply (g_first _ _ _ g).
  - intros k' Hk'. unfold rrev. destruct (Nat.eq_dec (d - k') i) as [E|Hne]; [|now apply KO]. exfalso. unfold i0, i in *. lia.
  - intros m' Hm'. unfold rrev. apply (good_nth _ _ _ _ g). fold d. lia.
  - intros k' a j b Hk' N1 N2 Ha Hb' Hj. unfold grev. rewrite !vtt_coreG by (fold d; lia). unfold vcore, vshape.
    assert (d - 1 - k' <> i) by (unfold i0 in *; lia). assert (d - 1 - k' <> i') by (unfold i0, i in *; lia). assert (S (d - 1 - k') <> i) by (unfold i0, i in *; lia).
    rewrite !KO by auto. now rewrite !nth_upd_other by auto.
  - unfold rrev, mrev. rewrite E2, E3, E5. rewrite KS. fold r0 r1. intros l j a Hl Hj Ha. unfold grev. rewrite E2. rewrite vtt_coreG by auto. unfold vcore, vshape. fold i. rewrite KS, KO by (unfold i; lia). fold r0.
    rewrite nth_upd_other by (unfold i; lia). rewrite nth_upd_same by (rewrite Cl; exact Hi').
    pose proof (vidx_length _ _ Hj) as Lj. rewrite Bn. pose proof (lview [] [] r0 (modes t i') k (data y) a j l eq_refl Lj) as V. cbn [app] in V |- *. rewrite V.
    replace (RT [r0 * prodn (modes t i'); k] (data y)) with y by (cbn [app] in Sy; rewrite <- Sy; now destruct y).
    pose proof (Gy [] _ l Vn (lview_lt _ _ _ _ Ha Hj) Hl) as G1. cbn [app] in G1. rewrite G1. apply rsum_ext. intros b Hb'.
    pose proof (Grt [] l b Vn Hl Hb') as G3. cbn [app] in G3. rewrite G3.
    rewrite vtt_coreG by auto. unfold vcore, vshape. fold i. fold r0 r1 nc. rewrite Bn.
    pose proof (lview [] [] r0 (modes t i') r1 (data nc) a j b eq_refl Lj) as V2. cbn [app] in V2 |- *. rewrite V2.
    change (RT [r0 * prodn (modes t i'); r1] (data nc)) with n2. rewrite Rmult_comm. reflexivity.
  - unfold rrev, grows, mrev. rewrite E1, E3, E4, KS. fold r2. intros l l' Hl Hl'. rewrite <- (X2 l l' Hl Hl').
    apply (sum_cols_view r2 (modes t i) (fun q => qq q l * qq q l')%R).
  - rewrite <- MN. eapply Rle_trans; [|exact X3]. apply Req_le. rewrite <- mnorm_cview. unfold rrev, grows, mrev. rewrite E1, E3, E4, KS. fold r1 r2. apply frob_ext.
    intros [b j] a Hq Ha. apply in_prod_iff in Hq as [Hb' Hj]. apply in_seq in Ha, Hb'. apply in_RI in Hj. cbn [fst snd]. unfold gmat, grev. cbn [fst snd]. rewrite E1.
    rewrite GM by (auto; lia). f_equal. rewrite X1 by (try lia; apply rview_lt; auto; lia). reflexivity.
  - eapply Rle_trans; [|exact X4]. apply Req_le. rewrite <- mnorm_cview. unfold rrev, grows, mrev. rewrite E1, E3, E4, KS. fold r2. apply frob_ext.
    intros [b j] l Hq Hl. apply in_prod_iff in Hq as [Hb' Hj]. apply in_seq in Hl, Hb'. apply in_RI in Hj. cbn [fst snd]. unfold gmat, grev. cbn [fst snd]. rewrite E1.
    f_equal. rewrite vtt_coreG by auto. unfold vcore, vshape. rewrite KS, KO by lia. fold r2. rewrite nth_upd_same by (rewrite length_upd; lia).
    pose proof (vidx_length _ _ Hj) as Lj. rewrite Bn. unfold q'. cbn [data]. pose proof (rview [] [] k (modes t i) r2 (data qt) l j b eq_refl Lj) as V. cbn [app] in V |- *. rewrite V.
    replace (RT [k; prodn (modes t i) * r2] (data qt)) with qt by (cbn [app] in Sqt; rewrite <- Sqt; now destruct qt).
    apply (Gqt [] _ l Vn); [apply rview_lt; auto; lia|lia].
Qed.

Lemma orth_rl_near : exists o Q, orth_rl qr t = Ok o /\ wf o /\ rshape o = rshape t /\ bsz o = bsz t /\ ndims o = d /\
  (forall k, 0 < k < d -> rk o k = Nat.min (rk t k) (prodn (modes t k) * rk o (S k))) /\
  lrn (mrev d (modes t)) d de (grev d (coreG t [])) (rrev d (rk t)) (grev d (coreG o [])) (rrev d (rk o)) Q (d - 1).
Proof.
  pose proof (wf_d Hw) as Hd. fold d in Hd. pose proof (bpre_nil t Hb) as Bn.
  unfold orth_rl, lazy_tt_ranks. rewrite (nthr_nth (rks t) (ndims t) 0) by (rewrite (wf_klen Hw); lia). cbn [bind].
  change (nth (ndims t) (rks t) 0) with (rk t d). fold d.
  destruct (foldM_rev_seq1 (orth_rl_step qr t) rl_ninv (d - 1) (cores t, rk t d)) as (st & Est & Hst).
  - exists (rks t). cbn [fst snd]. split; [now apply good_init|]. split; [replace (S (d - 1)) with d by lia; reflexivity|].
    split; [reflexivity|]. split; [intros; lia|]. split; [intros; lia|]. exists (fun _ _ _ _ => 0%R). unfold rln_at. rewrite vtt_init by auto. rewrite Nat.sub_diag. apply lrn_init.
  - intros i s Hi Hs. destruct i as [|i']; [lia|]. rewrite Nat.sub_succ, Nat.sub_0_r. apply rl_nstep; auto. lia.
  - rewrite Est. cbn [bind].
    destruct st as [cs r]. destruct Hst as (ranks & g & Hr & Hrest & Hsh & Hmin & Q & LN). cbn [fst snd] in *.
    assert (Cl : length cs = d) by (apply (g_len _ _ _ g)).
    rewrite (nthr_nth cs 0 core0) by lia. cbn [bind]. rewrite core_modes_eq by auto.
    destruct (g_core _ _ _ g 0 Hd) as [Wl Sl]. unfold vshape in Sl. rewrite Bn, Hr, (g_first _ _ _ g) in Sl. cbn [app] in Sl.
    rewrite reshape_exact by (unfold size; now rewrite Sl). cbn [bind].
    set (lc := RT _ (data (nth 0 cs core0))).
    assert (Hcs : upd 0 lc cs = cores (vtt t cs ranks)).
    { unfold vtt. cbn [cores]. apply nth_ext with (d := core0) (d' := core0); [now rewrite length_upd, map_length, seq_length|].
      intros k Hk. rewrite length_upd, Cl in Hk. rewrite (nth_map_default _ _ _ 0) by (now rewrite seq_length).
      rewrite seq_nth by auto. cbn [Nat.add]. unfold vcore.
      destruct (Nat.eq_dec k 0) as [->|Hne].
      - rewrite nth_upd_same by lia. unfold lc. f_equal. unfold vshape. now rewrite Hr, Bn, (g_first _ _ _ g).
      - rewrite nth_upd_other by lia. rewrite <- Hsh by lia. now destruct (nth k cs core0). }
    pose proof (good_wf t cs ranks Hw g) as Wv. pose proof (construct_infer _ Wv) as HT.
    change (bpre (vtt t cs ranks)) with (bpre t) in HT. rewrite Bn in HT.
    exists (vtt t cs ranks), Q. rewrite Hcs. change (rshape t) with (rshape (vtt t cs ranks)) at 1. rewrite HT.
    split; [reflexivity|]. split; [exact Wv|]. split; [reflexivity|]. split; [reflexivity|].
    split; [apply vtt_ndims|]. split; [exact Hmin|]. unfold rln_at in LN. rewrite Nat.sub_0_r in LN. exact LN.
Qed.

Lemma gnorm_rev (s : rtt) k : k < d -> gnorm (mrev d (modes s)) (rrev d (rk s)) (grev d (coreG s [])) k = gnorm (modes s) (rk s) (coreG s []) (d - 1 - k).
Proof.
  intros Hk. rewrite gnorm_rows. unfold gnorm, grows, rrev, mrev, gmat, grev. replace (d - S k) with (d - 1 - k) by lia. replace (S (d - 1 - k)) with (d - k) by lia.
  rewrite !frob_sqrt. f_equal. unfold frob2. rewrite lsum_prod, !lsum_seq.
  rewrite (rsum_ext (rk s (d - k)) _ (fun b => rsum (rk s (d - 1 - k)) (fun a => lsum (RI (modes s (d - 1 - k))) (fun j => coreG s [] (d - 1 - k) a j b * coreG s [] (d - 1 - k) a j b)%R))).
  2:{ intros b _. rewrite lsum_prod. rewrite (lsum_ext _ _ (fun j => rsum (rk s (d - 1 - k)) (fun a => coreG s [] (d - 1 - k) a j b * coreG s [] (d - 1 - k) a j b)%R)) by (intros; now rewrite lsum_seq). now rewrite lsum_rsum. }
  rewrite rsum_swap. apply rsum_ext. intros a _.
  rewrite (lsum_ext (RI (modes s (d - 1 - k))) (fun b => lsum (seq 0 (rk s (d - k))) _) (fun j => rsum (rk s (d - k)) (fun b => coreG s [] (d - 1 - k) a j b * coreG s [] (d - 1 - k) a j b)%R)) by (intros; now rewrite lsum_seq).
  now rewrite lsum_rsum.
Qed.
Lemma rprod_rev f n : rprod (fun k => f (n - 1 - k)) 0 n = rprod f 0 n.
Proof.
  induction n as [|n IH]; [reflexivity|]. rewrite (rprod_snoc f). cbn [Nat.add]. rewrite <- IH.
  change (rprod (fun k => f (S n - 1 - k)) 0 (S n)) with (Rmult (f (S n - 1 - 0)) (rprod (fun k => f (S n - 1 - k)) 1 n)). replace (S n - 1 - 0) with n by lia.
  rewrite Rmult_comm. f_equal. clear IH.
  assert (H : forall m k, rprod (fun j => f (S n - 1 - j)) (S k) m = rprod (fun j => f (n - 1 - j)) k m).
  { intros m. induction m as [|m IHm]; intros k0; cbn [rprod]; [reflexivity|]. rewrite IHm. do 2 f_equal. lia. }
  apply H.
Qed.

Lemma near_orthogonalize_rl : exists o dt dd, orthogonalize_tt_cores qr t false = Ok o /\ wf o /\ rshape o = rshape t /\ bsz o = bsz t /\ ndims o = d /\
  (forall k, 0 < k < d -> rk o k = Nat.min (rk t k) (prodn (modes t k) * rk o (S k))) /\
  full t = Ok dt /\ full o = Ok dd /\
  (dist_at (ishape t) dt dd [] <= ((1 + de) ^ (2 * (d - 1)) - 1) * cores_norm t [])%R /\
  (Rabs (core_norm o [] 0 - norm_at (ishape t) dt []) <= ((1 + de) ^ (d - 1) - 1) * cores_norm t [])%R /\
  forall k, 0 < k < d -> exists f, orthonormal_core_right o k f /\ (core_dist o [] k f <= de)%R.
Proof.
  pose proof (wf_d Hw) as Hd. fold d in Hd. pose proof (bpre_nil t Hb) as Bn.
  destruct orth_rl_near as (o & Q & Eo & Wo & Ro & Bo & Do & Ko & L).
  destruct (full_correct Rring t Hw) as (dt & Fd & _). destruct (full_correct Rring o Wo) as (dd & Fo & _).
  exists o, dt, dd. split; [unfold orthogonalize_tt_cores; rewrite Hb; exact Eo|]. do 7 (split; [assumption|]).
  assert (Em : forall k, modes o k = modes t k) by (intros; unfold modes; now rewrite Ro).
  assert (Pk : forall m, m <= d -> 0 < rk o m) by (intros; apply rk_pos; auto; lia).
  assert (Pt : forall m, m <= d -> 0 < rk t m) by (intros; apply rk_pos; auto).
  assert (Fo0 : rk o 0 = 1) by apply (wf_first Wo). assert (Fo1 : rk o d = 1) by (rewrite <- Do; apply (wf_last Wo)).
  assert (Ft0 : rk t 0 = 1) by apply (wf_first Hw). assert (Ft1 : rk t d = 1) by apply (wf_last Hw).
  assert (E1 : d = S (d - 1)) by lia.
  assert (E2 : rrev d (rk o) 0 = 1) by (unfold rrev; now rewrite Nat.sub_0_r). assert (E3 : rrev d (rk o) d = 1) by (unfold rrev; now rewrite Nat.sub_diag).
  assert (Pr : forall m, m <= d -> 0 < rrev d (rk o) m) by (intros; unfold rrev; apply Pk; lia).
  assert (Vn : vidx (bpre t) []) by (rewrite Bn; constructor).
  assert (CN : cores_norm t [] = rprod (gnorm (mrev d (modes t)) (rrev d (rk t)) (grev d (coreG t []))) 0 d).
  { rewrite cores_norm_rprod. fold d. rewrite <- rprod_rev. apply rprod_ext. intros k Hk. symmetry. apply gnorm_rev. lia. }
  assert (CR : forall J, In J (RJ (map (modes t) (seq 0 d))) -> rchain (grev d (coreG o [])) (rrev d (rk o)) 0 (rev J) (fun _ => 1%R) 0 = rchain (coreG o []) (rk o) 0 J (fun _ => 1%R) 0 /\
    rchain (grev d (coreG t [])) (rrev d (rk t)) 0 (rev J) (fun _ => 1%R) 0 = rchain (coreG t []) (rk t) 0 J (fun _ => 1%R) 0).
  { intros J HJ. apply in_RJ, vjdx_length in HJ. rewrite map_length, seq_length in HJ. rewrite !chain_rev by (auto; now rewrite rev_length). now rewrite rev_involutive. }
  split; [|split].
  - rewrite (dist_at_entries t o dt dd []) by auto. rewrite CN. fold d.
    pose proof (done_dist _ _ _ de _ _ _ _ Q Hde E1 E2 E3 Pr L) as B. rewrite nrm_rev in B. eapply Rle_trans; [|exact B]. apply Req_le, nrm_ext. intros J HJ. destruct (CR J HJ) as [-> ->]. reflexivity.
  - rewrite (norm_at_entries t dt []) by auto. rewrite CN. fold d.
    pose proof (done_frobenius _ _ _ de _ _ _ _ Q E1 E2 E3 Pr L) as B. rewrite nrm_rev in B.
    replace (core_norm o [] 0) with (gnorm (mrev d (modes t)) (rrev d (rk o)) (grev d (coreG o [])) (d - 1)).
    2:{ rewrite <- gnorm_core. replace 0 with (d - 1 - (d - 1)) at 2 by lia. rewrite <- gnorm_rev by lia. unfold gnorm, grows, mrev. now rewrite Em. }
    eapply Rle_trans; [|exact B]. apply Req_le. do 2 f_equal. apply nrm_ext. intros J HJ. symmetry. apply (CR J HJ).
  - intros k Hk. assert (Hk' : d - 1 - k < d - 1) by lia.
    assert (A1 : d - (d - 1 - k) = S k) by lia. assert (A2 : d - S (d - 1 - k) = k) by lia. assert (A3 : d - 1 - (d - 1 - k) = k) by lia.
    set (kk := d - 1 - k) in *.
    exists (fun x => Q kk (last x 0) (removelast (tl x)) (nth 0 x 0)). split.
    + intros a a' Ha Ha'. pose proof (ln_orth _ _ _ _ _ _ _ _ _ L kk Hk' a a') as O. unfold rrev, grows, mrev in O. rewrite A1, A2, A3 in O. rewrite <- (O Ha Ha').
      rewrite lsum_prod, lsum_seq, (isum_app Rring), Em. rewrite (rsum_ext (rk o (S k)) _ (fun b => ri (modes t k) (fun j => Q kk b j a * Q kk b j a')%R)) by (intros; now rewrite lsum_RI).
      unfold ri, rsum. rewrite <- (isum_sumn_swap Rring). apply (isum_ext Rring). intros j _. cbn [isum]. apply (sumn_ext Rring). intros b _. cbn [nth tl]. now rewrite !last_cons_app, !removelast_last.
    + rewrite <- (gnorm_dist o [] k (fun a j b => Q kk b j a)). eapply Rle_trans; [|apply (ln_near _ _ _ _ _ _ _ _ _ L kk Hk')].
      unfold rrev, grows, mrev. rewrite A1, A2, A3, Em. apply Req_le. unfold gmat, grev. rewrite A3.
      transitivity (frob (seq 0 (rk o k)) (list_prod (RI (modes t k)) (seq 0 (rk o (S k)))) (fun a p => coreG o [] k a (fst p) (snd p) - Q kk (snd p) (fst p) a)%R); [rewrite frob_swap_rows'; reflexivity|].
      rewrite !frob_sqrt. f_equal. unfold frob2. rewrite (lsum_prod (seq 0 (rk o (S k)))), !lsum_seq.
      rewrite (rsum_ext (rk o k) _ (fun a => rsum (rk o (S k)) (fun b => lsum (RI (modes t k)) (fun j => (coreG o [] k a j b - Q kk b j a) * (coreG o [] k a j b - Q kk b j a))%R))).
      2:{ intros a _. rewrite lsum_prod. rewrite (lsum_ext _ _ (fun j => rsum (rk o (S k)) (fun b => (coreG o [] k a j b - Q kk b j a) * (coreG o [] k a j b - Q kk b j a))%R)) by (intros; now rewrite lsum_seq). now rewrite lsum_rsum. }
      rewrite rsum_swap. apply rsum_ext. intros b _.
      rewrite (lsum_ext (RI (modes t k)) (fun b0 => lsum (seq 0 (rk o k)) _) (fun j => rsum (rk o k) (fun a => (coreG o [] k a j b - Q kk b j a) * (coreG o [] k a j b - Q kk b j a))%R)) by (intros; now rewrite lsum_seq).
      now rewrite lsum_rsum.
Qed.
End RL.
