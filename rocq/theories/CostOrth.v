(** Counting: orthogonalization. *)
From Coq Require Import String Ascii List Arith ZArith Lia Bool Permutation Reals.
From Verif Require Import Scalar Tensor TensorLemmas TensorLemmas2 Base Spec Chain BaseLemmas Ops
  FullProofs ResultLemmas Dense AddProofs MulProofs MatmulProofs DenseMatmul Sweep FlatProofs ValidProofs
  OpsR Decomp DecompSpec GaugeProofs OrthProofs BatchOps Riem RiemProofs Cost CostOps CostErase CostProofs.
Import ListNotations.
Local Open Scope nat_scope.
Local Notation core0 := (core0 Rring).
Local Notation RT := (@Tensor Rring).

Section O.
Variable ec : string -> list (list nat) -> nat.
Variable c : nat.
Variable qr : rtensor -> rtensor * rtensor.
Hypothesis Hqr : qr_ok qr.

Lemma tcost_result {A} (m : tr A) (P : A -> Prop) n a : erase m = Ok a -> P a -> tcost ec c m (fun _ => True) n -> tcost ec c m P n.
Proof. destruct m as [[x l]|]; [|discriminate]. intros E Hp [_ H]. injection E as ->. split; assumption. Qed.

Lemma tcost_matmul (x y : rtensor) pre m k n : shape x = pre ++ [m; k] -> shape y = pre ++ [k; n] ->
  tcost ec c (t_matmul x y) (fun _ => True) (prodn pre * m * k * n).
Proof.
  intros Hx Hy. unfold t_matmul. destruct (matmul x y) as [r|]; [|exact I]. cbn [bind]. split; [exact I|].
  unfold total. cbn [map call_cost list_sum fold_right]. rewrite Hx, Hy.
  replace (pre ++ [m; k]) with ((pre ++ [m]) ++ [k]) by now rewrite <- app_assoc. rewrite removelast_last, last_last.
  replace (pre ++ [k; n]) with ((pre ++ [k]) ++ [n]) by now rewrite <- app_assoc. rewrite last_last, prodn_app. unfold prodn at 2. cbn [fold_right]. lia.
Qed.

Lemma tcost_qr (x : rtensor) pre m n : wft x -> shape x = pre ++ [m; n] -> Forall (fun k => 0 < k) (pre ++ [m; n]) ->
  tcost ec c (t_qr qr x) (fun p => shape (fst p) = pre ++ [m; Nat.min m n] /\ shape (snd p) = pre ++ [Nat.min m n; n] /\ wft (fst p) /\ wft (snd p))
    (c * (prodn pre * m * n * Nat.min m n)).
Proof.
  intros Wx Hx Hp. destruct (Hqr pre m n x Wx Hx Hp) as (W1 & S1 & W2 & S2 & _). split; [auto|].
  unfold total. cbn [map call_cost list_sum fold_right]. rewrite Hx.
  replace (pre ++ [m; n]) with ((pre ++ [m]) ++ [n]) by now rewrite <- app_assoc. rewrite removelast_last, last_last, removelast_last, last_last. lia.
Qed.

Section LR.
Variable t : rtt.
Hypothesis Hw : wf t.
Local Notation d := (ndims t).
Local Notation U := ((c + 1) * (prodn (bpre t) * (rmax t * rmax t * rmax t * nmax t))).

Lemma rk_le_of ranks k : (forall k, nth k ranks 0 <= rk t k) -> nth k ranks 0 <= rmax t.
Proof. intros H. etransitivity; [apply H|apply rk_max]. Qed.

Lemma lr_ranks i st : lr_inv t i st -> i < d -> snd st <= rmax t.
Proof.
  intros (ranks & g & Hr & Hrest & Hsh & Hmin & _) Hi. rewrite <- Hr. destruct i as [|i].
  - rewrite (g_first _ _ _ g). now apply rmax_pos.
  - rewrite Hmin by lia. etransitivity; [apply Nat.le_min_r|apply rk_max].
Qed.

Lemma lr_step_cost i st : S i < d -> lr_inv t i st -> tcost ec c (t_orth_lr_step qr (bpre t) t i st) (lr_inv t (S i)) U.
Proof.
  intros Hi Hst. destruct (lr_step qr Hqr t Hw i st Hi Hst) as (st' & Est & Hst').
  apply (tcost_result _ _ _ st'); [|exact Hst'|].
  { rewrite <- Est. destruct st as [cs r]. now apply erase_orth_lr_step. }
  pose proof (lr_ranks i st Hst ltac:(lia)) as Hr0.
  destruct Hst as (ranks & g & Hr & Hrest & _). destruct st as [cs r]. cbn [fst snd] in *. subst r.
  assert (Hi' : i < d) by lia.
  pose proof (good_nth _ _ _ i g ltac:(lia)) as P0. pose proof (good_nth _ _ _ (S i) g ltac:(lia)) as P1.
  pose proof (good_nth _ _ _ (S (S i)) g ltac:(lia)) as P2.
  pose proof (modes_prod_pos t i Hw Hi') as Pm. pose proof (modes_prod_pos t (S i) Hw Hi) as Pm1.
  pose proof (prodn_pos _ (wf_bpos Hw)) as Pb.
  assert (H1 : nth (S i) ranks 0 <= rmax t) by (rewrite Hrest by lia; apply rk_max).
  assert (H2 : nth (S (S i)) ranks 0 <= rmax t) by (rewrite Hrest by lia; apply rk_max).
  assert (N1 : prodn (modes t i) <= nmax t) by now apply modes_max. assert (N2 : prodn (modes t (S i)) <= nmax t) by now apply modes_max.
  unfold t_orth_lr_step, lazy_tt_ranks. rewrite core_modes_eq by auto. cbv zeta.
  rewrite (nthr_nth cs i core0) by (rewrite (g_len _ _ _ g); exact Hi'). apply tcost_free. intros c0 E. injection E as <-.
  rewrite (nthr_nth (rks t) (S i) 0) by (rewrite (wf_klen Hw); lia). apply tcost_free. intros nr E. injection E as <-.
  change (nth (S i) (rks t) 0) with (rk t (S i)). rewrite <- (Hrest (S i)) by lia.
  set (r0 := nth i ranks 0) in *. set (r1 := nth (S i) ranks 0) in *. set (r2 := nth (S (S i)) ranks 0) in *.
  destruct (g_core _ _ _ g i Hi') as [Wc Sc]. destruct (g_core _ _ _ g (S i) Hi) as [Wn Sn].
  unfold vshape in Sc, Sn. fold r0 r1 r2 in Sc, Sn.
  rewrite reshape_exact. 2:{ unfold size. rewrite Sc. pns. lia. }
  apply tcost_free. intros m E. injection E as <-. set (m := RT _ _).
  assert (Wm : wft m). { apply (wft_reshaped Rring (nth i cs core0)); auto. rewrite Sc. pns. lia. }
  apply (tcost_weak ec c _ (fun _ => True) _ (c * (prodn (bpre t) * (r0 * prodn (modes t i)) * r1 * Nat.min (r0 * prodn (modes t i)) r1)
     + (prodn (bpre t) * Nat.min (r0 * prodn (modes t i)) r1 * r1 * (prodn (modes t (S i)) * r2)))).
  2: exact (fun _ _ => I).
  2:{ assert (M1 : Nat.min (r0 * prodn (modes t i)) r1 <= rmax t) by (etransitivity; [apply Nat.le_min_r|exact H1]).
      assert (Q1 : prodn (bpre t) * (r0 * prodn (modes t i)) * r1 * Nat.min (r0 * prodn (modes t i)) r1 <= prodn (bpre t) * (rmax t * nmax t) * rmax t * rmax t)
        by (repeat apply Nat.mul_le_mono; auto).
      assert (Q2 : prodn (bpre t) * Nat.min (r0 * prodn (modes t i)) r1 * r1 * (prodn (modes t (S i)) * r2) <= prodn (bpre t) * rmax t * rmax t * (nmax t * rmax t))
        by (repeat apply Nat.mul_le_mono; auto).
      apply (Nat.mul_le_mono_l _ _ c) in Q1. lia. }
  eapply tcost_bind.
  { apply (tcost_qr m (bpre t) (r0 * prodn (modes t i)) r1 Wm eq_refl). apply pos_shape; auto. nia. }
  intros [q rr] (Sq & Sr & Wq & Wr). cbn [fst snd] in *. set (k := Nat.min (r0 * prodn (modes t i)) r1) in *.
  rewrite (nthr_nth (shape rr) _ 0) by (rewrite Sr, app_length; cbn; lia). apply tcost_free. intros k' E. injection E as <-.
  rewrite (nthr_nth (shape rr) _ 0) by (rewrite Sr, app_length; cbn; lia). apply tcost_free. intros k' E. injection E as <-.
  rewrite Sr. replace (nth (length (bpre t)) (bpre t ++ [k; r1]) 0) with k by (symmetry; apply nth_middle).
  replace (nth (S (length (bpre t))) (bpre t ++ [k; r1]) 0) with r1.
  2:{ rewrite <- Nat.add_1_r, app_nth2_plus. reflexivity. }
  apply tcost_free. intros q' Eq'.
  rewrite (nthr_nth _ (S i) core0) by (rewrite length_upd, (g_len _ _ _ g); exact Hi). apply tcost_free. intros nc E. injection E as <-.
  rewrite nth_upd_other by lia.
  replace (map Some (bpre t ++ [r1]) ++ [None]) with (map Some (bpre t ++ [r1]) ++ None :: map Some []) by reflexivity.
  rewrite (reshape_infer _ _ _ _ (prodn (modes t (S i)) * r2)).
  2:{ pns. nia. } 2:{ pns. lia. } 2:{ unfold size. rewrite Sn. pns. lia. }
  apply tcost_free. intros n2 E. injection E as <-. rewrite <- app_assoc. cbn [app]. set (n2 := RT _ _).
  rewrite <- (Nat.add_0_r (_ * (_ * r2))).
  eapply tcost_bind; [apply (tcost_matmul rr n2 (bpre t) k r1 (prodn (modes t (S i)) * r2) Sr eq_refl)|].
  intros y _. apply tcost_ret. exact I.
Qed.

Lemma bpre_num : prodn (bpre t) = bnum t.
Proof. unfold bpre, bnum. destruct (bsz t); unfold prodn; cbn [fold_right]; lia. Qed.

Lemma orth_lr_cost : tcost ec c (t_orth_lr qr (bpre t) t) (fun _ => True) ((d - 1) * U).
Proof.
  unfold t_orth_lr, lazy_tt_ranks. pose proof (wf_d Hw) as Hd. rewrite (nthr_nth (rks t) 0 0) by (rewrite (wf_klen Hw); lia).
  apply tcost_free. intros r0 E. injection E as <-. rewrite <- (Nat.add_0_r ((d - 1) * U)).
  eapply tcost_bind.
  - apply (tcost_seq ec c _ (lr_inv t)).
    + exists (rks t). cbn [fst snd]. split; [now apply good_init|]. repeat (split; [reflexivity|]).
      split; [intros; lia|]. split; [intros; lia|]. split; [intros; now rewrite vtt_init|]. intros; lia.
    + intros j s Hj Hs. apply lr_step_cost; auto. lia.
  - intros [cs nr] _. apply tcost_free. intros. apply tcost_free. intros. apply tcost_pure. auto.
Qed.
End LR.

Section RL.
Variable t : rtt.
Hypothesis Hw : wf t.
Hypothesis Hb : bsz t = None.
Local Notation d := (ndims t).
Local Notation U := ((c + 1) * (rmax t * rmax t * rmax t * nmax t)).

Lemma rl_ranks i st : rl_inv t i st -> i < d -> snd st <= rmax t.
Proof.
  intros (ranks & g & Hr & Hrest & Hsh & Hmin & _) Hi. rewrite <- Hr. destruct (Nat.eq_dec (S i) d) as [E|E].
  - rewrite E, (g_last _ _ _ g). now apply rmax_pos.
  - rewrite Hmin by lia. etransitivity; [apply Nat.le_min_l|apply rk_max].
Qed.

Lemma rl_step_cost i' st : S i' < d -> rl_inv t (S i') st -> tcost ec c (t_orth_rl_step qr t (S i') st) (rl_inv t i') U.
Proof.
  intros Hi Hst. destruct (rl_step qr Hqr t Hw Hb i' st Hi Hst) as (st' & Est & Hst').
  apply (tcost_result _ _ _ st'); [|exact Hst'|].
  { rewrite <- Est. destruct st as [cs r]. now apply erase_orth_rl_step. }
  pose proof (rl_ranks (S i') st Hst ltac:(lia)) as Hr0.
  destruct Hst as (ranks & g & Hr & Hrest & _). destruct st as [cs r]. cbn [fst snd] in *. subst r.
  pose proof (bpre_nil t Hb) as Bn.
  assert (Hi' : i' < d) by lia. set (i := S i') in *.
  pose proof (good_nth _ _ _ i' g ltac:(lia)) as P0. pose proof (good_nth _ _ _ i g ltac:(lia)) as P1.
  pose proof (good_nth _ _ _ (S i) g ltac:(lia)) as P2.
  pose proof (modes_prod_pos t i' Hw Hi') as Pm. pose proof (modes_prod_pos t i Hw Hi) as Pm1.
  assert (H1 : nth i ranks 0 <= rmax t) by (rewrite Hrest by lia; apply rk_max).
  assert (H2 : nth i' ranks 0 <= rmax t) by (rewrite Hrest by lia; apply rk_max).
  assert (N1 : prodn (modes t i) <= nmax t) by now apply modes_max. assert (N2 : prodn (modes t i') <= nmax t) by now apply modes_max.
  unfold t_orth_rl_step, lazy_tt_ranks. rewrite core_modes_eq by auto. cbv zeta.
  rewrite (nthr_nth cs i core0) by (rewrite (g_len _ _ _ g); exact Hi). apply tcost_free. intros c0 E. injection E as <-.
  rewrite (nthr_nth (rks t) i 0) by (rewrite (wf_klen Hw); lia). apply tcost_free. intros nr E. injection E as <-.
  change (nth i (rks t) 0) with (rk t i). rewrite <- (Hrest i) by lia.
  set (r0 := nth i' ranks 0) in *. set (r1 := nth i ranks 0) in *. set (r2 := nth (S i) ranks 0) in *.
  destruct (g_core _ _ _ g i Hi) as [Wc Sc]. destruct (g_core _ _ _ g i' Hi') as [Wn Sn].
  unfold vshape in Sc, Sn. fold i in Sc, Sn. fold r0 r1 r2 in Sc, Sn. rewrite Bn in Sc, Sn. cbn [app] in Sc, Sn.
  rewrite reshape_exact. 2:{ unfold size. rewrite Sc. pns. lia. }
  apply tcost_free. intros m E. injection E as <-. 
  set (m := RT ([] ++ [r1; prodn (modes t i) * r2]) (data (nth i cs core0))). change (RT [r1; prodn (modes t i) * r2] (data (nth i cs core0))) with m.
  assert (Wm : wft m). { apply (wft_reshaped Rring (nth i cs core0)); auto. rewrite Sc. cbn [app]. pns. lia. }
  destruct (swap_last_ok [] m r1 (prodn (modes t i) * r2) ltac:(cbn; lia) Wm eq_refl) as (mt & Emt & Wmt & Smt & Gmt).
  rewrite Emt. apply tcost_free. intros x E. injection E as <-.
  apply (tcost_weak ec c _ (fun _ => True) _ (c * (prodn [] * (prodn (modes t i) * r2) * r1 * Nat.min (prodn (modes t i) * r2) r1)
     + (prodn [] * (r0 * prodn (modes t i')) * r1 * Nat.min (prodn (modes t i) * r2) r1))).
  2: exact (fun _ _ => I).
  2:{ assert (M1 : Nat.min (prodn (modes t i) * r2) r1 <= rmax t) by (etransitivity; [apply Nat.le_min_r|exact H1]).
      change (prodn []) with 1. rewrite !Nat.mul_1_l.
      assert (Q1 : (prodn (modes t i) * r2) * r1 * Nat.min (prodn (modes t i) * r2) r1 <= (nmax t * rmax t) * rmax t * rmax t)
        by (repeat apply Nat.mul_le_mono; auto).
      assert (Q2 : (r0 * prodn (modes t i')) * r1 * Nat.min (prodn (modes t i) * r2) r1 <= (rmax t * nmax t) * rmax t * rmax t)
        by (repeat apply Nat.mul_le_mono; auto).
      apply (Nat.mul_le_mono_l _ _ c) in Q1. lia. }
  eapply tcost_bind.
  { apply (tcost_qr mt [] (prodn (modes t i) * r2) r1 Wmt Smt). cbn [app]. repeat constructor; nia. }
  intros [q rr] (Sq & Sr & Wq & Wr). cbn [fst snd] in *. set (k := Nat.min (prodn (modes t i) * r2) r1) in *.
  apply tcost_free. intros qt Eqt.
  destruct (swap_last_ok [] rr _ _ ltac:(cbn; lia) Wr Sr) as (rt & Ert & Wrt & Srt & Grt). rewrite Ert. apply tcost_free. intros x E. injection E as <-.
  rewrite Srt. cbn [app].
  change (nthr [r1; k] 1) with (Ok (A := nat) k). change (nthr [r1; k] 0) with (Ok (A := nat) r1).
  apply tcost_free. intros x E. injection E as <-. apply tcost_free. intros x E. injection E as <-. apply tcost_free. intros q' Eq'.
  replace (i - 1) with i' by (unfold i; lia).
  rewrite (nthr_nth _ i' core0) by (rewrite length_upd, (g_len _ _ _ g); exact Hi').
  rewrite nth_upd_other by (unfold i; lia). apply tcost_free. intros x E. injection E as <-.
  change [None; Some r1] with (map Some [] ++ None :: map Some [r1]).
  rewrite (reshape_infer _ _ _ _ (r0 * prodn (modes t i'))).
  2:{ pns. nia. } 2:{ pns. lia. } 2:{ unfold size. rewrite Sn. pns. lia. }
  apply tcost_free. intros x E. injection E as <-. set (n2 := RT _ _).
  rewrite <- (Nat.add_0_r (_ * r1 * k)).
  eapply tcost_bind; [apply (tcost_matmul n2 rt [] (r0 * prodn (modes t i')) r1 k eq_refl Srt)|].
  intros y _. apply tcost_ret. exact I.
Qed.

Lemma tcost_rev {A} (f : nat -> A -> tr A) (I : nat -> A -> Prop) n N : forall s, I N s ->
  (forall j s, S j <= N -> I (S j) s -> tcost ec c (f (S j) s) (I j) n) -> tcost ec c (tfold f (rev (seq 1 N)) s) (I 0) (N * n).
Proof.
  induction N as [|N IH]; intros s Hs Hf.
  - cbn. apply (tcost_ret ec c). exact Hs.
  - rewrite seq_S, rev_app_distr. cbn [rev app tfold]. change (1 + N) with (S N). change (S N * n) with (n + N * n).
    eapply tcost_bind; [apply (Hf N s); auto|]. intros s' Hs'. apply IH; auto.
Qed.

Lemma orth_rl_cost : tcost ec c (t_orth_rl qr t) (fun _ => True) ((d - 1) * U).
Proof.
  unfold t_orth_rl, lazy_tt_ranks. pose proof (wf_d Hw) as Hd. rewrite (nthr_nth (rks t) d 0) by (rewrite (wf_klen Hw); lia).
  apply tcost_free. intros r0 E. injection E as <-. rewrite <- (Nat.add_0_r ((d - 1) * U)).
  eapply tcost_bind.
  - apply (tcost_rev _ (rl_inv t)).
    + exists (rks t). cbn [fst snd]. split; [now apply good_init|]. split; [replace (S (d - 1)) with d by lia; reflexivity|].
      split; [reflexivity|]. split; [intros; lia|]. split; [intros; lia|]. split; [intros; now rewrite vtt_init|]. intros; lia.
    + intros j s Hj Hs. apply rl_step_cost; auto. lia.
  - intros [cs nr] _. apply tcost_free. intros. apply tcost_free. intros. apply tcost_pure. auto.
Qed.
End RL.

(** The work of orthogonalize_tt_cores in both directions. *)
Lemma orthogonalize_cost t lr : wf t -> (lr = false -> bsz t = None) ->
  tcost ec c (t_orthogonalize qr t lr) (fun _ => True) ((ndims t - 1) * ((c + 1) * (bnum t * (rmax t * rmax t * rmax t * nmax t)))).
Proof.
  intros Hw Hlr. pose proof (orth_lr_cost t Hw) as L. rewrite (bpre_num t) in L. unfold t_orthogonalize. unfold bpre in L.
  destruct (bsz t) as [b|] eqn:Hb.
  - destruct lr; [exact L|discriminate (Hlr eq_refl)].
  - destruct lr; [exact L|]. pose proof (orth_rl_cost t Hw Hb) as Q. unfold bnum. rewrite Hb, Nat.mul_1_l. exact Q.
Qed.
End O.
