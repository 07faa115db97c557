(** Counting: projections on tangent spaces. *)
From Coq Require Import String Ascii List Arith ZArith Lia Bool Permutation Reals.
From Verif Require Import Scalar Tensor TensorLemmas TensorLemmas2 Base Spec Chain BaseLemmas Ops
  FullProofs ResultLemmas Dense AddProofs MulProofs MatmulProofs DenseMatmul Sweep FlatProofs ValidProofs
  OpsR Decomp DecompSpec GaugeProofs OrthProofs BatchOps Riem RiemProofs RiemThms Cost CostOps CostErase CostProofs CostInner CostOrth.
Import ListNotations.
Local Open Scope nat_scope.

Local Notation o2 := (ONode (OLeaf 0) (OLeaf 1)).
Local Notation o3 := (ONode (ONode (OLeaf 0) (OLeaf 1)) (OLeaf 2)).
Local Notation o021 := (ONode (ONode (OLeaf 0) (OLeaf 2)) (OLeaf 1)).

Section R.
Variable ec : string -> list (list nat) -> nat.
Variable c : nat.
Hypothesis Hec : best_order ec.

Lemma tcost_map {A} (f : nat -> tr A) n l : (forall i, In i l -> tcost ec c (f i) (fun _ => True) n) ->
  tcost ec c (tmapM f l) (fun _ => True) (length l * n).
Proof.
  induction l as [|i l IH]; intros H; [apply (tcost_ret ec c); exact I|]. cbn [tmapM length]. change (S (length l) * n) with (n + length l * n).
  eapply tcost_bind; [apply H; now left|]. intros a _. rewrite <- (Nat.add_0_r (length l * n)).
  eapply tcost_bind; [apply IH; intros; apply H; now right|]. intros. apply tcost_ret. exact I.
Qed.

Lemma tcost_ewise f (x y : rtensor) s : shape x = s -> shape y = s -> tcost ec c (t_ewise (K := Rring) f x y) (fun r => shape r = s) (prodn s).
Proof.
  intros Hx Hy. destruct (ewise_same f x y s Hx Hy) as (r & Er & _ & Sr & _). unfold t_ewise. rewrite Er. cbn [bind]. split; [exact Sr|].
  unfold total. cbn [map call_cost list_sum fold_right]. rewrite Sr. lia.
Qed.

Lemma nthr_val {A} (l : list A) i x dflt : nthr l i = Ok x -> x = nth i l dflt /\ i < length l.
Proof.
  unfold nthr. destruct (nth_error l i) eqn:E; [|discriminate]. intros H. injection H as <-. split; [symmetry; now apply nth_error_nth|].
  apply nth_error_Some. congruence.
Qed.

Lemma nth_nthr (rhs : list rtensor) i x s : nthr rhs i = Ok x -> shape (nth i rhs rzero) = s -> shape x = s.
Proof. intros H <-. now destruct (nthr_val _ _ _ rzero H) as [-> _]. Qed.

Lemma tbind_assoc {A B C} (m : tr A) (f : A -> tr B) (g : B -> tr C) : tbind (tbind m f) g = tbind m (fun a => tbind (f a) g).
Proof.
  destruct m as [[a l]|e]; [|reflexivity]. cbn. destruct (f a) as [[b l']|e]; [|reflexivity]. cbn. destruct (g b) as [[x l'']|e]; [|reflexivity].
  cbn. now rewrite app_assoc.
Qed.

Section Frame.
Variables w l r : rtt.
Hypothesis Hw : wf w.
Hypothesis HF : is_frame w l r.
Local Notation d := (ndims w).
Local Notation W := (rmax w).

Lemma fr_lmax k : rk l k <= W.
Proof.
  destruct (Nat.le_gt_cases (S d) k) as [G|G].
  { unfold rk. rewrite nth_overflow; [lia|]. rewrite (wf_klen (fr_l _ _ _ HF)), (fr_nl _ _ _ HF). exact G. }
  destruct k as [|k]; [rewrite (wf_first (fr_l _ _ _ HF)); now apply rmax_pos|].
  destruct (Nat.eq_dec (S k) d) as [E|E].
  - rewrite E, <- (fr_nl _ _ _ HF), (wf_last (fr_l _ _ _ HF)). now apply rmax_pos.
  - rewrite (fr_lk _ _ _ HF) by lia. etransitivity; [apply Nat.le_min_r|apply rk_max].
Qed.
Lemma fr_rmax k : rk r k <= W.
Proof.
  destruct (Nat.le_gt_cases (S d) k) as [G|G].
  { unfold rk. rewrite nth_overflow; [lia|]. rewrite (wf_klen (fr_r _ _ _ HF)), (fr_nr _ _ _ HF). exact G. }
  destruct k as [|k]; [rewrite (wf_first (fr_r _ _ _ HF)); now apply rmax_pos|].
  destruct (Nat.eq_dec (S k) d) as [E|E].
  - rewrite E, <- (fr_nr _ _ _ HF), (wf_last (fr_r _ _ _ HF)). now apply rmax_pos.
  - rewrite (fr_rk _ _ _ HF) by lia. etransitivity; [apply Nat.le_min_l|apply fr_lmax].
Qed.
Lemma list_max_le' (xs : list nat) n : (forall k, nth k xs 0 <= n) -> list_max xs <= n.
Proof.
  intros H. apply list_max_le, Forall_forall. intros x Hx. apply (In_nth _ _ 0) in Hx as (k & _ & <-). apply H.
Qed.
Lemma fr_lrmax : rmax l <= W.
Proof. apply list_max_le'. exact fr_lmax. Qed.
End Frame.

Lemma frame_cost qr w : qr_ok qr -> wf w -> bsz w = None ->
  tcost ec c (t_frame qr w) (fun p => is_frame w (fst p) (snd p)) (2 * ((ndims w - 1) * ((c + 1) * (rmax w * rmax w * rmax w * nmax w)))).
Proof.
  intros Hq Hw Hb. destruct (frame_ok qr w Hq Hw Hb) as (l & r & EF & HF).
  apply (tcost_result _ _ _ _ _ (l, r)); [now rewrite erase_frame|exact HF|].
  unfold t_frame. unfold frame in EF. destruct (orthogonalize_tt_cores qr w true) as [l'|] eqn:El; [|discriminate]. cbn [bind] in EF.
  destruct (orthogonalize_tt_cores qr l' false) as [r'|] eqn:Er; [|discriminate]. injection EF as -> ->.
  pose proof (orthogonalize_cost ec c qr Hq w true Hw ltac:(discriminate)) as C1.
  pose proof (orthogonalize_cost ec c qr Hq l false (fr_l _ _ _ HF) (fun _ => fr_bl _ _ _ HF)) as C2.
  unfold bnum in C1, C2. rewrite Hb in C1. rewrite (fr_bl _ _ _ HF) in C2. rewrite Nat.mul_1_l in C1, C2.
  apply (tcost_result ec c _ (fun x => x = l) _ l) in C1; [|now rewrite erase_orthogonalize|reflexivity].
  rewrite (fr_nl _ _ _ HF) in C2.
  assert (N : nmax l = nmax w). { unfold nmax, modes. now rewrite (fr_nl _ _ _ HF), (fr_rl _ _ _ HF). }
  rewrite N in C2. pose proof (fr_lrmax w l r Hw HF) as M.
  assert (Q : rmax l * rmax l * rmax l * nmax w <= rmax w * rmax w * rmax w * nmax w) by (repeat apply Nat.mul_le_mono; auto).
  apply (Nat.mul_le_mono_l _ _ (c + 1)), (Nat.mul_le_mono_l _ _ (ndims w - 1)) in Q.
  set (V := (ndims w - 1) * ((c + 1) * (rmax w * rmax w * rmax w * nmax w))) in *.
  replace (2 * V) with (V + (V + 0)) by lia.
  eapply tcost_bind; [exact C1|]. intros ? ->. eapply tcost_bind; [exact (tcost_weak ec c _ _ (fun _ => True) _ V C2 (fun _ _ => I) Q)|].
  intros. apply tcost_ret. exact I.
Qed.

Section Sweep.
Variables w l r z : rtt.
Variable B : nat.
Hypothesis Hw : wf w.
Hypothesis HF : is_frame w l r.
Hypothesis Hz : wf z.
Hypothesis Rz : rshape z = rshape w.
Hypothesis Bz : bsz z = Some B.
Local Notation d := (ndims w).
Local Notation W := (rmax w).
Local Notation Z := (rmax z).
Local Notation U := (B * (rmax z * rmax w * nmax w * (rmax z + rmax w))).

Lemma z_dims : ndims z = d.
Proof. pose proof (z_nd w Hw z Hz Rz) as H. exact H. Qed.

Definition rhs_shapes (i : nat) (rhs : list rtensor) : Prop :=
  length rhs = S d /\ forall k, i <= k <= d -> shape (nth k rhs rzero) = [B; rk z k; rk r k].
Definition lhs_shapes (i : nat) (lhs : list rtensor) : Prop :=
  length lhs = S d /\ forall k, k <= i -> shape (nth k lhs rzero) = [B; rk l k; rk z k].

Ltac kind := unfold mode_str; destruct (wf_kind_cases _ w Hw) as [(? & _ & HM)|(? & _ & HM)];
  match goal with E : is_tt_matrix w = _ |- _ => rewrite E end; rewrite !HM in *; clear HM; cbn [app String.append] in *.
Ltac mono := repeat apply Nat.mul_le_mono; auto using rk_max, modes_max, (fr_lmax w l r Hw HF), (fr_rmax w l r Hw HF).
Ltac fin := unfold prodn in *; cbn [fold_right] in *; lia.

Lemma rhs_step_cost i x : i < d -> shape x = [B; rk z (S i); rk r (S i)] ->
  tcost ec c (t_einsum ("sa" ++ mode_str w ++ "b,sbd,c" ++ mode_str w ++ "d->sac") [core z i; x; core r i])
    (fun y => shape y = [B; rk z i; rk r i]) U.
Proof.
  intros Hi Sx. pose proof (z_shape w Hw z B Hz Rz Bz i Hi) as Sz. pose proof (r_shape w l r HF i Hi) as Sr.
  assert (Q1 : B * (rk z i * rk r (S i) * prodn (modes w i) * rk z (S i)) <= B * (Z * W * nmax w * Z)) by mono.
  assert (Q2 : B * (rk z i * rk r (S i) * prodn (modes w i) * rk r i) <= B * (Z * W * nmax w * W)) by mono.
  clear Hz Bz Rz. kind; ecost o3; fin.
Qed.

Lemma lhs_step_cost i x : i < d -> shape x = [B; rk l i; rk z i] ->
  tcost ec c (t_einsum ("sab,a" ++ mode_str w ++ "c,sb" ++ mode_str w ++ "d->scd") [x; core l i; core z i])
    (fun y => shape y = [B; rk l (S i); rk z (S i)]) U.
Proof.
  intros Hi Sx. pose proof (z_shape w Hw z B Hz Rz Bz i Hi) as Sz. pose proof (l_shape w l r HF i Hi) as Sl.
  assert (Q1 : B * (rk z i * rk l i * prodn (modes w i) * rk z (S i)) <= B * (Z * W * nmax w * Z)) by mono.
  assert (Q2 : B * (rk z (S i) * rk l i * prodn (modes w i) * rk l (S i)) <= B * (Z * W * nmax w * W)) by mono.
  clear Hz Bz Rz. kind; ecost o021; fin.
Qed.

Lemma rhs_cost : tcost ec c (t_rhs_list w z r B) (rhs_shapes 1) ((d - 1) * U).
Proof.
  unfold t_rhs_list. pose proof (wf_d Hw) as Hd.
  apply (tcost_weak ec c _ (rhs_shapes (S 0)) _ ((d - 1) * U)); auto.
  apply (tcost_rev ec c _ (fun i => rhs_shapes (S i))).
  - split; [now rewrite length_upd, repeat_length|]. intros k Hk. replace k with d by lia.
    rewrite nth_upd_same by (rewrite repeat_length; lia). rewrite <- z_dims at 1. rewrite (wf_last Hz). rewrite <- (fr_nr _ _ _ HF), (wf_last (fr_r _ _ _ HF)). reflexivity.
  - intros j s Hj [Ls Hs]. apply tcost_free. intros x Ex. apply (nth_nthr _ _ _ _ Ex) in Hs as Sx; [|lia].
    apply tcost_free. intros y Ey. apply nthr_inv in Ey as [_ ->]. apply tcost_free. intros y Ey. apply nthr_inv in Ey as [_ ->].
    rewrite <- (Nat.add_0_r U). eapply tcost_bind; [apply rhs_step_cost; [lia|exact Sx]|]. intros y Sy.
    apply tcost_ret. split; [now rewrite length_upd|]. intros k Hk. destruct (Nat.eq_dec k (S j)) as [->|Hne].
    + rewrite nth_upd_same by lia. exact Sy.
    + rewrite nth_upd_other by lia. apply Hs. lia.
Qed.

Lemma lhs_cost : tcost ec c (t_lhs_list w z l B) (lhs_shapes (d - 1)) ((d - 1) * U).
Proof.
  unfold t_lhs_list. pose proof (wf_d Hw) as Hd.
  apply (tcost_seq ec c _ lhs_shapes U (d - 1) _ 0).
  - split; [now rewrite length_upd, repeat_length|]. intros k Hk. replace k with 0 by lia.
    rewrite nth_upd_same by (rewrite repeat_length; lia). rewrite (wf_first Hz), (wf_first (fr_l _ _ _ HF)). reflexivity.
  - intros j s Hj [Ls Hs]. apply tcost_free. intros x Ex. apply (nth_nthr _ _ _ _ Ex) in Hs as Sx; [|lia].
    apply tcost_free. intros y Ey. apply nthr_inv in Ey as [_ ->]. apply tcost_free. intros y Ey. apply nthr_inv in Ey as [_ ->].
    rewrite <- (Nat.add_0_r U). eapply tcost_bind; [apply lhs_step_cost; [lia|exact Sx]|]. intros y Sy.
    apply tcost_ret. split; [now rewrite length_upd|]. intros k Hk. destruct (Nat.eq_dec k (S j)) as [->|Hne].
    + rewrite nth_upd_same by lia. exact Sy.
    + rewrite nth_upd_other by lia. apply Hs. lia.
Qed.

Lemma gauged_cost lhs i : S i < d -> lhs_shapes (d - 1) lhs ->
  tcost ec c (t_gauged w z l lhs i) (fun p => shape p = B :: rk l i :: modes w i ++ [rk z (S i)])
    (U + B * (Z * W * nmax w * 1)).
Proof.
  intros Hi0 [_ Hs]. assert (Hi : i < d) by lia. unfold t_gauged. apply tcost_free. intros x Ex. apply (nth_nthr _ _ _ _ Ex) in Hs as Sx; [|lia].
  apply tcost_free. intros x' Ex'. apply (nth_nthr _ _ _ _ Ex') in Hs as Sx'; [|lia].
  apply tcost_free. intros y Ey. apply nthr_inv in Ey as [_ ->]. apply tcost_free. intros y Ey. apply nthr_inv in Ey as [_ ->].
  pose proof (z_shape w Hw z B Hz Rz Bz i Hi) as Sz. pose proof (l_shape w l r HF i Hi) as Sl.
  assert (Q1 : B * (rk z i * rk l i * prodn (modes w i) * rk z (S i)) <= B * (Z * W * nmax w * Z)) by (mono; lia).
  assert (Q2 : B * (rk z (S i) * rk l i * prodn (modes w i) * rk l (S i)) <= B * (Z * W * nmax w * W)) by (mono; lia).
  assert (Q3 : B * (rk z (S i) * rk l i * prodn (modes w i) * 1) <= B * (Z * W * nmax w * 1)) by (mono; lia).
  apply (tcost_weak ec c _ (fun p => shape p = B :: rk l i :: modes w i ++ [rk z (S i)]) _
    (B * (Z * W * nmax w * Z) + (B * (Z * W * nmax w * W) + B * (Z * W * nmax w * 1)))); [|auto|lia].
  clear Hz Bz Rz Ex Ex' Hs.
  apply (tcost_bind ec c _ _ (fun p => shape p = B :: rk l i :: modes w i ++ [rk z (S i)])). { kind; ecost o2; fin. }
  intros p Sp. apply (tcost_bind ec c _ _ (fun p => shape p = B :: rk l i :: modes w i ++ [rk z (S i)])). { kind; ecost o2; fin. }
  intros q Sq. eapply tcost_weak; [apply (tcost_ewise _ _ _ _ Sp Sq)|auto|]. 
  change (B :: rk l i :: modes w i ++ [rk z (S i)]) with ([B; rk l i] ++ modes w i ++ [rk z (S i)]). rewrite !prodn_app. fin.
Qed.

(** The projected core, before a weighted sum. *)
Local Notation pshape out i := (match out with EmptyString => [] | _ => [B] end ++ rk l i :: modes w i ++ [rk r (S i)]).
Lemma mid_cost rhs lhs i out {A} (k : tr rtensor -> tr A) Q n : S i < d -> lhs_shapes (d - 1) lhs -> rhs_shapes 1 rhs -> out = ""%string \/ out = "s"%string ->
  (forall m n1, tcost ec c m (fun p => shape p = pshape out i) n1 -> tcost ec c (k m) Q (n1 + n)) ->
  tcost ec c
   (dt p <- t_gauged w z l lhs i;
    dt x <- free (nthr rhs (S i));
    k (t_einsum ("sa" ++ mode_str w ++ "b,sbc->" ++ out ++ "a" ++ mode_str w ++ "c") [p; x])) Q (2 * U + n).
Proof.
  intros Hi0 Hl Hr Ho Hk. assert (Hi : i < d) by lia.
  pose proof (rmax_pos z Hz) as Pz. pose proof (fr_lmax w l r Hw HF) as Lm. pose proof (fr_rmax w l r Hw HF) as Rm.
  assert (Q3 : B * (Z * W * nmax w * 1) <= B * (Z * W * nmax w * Z)) by (mono; lia).
  apply (tcost_weak ec c _ Q _ ((U + B * (Z * W * nmax w * 1)) + (B * (Z * W * nmax w * W) + n))); [|auto|lia].
  eapply tcost_bind; [apply gauged_cost; auto; lia|]. intros p Sp.
  destruct Hr as [_ Hr]. apply tcost_free. intros x Ex. apply (nth_nthr _ _ _ _ Ex) in Hr as Sx; [|lia].
  assert (Q1 : B * (rk z (S i) * rk l i * prodn (modes w i) * rk r (S i)) <= B * (Z * W * nmax w * W)) by (mono; lia).
  apply Hk.
  clear Hz Bz Rz Ex Hr Hl Q3 Hk. destruct Ho as [-> | ->]; cbv iota beta; kind; ecost o2; fin.
Qed.

Lemma last_cost lhs i out {A} (k : tr rtensor -> tr A) Q n : S i = d -> lhs_shapes (d - 1) lhs -> out = ""%string \/ out = "s"%string ->
  (forall m n1, tcost ec c m (fun p => shape p = pshape out i) n1 -> tcost ec c (k m) Q (n1 + n)) ->
  tcost ec c
   (dt x <- free (nthr lhs i);
    dt c <- free (nthr (cores z) i);
    k (t_einsum ("sab,sb" ++ mode_str w ++ "c->" ++ out ++ "a" ++ mode_str w ++ "c") [x; c])) Q (2 * U + n).
Proof.
  intros Hi0 [_ Hs] Ho Hk. assert (Hi : i < d) by lia.
  pose proof (fr_lmax w l r Hw HF) as Lm.
  apply tcost_free. intros x Ex. apply (nth_nthr _ _ _ _ Ex) in Hs as Sx; [|lia].
  apply tcost_free. intros y Ey. apply nthr_inv in Ey as [_ ->].
  pose proof (z_shape w Hw z B Hz Rz Bz i Hi) as Sz.
  assert (Q1 : B * (rk z i * rk l i * prodn (modes w i) * rk z (S i)) <= B * (Z * W * nmax w * Z)) by (mono; lia).
  assert (L1 : rk z (S i) = 1) by (replace (S i) with d by lia; rewrite <- z_dims; apply (wf_last Hz)).
  assert (L2 : rk r (S i) = 1) by (replace (S i) with d by lia; rewrite <- (fr_nr _ _ _ HF); apply (wf_last (fr_r _ _ _ HF))).
  rewrite L2, <- L1 in Hk. clear L1 L2.
  apply (tcost_weak ec c _ Q _ (B * (Z * W * nmax w * Z) + n)); [|auto|lia].
  apply Hk.
  clear Hz Bz Rz Ex Hs Hk. destruct Ho as [-> | ->]; cbv iota beta; kind; ecost o2; fin.
Qed.
End Sweep.

Lemma what_facts (what z : rtt) : wf what -> expand_batch_dim what = Ok z ->
  wf z /\ rshape z = rshape what /\ bsz z = Some (bnum what) /\ rmax z = rmax what.
Proof.
  intros Hw E. destruct (expand_entries Rring what Hw) as (z' & Ez & Wz & Rz & Kz & Nz & Bz & Gz). rewrite E in Ez. injection Ez as <-.
  unfold rmax. rewrite Kz. auto.
Qed.

Lemma result_cores_cost ob w l r proj n : (forall i, i < ndims w -> tcost ec c (proj i) (fun _ => True) n) ->
  tcost ec c (t_result_cores ob w l r proj) (fun _ => True) (ndims w * n).
Proof.
  intros H. unfold t_result_cores. replace (ndims w * n) with (length (seq 0 (ndims w)) * n) by now rewrite seq_length.
  apply tcost_map. intros i Hi. apply in_seq in Hi. rewrite <- (Nat.add_0_r n). eapply tcost_bind; [apply H; lia|].
  intros p _. repeat (apply tcost_free; intros ? _). now apply tcost_pure.
Qed.

Lemma project_cost qr (what w : rtt) addr : qr_ok qr -> wf w -> wf what ->
  tcost ec c (t_project qr what addr w) (fun _ => True)
    (2 * (c + 1) * (ndims w * (rmax w * rmax w * rmax w * nmax w)) +
     4 * (bnum what * ndims w * (rmax what * rmax w * nmax w * (rmax what + rmax w)))).
Proof.
  intros Hq Hw Ht. unfold t_project. destruct (is_batch w) eqn:Hb; [exact I|].
  destruct (llist_eqb (rshape w) (rshape what)) eqn:Er; [|exact I]. apply llist_eqb_eq in Er. cbn [negb].
  assert (Bw : bsz w = None) by (unfold is_batch in Hb; now destruct (bsz w)).
  set (V := (c + 1) * (rmax w * rmax w * rmax w * nmax w)).
  set (U := bnum what * (rmax what * rmax w * nmax w * (rmax what + rmax w))).
  pose proof (wf_d Hw) as Hd.
  apply (tcost_weak ec c _ (fun _ => True) _ (2 * ((ndims w - 1) * V) + ((ndims w - 1) * U + ((ndims w - 1) * U + (ndims w * (2 * U) + 0))))); [|auto|].
  2:{ assert (A1 : (ndims w - 1) * V <= ndims w * V) by (apply Nat.mul_le_mono_r; lia).
      assert (A2 : (ndims w - 1) * U <= ndims w * U) by (apply Nat.mul_le_mono_r; lia). unfold U, V in *. lia. }
  eapply tcost_bind; [apply frame_cost; auto|]. intros [l r] HF. cbn [fst snd] in HF.
  apply tcost_free. intros z Ez. destruct (what_facts what z Ht Ez) as (Wz & Rz & Bz & Kz). assert (Rz' : rshape z = rshape w) by congruence.
  unfold lazy_batch_size. rewrite Bz. apply tcost_free. intros b E. injection E as <-.
  unfold U. rewrite <- Kz.
  eapply tcost_bind; [apply (rhs_cost w l r z (bnum what) Hw HF Wz Rz' Bz)|]. intros rhs Hr.
  eapply tcost_bind; [apply (lhs_cost w l r z (bnum what) Hw HF Wz Rz' Bz)|]. intros lhs Hl.
  eapply tcost_bind; [|intros cs _; now apply tcost_pure].
  apply result_cores_cost. intros i Hi.
  rewrite <- (Nat.add_0_r (2 * _)). destruct (Nat.ltb_spec i (ndims w - 1)) as [H|H].
  - apply (mid_cost w l r z (bnum what) Hw HF Wz Rz' Bz rhs lhs i _ (fun m => m)); auto; try lia.
    + destruct (bsz what); auto.
    + intros m n1 Hm. rewrite Nat.add_0_r. eapply tcost_weak; eauto.
  - apply (last_cost w l r z (bnum what) Hw HF Wz Rz' Bz lhs i _ (fun m => m)); auto; try lia.
    + destruct (bsz what); auto.
    + intros m n1 Hm. rewrite Nat.add_0_r. eapply tcost_weak; eauto.
Qed.

(** Number of columns of the weights of project_sum. *)
Definition wcols (weights : option rtensor) : nat :=
  match weights with Some x => match shape x with _ :: n :: _ => n | _ => 1 end | None => 0 end.

Lemma project_sum_cost qr (what w : rtt) addr weights : qr_ok qr -> wf w -> wf what -> good_weights (bnum what) weights ->
  tcost ec c (t_project_sum qr what addr w weights) (fun _ => True)
    (2 * (c + 1) * (ndims w * (rmax w * rmax w * rmax w * nmax w)) +
     4 * (bnum what * ndims w * (rmax what * rmax w * nmax w * (rmax what + rmax w))) +
     wcols weights * (bnum what * ndims w * (rmax w * rmax w * nmax w))).
Proof.
  intros Hq Hw Ht Hg. unfold t_project_sum. pose proof (wf_d Hw) as Hd.
  apply tcost_free. intros z Ez. destruct (what_facts what z Ht Ez) as (Wz & Rz & Bz & Kz).
  destruct (is_batch w) eqn:Hb; [exact I|].
  destruct (llist_eqb (rshape w) (rshape z)) eqn:Er; [|exact I]. apply llist_eqb_eq in Er. cbn [negb].
  assert (Bw : bsz w = None) by (unfold is_batch in Hb; now destruct (bsz w)).
  set (V := (c + 1) * (rmax w * rmax w * rmax w * nmax w)).
  set (U := bnum what * (rmax what * rmax w * nmax w * (rmax what + rmax w))).
  set (X := wcols weights * (bnum what * (rmax w * rmax w * nmax w))).
  apply (tcost_weak ec c _ (fun _ => True) _ (2 * ((ndims w - 1) * V) + ((ndims w - 1) * U + ((ndims w - 1) * U + (ndims w * (2 * U + X) + 0))))); [|auto|].
  2:{ assert (A1 : (ndims w - 1) * V <= ndims w * V) by (apply Nat.mul_le_mono_r; lia).
      assert (A2 : (ndims w - 1) * U <= ndims w * U) by (apply Nat.mul_le_mono_r; lia). unfold U, V, X in *. lia. }
  eapply tcost_bind; [apply frame_cost; auto|]. intros [l r] HF. cbn [fst snd] in HF.
  unfold lazy_batch_size. rewrite Bz. apply tcost_free. intros b E. injection E as <-. symmetry in Er.
  unfold U. rewrite <- Kz. set (ob := match weights with Some x => _ | None => _ end).
  eapply tcost_bind; [apply (rhs_cost w l r z (bnum what) Hw HF Wz Er Bz)|]. intros rhs Hr.
  eapply tcost_bind; [apply (lhs_cost w l r z (bnum what) Hw HF Wz Er Bz)|]. intros lhs Hl.
  eapply tcost_bind; [|intros cs _; now apply tcost_pure].
  apply result_cores_cost. intros i Hi.
  rewrite Kz. fold U.
  assert (Hk : forall m n1, tcost ec c m (fun p => shape p = match match weights with Some _ => "s"%string | None => ""%string end with EmptyString => [] | _ => [bnum what] end
       ++ rk l i :: modes w i ++ [rk r (S i)]) n1 ->
    tcost ec c (dt p <- m; match weights with
      | Some x => t_einsum ("s" ++ match ob with Some _ => "o"%string | None => ""%string end ++ ",sa" ++ mode_str w ++ "c->" ++
                     match ob with Some _ => "o"%string | None => ""%string end ++ "a" ++ mode_str w ++ "c") [x; p]
      | None => Ok (p, [])
      end) (fun _ => True) (n1 + X)).
  { intros m n1 Hm. eapply tcost_bind; [exact Hm|]. clear Hm m. intros p Sp. unfold X, wcols. unfold ob.
    assert (Q1 : bnum what * (rk l i * rk r (S i) * prodn (modes w i)) <= bnum what * (rmax w * rmax w * nmax w)).
    { repeat apply Nat.mul_le_mono; auto using rk_max, modes_max, (fr_lmax w l r Hw HF), (fr_rmax w l r Hw HF). }
    destruct weights as [x|]; [|now apply tcost_ret]. apply (tcost_weak ec c _ (fun r0 => shape r0 = match match shape x with _ :: n :: _ => if Nat.ltb 1 n then Some n else None | _ => None end with Some n => [n] | None => [] end ++ rk l i :: modes w i ++ [rk r (S i)]) _ (wcols (Some x) * (bnum what * (rmax w * rmax w * nmax w)))); [|auto|unfold wcols; lia].
    unfold wcols. clear Wz Rz Bz Er Hl Hr Ez Ht Kz. cbv iota beta in Sp. cbn [app] in Sp.
    unfold mode_str; destruct (wf_kind_cases _ w Hw) as [(E & _ & HM)|(E & _ & HM)]; rewrite E; rewrite !HM in *; clear HM; cbn [app String.append] in *;
    destruct Hg as [Sx|(O & HO & Sx)]; rewrite Sx; try (rewrite (proj2 (Nat.ltb_lt 1 O) HO); clear HO); cbn [app]; ecost o2; unfold prodn in *; cbn [fold_right] in *; try nia. }
  destruct (Nat.ltb_spec i (ndims w - 1)) as [H|H].
  - unfold U. rewrite <- Kz. apply (mid_cost w l r z (bnum what) Hw HF Wz Er Bz rhs lhs i _ (fun m => tbind m _)); auto; try lia. destruct weights; auto.
  - unfold U. rewrite <- Kz. apply (last_cost w l r z (bnum what) Hw HF Wz Er Bz lhs i _ (fun m => tbind m _)); auto; try lia. destruct weights; auto.
Qed.
End R.
