(** Two lists of delta cores for the point itself: the first delta core of the one is the first core of the frame, the last of the other
    the last left-orthogonal core.  Only the second satisfies the gauge condition. *)
From Coq Require Import List Arith Lia Bool Ring Reals.
From Verif Require Import Scalar Tensor TensorLemmas TensorLemmas2 Base Spec Chain BaseLemmas Ops
  FullProofs ResultLemmas Dense Sweep OpsR Decomp DecompSpec TangentProofs Riem RiemBlock RiemProofs RiemThms RiemSpec RiemFull RiemDelta RiemInner RiemMade Autodiff AutoSpec AutoProofs.
Import ListNotations.
Local Open Scope nat_scope.
Local Notation get := (@get Rring).
Add Ring Rring31 : (cth Rring).

Section Two.
Variables (qr : rtensor -> rtensor * rtensor) (x : rtt) (addr : nat) (dx : rtensor).
Hypothesis Hqr : qr_ok qr.
Hypothesis Hx : wf x.
Hypothesis Bx : bsz x = None.
Hypothesis Hd : 2 <= ndims x.
Hypothesis HA : admissible x.
Hypothesis Fx : full x = Ok dx.
Local Notation d := (ndims x).

Definition last_deltas (l r : rtt) : list rtensor :=
  map (fun k => if Nat.eqb (S k) d then core l k else zeros (K := Rring) (rk l k :: modes x k ++ [rk r (S k)])) (seq 0 d).
Lemma last_nth l r m : m < d -> nth m (last_deltas l r) rzero = if Nat.eqb (S m) d then core l m else zeros (K := Rring) (rk l m :: modes x m ++ [rk r (S m)]).
Proof.
  intros Hm. unfold last_deltas. rewrite (nth_indep _ rzero ((fun k => if Nat.eqb (S k) d then core l k else zeros (K := Rring) (rk l k :: modes x k ++ [rk r (S k)])) 0)) by (now rewrite map_length, seq_length).
  rewrite (map_nth (fun k => if Nat.eqb (S k) d then core l k else zeros (K := Rring) (rk l k :: modes x k ++ [rk r (S k)]))), seq_nth by auto. reflexivity.
Qed.
Lemma get_zeros sh i : get (zeros (K := Rring) sh) i = 0%R.
Proof.
  unfold Tensor.get, zeros, mk. cbn [data shape]. generalize (ravel sh i). intros k. generalize (seq 0 (prodn sh)). intros s. revert k.
  induction s as [|y s IH]; intros [|k]; cbn [map nth]; auto.
Qed.

Variables l r : rtt.
Hypothesis HF : is_frame x l r.

Lemma last_good : good x l r (last_deltas l r).
Proof.
  split; [unfold last_deltas; now rewrite map_length, seq_length|]. intros i Hi. rewrite last_nth by auto. destruct (Nat.eqb_spec (S i) d) as [E|_]; [|split; [apply wft_mk|apply shape_mk]].
  split; [apply (core_wft Rring l i (fr_l _ _ _ HF)); rewrite (fr_nl _ _ _ HF); lia|].
  rewrite (l_shape x l r HF i Hi). do 2 f_equal. now rewrite E, (fr_ld x l r HF), (fr_qd x l r HF).
Qed.
Lemma last_val i : vidx (ishape x) i -> Lval x l r (deltasD (last_deltas l r)) i = tt_entry x [] (split_idx x i).
Proof.
  intros Hi. pose proof (split_vJ x Hx Hd i Hi) as VJ. rewrite <- (fr_ent x l r HF) by exact VJ. unfold Lval.
  rewrite (sumn_ext Rring d _ (fun m => delta (d - 1) m * tterm Rring (coreG l []) (coreG r []) (rk l) (rk r) (d - 1) (coreG l [] (d - 1)) (split_idx x i))%K).
  2:{ intros m Hm. unfold delta. destruct (Nat.eqb_spec m (d - 1)) as [->|N].
      - transitivity (tterm Rring (coreG l []) (coreG r []) (rk l) (rk r) (d - 1) (coreG l [] (d - 1)) (split_idx x i)); [|generalize (tterm Rring (coreG l []) (coreG r []) (rk l) (rk r) (d - 1) (coreG l [] (d - 1)) (split_idx x i)); intros y; cbn in *; ring].
        unfold tterm. apply (sumn_ext Rring). intros a Ha. apply (sumn_ext Rring). intros c Hc. do 2 f_equal. unfold deltasD. rewrite last_nth by lia.
        replace (S (d - 1)) with d by lia. rewrite Nat.eqb_refl. reflexivity.
      - transitivity (0%K : Rring); [|generalize (tterm Rring (coreG l []) (coreG r []) (rk l) (rk r) (d - 1) (coreG l [] (d - 1)) (split_idx x i)); intros y; cbn in *; ring].
        unfold tterm. apply (sumn_zero Rring). intros a Ha. apply (sumn_zero Rring). intros c Hc. unfold deltasD. rewrite last_nth by lia.
        destruct (Nat.eqb_spec (S m) d); [lia|]. rewrite get_zeros. change (0%R) with (0%K : Rring). ring. }
  rewrite sumn_deltal by lia. destruct (vj_inv (modes x) 0 (d - 1) d _ ltac:(lia) VJ) as (I & J & EJ & HI & HJ). rewrite EJ. destruct HI as [_ LI].
  replace d with (S (d - 1)) in HJ at 2 by lia. apply vj_one_inv in HJ as (j & -> & Hj). rewrite (tterm_at Rring d) by (try apply (fr_l0 x l r HF); try apply (fr_ld x l r HF); try apply (fr_qd x l r HF); lia).
  unfold tt_entry. rewrite (entry_split Rring) by (rewrite (fr_l0 x l r HF); lia). replace (length I) with (d - 1) by lia. apply (sumn_ext Rring). intros a Ha.
  replace (S (d - 1)) with d by lia. rewrite (fr_qd x l r HF), sumn_1. rewrite rv_cons. replace (S (d - 1)) with d by lia. rewrite (fr_ld x l r HF), sumn_1.
  unfold rv. cbn [chain]. ring.
Qed.
End Two.

Lemma full_wft (t : rtt) dt : wf t -> full t = Ok dt -> wft dt.
Proof. intros Hw Fd. destruct (full_correct Rring t Hw) as (d' & F & W & _). congruence. Qed.

(** Both stand for [x]; their delta cores are orthogonal. *)
Lemma two_deltas (qr : rtensor -> rtensor * rtensor) (x : rtt) addr dx : qr_ok qr -> wf x -> bsz x = None -> 2 <= ndims x -> admissible x -> full x = Ok dx ->
  exists l r ds p q w, frame qr x = Ok (l, r) /\ delta_shapes x l r None ds /\ deltas_to_tangent_space qr ds addr x None None = Ok p /\ made qr x addr q /\
    full (p_tt p) = Ok dx /\ full (p_tt q) = Ok dx /\ pairwise_flat_inner_projected p q = Ok w /\ shape w = [1; 1] /\ get w [0; 0] = 0%R.
Proof.
  intros Hq Hx Bx Hd HA Fx. destruct (frame_ok qr x Hq Hx Bx) as (l & r & EF & HF). pose proof (adm_eq x l r Hx HF Hd HA) as Heq.
  pose proof (start_good x l r HF Hd Heq) as G1. pose proof (last_good x Hd l r HF) as G2.
  pose proof (good_is x l r _ G1) as I1. pose proof (good_is x l r _ G2) as I2.
  pose proof EF as EF'. unfold frame in EF'. destruct (orthogonalize_tt_cores qr x true) as [l'|] eqn:E1; cbn [bind] in EF'; [|discriminate].
  destruct (orthogonalize_tt_cores qr l' false) as [r'|] eqn:E2; cbn [bind] in EF'; [|discriminate]. injection EF' as -> ->.
  destruct (rebuild_ok x l r Hx HF Hd Heq qr None _ _ addr None None Bx (Forall_nil _) I1 E1 E2) as (t1 & Et1 & B1).
  destruct (rebuild_ok x l r Hx HF Hd Heq qr None _ _ addr (Some l) (Some r) Bx (Forall_nil _) I2 eq_refl eq_refl) as (t2 & Et2 & B2).
  destruct (pairwise_ok x l r Hx HF Hd Heq None None _ _ t1 t2 addr B1 B2) as (w & Ew & Ww & Sw & Gw).
  destruct (dense x Hx) as (dx' & Fx' & Sx & Vx). assert (dx' = dx) by congruence. subst dx'. rewrite Bx in Sx, Vx. cbn [pre_of app] in Sx.
  assert (FT : forall t D, blocks x l r None (fun _ => D) t -> (forall i, vidx (ishape x) i -> Lval x l r D i = tt_entry x [] (split_idx x i)) -> full t = Ok dx).
  { intros t D B H. pose proof (bl_wf x l r _ _ _ B) as Wt. pose proof (bl_bs x l r _ _ _ B) as BB. pose proof (bl_rs x l r _ _ _ B) as Rt.
    destruct (dense t Wt) as (dt & Ft & St & Vt). rewrite BB, (same_ishape t x Rt) in St, Vt. cbn [pre_of app] in St. rewrite Ft. f_equal.
    apply tensor_ext; [exact (full_wft t dt Wt Ft)|exact (full_wft x dx Hx Fx)|congruence|]. intros i Hi. rewrite St in Hi.
    specialize (Vt [] i ltac:(constructor) Hi). specialize (Vx [] i ltac:(constructor) Hi). cbn [app] in Vt, Vx. rewrite Vt, Vx, (same_split t x i Rt), <- H by auto.
    apply (blocks_entry x l r None _ (fr_l _ _ _ HF) (fr_r _ _ _ HF) (fr_nl _ _ _ HF) (fr_nr _ _ _ HF) Hd t [] _ B ltac:(constructor)). now apply split_vJ. }
  exists l, r, (start_deltas r), (Proj t1 (Some addr)), (Proj t2 (Some addr)), w. split; [exact EF|]. split; [exact G1|]. split; [exact Et1|]. split.
  { apply (made_deltas qr x addr None l r (last_deltas x l r) (Some l) (Some r)); [exact EF|constructor|exact G2| |right; auto|exact Et2].
    intros k o b c Hk Ho Hb Hc. inversion Ho; subst o. apply (sumn_zero Rring). intros a Ha. apply (isum_zero Rring). intros j Hj. cbn [app]. rewrite last_nth by lia.
    destruct (Nat.eqb_spec (S k) (ndims x)); [lia|]. rewrite get_zeros. apply Rmult_0_r. }
  cbn [p_tt]. split; [apply (FT t1 _ B1), start_val; auto|]. split; [apply (FT t2 _ B2), last_val; auto|]. split; [exact Ew|]. split; [exact Sw|].
  rewrite Gw by (cbn; lia). apply (sumn_zero Rring). intros m Hm. apply (sumn_zero Rring). intros a Ha. apply (sumn_zero Rring). intros c Hc. apply (isum_zero Rring). intros j Hj.
  unfold deltasD. rewrite last_nth, (start_nth x l r HF) by auto. destruct (Nat.eqb_spec m 0) as [->|].
  - destruct (Nat.eqb_spec 1 (ndims x)); [lia|]. rewrite get_zeros. apply Rmult_0_r.
  - change (zeros (shape (core r m))) with (zeros (K := Rring) (shape (core r m))). rewrite get_zeros. apply Rmult_0_l.
Qed.
