(** [project]: the result represents the projection of TangentProofs.v. *)
From Coq Require Import String Ascii List Arith ZArith Lia Bool Ring Reals.
From Verif Require Import Scalar Tensor TensorLemmas TensorLemmas2 Base Spec Chain BaseLemmas Ops
  FullProofs ResultLemmas Dense AddProofs Sweep FlatProofs GatherProofs OpsR ScaleProofs Decomp DecompSpec GaugeProofs OrthProofs OrthNorm
  ReduceSumProofs TangentProofs Riem RiemBlock.
Import ListNotations.
Local Open Scope nat_scope.
Local Notation get := (@get Rring).
Local Notation core0 := (core0 Rring).
Local Notation train := (nat -> nat -> list nat -> nat -> Rring).
Add Ring Rring' : (cth Rring).

Lemma ewise_same (f : R -> R -> R) (a b : rtensor) s : shape a = s -> shape b = s ->
  exists r, ewise (K := Rring) f a b = Ok r /\ wft r /\ shape r = s /\ forall i, vidx s i -> get r i = f (get a i) (get b i).
Proof.
  intros Ha Hb. unfold ewise, bcast. rewrite Ha, Hb, bcast_rev_same, rev_involutive. eexists. split; [reflexivity|]. split; [apply wft_mk|]. split; [reflexivity|].
  intros i Hi. rewrite get_mk by auto. now rewrite !bidx_self.
Qed.

(** ** The frame *)
Record is_frame (w l r : rtt) : Prop := {
  fr_l : wf l; fr_r : wf r;
  fr_rl : rshape l = rshape w; fr_rr : rshape r = rshape w;
  fr_bl : bsz l = None; fr_br : bsz r = None;
  fr_nl : ndims l = ndims w; fr_nr : ndims r = ndims w;
  fr_ent : forall J, vj (modes w) 0 (ndims w) J -> tt_entry l [] J = tt_entry w [] J;
  fr_entr : forall J, vj (modes w) 0 (ndims w) J -> tt_entry r [] J = tt_entry w [] J;
  fr_lo : forall k, k < ndims w - 1 -> left_orthonormal l [] k;
  fr_ro : forall k, 0 < k < ndims w -> right_orthonormal r [] k;
  fr_lk : forall k, k < ndims w - 1 -> rk l (S k) = Nat.min (rk l k * prodn (modes w k)) (rk w (S k));
  fr_rk : forall k, 0 < k < ndims w -> rk r k = Nat.min (rk l k) (prodn (modes w k) * rk r (S k)) }.

Lemma frame_ok qr (w : rtt) : qr_ok qr -> wf w -> bsz w = None -> exists l r, frame qr w = Ok (l, r) /\ is_frame w l r.
Proof.
  intros Hq Hw Hb. unfold frame.
  destruct (orth_ok qr w true Hq Hw ltac:(discriminate)) as (l & El & Wl & Rl & Bl & Nl & Entl & Ol & _).
  destruct (Ol eq_refl) as [Kl Lo]. rewrite El. cbn [bind].
  destruct (orth_ok qr l false Hq Wl ltac:(congruence)) as (r & Er & Wr & Rr & Br & Nr & Entr & _ & Or).
  destruct (Or eq_refl) as [Kr Ro]. rewrite Er. cbn [bind]. exists l, r. split; [reflexivity|].
  assert (Pw : bpre w = []) by (unfold bpre; now rewrite Hb).
  assert (Pl : bpre l = []) by (unfold bpre; now rewrite Bl, Hb).
  assert (Ml : forall k, modes l k = modes w k) by (intros; now apply modes_ext).
  assert (E1 : forall J, vj (modes w) 0 (ndims w) J -> tt_entry l [] J = tt_entry w [] J).
  { intros J [HJ LJ]. apply Entl; [rewrite Pw; constructor|auto|lia]. }
  constructor; auto; try congruence.
  - intros J HJ. rewrite <- E1 by auto. destruct HJ as [HJ LJ]. apply Entr; [rewrite Pl; constructor| |lia].
    apply (vchain_ext (modes w)); auto.
  - intros k Hk. apply Lo; auto. rewrite Pw. constructor.
  - intros k Hk. apply Ro. lia.
  - intros k Hk. rewrite <- Ml. apply Kr. lia.
Qed.

Section Fr.
Variables (w l r : rtt).
Hypothesis Hw : wf w.
Hypothesis HF : is_frame w l r.
Hypothesis Hd : 2 <= ndims w.
Local Notation d := (ndims w).
Local Notation ms := (modes w).
Local Notation U := (coreG l []).
Local Notation V := (coreG r []).
Local Notation lk := (rk l).
Local Notation qk := (rk r).

Lemma fr_d0 : 0 < d. Proof. lia. Qed.
Lemma fr_l0 : lk 0 = 1. Proof. apply (wf_first (fr_l _ _ _ HF)). Qed.
Lemma fr_ld : lk d = 1. Proof. rewrite <- (fr_nl _ _ _ HF). apply (wf_last (fr_l _ _ _ HF)). Qed.
Lemma fr_q0 : qk 0 = 1. Proof. apply (wf_first (fr_r _ _ _ HF)). Qed.
Lemma fr_qd : qk d = 1. Proof. rewrite <- (fr_nr _ _ _ HF). apply (wf_last (fr_r _ _ _ HF)). Qed.
Lemma fr_ml k : modes l k = ms k. Proof. apply modes_ext. apply (fr_rl _ _ _ HF). Qed.
Lemma fr_mr k : modes r k = ms k. Proof. apply modes_ext. apply (fr_rr _ _ _ HF). Qed.

Lemma fr_HU1 m b b' : S m < d -> b < lk (S m) -> b' < lk (S m) ->
  sumn (K := Rring) (lk m) (fun a => isum (ms m) (fun j => U m a j b * U m a j b'))%K = delta b b'.
Proof.
  intros Hm Hb Hb'. rewrite <- kron_delta. pose proof (left_orth_G l [] m (fr_lo _ _ _ HF m ltac:(lia)) b b' Hb Hb') as H.
  rewrite fr_ml in H. exact H.
Qed.
Lemma fr_HU m a b : m < d -> a < lk m -> b < lk m -> js Rring ms 0 m (fun I => lv U lk I a * lv U lk I b)%K = delta a b.
Proof.
  intros Hm Ha Hb. rewrite <- penv_js. rewrite <- kron_delta. apply penv_orth; auto; [apply fr_l0|].
  intros k c c' Hk Hc Hc'. rewrite kron_delta. apply fr_HU1; auto; lia.
Qed.
Lemma fr_HV1 k a a' : 0 < k < d -> a < qk k -> a' < qk k ->
  isum (K := Rring) (ms k) (fun j => sumn (qk (S k)) (fun b => V k a j b * V k a' j b))%K = delta a a'.
Proof.
  intros Hk Ha Ha'. rewrite <- kron_delta. rewrite <- (fr_ro _ _ _ HF k Hk a a' Ha Ha').
  rewrite fr_mr, isum_app. apply isum_ext. intros j _. cbn [isum]. reflexivity.
Qed.
Lemma fr_HV n a b : 0 < n <= d -> a < qk n -> b < qk n -> js Rring ms n d (fun I => rv Rring V qk n I a * rv Rring V qk n I b)%K = delta a b.
Proof.
  change (js Rring ms n d (fun I => rv Rring V qk n I a * rv Rring V qk n I b)%K) with (senv Rring ms d V qk V qk n a b).
  intros Hn. remember (d - n) as e eqn:He. revert n a b Hn He. induction e as [|e IH]; intros n a b Hn He Ha Hb.
  - replace n with d in * by lia. rewrite fr_qd in *. replace a with 0 by lia. replace b with 0 by lia. rewrite senv_d. reflexivity.
  - rewrite senv_S by lia. rewrite <- (fr_HV1 n a b) by (auto; lia). apply isum_ext. intros j _.
    apply sumn_ext. intros c Hc.
    rewrite (sumn_ext Rring (qk (S n)) _ (fun e0 => (V n a j c * V n b j e0) * delta c e0)%K).
    2:{ intros e0 He0. rewrite IH by (auto; lia). reflexivity. }
    now rewrite sumn_deltar.
Qed.

(** ** The sweeps *)
Variable z : rtt.
Variable B : nat.
Hypothesis Hz : wf z.
Hypothesis Rz : rshape z = rshape w.
Hypothesis Bz : bsz z = Some B.

Lemma z_nd : ndims z = d. Proof. apply (same_ndims Rring z w Hz Hw Rz). Qed.
Lemma z_ms k : modes z k = ms k. Proof. now apply modes_ext. Qed.
Lemma z_shape i : i < d -> shape (core z i) = B :: rk z i :: ms i ++ [rk z (S i)].
Proof. intros Hi. rewrite (core_shape _ z i Hz) by (rewrite z_nd; auto). unfold bpre. rewrite Bz, z_ms. reflexivity. Qed.
Lemma l_shape i : i < d -> shape (core l i) = lk i :: ms i ++ [lk (S i)].
Proof.
  intros Hi. rewrite (core_shape _ l i (fr_l _ _ _ HF)) by (rewrite (fr_nl _ _ _ HF); auto). unfold bpre. rewrite (fr_bl _ _ _ HF), fr_ml. reflexivity.
Qed.
Lemma r_shape i : i < d -> shape (core r i) = qk i :: ms i ++ [qk (S i)].
Proof.
  intros Hi. rewrite (core_shape _ r i (fr_r _ _ _ HF)) by (rewrite (fr_nr _ _ _ HF); auto). unfold bpre. rewrite (fr_br _ _ _ HF), fr_mr. reflexivity.
Qed.

Local Notation Z s := (coreG z [s]).

Ltac kind := unfold mode_str; destruct (wf_kind_cases _ w Hw) as [(? & _ & HM)|(? & _ & HM)];
  match goal with E : is_tt_matrix w = _ |- _ => rewrite E end; rewrite !HM in *; clear HM; cbn [app String.append] in *.
Ltac estep := einsum_step; eexists; (split; [reflexivity|]); (split; [apply wft_mk|]); (split; [reflexivity|]);
    intros; repeat match goal with H : vidx [_] _ |- _ => apply vidx_1_inv in H as (? & -> & ?) | H : vidx [_; _] _ |- _ => apply vidx_2_inv in H as (? & ? & -> & ? & ?) end;
    cbn [app isum]; rewrite get_mk by vsolve; ecbv; try reflexivity.

Lemma rhs_step i (x : rtensor) : i < d -> shape x = [B; rk z (S i); qk (S i)] ->
  exists y, einsum ("sa" ++ mode_str w ++ "b,sbd,c" ++ mode_str w ++ "d->sac") [core z i; x; core r i] = Ok y /\ wft y /\
    shape y = [B; rk z i; qk i] /\
    forall s a c, s < B -> a < rk z i -> c < qk i ->
      get y [s; a; c] = isum (ms i) (fun j => sumn (rk z (S i)) (fun b => sumn (qk (S i)) (fun e => Z s i a j b * V i c j e * get x [s; b; e])))%K.
Proof.
  intros Hi Sx. pose proof (z_shape i Hi) as Sz. pose proof (r_shape i Hi) as Sr. unfold coreG.
  kind; estep; repeat (apply sumn_ext; intros ? _); ring.
Qed.

Lemma lhs_step i (x : rtensor) : i < d -> shape x = [B; lk i; rk z i] ->
  exists y, einsum ("sab,a" ++ mode_str w ++ "c,sb" ++ mode_str w ++ "d->scd") [x; core l i; core z i] = Ok y /\ wft y /\
    shape y = [B; lk (S i); rk z (S i)] /\
    forall s c e, s < B -> c < lk (S i) -> e < rk z (S i) ->
      get y [s; c; e] = sumn (lk i) (fun a => sumn (rk z i) (fun b => isum (ms i) (fun j => get x [s; a; b] * (U i a j c * Z s i b j e))))%K.
Proof.
  intros Hi Sx. pose proof (z_shape i Hi) as Sz. pose proof (l_shape i Hi) as Sl. unfold coreG. kind; estep.
Qed.

Definition rhs_good (rhs : list rtensor) (k : nat) : Prop := forall i, k <= i <= d ->
  wft (nth i rhs rzero) /\ shape (nth i rhs rzero) = [B; rk z i; qk i] /\
  forall s a c, s < B -> a < rk z i -> c < qk i -> get (nth i rhs rzero) [s; a; c] = senv Rring ms d (Z s) (rk z) V qk i a c.

Lemma nthr_n {A} (x : list A) i y : i < length x -> nthr x i = Ok (nth i x y).
Proof. apply nthr_nth. Qed.

Lemma get_ones3 b s : s < b -> get (ones [b; 1; 1]) [s; 0; 0] = 1%K.
Proof. intros H. apply get_ones. vsolve. Qed.

Lemma rhs_ok : exists rhs, rhs_list w z r B = Ok rhs /\ length rhs = S d /\ rhs_good rhs 1.
Proof.
  unfold rhs_list.
  destruct (foldM_rev_seq1 (fun i rhs =>
      do x <- nthr rhs (S i); do c <- nthr (cores z) i; do rc <- nthr (cores r) i;
      do y <- einsum ("sa" ++ mode_str w ++ "b,sbd,c" ++ mode_str w ++ "d->sac") [c; x; rc]; Ok (upd i y rhs))
    (fun k rhs => length rhs = S d /\ rhs_good rhs (S k)) (d - 1) (upd d (ones [B; 1; 1]) (repeat rzero (S d)))) as (rhs & E & L & G).
  - split; [now rewrite length_upd, repeat_length|]. intros i Hi. assert (i = d) by lia. subst i.
    rewrite nth_upd_same by (rewrite repeat_length; lia). split; [apply wft_mk|].
    rewrite fr_qd. rewrite <- z_nd, (wf_last Hz), z_nd. split; [reflexivity|]. intros s a c Hs Ha Hc.
    replace a with 0 by lia. replace c with 0 by lia. rewrite get_ones3 by auto. now rewrite senv_d.
  - intros i rhs Hi (L & G). destruct (G (S i) ltac:(lia)) as (Wx & Sx & Gx).
    rewrite (nthr_n rhs (S i) rzero) by lia. cbn [bind]. rewrite (nthr_core z), (nthr_core r) by (rewrite ?z_nd, ?(fr_nr _ _ _ HF); lia). cbn [bind].
    destruct (rhs_step i (nth (S i) rhs rzero) ltac:(lia) Sx) as (y & Ey & Wy & Sy & Gy). rewrite Ey. cbn [bind].
    exists (upd i y rhs). split; [reflexivity|]. split; [now rewrite length_upd|]. intros k Hk.
    destruct (Nat.eq_dec k i) as [->|Hki].
    + rewrite nth_upd_same by lia. split; [exact Wy|]. split; [exact Sy|]. intros s a c Hs Ha Hc. rewrite Gy, senv_S by (auto; lia).
      apply isum_ext. intros j _. apply sumn_ext. intros b Hb. apply sumn_ext. intros e He. now rewrite Gx.
    + rewrite nth_upd_other by auto. apply G. lia.
  - exists rhs. split; [exact E|]. split; auto.
Qed.

Definition lhs_good (lhs : list rtensor) (k : nat) : Prop := forall i, i <= k ->
  wft (nth i lhs rzero) /\ shape (nth i lhs rzero) = [B; lk i; rk z i] /\
  forall s a c, s < B -> a < lk i -> c < rk z i -> get (nth i lhs rzero) [s; a; c] = penv ms U lk (Z s) (rk z) i a c.

Lemma lhs_ok : exists lhs, lhs_list w z l B = Ok lhs /\ length lhs = S d /\ lhs_good lhs (d - 1).
Proof.
  unfold lhs_list.
  assert (R0 : 0 < lk 0) by (rewrite fr_l0; lia). assert (R0' : 0 < rk z 0) by (rewrite (wf_first Hz); lia).
  destruct (foldM_seq (fun i lhs =>
      do x <- nthr lhs i; do c <- nthr (cores z) i; do lc <- nthr (cores l) i;
      do y <- einsum ("sab,a" ++ mode_str w ++ "c,sb" ++ mode_str w ++ "d->scd") [x; lc; c]; Ok (upd (S i) y lhs))
    (fun k lhs => length lhs = S d /\ lhs_good lhs k) (d - 1) 0 (upd 0 (ones [B; 1; 1]) (repeat rzero (S d)))) as (lhs & E & L & G).
  - split; [now rewrite length_upd, repeat_length|]. intros i Hi. assert (i = 0) by lia. subst i.
    rewrite nth_upd_same by (rewrite repeat_length; lia). split; [apply wft_mk|].
    rewrite fr_l0, (wf_first Hz). split; [reflexivity|]. intros s a c Hs Ha Hc.
    replace a with 0 by lia. replace c with 0 by lia. rewrite get_ones3 by auto. now rewrite penv_0.
  - intros i lhs Hi (L & G). destruct (G i ltac:(lia)) as (Wx & Sx & Gx).
    rewrite (nthr_n lhs i rzero) by lia. cbn [bind]. rewrite (nthr_core z), (nthr_core l) by (rewrite ?z_nd, ?(fr_nl _ _ _ HF); lia). cbn [bind].
    destruct (lhs_step i (nth i lhs rzero) ltac:(lia) Sx) as (y & Ey & Wy & Sy & Gy). rewrite Ey. cbn [bind].
    exists (upd (S i) y lhs). split; [reflexivity|]. split; [now rewrite length_upd|]. intros k Hk.
    destruct (Nat.eq_dec k (S i)) as [->|Hki].
    + rewrite nth_upd_same by lia. split; [exact Wy|]. split; [exact Sy|]. intros s a c Hs Ha Hc. rewrite Gy, penv_S by auto.
      apply sumn_ext. intros b Hb. apply sumn_ext. intros e He. apply isum_ext. intros j _. now rewrite Gx.
    + rewrite nth_upd_other by auto. apply G. lia.
  - exists lhs. split; [exact E|]. split; auto.
Qed.

(** ** The delta cores *)
Definition Fz (s : nat) (J : list (list nat)) : Rring := chain (Z s) (rk z) 0 J (fun _ => 1%K) 0.
Definition dz (s m a : nat) (j : list nat) (c : nat) : Rring := delta_of Rring ms d U V lk qk (Fz s) m a j c.

Lemma dz_mid s m a j c : m < d - 1 ->
  dz s m a j c = sumn (rk z (S m)) (fun e => (sumn (rk z m) (fun b => penv ms U lk (Z s) (rk z) m a b * Z s m b j e) -
      sumn (lk (S m)) (fun b => U m a j b * penv ms U lk (Z s) (rk z) (S m) b e)) * senv Rring ms d (Z s) (rk z) V qk (S m) e c)%K.
Proof.
  intros Hm. unfold dz, delta_of, last0. destruct (Nat.eqb_spec (S m) d); [lia|]. unfold Fz.
  assert (R0 : 0 < rk z 0) by (rewrite (wf_first Hz); lia).
  rewrite (cf_train Rring ms d U V lk qk fr_d0 fr_l0 fr_ld fr_qd (Z s) (rk z) m a c j) by (auto; lia).
  rewrite (sumn_ext Rring (lk (S m)) _ (fun b => sumn (rk z (S m)) (fun e => U m a j b * penv ms U lk (Z s) (rk z) (S m) b e * senv Rring ms d (Z s) (rk z) V qk (S m) e c))%K).
  2:{ intros b Hb. rewrite (cf_train0 Rring ms d U V lk qk fr_d0 fr_l0 fr_ld fr_qd (Z s) (rk z)) by (auto; lia). rewrite <- sumn_mul_l. apply sumn_ext. intros. ring. }
  rewrite sumn_swap, (sumn_swap Rring (lk (S m))), <- sumn_sub. apply sumn_ext. intros e He.
  rewrite sumn_mul_r, sumn_mul_r. ring.
Qed.
Lemma dz_last s a j c : c < 1 ->
  dz s (d - 1) a j c = sumn (rk z (d - 1)) (fun b => penv ms U lk (Z s) (rk z) (d - 1) a b * Z s (d - 1) b j c)%K.
Proof.
  intros Hc. unfold dz, delta_of, last0. destruct (Nat.eqb_spec (S (d - 1)) d); [|lia]. unfold Fz.
  assert (R0 : 0 < rk z 0) by (rewrite (wf_first Hz); lia).
  rewrite (cf_train Rring ms d U V lk qk fr_d0 fr_l0 fr_ld fr_qd (Z s) (rk z) (d - 1) a c j) by (auto; lia).
  replace (S (d - 1)) with d by lia. rewrite <- z_nd, (wf_last Hz), z_nd.
  match goal with |- (?x - _)%K = ?y => transitivity x; [ring|] end.
  apply sumn_ext. intros b Hb. rewrite sumn_1, senv_d. replace c with 0 by lia. ring.
Qed.

Lemma gauged_ok lhs i : length lhs = S d -> lhs_good lhs (d - 1) -> i < d - 1 ->
  exists p, gauged w z l lhs i = Ok p /\ wft p /\ shape p = B :: lk i :: ms i ++ [rk z (S i)] /\
    forall s a j e, s < B -> a < lk i -> vidx (ms i) j -> e < rk z (S i) ->
      get p (s :: a :: j ++ [e]) = (sumn (rk z i) (fun b => penv ms U lk (Z s) (rk z) i a b * Z s i b j e) -
        sumn (lk (S i)) (fun b => U i a j b * penv ms U lk (Z s) (rk z) (S i) b e))%K.
Proof.
  intros L G Hi. unfold gauged. destruct (G i ltac:(lia)) as (Wx & Sx & Gx). destruct (G (S i) ltac:(lia)) as (Wy & Sy & Gy).
  rewrite (nthr_n lhs i rzero), (nthr_n lhs (S i) rzero) by lia. cbn [bind].
  rewrite (nthr_core z), (nthr_core l) by (rewrite ?z_nd, ?(fr_nl _ _ _ HF); lia). cbn [bind].
  set (x := nth i lhs rzero) in *. set (y := nth (S i) lhs rzero) in *.
  pose proof (z_shape i ltac:(lia)) as Sz. pose proof (l_shape i ltac:(lia)) as Sl.
  assert (H1 : exists p, einsum ("sab,sb" ++ mode_str w ++ "c->sa" ++ mode_str w ++ "c") [x; core z i] = Ok p /\ wft p /\
     shape p = B :: lk i :: ms i ++ [rk z (S i)] /\
     forall s a j e, s < B -> a < lk i -> vidx (ms i) j -> e < rk z (S i) -> get p (s :: a :: j ++ [e]) = sumn (rk z i) (fun b => get x [s; a; b] * Z s i b j e)%K).
  { unfold coreG. clear Gx Gy G. kind; estep. }
  assert (H2 : exists p, einsum ("a" ++ mode_str w ++ "b,sbc->sa" ++ mode_str w ++ "c") [core l i; y] = Ok p /\ wft p /\
     shape p = B :: lk i :: ms i ++ [rk z (S i)] /\
     forall s a j e, s < B -> a < lk i -> vidx (ms i) j -> e < rk z (S i) -> get p (s :: a :: j ++ [e]) = sumn (lk (S i)) (fun b => U i a j b * get y [s; b; e])%K).
  { unfold coreG. clear Gx Gy G H1. kind; estep. }
  destruct H1 as (p1 & E1 & W1 & S1 & G1). destruct H2 as (p2 & E2 & W2 & S2 & G2). rewrite E1, E2. cbn [bind].
  destruct (ewise_same Rminus p1 p2 _ S1 S2) as (p & E & W & S0 & G0). exists p. split; [exact E|]. split; [exact W|]. split; [exact S0|].
  intros s a j e Hs Ha Hj He. rewrite G0 by (apply vidx_cons; auto; apply vidx_cons; auto; apply vidx_app; auto; vsolve).
  rewrite G1, G2 by auto. change Rminus with (@csub Rring). f_equal; apply sumn_ext; intros b Hb; [now rewrite Gx|now rewrite Gy].
Qed.

(** With the batch axis kept, and summed. *)
Lemma delta_mid_s lhs rhs i : length lhs = S d -> lhs_good lhs (d - 1) -> length rhs = S d -> rhs_good rhs 1 -> i < d - 1 ->
  exists p, (do p <- gauged w z l lhs i; do x <- nthr rhs (S i); einsum ("sa" ++ mode_str w ++ "b,sbc->" ++ "s" ++ "a" ++ mode_str w ++ "c") [p; x]) = Ok p /\ wft p /\
    shape p = B :: lk i :: ms i ++ [qk (S i)] /\
    forall s a j c, s < B -> a < lk i -> vidx (ms i) j -> c < qk (S i) -> get p (s :: a :: j ++ [c]) = dz s i a j c.
Proof.
  intros L1 G1 L2 G2 Hi. destruct (gauged_ok lhs i L1 G1 Hi) as (p & Ep & Wp & Sp & Gp). rewrite Ep. cbn [bind].
  rewrite (nthr_n rhs (S i) rzero) by lia. cbn [bind]. destruct (G2 (S i) ltac:(lia)) as (Wx & Sx & Gx). set (x := nth (S i) rhs rzero) in *.
  assert (H1 : exists y, einsum ("sa" ++ mode_str w ++ "b,sbc->" ++ "s" ++ "a" ++ mode_str w ++ "c") [p; x] = Ok y /\ wft y /\
     shape y = B :: lk i :: ms i ++ [qk (S i)] /\
     forall s a j c, s < B -> a < lk i -> vidx (ms i) j -> c < qk (S i) -> get y (s :: a :: j ++ [c]) = sumn (rk z (S i)) (fun e => get p (s :: a :: j ++ [e]) * get x [s; e; c])%K).
  { clear G1 G2 Gp Gx Ep. kind; estep. }
  destruct H1 as (y & Ey & Wy & Sy & Gy). exists y. split; [exact Ey|]. split; [exact Wy|]. split; [exact Sy|].
  intros s a j c Hs Ha Hj Hc. rewrite Gy, dz_mid by auto. apply sumn_ext. intros e He. now rewrite Gp, Gx.
Qed.
Lemma delta_mid_n lhs rhs i : length lhs = S d -> lhs_good lhs (d - 1) -> length rhs = S d -> rhs_good rhs 1 -> i < d - 1 ->
  exists p, (do p <- gauged w z l lhs i; do x <- nthr rhs (S i); einsum ("sa" ++ mode_str w ++ "b,sbc->" ++ "" ++ "a" ++ mode_str w ++ "c") [p; x]) = Ok p /\ wft p /\
    shape p = lk i :: ms i ++ [qk (S i)] /\
    forall a j c, a < lk i -> vidx (ms i) j -> c < qk (S i) -> get p (a :: j ++ [c]) = sumn (K := Rring) B (fun s => dz s i a j c).
Proof.
  intros L1 G1 L2 G2 Hi. destruct (gauged_ok lhs i L1 G1 Hi) as (p & Ep & Wp & Sp & Gp). rewrite Ep. cbn [bind].
  rewrite (nthr_n rhs (S i) rzero) by lia. cbn [bind]. destruct (G2 (S i) ltac:(lia)) as (Wx & Sx & Gx). set (x := nth (S i) rhs rzero) in *.
  assert (H1 : exists y, einsum ("sa" ++ mode_str w ++ "b,sbc->" ++ "" ++ "a" ++ mode_str w ++ "c") [p; x] = Ok y /\ wft y /\
     shape y = lk i :: ms i ++ [qk (S i)] /\
     forall a j c, a < lk i -> vidx (ms i) j -> c < qk (S i) -> get y (a :: j ++ [c]) = sumn B (fun s => sumn (rk z (S i)) (fun e => get p (s :: a :: j ++ [e]) * get x [s; e; c]))%K).
  { clear G1 G2 Gp Gx Ep. kind; estep. }
  destruct H1 as (y & Ey & Wy & Sy & Gy). exists y. split; [exact Ey|]. split; [exact Wy|]. split; [exact Sy|].
  intros a j c Ha Hj Hc. rewrite Gy by auto. apply sumn_ext. intros s Hs. rewrite dz_mid by auto. apply sumn_ext. intros e He. now rewrite Gp, Gx.
Qed.
Lemma delta_last_s lhs : length lhs = S d -> lhs_good lhs (d - 1) ->
  exists p, (do x <- nthr lhs (d - 1); do c <- nthr (cores z) (d - 1); einsum ("sab,sb" ++ mode_str w ++ "c->" ++ "s" ++ "a" ++ mode_str w ++ "c") [x; c]) = Ok p /\ wft p /\
    shape p = B :: lk (d - 1) :: ms (d - 1) ++ [1] /\
    forall s a j c, s < B -> a < lk (d - 1) -> vidx (ms (d - 1)) j -> c < 1 -> get p (s :: a :: j ++ [c]) = dz s (d - 1) a j c.
Proof.
  intros L1 G1. rewrite (nthr_n lhs (d - 1) rzero) by lia. cbn [bind]. destruct (G1 (d - 1) ltac:(lia)) as (Wx & Sx & Gx). set (x := nth (d - 1) lhs rzero) in *.
  rewrite (nthr_core z) by (rewrite z_nd; lia). cbn [bind].
  pose proof (z_shape (d - 1) ltac:(lia)) as Sz. replace (S (d - 1)) with d in Sz by lia. rewrite <- z_nd, (wf_last Hz), z_nd in Sz.
  assert (H1 : exists y, einsum ("sab,sb" ++ mode_str w ++ "c->" ++ "s" ++ "a" ++ mode_str w ++ "c") [x; core z (d - 1)] = Ok y /\ wft y /\
     shape y = B :: lk (d - 1) :: ms (d - 1) ++ [1] /\
     forall s a j c, s < B -> a < lk (d - 1) -> vidx (ms (d - 1)) j -> c < 1 -> get y (s :: a :: j ++ [c]) = sumn (rk z (d - 1)) (fun b => get x [s; a; b] * Z s (d - 1) b j c)%K).
  { unfold coreG. clear G1 Gx. kind; estep. }
  destruct H1 as (y & Ey & Wy & Sy & Gy). exists y. split; [exact Ey|]. split; [exact Wy|]. split; [exact Sy|].
  intros s a j c Hs Ha Hj Hc. rewrite Gy, dz_last by auto. apply sumn_ext. intros b Hb. now rewrite Gx.
Qed.
Lemma delta_last_n lhs : length lhs = S d -> lhs_good lhs (d - 1) ->
  exists p, (do x <- nthr lhs (d - 1); do c <- nthr (cores z) (d - 1); einsum ("sab,sb" ++ mode_str w ++ "c->" ++ "" ++ "a" ++ mode_str w ++ "c") [x; c]) = Ok p /\ wft p /\
    shape p = lk (d - 1) :: ms (d - 1) ++ [1] /\
    forall a j c, a < lk (d - 1) -> vidx (ms (d - 1)) j -> c < 1 -> get p (a :: j ++ [c]) = sumn (K := Rring) B (fun s => dz s (d - 1) a j c).
Proof.
  intros L1 G1. rewrite (nthr_n lhs (d - 1) rzero) by lia. cbn [bind]. destruct (G1 (d - 1) ltac:(lia)) as (Wx & Sx & Gx). set (x := nth (d - 1) lhs rzero) in *.
  rewrite (nthr_core z) by (rewrite z_nd; lia). cbn [bind].
  pose proof (z_shape (d - 1) ltac:(lia)) as Sz. replace (S (d - 1)) with d in Sz by lia. rewrite <- z_nd, (wf_last Hz), z_nd in Sz.
  assert (H1 : exists y, einsum ("sab,sb" ++ mode_str w ++ "c->" ++ "" ++ "a" ++ mode_str w ++ "c") [x; core z (d - 1)] = Ok y /\ wft y /\
     shape y = lk (d - 1) :: ms (d - 1) ++ [1] /\
     forall a j c, a < lk (d - 1) -> vidx (ms (d - 1)) j -> c < 1 -> get y (a :: j ++ [c]) = sumn B (fun s => sumn (rk z (d - 1)) (fun b => get x [s; a; b] * Z s (d - 1) b j c))%K).
  { unfold coreG. clear G1 Gx. kind; estep. }
  destruct H1 as (y & Ey & Wy & Sy & Gy). exists y. split; [exact Ey|]. split; [exact Wy|]. split; [exact Sy|].
  intros a j c Ha Hj Hc. rewrite Gy by auto. apply sumn_ext. intros s Hs. rewrite dz_last by auto. apply sumn_ext. intros b Hb. now rewrite Gx.
Qed.
End Fr.
