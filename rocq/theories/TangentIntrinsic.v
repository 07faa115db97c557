(** Tangent spaces depend on the tensor only, not on the cores that represent it. *)
From Coq Require Import String Ascii List Arith ZArith Lia Lra Bool Ring Reals.
From Verif Require Import Scalar Tensor TensorLemmas TensorLemmas2 Base Spec Chain BaseLemmas Ops
  FullProofs ResultLemmas Dense AddProofs Sweep FlatProofs OpsR Decomp DecompSpec GaugeProofs OrthProofs OrthNorm KronSpec DetProofs QRExists Trunc SvdExists
  TangentProofs Riem RiemBlock RiemProofs RiemThms RiemMatmul RiemSpec TangentSpace RiemFull RiemMade.
Import ListNotations.
Local Open Scope nat_scope.
Local Notation train := (nat -> nat -> list nat -> nat -> Rring).
Local Notation fn := (list (list nat) -> Rring).
Local Notation get := (@get Rring).
Add Ring Rring5 : (cth Rring).
Local Ltac req := match goal with |- @eq _ ?u ?v => change (@eq R u v) end.

Lemma same_modes (x y : rtt) : rshape x = rshape y -> modes x = modes y.
Proof. intros E. unfold modes. now rewrite E. Qed.

Lemma indep_change ms m n r (f g : list (list nat) -> nat -> Rring) (M : nat -> nat -> Rring) : indep ms m n r f ->
  (forall I a, vj ms m n I -> a < r -> f I a = sumn r (fun e => g I e * M e a)%K) -> indep ms m n r g.
Proof.
  intros Hf HM. destruct (injective_inverse r M) as (N & HN).
  - intros c Hc. change (nat -> Rring) in c. apply Hf. intros I HI.
    rewrite (sumn_ext Rring r _ (fun a => sumn r (fun e => g I e * (M e a * c a))))%K.
    2:{ intros a Ha. rewrite HM by auto. rewrite <- sumn_mul_r. apply sumn_ext. intros. ring. }
    rewrite sumn_swap. apply sumn_zero. intros e He. rewrite sumn_mul_l. etransitivity; [apply f_equal; exact (Hc e He)|].
    change (g I e * c0 = c0)%K. ring.
  - change (nat -> nat -> Rring) in N. intros c Hc.
    assert (Z : forall a, a < r -> sumn r (fun b => N a b * c b)%K = 0%R).
    { apply (Hf (fun a => sumn r (fun b => N a b * c b)%K)). intros I HI. rewrite <- (Hc I HI).
      rewrite (sumn_ext Rring r _ (fun a => sumn r (fun e => g I e * (M e a * sumn r (fun b => N a b * c b)))))%K.
      2:{ intros a Ha. rewrite HM by auto. rewrite <- sumn_mul_r. apply sumn_ext. intros. ring. }
      rewrite sumn_swap. apply sumn_ext. intros e He. rewrite sumn_mul_l. f_equal.
      transitivity (sumn r (fun b => delta e b * c b))%K; [|rewrite sumn_deltal by auto; reflexivity].
      rewrite (sumn_ext Rring r _ (fun a => sumn r (fun b => M e a * N a b * c b)))%K by (intros; rewrite <- sumn_mul_l; apply sumn_ext; intros; ring).
      rewrite sumn_swap. apply sumn_ext. intros b Hb. rewrite sumn_mul_r. f_equal. rewrite <- kron_delta. exact (HN e b He Hb). }
    intros a Ha. transitivity (sumn r (fun e => M a e * sumn r (fun b => N e b * c b)))%K.
    + transitivity (sumn r (fun b => delta a b * c b))%K; [rewrite sumn_deltal by auto; reflexivity|].
      rewrite (sumn_ext Rring r (fun e => M a e * sumn r (fun b => N e b * c b))%K (fun e => sumn r (fun b => M a e * N e b * c b)))%K by (intros; rewrite <- sumn_mul_l; apply sumn_ext; intros; ring).
      rewrite sumn_swap. apply sumn_ext. intros b Hb. rewrite sumn_mul_r. f_equal. rewrite <- kron_delta. symmetry. exact (HN a b Ha Hb).
    + apply sumn_zero. intros e He. etransitivity; [apply f_equal; exact (Z e He)|]. change (M a e * c0 = c0)%K. ring.
Qed.

Lemma choose_cores (A : nat -> (nat -> list nat -> nat -> Rring) -> Prop) n : (forall m, m < n -> exists D, A m D) ->
  exists D : train, forall m, m < n -> A m (D m).
Proof.
  induction n as [|n IH]; intros H; [exists (fun _ _ _ _ => 0%K); intros; lia|].
  destruct IH as (D & HD); [intros; apply H; lia|]. destruct (H n ltac:(lia)) as (E & HE).
  exists (fun m => if Nat.eqb m n then E else D m). intros m Hm. destruct (Nat.eqb_spec m n); [now subst|]. apply HD. lia.
Qed.

Section XY.
Variables (x y : rtt).
Hypothesis Hx : wf x.
Hypothesis Hy : wf y.
Hypothesis Rxy : rshape y = rshape x.
Hypothesis Bx : bsz x = None.
Hypothesis By : bsz y = None.
Hypothesis HS : same_full x y.
Hypothesis Hr : full_tt_ranks x.
Local Notation d := (ndims x).
Local Notation ms := (modes x).
Local Notation X := (coreG x []).
Local Notation Y := (coreG y []).

Lemma nd_xy : ndims y = d.
Proof. apply (same_ndims Rring); auto. Qed.
Lemma ent_xy J : vj ms 0 d J -> tt_entry x [] J = tt_entry y [] J.
Proof.
  destruct HS as (da & db & Fa & Fb & Sab & V). destruct (dense x Hx) as (da' & Fa' & Sa & Va). destruct (dense y Hy) as (db' & Fb' & Sb & Vb).
  assert (da' = da) by congruence. assert (db' = db) by congruence. subst. rewrite Bx in Va, Sa. rewrite By in Vb, Sb. cbn [pre_of app] in *.
  intros HJ. apply (same_entries x x (tt_entry x []) (tt_entry y [])); auto. intros i Hi.
  rewrite <- (Va [] i), <- (same_split y x i Rxy), <- (Vb [] i); auto; try constructor.
  - cbn [app]. apply V. now rewrite Sa.
  - now rewrite (same_ishape y x Rxy).
Qed.

Lemma rep_left k : k < d -> exists M : nat -> nat -> Rring, forall I a, vj ms 0 k I -> a < rk x k ->
  lv X (rk x) I a = sumn (rk y k) (fun e => lv Y (rk y) I e * M e a)%K.
Proof.
  intros Hk. destruct (Nat.eq_dec k 0) as [->|H0].
  - exists (fun _ _ => 1%K). rewrite (wf_first Hx), (wf_first Hy).
    intros I a [_ LI] Ha; destruct I; cbn in LI; try lia; rewrite sumn_1; replace a with 0 by lia; unfold lv, delta; cbn [chain Nat.eqb]; ring.
  - apply (coords ms 0 k k d (rk x k) (rk y k) (fun I a => lv X (rk x) I a) (fun I e => lv Y (rk y) I e)
      (fun I a => rv Rring X (rk x) k I a) (fun I e => rv Rring Y (rk y) k I e)).
    + intros I I' HI HI'. rewrite <- (split_entry x ltac:(lia) x I I' k), <- (split_entry x ltac:(lia) y I I' k); auto; try apply (wf_first Hx); try apply (wf_first Hy).
      apply ent_xy. apply (vj_app ms 0 k d); auto; lia.
    + apply x_indep_r; auto; lia.
Qed.
Lemma rep_right k : 0 < k -> k <= d -> exists M : nat -> nat -> Rring, forall I a, vj ms k d I -> a < rk x k ->
  rv Rring X (rk x) k I a = sumn (rk y k) (fun e => rv Rring Y (rk y) k I e * M e a)%K.
Proof.
  intros H0 Hk. destruct (Nat.eq_dec k d) as [->|Hne].
  - exists (fun _ _ => 1%K). rewrite (wf_last Hx), <- nd_xy, (wf_last Hy), nd_xy.
    intros I a [_ LI] Ha; destruct I; cbn in LI; try lia; rewrite sumn_1; unfold rv; cbn [chain]; ring.
  - apply (coords ms k d 0 k (rk x k) (rk y k) (fun I a => rv Rring X (rk x) k I a) (fun I e => rv Rring Y (rk y) k I e)
      (fun I a => lv X (rk x) I a) (fun I e => lv Y (rk y) I e)).
    + intros I' I HI' HI. rewrite (sumn_ext Rring (rk x k) _ (fun a => lv X (rk x) I a * rv Rring X (rk x) k I' a)%K) by (intros; ring).
      rewrite (sumn_ext Rring (rk y k) _ (fun a => lv Y (rk y) I a * rv Rring Y (rk y) k I' a)%K) by (intros; ring).
      rewrite <- (split_entry x ltac:(lia) x I I' k), <- (split_entry x ltac:(lia) y I I' k); auto; try apply (wf_first Hx); try apply (wf_first Hy).
      apply ent_xy. apply (vj_app ms 0 k d); auto; lia.
    + apply x_indep_l; auto; lia.
Qed.

Lemma rank_least k : k <= d -> rk x k <= rk y k.
Proof.
  intros Hk. destruct (Nat.eq_dec k 0) as [->|H0]; [rewrite (wf_first Hx), (wf_first Hy); lia|].
  destruct (Nat.eq_dec k d) as [->|Hne]; [rewrite (wf_last Hx), <- nd_xy, (wf_last Hy); lia|].
  destruct (rep_left k ltac:(lia)) as (M & HM). apply (inj_le (rk y k) (rk x k) M).
  intros c Hc. apply (x_indep_l x Hx ltac:(lia) Hr k ltac:(lia)). intros J HJ.
  rewrite (sumn_ext Rring (rk x k) _ (fun a => sumn (rk y k) (fun e => lv Y (rk y) J e * (M e a * c a))))%K.
  2:{ intros a Ha. rewrite HM by auto. rewrite <- sumn_mul_r. apply sumn_ext. intros. cbn [cmul Rring]. req. ring. }
  rewrite sumn_swap. apply sumn_zero. intros e He. rewrite sumn_mul_l. etransitivity; [apply f_equal; exact (Hc e He)|].
  change (lv Y (rk y) J e * c0 = c0)%K. ring.
Qed.

Lemma tangent_rep T : tangent x T -> tangent y T.
Proof.
  intros (dG & HT).
  destruct (choose_cores (fun m D => forall J, vj ms 0 d J -> tterm Rring X X (rk x) (rk x) m (dG m) J = tterm Rring Y Y (rk y) (rk y) m D J) d) as (D & HD).
  - intros m Hm. destruct (rep_left m Hm) as (M & HM). destruct (rep_right (S m) ltac:(lia) ltac:(lia)) as (M' & HM').
    eexists. intros J HJ. apply (tterm_change ms d m X X Y Y (rk x) (rk x) (rk y) (rk y) M M'); auto.
  - exists D. intros i Hi. rewrite (same_ishape y x Rxy) in Hi. rewrite (same_split y x i Rxy), nd_xy. rewrite HT by auto. apply (sumn_ext Rring). intros m Hm.
    assert (HJ : vj ms 0 d (split_idx x i)) by (destruct (split_idx_valid _ x i Hx Hi) as [Q1 Q2]; split; auto; lia).
    transitivity (tterm Rring X X (rk x) (rk x) m (dG m) (split_idx x i)); [apply (chain_replaced ms d); auto; rewrite (wf_first Hx); lia|].
    rewrite HD by auto. symmetry. apply (chain_replaced ms d); auto. rewrite (wf_first Hy). lia.
Qed.
End XY.

Lemma same_full_sym {K : cring} (a b : tt K) : same_full a b -> same_full b a.
Proof. intros (da & db & Fa & Fb & E & V). exists db, da. do 3 (split; [auto|]). intros i Hi. symmetry. apply V. now rewrite E. Qed.
Lemma same_full_trans {K : cring} (a b c : tt K) : same_full a b -> same_full b c -> same_full a c.
Proof.
  intros (da & db & Fa & Fb & E & V) (db' & dc & Fb' & Fc & E' & V'). assert (db' = db) by congruence. subst.
  exists da, dc. do 2 (split; [auto|]). split; [congruence|]. intros i Hi. rewrite V by auto. apply V'. now rewrite <- E.
Qed.

Lemma tangent_iff (x y : rtt) T : wf x -> wf y -> rshape y = rshape x -> bsz x = None -> bsz y = None -> same_full x y ->
  full_tt_ranks x -> full_tt_ranks y -> (tangent x T <-> tangent y T).
Proof.
  intros. split; intros HT.
  - now apply (tangent_rep x y).
  - apply (tangent_rep y x); auto using same_full_sym.
Qed.

(** Of all representations the ones with independent factors are exactly those of least ranks. *)
Lemma full_of_ranks (x y : rtt) : wf x -> wf y -> rshape y = rshape x -> bsz x = None -> bsz y = None -> same_full x y ->
  full_tt_ranks x -> rks y = rks x -> full_tt_ranks y.
Proof.
  intros Hx Hy Rxy Bx By HS Hr Ek. pose proof (nd_xy x y Hx Hy Rxy) as Ed. intros k Hk. rewrite Ed in Hk.
  assert (Erk : rk y k = rk x k) by (unfold rk; now rewrite Ek).
  destruct (rep_left x y Hx Hy Rxy Bx By HS Hr k ltac:(lia)) as (M & HM).
  destruct (rep_right x y Hx Hy Rxy Bx By HS Hr k ltac:(lia) ltac:(lia)) as (M' & HM').
  rewrite Erk in *. split; intros c Hc.
  - apply (indep_change (modes x) 0 k (rk x k) _ _ M (x_indep_l x Hx ltac:(lia) Hr k Hk) HM). intros J [HJ LJ].
    rewrite <- (Hc J); [|now rewrite (same_modes y x)|lia].
    apply sumn_ext. intros a Ha. change (lv (coreG y []) (rk y) J a * c a = left_part y J a * c a)%R. f_equal. unfold left_part, lv. apply (chain_ext Rring (modes x)); auto; [rewrite (wf_first Hy); lia|].
    intros b Hb. unfold delta. rewrite Nat.eqb_sym. reflexivity.
  - apply (indep_change (modes x) k (ndims x) (rk x k) _ _ M' (x_indep_r x ltac:(lia) Hr k Hk) HM'). intros J [HJ LJ].
    rewrite <- (Hc J); [|now rewrite (same_modes y x)|lia].
    apply sumn_ext. intros a Ha. unfold right_part, rv. apply Rmult_comm.
Qed.
