(** The arguments [max_tt_rank] and [epsilon]. *)
From Coq Require Import String List Arith ZArith Lia Lra Bool Reals.
From Verif Require Import Scalar Tensor TensorLemmas Base Spec BaseLemmas Ops Dense OpsR Decomp DecompSpec GaugeProofs RoundProofs SvdSpec.
Import ListNotations.
Local Open Scope nat_scope.

Lemma existsb_lt1 l : Forall (fun z => 1 <= z)%Z l -> existsb (fun z => Z.ltb z 1) l = false.
Proof. induction 1 as [|z l Hz _ IH]; [reflexivity|]. cbn [existsb]. rewrite IH, orb_false_r. apply Z.ltb_ge. exact Hz. Qed.

Lemma eps_ok (eps : option R) : match eps with Some e => (0 <= e)%R | None => True end ->
  (match eps with Some e => if Rlt_dec e 0 then true else false | None => false end) = false.
Proof. destruct eps as [e|]; [|reflexivity]. intros H. destruct (Rlt_dec e 0); [lra|reflexivity]. Qed.

Lemma limits_parse batch a eps d m : rank_limits batch a eps d m -> 1 <= d ->
  exists mr, parse_ranks batch a eps d = Ok mr /\ forall k, k <= d -> nth k mr 0 = m k.
Proof.
  intros [He Ha] Hd. unfold parse_ranks. destruct a as [| |z|l]; [contradiction|contradiction| |]; cbn [to_int32 bind].
  - destruct Ha as [Hz Hm]. cbn [length Nat.ltb Nat.leb]. rewrite andb_false_r, (existsb_lt1 [z]) by auto. rewrite eps_ok by auto.
    eexists. split; [reflexivity|]. intros k Hk. rewrite Hm by auto. apply nth_repeat_lt. lia.
  - destruct Ha as (-> & Hl & Hf & Hm). cbn [andb]. rewrite existsb_lt1, eps_ok by auto. rewrite Hl, Nat.eqb_refl. cbn [negb].
    destruct l as [|z0 [|z1 l]]; [discriminate|cbn in Hl; lia|]. eexists. split; [reflexivity|].
    intros k Hk. rewrite Hm by auto. change 0 with (Z.to_nat 0) at 1. apply map_nth.
Qed.

(** Refusals. *)
Lemma parse_below1 batch a eps d z : (a = RkNum z \/ exists l, a = RkList l /\ In z l) -> (z < 1)%Z -> parse_ranks batch a eps d = Err ValueError.
Proof.
  intros [->|(l & -> & Hi)] Hz; unfold parse_ranks; cbn [to_int32 bind].
  - cbn [length Nat.ltb Nat.leb existsb]. rewrite andb_false_r, orb_false_r. now replace (z <? 1)%Z with true by (symmetry; now apply Z.ltb_lt).
  - destruct (batch && (1 <? length l)); [reflexivity|]. replace (existsb _ l) with true; [reflexivity|]. symmetry. apply existsb_exists.
    exists z. split; [auto|now apply Z.ltb_lt].
Qed.
Lemma parse_length batch l eps d : length l <> 1 -> length l <> S d -> parse_ranks batch (RkList l) eps d = Err ValueError.
Proof.
  intros H1 H2. unfold parse_ranks. cbn [to_int32 bind]. destruct (batch && _); [reflexivity|]. destruct (existsb _ _); [reflexivity|].
  destruct (match eps with Some _ => _ | None => _ end); [reflexivity|]. apply Nat.eqb_neq in H2. rewrite H2.
  destruct l as [|? [|? ?]]; [reflexivity|cbn in H1; lia|reflexivity].
Qed.
Lemma parse_eps batch a e d : a <> RkNone -> (e < 0)%R -> parse_ranks batch a (Some e) d = Err ValueError.
Proof.
  intros Ha He. unfold parse_ranks. destruct (to_int32 a) as [l|] eqn:E; [|destruct a; easy]. cbn [bind]. destruct (batch && _); [reflexivity|].
  destruct (existsb _ _); [reflexivity|]. destruct (Rlt_dec e 0); [reflexivity|contradiction].
Qed.
Lemma parse_batch_list l eps d : length l = S d -> 1 <= d -> parse_ranks true (RkList l) eps d = Err ValueError.
Proof. intros H1 H2. unfold parse_ranks. cbn [to_int32 bind]. destruct l as [|? [|? ?]]; [discriminate|cbn in H1; lia|reflexivity]. Qed.
Lemma parse_none batch eps d : parse_ranks batch RkNone eps d = Err TypeError.
Proof. reflexivity. Qed.
Lemma parse_inf batch eps d : parse_ranks batch RkInf eps d = Err ValueError.
Proof. unfold parse_ranks. cbn [to_int32 bind length Nat.ltb Nat.leb existsb]. now rewrite andb_false_r. Qed.

Lemma round_err qr svd (t : rtt) a eps e : parse_ranks (is_batch t) a eps (ndims t) = Err e -> round qr svd t a eps = Err e.
Proof. intros H. unfold round. cbv zeta. rewrite H. reflexivity. Qed.
Lemma to_tt_err svd (x : rtensor) a eps e : parse_ranks false a eps (length (shape x)) = Err e -> to_tt_tensor svd x a eps = Err e.
Proof. intros H. unfold to_tt_tensor. cbv zeta. rewrite H. reflexivity. Qed.
