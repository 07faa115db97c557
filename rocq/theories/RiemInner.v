(** Inner products of elements of one tangent space, [pairwise_flat_inner_projected]. *)
From Coq Require Import String Ascii List Arith ZArith Lia Lra Bool Ring Reals.
From Verif Require Import Scalar Tensor TensorLemmas TensorLemmas2 Base Spec Chain BaseLemmas Ops
  FullProofs ResultLemmas Dense AddProofs DenseMatmul Sweep FlatProofs GatherProofs RoundProofs OpsR InitProofs Decomp DecompSpec GaugeProofs OrthProofs OrthNorm
  TangentProofs Riem RiemBlock RiemProofs RiemThms RiemSpec TangentSpace RiemFull RiemDelta.
Import ListNotations.
Local Open Scope nat_scope.
Local Notation train := (nat -> nat -> list nat -> nat -> Rring).
Local Notation fn := (list (list nat) -> Rring).
Local Notation get := (@get Rring).
Add Ring Rring6 : (cth Rring).

Section Inner.
Variables (x l r : rtt).
Hypothesis Hx : wf x.
Hypothesis HF : is_frame x l r.
Hypothesis Hd : 2 <= ndims x.
Local Notation d := (ndims x).
Local Notation ms := (modes x).
Local Notation U := (coreG l []).
Local Notation V := (coreG r []).
Local Notation term := (tterm Rring U V (rk l) (rk r)).
Local Notation gauged D := (gauge Rring ms d U (rk l) (rk r) D).

Local Notation dprod D E m := (sumn (K := Rring) (rk l m) (fun a => sumn (K := Rring) (rk r (S m)) (fun c => isum (K := Rring) (ms m) (fun j => D m a j c * E m a j c)%K))).

Lemma inner_less (D : train) k m E : k < m < d -> gauged D -> js Rring ms 0 d (fun J => term k (D k) J * term m E J)%K = 0%K.
Proof.
  intros Hk HG. rewrite inner_tterm; auto; try lia; [|apply (fr_l0 x l r HF)|apply (fr_ld x l r HF)|apply (fr_qd x l r HF)].
  apply sumn_zero. intros a Ha. apply sumn_zero. intros c Hc. apply isum_zero. intros j Hj.
  rewrite cf_other; auto; try lia; [ring|apply (fr_l0 x l r HF)|apply (fr_ld x l r HF)|apply (fr_qd x l r HF)|now apply (fr_HU x l r)].
Qed.
Lemma inner_same (D : train) m (E : train) : m < d -> js Rring ms 0 d (fun J => term m (D m) J * term m (E m) J)%K = dprod D E m.
Proof.
  intros Hm. rewrite inner_tterm; auto; try lia; [|apply (fr_l0 x l r HF)|apply (fr_ld x l r HF)|apply (fr_qd x l r HF)].
  apply sumn_ext. intros a Ha. apply sumn_ext. intros c Hc. apply isum_ext. intros j Hj. f_equal.
  apply cf_same; auto; try lia; [apply (fr_l0 x l r HF)|apply (fr_ld x l r HF)|apply (fr_qd x l r HF)|now apply (fr_HU x l r)|now apply (fr_HV x l r)].
Qed.
Lemma inner_deltas (D E : train) : gauged D -> gauged E ->
  js Rring ms 0 d (fun J => sumn d (fun k => term k (D k) J) * sumn d (fun m => term m (E m) J))%K = sumn (K := Rring) d (fun m => dprod D E m).
Proof.
  intros HD HE.
  rewrite (js_ext Rring ms 0 d _ (fun J => sumn d (fun k => sumn d (fun m => term k (D k) J * term m (E m) J)))%K).
  2:{ intros J _. rewrite <- sumn_mul_r. apply sumn_ext. intros k _. now rewrite sumn_mul_l. }
  rewrite js_sumn. apply sumn_ext. intros k Hk. rewrite js_sumn.
  rewrite (sumn_ext Rring d _ (fun m => delta k m * dprod D E m)%K).
  2:{ intros m Hm. unfold delta. destruct (Nat.eqb_spec m k) as [->|Hn].
      - rewrite inner_same by auto. generalize (dprod D E k). intros y. cbn in *. ring.
      - destruct (Nat.lt_ge_cases k m).
        + rewrite inner_less by (auto; lia). generalize (dprod D E m). intros y. cbn in *. ring.
        + rewrite (js_ext Rring ms 0 d _ (fun J => term m (E m) J * term k (D k) J)%K) by (intros; ring). rewrite inner_less by (auto; lia). generalize (dprod D E m). intros y. cbn in *. ring. }
  now rewrite sumn_deltal.
Qed.

(** ** expand_batch_dim *)
Definition osel (ob : option nat) (p : nat) : list nat := match ob with Some _ => [p] | None => [] end.
Definition ocnt (ob : option nat) : nat := match ob with Some b => b | None => 1 end.
Lemma blocks_expand ob D t : blocks x l r ob D t -> exists e, expand_batch_dim t = Ok e /\ blocks x l r (Some (ocnt ob)) (fun o => D (osel ob (nth 0 o 0))) e.
Proof.
  intros Ht. pose proof Ht as (W & R & B & N & Kk & G). destruct ob as [b|]; cbn [osel ocnt].
  - exists t. split; [unfold expand_batch_dim; now rewrite B|]. do 5 (split; [assumption|]).
    intros o k a j c Ho Hk Ha Hj Hc. rewrite G by auto. cbn in Ho. apply vidx_1_inv in Ho as (p & -> & Hp). reflexivity.
  - destruct (expand_ok Rring t W B) as (e & Ee & We & Re & Ke & Be & Ne & Ge). exists e. split; [exact Ee|].
    split; [exact We|]. split; [congruence|]. split; [exact Be|]. split; [congruence|].
    assert (EK : forall k, rk e k = rk t k) by (intros; unfold rk; now rewrite Ke).
    split; [intros; rewrite EK; auto|]. intros o k a j c Ho Hk Ha Hj Hc. cbn in Ho. apply vidx_1_inv in Ho as (p & -> & Hp).
    assert (p = 0) as -> by lia. rewrite EK in Ha, Hc. unfold coreG. cbn [app]. rewrite Ge by (rewrite N; auto).
    apply (G [] k a j c); auto; constructor.
Qed.

Hypothesis Heq : forall k, 0 < k < ndims x -> rk l k = rk r k.

Ltac kind := unfold mode_str; destruct (wf_kind_cases _ x Hx) as [(? & _ & HM)|(? & _ & HM)];
  match goal with E : is_tt_matrix x = _ |- _ => rewrite E end; rewrite !HM in *; clear HM; cbn [app String.append] in *.
Ltac estep := einsum_step; eexists; (split; [reflexivity|]); (split; [apply wft_mk|]); (split; [reflexivity|]);
    intros; repeat match goal with H : vidx [_] _ |- _ => apply vidx_1_inv in H as (? & -> & ?) | H : vidx [_; _] _ |- _ => apply vidx_2_inv in H as (? & ? & -> & ? & ?) end;
    cbn [app isum]; rewrite get_mk by vsolve; ecbv; try reflexivity.
Lemma pq_ok (y z : rtensor) B C i u v : shape y = B :: u :: ms i ++ [v] -> shape z = C :: u :: ms i ++ [v] ->
  exists w, einsum ("pa" ++ mode_str x ++ "b,qa" ++ mode_str x ++ "b->pq") [y; z] = Ok w /\ wft w /\ shape w = [B; C] /\
    forall p q, p < B -> q < C -> get w [p; q] = sumn u (fun a => isum (ms i) (fun j => sumn v (fun c => get y (p :: a :: j ++ [c]) * get z (q :: a :: j ++ [c]))))%K.
Proof. intros Sy Sz. kind; estep. Qed.

Lemma dprod_sum (D E : train) m : dprod D E m = sumn (rk l m) (fun a => isum (ms m) (fun j => sumn (rk r (S m)) (fun c => D m a j c * E m a j c)))%K.
Proof. apply sumn_ext. intros a _. now rewrite isum_sumn_swap. Qed.

(** ** The function *)
Lemma pairwise_ok ob1 ob2 D1 D2 t1 t2 addr : blocks x l r ob1 D1 t1 -> blocks x l r ob2 D2 t2 ->
  exists w, pairwise_flat_inner_projected (Proj t1 (Some addr)) (Proj t2 (Some addr)) = Ok w /\ wft w /\ shape w = [ocnt ob1; ocnt ob2] /\
    forall p q, p < ocnt ob1 -> q < ocnt ob2 -> get w [p; q] = sumn (K := Rring) d (fun m => dprod (D1 (osel ob1 p)) (D2 (osel ob2 q)) m).
Proof.
  intros H1 H2. unfold pairwise_flat_inner_projected. cbn [p_on p_tt]. rewrite Nat.eqb_refl. cbn [negb].
  destruct (blocks_expand _ _ _ H1) as (e1 & Ee1 & G1). destruct (blocks_expand _ _ _ H2) as (e2 & Ee2 & G2). rewrite Ee1. cbn [bind]. rewrite Ee2. cbn [bind].
  set (B1 := ocnt ob1) in *. set (B2 := ocnt ob2) in *.
  set (C1 := fun o => D1 (osel ob1 (nth 0 o 0))) in *. set (C2 := fun o => D2 (osel ob2 (nth 0 o 0))) in *.
  assert (N1 : ndims e1 = d) by apply G1. assert (N2 : ndims e2 = d) by apply G2. rewrite N1.
  assert (R1 : rshape e1 = rshape x) by apply G1. assert (R2 : rshape e2 = rshape x) by apply G2.
  assert (EM : is_tt_matrix e1 = is_tt_matrix x) by (unfold is_tt_matrix; now rewrite R1).
  assert (ES : mode_str e1 = mode_str x) by (unfold mode_str; now rewrite EM). rewrite EM, ES.
  assert (W1 : wf e1) by apply G1.
  assert (KR : forall k, k <= d -> nthr (lazy_tt_ranks e1) k = Ok (rk e1 k)) by (intros; apply nthr_ranks; auto; lia).
  assert (SP : forall i li ri B, full_slice :: li :: repeat full_slice (if is_tt_matrix x then 2 else 1) ++ [ri] = cut_spec (pre_of (Some B)) (ms i) li ri).
  { intros. unfold cut_spec. cbn [pre_of length repeat app]. destruct (wf_kind_cases _ x Hx) as [(E & _ & HM)|(E & _ & HM)]; rewrite E, HM; reflexivity. }
  cbv zeta.
  assert (PL : forall B, length (pre_of (Some B)) <= 1) by (intros; cbn; lia).
  pose (inner := fun i li ri =>
    do y <- (do c <- nthr (cores e1) i; getitem c (full_slice :: li :: repeat full_slice (if is_tt_matrix x then 2 else 1) ++ [ri]));
    do z <- (do c <- nthr (cores e2) i; getitem c (full_slice :: li :: repeat full_slice (if is_tt_matrix x then 2 else 1) ++ [ri]));
    einsum ("pa" ++ mode_str x ++ "b,qa" ++ mode_str x ++ "b->pq") [y; z]).
  assert (KE : forall k, k <= d -> rk e1 k = rk e2 k).
  { intros k Hk. destruct G1 as (_ & _ & _ & _ & K1 & _). destruct G2 as (_ & _ & _ & _ & K2 & _). now rewrite K1, K2. }
  (* one step *)
  assert (ST : forall i li ri, i < d -> resolve1 li (rk e1 i) = Ok (seq (if Nat.eqb i 0 then 0 else rk r i) (rk l i), true) ->
     resolve1 ri (rk e1 (S i)) = Ok (seq 0 (rk r (S i)), true) ->
     exists w, inner i li ri = Ok w /\ wft w /\ shape w = [B1; B2] /\
       forall p q, p < B1 -> q < B2 -> get w [p; q] = dprod (D1 (osel ob1 p)) (D2 (osel ob2 q)) i).
  { intros i li ri Hi E1 E2. unfold inner.
    destruct (delta_cut x l r Hx HF Hd Heq (Some B1) C1 e1 G1 i li ri Hi E1 E2) as (y1 & Ey1 & Wy1 & Sy1 & Gy1).
    pose proof E1 as E1'. pose proof E2 as E2'. rewrite (KE i) in E1' by lia. rewrite (KE (S i)) in E2' by lia.
    destruct (delta_cut x l r Hx HF Hd Heq (Some B2) C2 e2 G2 i li ri Hi E1' E2') as (y2 & Ey2 & Wy2 & Sy2 & Gy2).
    rewrite !nthr_core by lia. cbn [bind]. rewrite (SP i li ri B1), Ey1. cbn [bind].
    change (cut_spec (pre_of (Some B1)) (ms i) li ri) with (cut_spec (pre_of (Some B2)) (ms i) li ri). rewrite Ey2. cbn [bind].
    destruct (pq_ok y1 y2 B1 B2 i _ _ Sy1 Sy2) as (w & Ew & Ww & Sw & Gw). exists w. split; [exact Ew|]. split; [exact Ww|]. split; [exact Sw|].
    intros p q Hp Hq. rewrite Gw by auto. rewrite dprod_sum. apply sumn_ext. intros a Ha. apply isum_ext. intros j Hj. apply sumn_ext. intros c Hc.
    specialize (Gy1 [p] a j c ltac:(repeat constructor; auto) Ha Hj Hc). specialize (Gy2 [q] a j c ltac:(repeat constructor; auto) Ha Hj Hc).
    cbn [app] in Gy1, Gy2. rewrite Gy1, Gy2. reflexivity. }
  rewrite KR by lia. cbn [bind].
  destruct (ST 0 full_slice (zslice None (Some (rk e1 1 / 2))) ltac:(lia)) as (w0 & Ew0 & Ww0 & Sw0 & Gw0).
  { rewrite resolve1_full, (wf_first W1), (fr_l0 x l r HF). reflexivity. }
  { rewrite (bl_half x l r Hd Heq (Some B1) C1 e1 G1) by lia. apply rs_to'. rewrite (bl_rk x l r Hd Heq (Some B1) C1 e1 G1) by lia. lia. }
  unfold inner in Ew0. cbv beta in Ew0. rewrite Ew0. cbn [bind].
  match goal with |- context [foldM ?f (seq 1 (d - 1)) w0] =>
    destruct (foldM_seq f (fun k w => wft w /\ shape w = [B1; B2] /\ forall p q, p < B1 -> q < B2 -> get w [p; q] = sumn (K := Rring) (Nat.min k (d - 1)) (fun m => dprod (D1 (osel ob1 p)) (D2 (osel ob2 q)) m)) (d - 1) 1 w0) as (w1 & Ew1 & Ww1 & Sw1 & Gw1)
  end.
  { split; [exact Ww0|]. split; [exact Sw0|]. intros p q Hp Hq. rewrite Gw0 by auto. replace (Nat.min 1 (d - 1)) with 1 by lia. now rewrite sumn_1. }
  { intros i w Hi (Ww & Sw & Gw). rewrite !KR by lia. cbn [bind].
    assert (KI : 0 < i < d) by lia.
    destruct (Nat.eq_dec i (d - 1)) as [Ei|Ni].
    - (* the empty slice of the last core *)
      rewrite !nthr_core by lia. cbn [bind].
      assert (EL : resolve1 (zslice (Some (rk e1 i / 2)) None) (rk e1 i) = Ok (seq (rk r i) (rk r i), true)).
      { rewrite (bl_half x l r Hd Heq (Some B1) C1 e1 G1) by lia. rewrite rs_from; rewrite (bl_rk x l r Hd Heq (Some B1) C1 e1 G1) by lia; [|lia]. do 3 f_equal. lia. }
      assert (ER : resolve1 (zslice None (Some (rk e1 (S i) / 2))) (rk e1 (S i)) = Ok (seq 0 0, true)).
      { replace (S i) with (ndims e1) by lia. rewrite (wf_last W1). apply rs_to'. lia. }
      pose proof EL as EL'. pose proof ER as ER'. rewrite (KE i) in EL' at 2 by lia. rewrite (KE (S i)) in ER' at 2 by lia.
      rewrite (SP i _ _ B1).
      destruct (cut_ok (core e1 i) (pre_of (Some B1)) (ms i) _ _ _ _ _ _ _ _ (PL B1) (ms_len x Hx i) (bl_core x l r (Some B1) C1 e1 G1 i ltac:(lia)) EL ER) as (y1 & Ey1 & Wy1 & Sy1 & Gy1).
      destruct (cut_ok (core e2 i) (pre_of (Some B2)) (ms i) _ _ _ _ _ _ _ _ (PL B2) (ms_len x Hx i) (bl_core x l r (Some B2) C2 e2 G2 i ltac:(lia)) EL' ER') as (y2 & Ey2 & Wy2 & Sy2 & Gy2).
      rewrite Ey1. cbn [bind]. match goal with |- context [cut_spec (pre_of (Some B1)) (ms i) ?u ?v] => change (cut_spec (pre_of (Some B1)) (ms i) u v) with (cut_spec (pre_of (Some B2)) (ms i) u v) end.
      rewrite Ey2. cbn [bind].
      destruct (pq_ok y1 y2 B1 B2 i _ _ Sy1 Sy2) as (z & Ez & Wz & Sz & Gz). rewrite Ez. cbn [bind].
      destruct (ewise_same Rplus w z [B1; B2] Sw Sz) as (w' & Ew' & Ww' & Sw' & Gw'). exists w'. split; [exact Ew'|]. split; [exact Ww'|]. split; [exact Sw'|].
      intros p q Hp Hq. rewrite Gw' by (repeat constructor; auto). rewrite Gz, Gw by auto.
      replace (Nat.min (S i) (d - 1)) with (Nat.min i (d - 1)) by lia.
      rewrite (sumn_zero Rring (rk r i)). 2:{ intros a _. apply isum_zero. intros j _. reflexivity. } apply Rplus_0_r.
    - destruct (ST i (zslice (Some (rk e1 i / 2)) None) (zslice None (Some (rk e1 (S i) / 2))) ltac:(lia)) as (z & Ez & Wz & Sz & Gz).
      { rewrite (bl_half x l r Hd Heq (Some B1) C1 e1 G1) by lia. rewrite rs_from; rewrite (bl_rk x l r Hd Heq (Some B1) C1 e1 G1) by lia; [|lia].
        destruct (Nat.eqb_spec i 0); [lia|]. rewrite Heq by lia. do 3 f_equal. lia. }
      { rewrite (bl_half x l r Hd Heq (Some B1) C1 e1 G1) by lia. apply rs_to'. rewrite (bl_rk x l r Hd Heq (Some B1) C1 e1 G1) by lia. lia. }
      unfold inner in Ez. cbv beta in Ez. rewrite Ez. cbn [bind].
      destruct (ewise_same Rplus w z [B1; B2] Sw Sz) as (w' & Ew' & Ww' & Sw' & Gw'). exists w'. split; [exact Ew'|]. split; [exact Ww'|]. split; [exact Sw'|].
      intros p q Hp Hq. rewrite Gw' by (repeat constructor; auto). rewrite Gz, Gw by auto.
      replace (Nat.min (S i) (d - 1)) with (S (Nat.min i (d - 1))) by lia. replace (Nat.min i (d - 1)) with i by lia. reflexivity. }
  rewrite Ew1. cbn [bind]. rewrite KR by lia. cbn [bind].
  destruct (ST (d - 1) (zslice (Some (rk e1 (d - 1) / 2)) None) full_slice ltac:(lia)) as (z & Ez & Wz & Sz & Gz).
  { rewrite (bl_half x l r Hd Heq (Some B1) C1 e1 G1) by lia. rewrite rs_from; rewrite (bl_rk x l r Hd Heq (Some B1) C1 e1 G1) by lia; [|lia].
    destruct (Nat.eqb_spec (d - 1) 0); [lia|]. rewrite Heq by lia. do 3 f_equal. lia. }
  { replace (S (d - 1)) with d by lia. rewrite resolve1_full. rewrite <- N1 at 1. rewrite (wf_last W1), (fr_qd x l r HF). reflexivity. }
  unfold inner in Ez. cbv beta in Ez. rewrite Ez. cbn [bind].
  destruct (ewise_same Rplus w1 z [B1; B2] Sw1 Sz) as (w' & Ew' & Ww' & Sw' & Gw'). exists w'. split; [exact Ew'|]. split; [exact Ww'|]. split; [exact Sw'|].
  intros p q Hp Hq. rewrite Gw' by (repeat constructor; auto). rewrite Gz, Gw1 by auto.
  replace (Nat.min (1 + (d - 1)) (d - 1)) with (d - 1) by lia. replace d with (S (d - 1)) at 3 by lia. reflexivity.
Qed.

(** Together: the scalar products of the dense tensors. *)
Lemma pairwise_inner ob1 ob2 D1 D2 t1 t2 addr : blocks x l r ob1 D1 t1 -> blocks x l r ob2 D2 t2 ->
  (forall p, p < ocnt ob1 -> gauged (D1 (osel ob1 p))) -> (forall p, p < ocnt ob2 -> gauged (D2 (osel ob2 p))) ->
  exists w, pairwise_flat_inner_projected (Proj t1 (Some addr)) (Proj t2 (Some addr)) = Ok w /\ wft w /\ shape w = [ocnt ob1; ocnt ob2] /\
    forall p q, p < ocnt ob1 -> q < ocnt ob2 ->
      get w [p; q] = isum (ishape x) (fun i => tt_entry t1 (osel ob1 p) (split_idx x i) * tt_entry t2 (osel ob2 q) (split_idx x i))%K.
Proof.
  intros H1 H2 G1 G2. destruct (pairwise_ok _ _ _ _ _ _ addr H1 H2) as (w & Ew & Ww & Sw & Gw). exists w. do 3 (split; [assumption|]).
  intros p q Hp Hq. rewrite Gw by auto. rewrite (isum_js x Hx (fun J => tt_entry t1 (osel ob1 p) J * tt_entry t2 (osel ob2 q) J)%K).
  rewrite <- inner_deltas by auto. apply js_ext. intros J HJ.
  assert (V1 : vidx (pre_of ob1) (osel ob1 p)) by (destruct ob1; cbn in *; repeat constructor; auto).
  assert (V2 : vidx (pre_of ob2) (osel ob2 q)) by (destruct ob2; cbn in *; repeat constructor; auto).
  rewrite (blocks_entry x l r ob1 D1 (fr_l _ _ _ HF) (fr_r _ _ _ HF) (fr_nl _ _ _ HF) (fr_nr _ _ _ HF) Hd) by auto.
  rewrite (blocks_entry x l r ob2 D2 (fr_l _ _ _ HF) (fr_r _ _ _ HF) (fr_nl _ _ _ HF) (fr_nr _ _ _ HF) Hd) by auto. reflexivity.
Qed.
End Inner.
