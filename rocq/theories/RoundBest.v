(** round with rank 1 of a 2 x 2 x 2 tensor: the last core is the leading right singular vector of the last unfolding, also when the best
    approximation has another one. *)
From Coq Require Import String List Arith ZArith Lia Lra Psatz Bool Reals.
From Verif Require Import Scalar Tensor TensorLemmas TensorLemmas2 Base Spec Chain BaseLemmas Ops FullProofs ResultLemmas Dense Sweep SliceProofs OpsR
  Decomp DecompSpec SvdSpec GaugeProofs OrthProofs OrthNorm QRExists Trunc TruncChain RoundProofs RoundThms Samples.
Import ListNotations.
Local Open Scope nat_scope.
Local Notation get := (@get Rring).
Local Notation core0 := (core0 Rring).

(** A step at axis i leaves all cores but i - 1 and i. *)
Lemma round_step_frame svd pre (t : rtt) mr i cs ranks cs' ranks' k : round_step svd pre t mr i (cs, ranks) = Ok (cs', ranks') -> k <> i -> k <> i - 1 ->
  nth k cs' core0 = nth k cs core0 /\ nth k ranks' 0 = nth k ranks 0.
Proof.
  intros E H1 H2. unfold round_step in E. cbv zeta in E.
  do 5 (match type of E with bind ?a _ = Ok _ => destruct a; [|discriminate]; cbn [bind] in E end || idtac).
  match type of E with context [svd ?m] => destruct (svd m) as [[? ?] ?] end.
  repeat match type of E with bind ?a _ = Ok _ => destruct a; [|discriminate]; cbn [bind] in E end.
  injection E as <- <-. split; rewrite !nth_upd_other by lia; reflexivity.
Qed.

Lemma rsum1 f : rsum 1 f = f 0%nat.
Proof. unfold rsum. cbn. lra. Qed.
Lemma rsum2 f : rsum 2 f = (f 0%nat + f 1%nat)%R.
Proof. unfold rsum. cbn. lra. Qed.
Lemma ri_2 f : ri [2] f = (f [0%nat] + f [1%nat])%R.
Proof. unfold ri. cbn. lra. Qed.
Lemma rj_nil f : rj [] f = f []. Proof. reflexivity. Qed.

Section Run.
Variables (qr : rtensor -> rtensor * rtensor) (svd : rtensor -> rtensor * rtensor * rtensor) (t : rtt).
Hypothesis Hqr : qr_ok qr.
Hypothesis Hsvd : svd_ok svd.
Hypothesis Hw : wf t.
Hypothesis Hr : rshape t = [[2;2;2]].
Hypothesis Hb : bsz t = None.
Let d3 : ndims t = 3.
Proof. pose proof (wf_rlen Hw) as L. rewrite Hr in L. inversion L; subst. cbn in *. lia. Qed.

Lemma run222 : exists z u v w (B : nat -> nat -> R), round qr svd t (RkNum 1) None = Ok z /\ wf z /\ rshape z = rshape t /\ bsz z = None /\
  (forall i j k, tt_entry z [] [[i]; [j]; [k]] = u i * v j * w k)%R /\
  (w 0%nat * w 0%nat + w 1%nat * w 1%nat = 1)%R /\
  forall P Z, (rsum 2 (fun i => rsum 2 (fun j => rsum 2 (fun k => (tt_entry t [] [[i]; [j]; [k]] - B i j * w k) * (tt_entry t [] [[i]; [j]; [k]] - B i j * w k))))
     <= cut_dist t (tt_entry t []) 2 1 P Z)%R.
Proof.
  set (mr := [1; 1; 1; 1]).
  assert (Hp : parse_ranks (is_batch t) (RkNum 1) None (ndims t) = Ok mr) by (unfold is_batch; rewrite Hb, d3; reflexivity).
  destruct (parse_ranks_ok _ _ _ _ _ Hp) as [Hmr Hmp].
  destruct (orth_ok qr t true Hqr Hw ltac:(discriminate)) as (o & Eo & Wo & Ro & Bo & Do & Ent & Hl & _).
  destruct (Hl eq_refl) as [Ko Orth]. clear Hl.
  assert (Bp : bpre t = []) by (unfold bpre; now rewrite Hb).
  assert (Ms : forall k, k < 3 -> modes t k = [2]) by (intros [|[|[|k]]] Hk; try lia; unfold modes; now rewrite Hr).
  pose proof (rd_start t o mr Hw Wo Ro Bo Do) as I0. rewrite d3 in I0. cbn [Nat.sub] in I0.
  destruct (rd_step svd Hsvd t o Hw Wo Ro Bo Do Orth mr Hmr Hmp 1 _ ltac:(rewrite d3; lia) I0) as ([cs1 rs1] & E1 & I1).
  destruct (rd_step svd Hsvd t o Hw Wo Ro Bo Do Orth mr Hmr Hmp 0 _ ltac:(rewrite d3; lia) I1) as ([cs2 rs2] & E2 & I2).
  destruct (rd_end t o mr cs2 rs2 Hw I2) as (g2 & Ez & Wz & Hmin & _).
  destruct (round_step_frame svd _ t mr 1 cs1 rs1 cs2 rs2 2 E2 ltac:(lia) ltac:(lia)) as [F1 F2].
  destruct (round_step_frame svd _ t mr 1 cs1 rs1 cs2 rs2 3 E2 ltac:(lia) ltac:(lia)) as [_ F3].
  set (z := vtt t cs2 rs2) in *.
  assert (Rz : round qr svd t (RkNum 1) None = Ok z).
  { unfold round. cbv zeta. rewrite Hp. cbn [bind]. rewrite Eo. cbn [bind]. fold (bpre t). rewrite d3. cbn [Nat.sub seq rev app foldM].
    rewrite E1. cbn [bind]. rewrite E2. cbn [bind]. exact Ez. }
  destruct I1 as (vr & g & Lr & R0 & Hlo & Hhi & Hsh & Hcs & Hmin1 & (e & He)). cbn [fst snd] in *. rewrite d3 in *.
  destruct (He [] ltac:(rewrite Bp; constructor)) as (HN & _ & HE & HB). rewrite d3 in *.
  assert (K2 : nth 2 rs1 0 = 1).
  { rewrite (Hmin1 2) by lia. cbn [nth mr]. pose proof (g_pos _ _ _ g) as P.
    assert (0 < nth 2 vr 0) by (apply Forall_nth'; [assumption|rewrite (g_rlen _ _ _ g), d3; lia]).
    rewrite Hhi in H by lia. rewrite (Hmin1 2) in H by lia. cbn [nth mr] in H. lia. }
  assert (K3 : nth 3 rs1 0 = 1) by (rewrite <- Hhi by lia; rewrite <- d3; apply (g_last _ _ _ g)).
  assert (V2 : vr_ vr 2 = 1) by (unfold vr_; now rewrite Hhi by lia). assert (V3 : vr_ vr 3 = 1) by (unfold vr_; now rewrite Hhi by lia).
  assert (Z1 : rk z 1 = 1).
  { change (nth 1 rs2 0 = 1). pose proof (Hmin 1 ltac:(lia)) as M. change (nth 1 mr 0) with 1 in M.
    pose proof (g_pos _ _ _ g2) as P. assert (0 < nth 1 rs2 0) by (apply Forall_nth'; [assumption|rewrite (g_rlen _ _ _ g2), d3; lia]). lia. }
  assert (Z2 : rk z 2 = 1) by (change (nth 2 rs2 0 = 1); congruence). assert (Z3 : rk z 3 = 1) by (change (nth 3 rs2 0 = 1); congruence).
  set (w := fun k : nat => get (nth 2 cs1 core0) [0; k; 0]).
  set (u := fun i : nat => coreG z [] 0 0 [i] 0). set (v := fun i : nat => coreG z [] 1 0 [i] 0).
  assert (Wv : forall k, vG t cs1 vr [] 2 0 [k] 0 = w k).
  { intros k. unfold vG. rewrite vtt_coreG by (rewrite d3; lia). unfold vcore, w. rewrite <- Hsh by lia. now destruct (nth 2 cs1 core0). }
  assert (Wz2 : forall k, coreG z [] 2 0 [k] 0 = w k).
  { intros k. unfold z. rewrite vtt_coreG by (rewrite d3; lia). unfold vcore, vshape. rewrite F1, F2, F3, Bp, K2, K3, Ms by lia.
    unfold w. pose proof (Hsh 2 ltac:(lia)) as S2. unfold vshape in S2. rewrite Bp, Ms in S2 by lia. unfold vr_ in V2, V3. rewrite V2, V3 in S2.
    cbn [app] in *. rewrite <- S2. now destruct (nth 2 cs1 core0). }
  set (B := fun i j : nat => lvec (vG t cs1 vr []) (vr_ vr) [[i]; [j]] 0).
  assert (R2 : forall k, rvec (vG t cs1 vr []) (vr_ vr) 2 [[k]] 0 = w k).
  { intros k. unfold rvec. rewrite rchain_cons, V3, rsum1, Wv. change (rchain _ _ 3 [] _ 0) with 1%R. lra. }
  exists z, u, v, w, B. split; [exact Rz|]. split; [exact Wz|]. split; [reflexivity|]. split; [exact Hb|]. split; [|split].
  - intros i j k. change (tt_entry z [] [[i]; [j]; [k]]) with (rchain (coreG z []) (rk z) 0 [[i]; [j]; [k]] (fun _ => 1%R) 0).
    rewrite !rchain_cons, Z1, rsum1, rchain_cons, Z2, rsum1, rchain_cons, Z3, rsum1, Wz2. change (rchain _ _ 3 [] _ 0) with 1%R. unfold u, v. match goal with |- @eq _ ?a ?b => change (@eq R a b) end. ring.
  - specialize (HN 0 0). rewrite V2 in HN. specialize (HN ltac:(lia) ltac:(lia)). cbn [Nat.sub seq map] in HN. rewrite Ms in HN by lia.
    rewrite rj_cons, ri_2, !rj_nil, !R2 in HN. unfold kron in HN. cbn [Nat.eqb] in HN. exact HN.
  - intros P Z. destruct (HB 2 ltac:(lia)) as [_ HB2]. specialize (HB2 1 P Z ltac:(cbn; lia)).
    cbn [Nat.sub] in HE. rewrite rsum1 in HE. cbn [Nat.add] in HE. rewrite <- HE in HB2. clear HE HB.
    assert (EA : forall i j k, i < 2 -> j < 2 -> k < 2 -> A o [] [[i]; [j]; [k]] = tt_entry t [] [[i]; [j]; [k]]).
    { intros i j k Hi Hj Hk. apply Ent; [rewrite Bp; constructor| |reflexivity]. cbn [vchain]. rewrite !Ms by lia. assert (V : forall i, i < 2 -> vidx [2] [i]) by (intros; constructor; [assumption|constructor]). auto. }
    assert (Ev : forall i j k, Av t cs1 vr [] [[i]; [j]; [k]] = (B i j * w k)%R).
    { intros i j k. unfold Av. change [[i]; [j]; [k]] with ([[i]; [j]] ++ [[k]]).
      etransitivity; [apply (cut (vG t cs1 vr []) (vr_ vr) [[i];[j]] [[k]])|].
      - unfold vr_. rewrite (g_first _ _ _ g). lia.
      - cbn [length]. rewrite V2, rsum1, R2. reflexivity. }
    eapply Rle_trans; [|eapply Rle_trans; [exact HB2|]].
    + apply Req_le. cbn [seq map]. rewrite !Ms by lia. rewrite rj_cons, ri_2, !rj_cons, !ri_2, !rj_cons, !ri_2, !rj_nil, !rsum2.
      rewrite !EA, !Ev by lia. ring.
    + apply Req_le. unfold cut_dist. rewrite d3. cbn [seq map Nat.sub]. rewrite !Ms by lia. rewrite !rj_cons, !ri_2, !rj_cons, !ri_2, !rj_nil, !rj_cons, !ri_2, !rj_nil.
      cbn [app]. rewrite !EA by lia. ring.
Qed.
End Run.

(** * The witness: 5 I in the first slice of the last axis, 6 in one place of the second. *)
Definition x222 : tt Zring := TT [zt [1;2;2] [1;0;0;1]%Z; zt [2;2;2] [5;0;0;6;0;0;5;0]%Z; zt [2;2;1] [1;0;0;1]%Z] [[2;2;2]] [1;2;2;1] None.
Definition b222 : tt Zring := TT [zt [1;2;1] [1;0]%Z; zt [1;2;1] [0;1]%Z; zt [1;2;1] [0;6]%Z] [[2;2;2]] [1;1;1;1] None.
Ltac ent := match goal with |- @eq _ ?a ?b => change (@eq R a b) end; cbv -[Rplus Rmult IZR]; lra.
Lemma x222_ent i j k : i < 2 -> j < 2 -> k < 2 ->
  tt_entry (toR x222) [] [[i];[j];[k]] = (if Nat.eqb k 0 then if Nat.eqb i j then 5 else 0 else if andb (Nat.eqb i 0) (Nat.eqb j 1) then 6 else 0)%R.
Proof. intros Hi Hj Hk. destruct i as [|[|]], j as [|[|]], k as [|[|]]; try lia; ent. Qed.
Lemma b222_ent i j k : i < 2 -> j < 2 -> k < 2 ->
  tt_entry (toR b222) [] [[i];[j];[k]] = (if andb (Nat.eqb i 0) (andb (Nat.eqb j 1) (Nat.eqb k 1)) then 6 else 0)%R.
Proof. intros Hi Hj Hk. destruct i as [|[|]], j as [|[|]], k as [|[|]]; try lia; ent. Qed.
(** A singular matrix is at least 5 away from 5 times the identity. *)
Lemma singular p q r s : (p * s = q * r)%R -> (25 <= (5 - p) * (5 - p) + q * q + r * r + (5 - s) * (5 - s))%R.
Proof. intros H. assert (0 <= (p + s - 5) * (p + s - 5))%R by apply Rle_0_sqr. assert (0 <= (q - r) * (q - r))%R by apply Rle_0_sqr. nra. Qed.
(** The part of A orthogonal to w. *)
Lemma plane a0 a1 b w0 w1 : (w0 * w0 + w1 * w1 = 1)%R -> ((a0 * a0 + a1 * a1) - (a0 * w0 + a1 * w1) * (a0 * w0 + a1 * w1) <= (a0 - b * w0) * (a0 - b * w0) + (a1 - b * w1) * (a1 - b * w1))%R.
Proof. intros H. assert (0 <= (b - (a0 * w0 + a1 * w1)) * (b - (a0 * w0 + a1 * w1)))%R by apply Rle_0_sqr. nra. Qed.
Definition p222 (J : list (list nat)) (_ : nat) : R := if Nat.eqb (nth 0 (nth 0 J []) 0) (nth 0 (nth 1 J []) 0) then 5%R else 0%R.
Definition z222 (J : list (list nat)) (_ : nat) : R := if Nat.eqb (nth 0 (nth 0 J []) 0) 0 then 1%R else 0%R.
Opaque x222 b222.
Section W.
Variables (qr : rtensor -> rtensor * rtensor) (svd : rtensor -> rtensor * rtensor * rtensor).
Hypothesis Hqr : qr_ok qr.
Hypothesis Hsvd : svd_ok svd.
Lemma worse : exists z, round qr svd (toR x222) (RkNum 1) None = Ok z /\ wf z /\ rshape z = [[2;2;2]] /\ bsz z = None /\
  (rj (all_modes (toR x222)) (fun J => (tt_entry (toR x222) [] J - tt_entry (toR b222) [] J) * (tt_entry (toR x222) [] J - tt_entry (toR b222) [] J)) = 50)%R /\
  (61 <= rj (all_modes (toR x222)) (fun J => (tt_entry (toR x222) [] J - tt_entry z [] J) * (tt_entry (toR x222) [] J - tt_entry z [] J)))%R.
Proof.
  assert (Hx : wf (toR x222)) by (apply wfb_wf; vm_compute; reflexivity).
  destruct (run222 qr svd (toR x222) Hqr Hsvd Hx eq_refl eq_refl) as (z & u & v & w & B & Ez & Wz & Rz & Bz & Hz & Hw & HB).
  change (all_modes (toR x222)) with [[2];[2];[2]].
  exists z. split; [exact Ez|]. split; [exact Wz|]. split; [exact Rz|]. split; [exact Bz|].
  split. { unfold rj. cbn -[tt_entry]. rewrite !x222_ent, !b222_ent by lia. cbn. lra. }
  assert (Hc : (cut_dist (toR x222) (tt_entry (toR x222) []) 2 1 p222 z222 = 36)%R).
  { unfold cut_dist, rj, rsum. change (map (modes (toR x222)) (seq 0 2)) with [[2];[2]]. change (map (modes (toR x222)) (seq 2 (ndims (toR x222) - 2))) with [[2]]. cbn -[tt_entry]. rewrite !x222_ent by lia. cbn. lra. }
  specialize (HB p222 z222).
  rewrite Hc in HB. rewrite !rsum2, !x222_ent in HB by lia. cbn in HB.
  assert (W1 : w 1%nat = 0%R).
  { pose proof (plane 5 0 (B 0 0) (w 0%nat) (w 1%nat) Hw). pose proof (plane 0 6 (B 0 1) (w 0%nat) (w 1%nat) Hw). pose proof (plane 5 0 (B 1 1) (w 0%nat) (w 1%nat) Hw). 
    assert (0 <= w 1%nat * w 1%nat)%R by apply Rle_0_sqr. assert (0 <= B 1%nat 0%nat * w 0%nat * (B 1%nat 0%nat * w 0%nat))%R by apply Rle_0_sqr. assert (0 <= B 1%nat 0%nat * w 1%nat * (B 1%nat 0%nat * w 1%nat))%R by apply Rle_0_sqr.
    assert (w 1%nat * w 1%nat = 0)%R by nra. now apply Rsqr_0_uniq. }
  unfold rj. cbn -[tt_entry]. rewrite !x222_ent, !Hz by lia. cbn. rewrite W1.
  pose proof (singular (u 0%nat * v 0%nat * w 0%nat) (u 0%nat * v 1%nat * w 0%nat) (u 1%nat * v 0%nat * w 0%nat) (u 1%nat * v 1%nat * w 0%nat) ltac:(ring)). lra.
Qed.
End W.
