(** C68: rounding errors of bilinear forms and of inner products with sparse tensors.  As in C57-C59 the error is bounded by a
    factor that depends on shapes and ranks only, times the same computation with the absolute values of all numbers. *)
From Coq Require Import String Ascii List Arith ZArith Lia Lra Bool Reals.
From Verif Require Import Scalar Tensor TensorLemmas Base Spec BaseLemmas Ops OpsR FullProofs ResultLemmas Dense MatmulProofs DenseMatmul FlatProofs BilinearProofs GatherProofs ValidProofs Samples.
From Verif Require Import Float FloatSpec FloatProofs FloatThms FloatThms2 FloatThms3 FloatThms6 FloatSeq FloatSeqProofs FloatBin Properties_Float.
Import ListNotations.
Local Open Scope R_scope.
Local Notation get := (@get Rring).

(** Terms of the sums in [b^T A c]: for every axis the product of the three ranks with the numbers of rows and columns
    of the core of [A] and of columns of the core of [b]; two more multiplications for every axis after the first, one for the first. *)
Definition bilinear_terms (A b c : rtt) : nat :=
  list_sum (map (fun k => rk b k * rk A k * rk c k * (mode A 0 k * mode b 1 k * mode A 1 k))%nat (seq 0 (ndims A))) + (2 * ndims A - 1).

Theorem C68_bilinear_rounding : forall u ar (A b c : rtt) rows cols ks, 0 <= u -> arith_ok u ar -> wf A -> wf b -> wf c ->
  rshape A = [rows; cols] -> rshape b = [rows; ks] -> rshape c = [cols; ks] -> bsz A = None -> bsz b = None -> bsz c = None ->
  exists dA db dc aA ab ac z, full A = Ok dA /\ full b = Ok db /\ full c = Ok dc /\
    full (tt_abs A) = Ok aA /\ full (tt_abs b) = Ok ab /\ full (tt_abs c) = Ok ac /\
    bilinear_form_fl ar A b c = Ok z /\ shape z = [] /\
    Rabs (get z [] - sumn (K := Rring) (prodn rows) (fun i => sumn (K := Rring) (prodn ks) (fun k => sumn (K := Rring) (prodn cols) (fun j =>
      get db [i; k] * (get dA [i; j] * get dc [j; k])))))
    <= ((1 + u) ^ bilinear_terms A b c - 1) *
       sumn (K := Rring) (prodn rows) (fun i => sumn (K := Rring) (prodn ks) (fun k => sumn (K := Rring) (prodn cols) (fun j =>
         get ab [i; k] * (get aA [i; j] * get ac [j; k])))).
Proof.
  intros u ar A b c rows cols ks Hu Har HA Hb Hc RA Rb Rc BA Bb Bc.
  pose proof (bilinear_rel u Hu ar Har A b c HA Hb Hc rows cols ks RA Rb Rc BA ltac:(congruence) (fun _ => 0%nat) (fun _ => 0%nat) (fun _ => 0%nat)
    A (tt_abs A) b (tt_abs b) c (tt_abs c) (ttnear_self u Hu A _ HA) (ttnear_self u Hu b _ Hb) (ttnear_self u Hu c _ Hc)) as H.
  destruct (bilinear_full Rring A b c rows cols ks HA Hb Hc RA Rb Rc BA ltac:(congruence)) as (dA & db & dc & r & F1 & F2 & F3 & E & _ & S & G).
  destruct (bilinear_full Rring (tt_abs A) (tt_abs b) (tt_abs c) rows cols ks (tt_abs_wf A HA) (tt_abs_wf b Hb) (tt_abs_wf c Hc) RA Rb Rc BA ltac:(cbn; congruence))
    as (aA & ab & ac & r' & F1' & F2' & F3' & E' & _ & _ & G').
  rewrite E, E' in H. destruct (bilinear_form_fl ar A b c) as [z|]; cbn [rel3] in H; [|contradiction].
  exists dA, db, dc, aA, ab, ac, z. do 6 (split; [assumption|]). split; [reflexivity|]. pose proof H as (_ & _ & _ & Sz & _).
  change (bsz (tt_abs b)) with (bsz b) in G'. rewrite Bb in *. split; [rewrite Sz; exact S|].
  apply tnear_get with (i := []) in H. specialize (G 0%nat I). specialize (G' 0%nat I). cbn [bo sqb app] in G, G'. rewrite G, G' in H.
  replace (bl_count A b c (fun _ => 0%nat) (fun _ => 0%nat) (fun _ => 0%nat) (ndims A)) with (bilinear_terms A b c) in H; [exact (proj1 H)|].
  unfold bl_count, bilinear_terms. rewrite !csum_0. unfold csum, bl_terms, mode. rewrite RA, Rb. cbn [nth]. lia.
Qed.
Print Assumptions C68_bilinear_rounding.

(** Batches of vectors: every element of the batch. *)
Theorem C68_bilinear_batch_rounding : forall u ar (A b c : rtt) rows cols ks B, 0 <= u -> arith_ok u ar -> wf A -> wf b -> wf c ->
  rshape A = [rows; cols] -> rshape b = [rows; ks] -> rshape c = [cols; ks] -> bsz A = None -> bsz b = Some B -> bsz c = Some B ->
  exists dA db dc aA ab ac z, full A = Ok dA /\ full b = Ok db /\ full c = Ok dc /\
    full (tt_abs A) = Ok aA /\ full (tt_abs b) = Ok ab /\ full (tt_abs c) = Ok ac /\
    bilinear_form_fl ar A b c = Ok z /\ shape z = (if Nat.eqb B 1 then [] else [B]) /\
    forall o, (o < B)%nat ->
    Rabs (get z (if Nat.eqb B 1 then [] else [o]) - sumn (K := Rring) (prodn rows) (fun i => sumn (K := Rring) (prodn ks) (fun k => sumn (K := Rring) (prodn cols) (fun j =>
      get db [o; i; k] * (get dA [i; j] * get dc [o; j; k])))))
    <= ((1 + u) ^ bilinear_terms A b c - 1) *
       sumn (K := Rring) (prodn rows) (fun i => sumn (K := Rring) (prodn ks) (fun k => sumn (K := Rring) (prodn cols) (fun j =>
         get ab [o; i; k] * (get aA [i; j] * get ac [o; j; k])))).
Proof.
  intros u ar A b c rows cols ks B Hu Har HA Hb Hc RA Rb Rc BA Bb Bc.
  pose proof (bilinear_rel u Hu ar Har A b c HA Hb Hc rows cols ks RA Rb Rc BA ltac:(congruence) (fun _ => 0%nat) (fun _ => 0%nat) (fun _ => 0%nat)
    A (tt_abs A) b (tt_abs b) c (tt_abs c) (ttnear_self u Hu A _ HA) (ttnear_self u Hu b _ Hb) (ttnear_self u Hu c _ Hc)) as H.
  destruct (bilinear_full Rring A b c rows cols ks HA Hb Hc RA Rb Rc BA ltac:(congruence)) as (dA & db & dc & r & F1 & F2 & F3 & E & _ & S & G).
  destruct (bilinear_full Rring (tt_abs A) (tt_abs b) (tt_abs c) rows cols ks (tt_abs_wf A HA) (tt_abs_wf b Hb) (tt_abs_wf c Hc) RA Rb Rc BA ltac:(cbn; congruence))
    as (aA & ab & ac & r' & F1' & F2' & F3' & E' & _ & _ & G').
  rewrite E, E' in H. destruct (bilinear_form_fl ar A b c) as [z|]; cbn [rel3] in H; [|contradiction].
  exists dA, db, dc, aA, ab, ac, z. do 6 (split; [assumption|]). split; [reflexivity|]. pose proof H as (_ & _ & _ & Sz & _).
  change (bsz (tt_abs b)) with (bsz b) in G'. rewrite Bb in *.
  replace (pre_of (sqb (Some B))) with (if Nat.eqb B 1 then [] else [B]) in S by (destruct B as [|[|B]]; reflexivity).
  split; [rewrite Sz; exact S|]. intros o Ho.
  apply tnear_get with (i := if Nat.eqb B 1 then [] else [o]) in H. specialize (G o Ho). specialize (G' o Ho).
  replace (bo (sqb (Some B)) o) with (if Nat.eqb B 1 then [] else [o]) in G, G' by (destruct B as [|[|B]]; reflexivity).
  cbn [bo app] in G, G'. rewrite G, G' in H.
  replace (bl_count A b c (fun _ => 0%nat) (fun _ => 0%nat) (fun _ => 0%nat) (ndims A)) with (bilinear_terms A b c) in H; [exact (proj1 H)|].
  unfold bl_count, bilinear_terms. rewrite !csum_0. unfold csum, bl_terms, mode. rewrite RA, Rb. cbn [nth]. lia.
Qed.
Print Assumptions C68_bilinear_batch_rounding.

(** The form with two matrices, [x^T A B y].  Terms: for every axis the product of the four ranks with the five modes summed
    over; four more multiplications for every axis after the first, three for the first.  Batches are not covered: with a batch
    the function raises or gives a wrong number (C17). *)
Definition two_mat_terms (x A B y : rtt) : nat :=
  list_sum (map (fun k => rk x k * rk A k * rk B k * rk y k * (mode x 0 k * mode x 1 k * mode A 1 k * mode B 1 k * mode y 1 k))%nat (seq 0 (ndims A)))
  + (4 * ndims A - 1).

Theorem C68_two_mat_rounding : forall u ar (x A B y : rtt) ls ns ps os ms, 0 <= u -> arith_ok u ar -> wf x -> wf A -> wf B -> wf y ->
  rshape x = [ls; ns] -> rshape A = [ls; ps] -> rshape B = [ps; os] -> rshape y = [os; ms] ->
  bsz x = None -> bsz A = None -> bsz B = None -> bsz y = None ->
  exists dx dA dB dy ax aA aB ay z, full x = Ok dx /\ full A = Ok dA /\ full B = Ok dB /\ full y = Ok dy /\
    full (tt_abs x) = Ok ax /\ full (tt_abs A) = Ok aA /\ full (tt_abs B) = Ok aB /\ full (tt_abs y) = Ok ay /\
    bilinear_form_two_mat_fl ar x A B y = Ok z /\ shape z = [] /\
    let form dx dA dB dy := sumn (K := Rring) (prodn ls) (fun l => sumn (K := Rring) (prodn ns) (fun n => sumn (K := Rring) (prodn ps) (fun p =>
      sumn (K := Rring) (prodn os) (fun o => sumn (K := Rring) (prodn ms) (fun m =>
        get dx [l; n] * (get dA [l; p] * (get dB [p; o] * get dy [o; m]))))))) in
    Rabs (get z [] - form dx dA dB dy) <= ((1 + u) ^ two_mat_terms x A B y - 1) * form ax aA aB ay.
Proof.
  intros u ar x A B y ls ns ps os ms Hu Har Hx HA HB Hy Rx RA RB Ry Bx BA BB By.
  pose proof (two_mat_rel u Hu ar Har x A B y Hx HA HB Hy ls ns ps os ms Rx RA RB Ry Bx BA BB By
    x (tt_abs x) A (tt_abs A) B (tt_abs B) y (tt_abs y) (ttnear_self u Hu x _ Hx) (ttnear_self u Hu A _ HA) (ttnear_self u Hu B _ HB) (ttnear_self u Hu y _ Hy)) as H.
  destruct (two_mat_full Rring x A B y ls ns ps os ms Hx HA HB Hy Rx RA RB Ry Bx BA BB By) as (dx & dA & dB & dy & r & F1 & F2 & F3 & F4 & E & _ & S & G).
  destruct (two_mat_full Rring (tt_abs x) (tt_abs A) (tt_abs B) (tt_abs y) ls ns ps os ms (tt_abs_wf x Hx) (tt_abs_wf A HA) (tt_abs_wf B HB) (tt_abs_wf y Hy) Rx RA RB Ry Bx BA BB By)
    as (ax & aA & aB & ay & r' & F1' & F2' & F3' & F4' & E' & _ & _ & G').
  rewrite E, E' in H. destruct (bilinear_form_two_mat_fl ar x A B y) as [z|]; cbn [rel3] in H; [|contradiction].
  exists dx, dA, dB, dy, ax, aA, aB, ay, z. do 8 (split; [assumption|]). split; [reflexivity|]. pose proof H as (_ & _ & _ & Sz & _).
  split; [now rewrite Sz|]. cbv zeta. apply tnear_get with (i := []) in H. rewrite G, G' in H.
  replace (b2_count x A B y ls ns ps os ms (ndims A)) with (two_mat_terms x A B y) in H; [exact (proj1 H)|].
  unfold b2_count, two_mat_terms, csum, b2_terms, mode. rewrite Rx, RA, RB, Ry. reflexivity.
Qed.
Print Assumptions C68_two_mat_rounding.

(** [s]: M index rows and M values, as in C15. *)
Theorem C68_sparse_rounding : forall u ar (a : rtt) (s : sparse Rring) M, 0 <= u -> arith_ok u ar -> wf a -> bsz a = None ->
  shape (sp_indices s) = [M; length (get_shape a)] -> wft (sp_values s) -> shape (sp_values s) = [M] -> rows_valid (sp_indices s) (get_shape a) ->
  exists d D z, full a = Ok d /\ full (tt_abs a) = Ok D /\ tt_sparse_flat_inner_fl ar a s = Ok z /\ shape z = [] /\
    let p m := row (sp_indices s) (length (get_shape a)) m in
    Rabs (get z [] - sumn (K := Rring) M (fun m => get d (p m) * get (sp_values s) [m]))
    <= ((1 + u) ^ (left_ranks a + M) - 1) * sumn (K := Rring) M (fun m => get D (p m) * Rabs (get (sp_values s) [m])).
Proof.
  intros u ar a s M Hu Har Hw Hb Si Wv Sv Hv.
  pose proof (sparse_rel u Hu ar Har (fun _ => 0%nat) 0 a a (tt_abs a) s s (Sparse (sp_indices s) (tabs (sp_values s)) (sp_shape s)) M
    (ttnear_self u Hu a _ Hw) Hw Hb Si Hv eq_refl eq_refl Sv (tnear_self u Hu _ 0 Wv)) as H.
  destruct (sparse_inner_full Rring a s M Hw Hb Si Sv Hv) as (d & r & Fd & Er & Sr & Gr).
  destruct (sparse_inner_full Rring (tt_abs a) (Sparse (sp_indices s) (tabs (sp_values s)) (sp_shape s)) M (tt_abs_wf a Hw) Hb Si Sv Hv) as (D & R' & FD & ER & _ & GR).
  rewrite Er, ER in H. destruct (tt_sparse_flat_inner_fl ar a s) as [z|]; cbn [rel3] in H; [|contradiction].
  exists d, D, z. do 2 (split; [assumption|]). split; [reflexivity|]. pose proof H as (_ & _ & _ & Sz & _). split; [congruence|]. cbv zeta.
  apply tnear_get with (i := []) in H. rewrite Gr, GR in H. cbn [sp_indices sp_values] in H.
  rewrite csum_0, Nat.add_0_r in H. cbn [Nat.add] in H.
  eapply Rle_trans; [exact (proj1 H)|]. apply Req_le. f_equal. apply (sumn_ext Rring M). intros m _. now rewrite tabs_get.
Qed.
Print Assumptions C68_sparse_rounding.

Definition r_v6 : rtt := TT (K := Rring) [Tensor (K := Rring) [1;2;1;2]%nat [1;2;0;-1]; Tensor (K := Rring) [2;3;1;1]%nat [1;0;2;-1;3;1]] [[2;3];[1;1]]%nat [1;2;1]%nat None.
Definition r_v4 : rtt := TT (K := Rring) [Tensor (K := Rring) [1;2;1;1]%nat [1;-3]; Tensor (K := Rring) [1;2;1;1]%nat [2;5]] [[2;2];[1;1]]%nat [1;1;1]%nat None.
Definition r_v6b : rtt := TT (K := Rring) [Tensor (K := Rring) [2;1;2;1;1]%nat [1;2;0;-1]; Tensor (K := Rring) [2;1;3;1;1]%nat [1;0;2;-1;3;1]] [[2;3];[1;1]]%nat [1;1;1]%nat (Some 2%nat).
Definition r_v4b : rtt := TT (K := Rring) [Tensor (K := Rring) [2;1;2;1;1]%nat [1;-3;2;2]; Tensor (K := Rring) [2;1;2;1;1]%nat [2;5;1;0]] [[2;2];[1;1]]%nat [1;1;1]%nat (Some 2%nat).
Example C68_ex : wf (toR s_m) /\ rshape (toR s_m) = [[2;3];[2;2]]%nat /\ bsz (toR s_m) = None /\ wf r_v6 /\ wf r_v4 /\ wf r_v6b /\ wf r_v4b /\
  bilinear_terms (toR s_m) r_v6 r_v4 = 31%nat /\ arith_ok ((/ 2) ^ 24) (seq_arith (round_bits 24)).
Proof.
  split; [exact r_m_wf|]. do 2 (split; [reflexivity|]). do 4 (split; [apply wfb_wf; vm_compute; reflexivity|]). split; [vm_compute; reflexivity|]. apply C57_binary; lia.
Qed.
Definition r_mb : rtt := TT (K := Rring) [Tensor (K := Rring) [1;2;2;1]%nat [1;2;0;1]; Tensor (K := Rring) [1;2;2;1]%nat [1;0;2;-1]] [[2;2];[2;2]]%nat [1;1;1]%nat None.
Example C68_two_mat_ex : wf r_v6 /\ wf (toR s_m) /\ wf r_mb /\ wf r_v4 /\ rshape r_v6 = [[2;3];[1;1]]%nat /\ rshape (toR s_m) = [[2;3];[2;2]]%nat /\
  rshape r_mb = [[2;2];[2;2]]%nat /\ rshape r_v4 = [[2;2];[1;1]]%nat /\ two_mat_terms r_v6 (toR s_m) r_mb r_v4 = 63%nat.
Proof.
  split; [apply wfb_wf; vm_compute; reflexivity|]. split; [exact r_m_wf|]. do 2 (split; [apply wfb_wf; vm_compute; reflexivity|]).
  do 4 (split; [reflexivity|]). vm_compute. reflexivity.
Qed.
Definition r_sp : sparse Rring := Sparse (K := Rring) (zt [2; 3]%nat [0; 2; 1; 1; 0; 0]%Z) (Tensor (K := Rring) [2]%nat [2; -5]) [2;3;2]%nat.
Example C68_sparse_ex : wf (toR s_a) /\ shape (sp_indices r_sp) = [2; length (get_shape (toR s_a))]%nat /\ wft (sp_values r_sp) /\
  rows_valid (sp_indices r_sp) (get_shape (toR s_a)) /\ left_ranks (toR s_a) = 5%nat.
Proof. split; [exact r_a_wf|]. do 2 (split; [reflexivity|]). split; [apply C57_gather_ex|reflexivity]. Qed.
