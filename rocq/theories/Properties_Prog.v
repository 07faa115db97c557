(** C56: a program over the library computes what the same program over dense arrays computes.
    [means] and [means_run] (ProgSpec.v) are the dense programs; [run] (History.v) is the library.
    [qr], [svd] and [la] are any routines satisfying the contracts (which can be satisfied:
    [C27_qr_exists], [C29_svd_exists], [C40_inv_exists], [C40_cholesky_exists], [C48_gradients_exist]). *)
From Coq Require Import String List Arith ZArith Lia Lra Bool Reals.
From Verif Require Import Scalar Tensor TensorLemmas Base Spec BaseLemmas Ops FullProofs ResultLemmas Dense OpsR BatchOps Det Decomp DecompSpec SvdSpec Approx Kron KronSpec Init History.
From Verif Require Import BatchProofs InitProofs SliceProofs ValidProofs RiemSpec Autodiff AutoSpec RiemFull RiemThms ProgSpec AutoMain ProgRiem ProgAuto ProgThms Properties_Batch Properties_Init Properties_Riem Properties_Auto Samples.
Import ListNotations.
Local Open Scope nat_scope.
Local Notation get := (@get Rring).

(** One call, any objects standing for the values of the arguments. *)
Theorem C56_call : forall qr svd la grad (e : env) de c v o, qr_ok qr -> svd_ok svd -> inv_ok (tf_inv la) -> cho_ok (tf_cholesky la) -> grad_ok grad ->
  (second_order c = true -> steady grad) -> denote_all e de -> means de c v -> call qr svd la grad e c = Ok o -> denotes (o_tt o) v.
Proof. intros qr svd la grad e de c v o Hq Hs Hi Hc Hg HS HE HM HC. now apply (call_correct qr svd la grad Hq Hs Hi Hc Hg e de HE c). Qed.
Print Assumptions C56_call.

Theorem C56_call_succeeds : forall qr svd la grad (e : env) de c v, qr_ok qr -> svd_ok svd -> inv_ok (tf_inv la) -> cho_ok (tf_cholesky la) -> grad_ok grad ->
  denote_all e de -> means de c v -> may_raise c = false -> exists o, call qr svd la grad e c = Ok o.
Proof.
  intros qr svd la grad e de c v Hq Hs Hi Hc Hg HE HM HC. destruct (call_denotes qr svd la grad Hq Hs Hi e de HE c v HM HC) as (o & E & _). eauto.
Qed.
Print Assumptions C56_call_succeeds.

Lemma run_length qr svd la grad p : forall e, length (run qr svd la grad e p) <= length e + length p.
Proof.
  induction p as [|c p IH]; intros e; cbn [run length]; [lia|]. destruct (call qr svd la grad e c) as [o|].
  - specialize (IH (e ++ [o])). rewrite app_length in IH. cbn in IH. lia.
  - specialize (IH e). lia.
Qed.

Lemma denote_all_snoc e de o v : denote_all e de -> denotes (o_tt o) v -> denote_all (e ++ [o]) (de ++ [v]).
Proof. intros H D. apply Forall2_app; [exact H|]. constructor; [exact D|constructor]. Qed.

(** Programs that run to the end. *)
Theorem C56_programs : forall qr svd la grad p (e : env) de vs, qr_ok qr -> svd_ok svd -> inv_ok (tf_inv la) -> cho_ok (tf_cholesky la) -> grad_ok grad ->
  (existsb second_order p = true -> steady grad) -> denote_all e de -> means_run de p vs -> length (run qr svd la grad e p) = length e + length p ->
  denote_all (run qr svd la grad e p) (de ++ vs).
Proof.
  intros qr svd la grad p e de vs Hq Hs Hi Hc Hg. revert e de vs. induction p as [|c p IH]; intros e de vs HS HE HM HL; destruct vs as [|v vs]; try contradiction; cbn [run].
  - now rewrite app_nil_r.
  - destruct HM as [HM HM']. cbn [run] in HL. destruct (call qr svd la grad e c) as [o|] eqn:EC.
    + replace (de ++ v :: vs) with ((de ++ [v]) ++ vs) by (rewrite <- app_assoc; reflexivity). cbn [existsb] in HS. apply IH; [| |exact HM'|].
      * intros Q. apply HS. rewrite Q. apply orb_true_r.
      * apply denote_all_snoc; [exact HE|]. apply (call_correct qr svd la grad Hq Hs Hi Hc Hg e de HE c); auto. intros Q. apply HS. now rewrite Q.
      * rewrite app_length. cbn [length] in *. lia.
    + exfalso. pose proof (run_length qr svd la grad p e). cbn [length] in HL. lia.
Qed.
Print Assumptions C56_programs.

(** A call returns, if it is not one of those that may raise or if it differentiates and the tape never returns None. *)
Theorem C56_call_returns : forall qr svd la grad (e : env) de c v, qr_ok qr -> svd_ok svd -> inv_ok (tf_inv la) -> grad_ok grad ->
  (differentiates c = true -> forall f ds, ~ In None (grad f ds)) -> denote_all e de -> means de c v -> negb (may_raise c) || differentiates c = true ->
  exists o, call qr svd la grad e c = Ok o /\ denotes (o_tt o) v.
Proof.
  intros qr svd la grad e de c v Hq Hs Hi Hg HN HE HM HC. destruct (may_raise c) eqn:C; [|destruct (call_denotes qr svd la grad Hq Hs Hi e de HE c v HM C) as (o & E & D); eauto].
  cbn in HC. specialize (HN HC). destruct c; try discriminate.
  - pose proof HM as (x & F & E & A & Hf & HF & HG & HV & HP). destruct (arg_get e de a x HE A) as (y & Ey & Dy).
    destruct (gradients_succeed qr grad func F E runtime_check (o_addr y) (o_tt y) x v Hq Hg Dy Hf HF HG HV HP HN) as (q & Eq).
    eexists. split; [cbn [call]; rewrite Ey; cbn [bind]; rewrite Eq; reflexivity|]. exact (proj1 (gradients_means qr grad func F E runtime_check _ _ x v q Hq Hg Dy Hf HF HG HV HP Eq)).
  - pose proof HM as (x & z & F & E & H & W & A & A' & M & Bz & Hf & HF & HG & HH & HV & HW & HP).
    destruct (arg_get e de a x HE A) as (y & Ey & Dy). destruct (arg_get e de vector z HE A') as (y' & Ey' & Dy').
    destruct (hvp_none_free qr grad func F E H W runtime_check (o_addr y) (o_tt y) (o_tt y') x z v Hq Hg Dy Dy' M Bz Hf HF HG HH HV HP HN) as (q & Eq).
    eexists. split; [cbn [call]; rewrite Ey; cbn [bind]; rewrite Ey'; cbn [bind]; rewrite Eq; reflexivity|].
    refine (proj1 (hvp_means qr grad func F E H W runtime_check _ _ _ x z v Hq Hg Dy Dy' M Bz Hf HF HG HH HV HW HP q _ Eq)).
    intros f ds ds' Q. exfalso. exact (HN f ds Q).
Qed.
Print Assumptions C56_call_returns.

(** So does every dense program of such calls. *)
Theorem C56_programs_succeed : forall qr svd la grad p (e : env) de vs, qr_ok qr -> svd_ok svd -> inv_ok (tf_inv la) -> grad_ok grad ->
  (existsb differentiates p = true -> forall f ds, ~ In None (grad f ds)) ->
  denote_all e de -> means_run de p vs -> forallb (fun c => negb (may_raise c) || differentiates c) p = true ->
  length (run qr svd la grad e p) = length e + length p /\ denote_all (run qr svd la grad e p) (de ++ vs).
Proof.
  intros qr svd la grad p e de vs Hq Hs Hi Hg. revert e de vs. induction p as [|c p IH]; intros e de vs HN HE HM HC; destruct vs as [|v vs]; try contradiction; cbn [run length].
  - rewrite app_nil_r. split; [lia|exact HE].
  - destruct HM as [HM HM']. cbn [forallb] in HC. apply andb_prop in HC as [HC HC']. cbn [existsb] in HN.
    destruct (C56_call_returns qr svd la grad e de c v Hq Hs Hi Hg) as (o & -> & D); auto; [intros Q; apply HN; now rewrite Q|].
    replace (de ++ v :: vs) with ((de ++ [v]) ++ vs) by (rewrite <- app_assoc; reflexivity).
    destruct (IH (e ++ [o]) (de ++ [v]) vs) as [L D']; auto; [intros Q; apply HN; rewrite Q; apply orb_true_r|now apply denote_all_snoc|].
    split; [|exact D']. rewrite L, app_length. cbn. lia.
Qed.
Print Assumptions C56_programs_succeed.

(** Two users run the same program, with different TT representations of the same dense inputs and with
    different QR, SVD, inversion and Cholesky routines: the dense results agree. *)
Theorem C56_representation_independent : forall qr svd la grad qr' svd' la' grad' p (e e' : env) de vs,
  qr_ok qr -> svd_ok svd -> inv_ok (tf_inv la) -> cho_ok (tf_cholesky la) -> grad_ok grad -> qr_ok qr' -> svd_ok svd' -> inv_ok (tf_inv la') -> cho_ok (tf_cholesky la') -> grad_ok grad' ->
  (existsb second_order p = true -> steady grad /\ steady grad') -> denote_all e de -> denote_all e' de -> means_run de p vs ->
  length (run qr svd la grad e p) = length e + length p -> length (run qr' svd' la' grad' e' p) = length e' + length p ->
  Forall2 (fun o o' => rshape (o_tt o) = rshape (o_tt o') /\ bsz (o_tt o) = bsz (o_tt o') /\ exists d, full (o_tt o) = Ok d /\ full (o_tt o') = Ok d)
    (run qr svd la grad e p) (run qr' svd' la' grad' e' p).
Proof.
  intros qr svd la grad qr' svd' la' grad' p e e' de vs Hq Hs Hi Hc Hg Hq' Hs' Hi' Hc' Hg' HS HE HE' HM HL HL'.
  pose proof (C56_programs qr svd la grad p e de vs Hq Hs Hi Hc Hg (fun Q => proj1 (HS Q)) HE HM HL) as D. pose proof (C56_programs qr' svd' la' grad' p e' de vs Hq' Hs' Hi' Hc' Hg' (fun Q => proj2 (HS Q)) HE' HM HL') as D'.
  revert D D'. generalize (run qr svd la grad e p), (run qr' svd' la' grad' e' p), (de ++ vs). clear.
  intros l l' ds H. revert l'. induction H as [|o v l ds D H IH]; intros l' H'; inversion H' as [|o' v' l2 ds2 D' H2 X Y]; subst; constructor; auto.
  destruct D as (_ & R & B & F & _), D' as (_ & R' & B' & F' & _). split; [congruence|]. split; [congruence|]. eauto.
Qed.
Print Assumptions C56_representation_independent.

Lemma forall2_length {A B} (P : A -> B -> Prop) l m : Forall2 P l m -> length l = length m.
Proof. intros H. induction H; cbn; auto. Qed.

(** The dense value is unique: a dense program is a function of the dense inputs. *)
Theorem C56_values_unique : forall p (e : env) de vs vs', denote_all e de -> means_run de p vs -> means_run de p vs' ->
  forallb (fun c => negb (may_raise c) || differentiates c) p = true ->
  Forall2 (fun v v' => d_modes v = d_modes v' /\ d_batch v = d_batch v' /\ d_x v = d_x v') vs vs'.
Proof.
  intros p e de vs vs' HE HM HM' HC. destruct Properties_Decomp.C27_qr_exists as [qr Hq]. destruct Properties_Svd.C29_svd_exists as [svd Hs]. destruct Properties_Kron.C40_inv_exists as [minv Hi]. destruct Properties_Kron.C40_cholesky_exists as [mcho Hc].
  destruct Properties_Auto.C48_gradients_exist as (grad & Hg & HN). set (la := Linalg minv mcho). assert (Hi' : inv_ok (tf_inv la)) by exact Hi.
  destruct (C56_programs_succeed qr svd la grad p e de vs Hq Hs Hi' Hg (fun _ => HN) HE HM HC) as [_ D].
  destruct (C56_programs_succeed qr svd la grad p e de vs' Hq Hs Hi' Hg (fun _ => HN) HE HM' HC) as [_ D'].
  apply Forall2_app_inv_r in D as (l1 & l2 & D1 & D2 & E). apply Forall2_app_inv_r in D' as (l1' & l2' & D1' & D2' & E').
  assert (X : l2 = l2'). { rewrite E in E'. pose proof (forall2_length _ _ _ D1) as L. pose proof (forall2_length _ _ _ D1') as L'. rewrite <- L' in L. clear - E' L. revert l1' E' L. induction l1 as [|x l1 IH]; intros [|y l1'] E L; try discriminate; [exact E|]. injection E as _ E. injection L as L. eauto. }
  subst l2'. clear - D2 D2'. revert vs' D2'. induction D2 as [|o v l ds D H IH]; intros l' H'; inversion H' as [|o' v' l2 ds2 D' H2 X Y]; subst; constructor; auto.
  destruct D as (_ & R & B & F & _), D' as (_ & R' & B' & F' & _). split; [congruence|]. split; [congruence|]. congruence.
Qed.
Print Assumptions C56_values_unique.

(** ** A program: 4 * ones([2, 3]) with ranks 2, rounded to rank 1 without error, last column. *)
Definition dense (ms : list (list nat)) (B : option nat) (rs : nat -> nat) (f : list nat -> R) : dval := DV ms B rs (mk (K := Rring) (d_shape ms B) f).
Lemma dense_value ms B rs f g : (forall i, vidx (d_shape ms B) i -> f i = g i) -> value (dense ms B rs f) ms B rs g.
Proof.
  intros H. unfold dense, value. cbn [d_modes d_batch d_rank d_x]. do 3 (split; [reflexivity|]). split; [apply wft_mk|]. split; [apply shape_mk|].
  intros i Hi. rewrite get_mk by auto. auto.
Qed.

Definition ex_prog : list op :=
  [CallTensorOnes (S1Vec (nints [2; 3])); CallMultiplyNum 0 3; CallAdd 0 1; CallRound 2 (RkNum 1) None; CallGetitem 3 [full_slice; IInt (-1)]].

Example C56_ex : exists vs v, means_run [] ex_prog vs /\ nth_error vs 4 = Some v /\ shape (d_x v) = [2] /\ forall i, i < 2 -> get (d_x v) [i] = 4%R.
Proof.
  set (v0 := dense [[2; 3]] None (fun _ => 1) (fun _ => 1%R)). set (v1 := dense [[2; 3]] None (fun _ => 1) (fun _ => 3%R)).
  set (v2 := dense [[2; 3]] None (fun _ => 2) (fun _ => 4%R)). set (v3 := DV [[2; 3]] None (fun _ => 1) (d_x v2)).
  set (v4 := DV [[2]] None (fun k => nth k [1; 1] 0) (mk (K := Rring) [2] (fun _ => 4%R))).
  exists [v0; v1; v2; v3; v4], v4. split; [|split; [reflexivity|split; [reflexivity|]]].
  2:{ intros i Hi. cbn [v4 d_x]. rewrite get_mk by (constructor; [exact Hi|constructor]). reflexivity. }
  cbn [means_run ex_prog]. split; [|split; [|split; [|split; [|split; [|exact I]]]]].
  - exists [2; 3]. split; [reflexivity|]. split; [cbn; lia|]. split; [repeat constructor; lia|]. now apply dense_value.
  - exists v0. split; [reflexivity|]. apply dense_value. intros i Hi. unfold v0, dense. cbn [d_x]. rewrite get_mk by exact Hi. lra.
  - exists v0, v1. split; [reflexivity|]. split; [reflexivity|]. split; [split; [reflexivity|split; [cbn; lia|exact I]]|].
    apply dense_value. intros i Hi. unfold operand, v0, v1, dense. cbn [d_x bc_size d_batch]. rewrite !get_mk by exact Hi. lra.
  - exists v2, (fun _ => 1). split; [reflexivity|]. split; [split; [exact I|split; [lia|reflexivity]]|]. split; [right|repeat split; reflexivity].
    destruct (C36_tensor_ones Rring [2; 3] ltac:(cbn; lia) ltac:(repeat constructor; lia)) as (t & d & _ & Wt & Rt & Kt & Bt & Ft & St & G).
    destruct (Properties_Scale.C07_multiply_number t 4 Wt) as (z & _ & Wz & Rz & Kz & Bz & da & dz & F1 & Fz & S & Gz). rewrite Ft in F1. apply Ok_inj in F1. subst da.
    exists z. split; [exact Wz|]. split; [rewrite Rz, Rt; reflexivity|]. split; [rewrite Bz; exact Bt|]. split.
    + rewrite Fz. f_equal. destruct (shape_of z dz Wz Fz) as [Wd Sd]. rewrite Rz, Rt, Bz, Bt in Sd. apply tensor_ext; [exact Wd|apply wft_mk|exact Sd|].
      intros i Hi. rewrite Gz by auto. unfold v2, dense. cbn [d_x]. rewrite get_mk by (now rewrite Sd in Hi). rewrite G by (now rewrite Sd in Hi). cbn. lra.
    + intros k _. unfold rk. rewrite Kz, Kt. apply ones_ranks.
  - exists v3, [2; 3]. split; [reflexivity|]. split; [reflexivity|]. split.
    + cbn [v3 v2 d_x]. unfold getitem. cbn [shape mk dense v2 d_x d_shape app nth resolve resolve1]. cbn. reflexivity.
    + split; [repeat constructor; lia|]. cbn [v3 d_batch]. split; [discriminate|]. repeat split; reflexivity.
Qed.

Example C56_ex_run : forall qr svd la grad, qr_ok qr -> svd_ok svd -> inv_ok (tf_inv la) -> cho_ok (tf_cholesky la) -> grad_ok grad ->
  exists o d, nth_error (run qr svd la grad [] ex_prog) 4 = Some o /\ full (o_tt o) = Ok d /\ shape d = [2] /\ forall i, i < 2 -> get d [i] = 4%R.
Proof.
  intros qr svd la grad Hq Hs Hi Hc Hg. destruct C56_ex as (vs & v & HM & Hv & S & G).
  destruct (C56_programs_succeed qr svd la grad ex_prog [] [] vs Hq Hs Hi Hg ltac:(discriminate) (Forall2_nil _) HM eq_refl) as [_ D]. cbn [app] in D.
  assert (X : exists o, nth_error (run qr svd la grad [] ex_prog) 4 = Some o /\ denotes (o_tt o) v).
  { revert D Hv. generalize (run qr svd la grad [] ex_prog) as l, 4 as n. clear. intros l n D. revert n. induction D as [|o w l vs D H IH]; intros [|n] E; cbn in E; try discriminate.
    - injection E as ->. exists o. auto.
    - destruct (IH n E) as (o' & ? & ?). exists o'. auto. }
  destruct X as (o & Eo & (_ & _ & _ & F & _)). exists o, (d_x v). auto.
Qed.

(** ** Concatenation of batches with different TT-ranks: the dense result exists, the call raises. *)
Theorem C56_concat_refuted : forall qr svd la grad, exists (e : env) de v, denote_all e de /\ means de (CallConcat [0; 1]) v /\
  call qr svd la grad e (CallConcat [0; 1]) = Err ValueError.
Proof.
  intros qr svd la grad.
  set (t := toR s_b3). set (u := toR s_b1). assert (Wt : wf t) by exact r_b3_wf. assert (Wu : wf u) by exact r_b1_wf.
  destruct (full_correct Rring t Wt) as (dt & Ft & _). destruct (full_correct Rring u Wu) as (du & Fu & _).
  set (x := DV [[2; 2]] (Some 3) (rk t) dt). set (y := DV [[2; 2]] (Some 1) (rk u) du).
  exists [Obj 0 t None; Obj 1 u None], [x; y], (dense [[2; 2]] (Some 4) (rk t) (fun i => element_of [x; y] (hd 0 i) (tl i))).
  split; [|split].
  - repeat apply Forall2_cons; try apply Forall2_nil; (split; [assumption|]; do 2 (split; [reflexivity|]); split; [assumption|]; intros; apply le_n).
  - exists [x; y], x. split; [repeat constructor|]. split; [reflexivity|]. split; [repeat constructor; discriminate|]. now apply dense_value.
  - change (call qr svd la grad _ _) with (fresh 2 (concat_along_batch_dim [t; u])). rewrite (C24_concat_rejects Rring [t; u] t eq_refl); [reflexivity|].
    exists u. split; [cbn; auto|]. right. right. discriminate.
Qed.
Print Assumptions C56_concat_refuted.

(** ** [-2] x [-3 -1; -1 -2] is positive definite and has a Cholesky factor; the call raises. *)
Theorem C56_cholesky_refuted : forall qr svd la grad, cho_ok (tf_cholesky la) -> exists (e : env) de v, denote_all e de /\ means de (CallCholesky 0) v /\
  call qr svd la grad e (CallCholesky 0) = Err TFError.
Proof.
  intros qr svd la grad Hc. destruct (Properties_Kron.C40_definite_product_refuted la Hc) as (t & ns & D & HK & B & F & HS & HP & HE).
  pose proof HK as (Wt & R & K). destruct (shape_of t D Wt F) as [WD SD]. rewrite R, B in SD. cbn [d_shape app] in SD.
  destruct Properties_Kron.C40_cholesky_exists as [mcho Hm].
  destruct (Hm [] (prodn ns) D WD SD) as [Q _].
  { pose proof (KronThms.k_pos t ns HK) as P. apply prodn_pos in P. repeat constructor; exact P. }
  { intros p Hp. inversion Hp. exact HS. }
  destruct Q as (y & _ & Wy & Sy & G); [intros p Hp; inversion Hp; exact HP|].
  exists [Obj 0 t None], [DV [ns; ns] None (fun _ => 1) D], (DV [ns; ns] None (fun _ => 1) y). split; [|split].
  - constructor; [|constructor]. split; [exact Wt|]. split; [exact R|]. split; [exact B|]. split; [exact F|]. cbn [o_tt d_rank]. intros k Hk. rewrite K by auto. apply le_n.
  - exists (DV [ns; ns] None (fun _ => 1) D), ns. cbn [d_modes d_batch d_x d_rank]. split; [reflexivity|]. split; [reflexivity|]. split; [intros; apply le_n|].
    cbv zeta. split; [intros p Hp; inversion Hp; auto|]. do 3 (split; [reflexivity|]). split; [exact Wy|]. split; [exact Sy|exact G].
  - change (fresh 1 (cholesky la t) = Err TFError). now rewrite HE.
Qed.
Print Assumptions C56_cholesky_refuted.

(** ** Projections: the value that [means] asks for exists, for any argument and any point with exact ranks. *)
Theorem C56_project_has_value : forall (e : env) de a b x z, denote_all e de -> nth_error de a = Some z -> nth_error de b = Some x ->
  d_modes z = d_modes x -> d_batch x = None -> 2 <= axes x -> exact_ranks x -> exists v, means de (CallProject a b) v.
Proof.
  intros e de a b x z HE Ha Hb M Bx Hd HX. destruct Properties_Decomp.C27_qr_exists as [qr Hq].
  destruct (arg_get e de a z HE Ha) as (oz & _ & Dz). destruct (arg_get e de b x HE Hb) as (ox & _ & Dx).
  pose proof (exact_full _ x Dx Bx HX) as Ft. pose proof Dx as (Wx & Rx & Bx' & Fx & Kx). pose proof Dz as (Wz & Rz & Bz & Fz & Kz).
  rewrite (axes_ndims _ x Dx) in Hd. rewrite Bx in Bx'.
  destruct (c43_tangent qr (o_tt ox) 0 Hq Wx Bx' Hd (o_tt oz) Ft Wz ltac:(congruence)) as (p & dp & dz & Ep & Fp & Fz' & H).
  assert (dz = d_x z) by congruence. subst dz. rewrite Bz in H.
  destruct (project_dense qr (o_tt oz) (o_tt ox) 0 Hq Wx Bx' Hd Wz ltac:(congruence)) as (l & r & p' & dp' & dz & _ & _ & Ep' & Wp & Rp & Bp & _ & Fp' & _).
  assert (p' = p) by congruence. subst p'. destruct (shape_of p dp Wp Fp) as [Wd Sd]. rewrite Rp, Rx, Bp, Bz in Sd.
  exists (DV (d_modes x) (d_batch z) (fun k => 2 * d_rank x k) dp). exists z, x. do 3 (split; [assumption|]).
  split; [exact Bx|]. split; [rewrite (axes_ndims _ x Dx); exact Hd|]. split; [exact HX|]. do 3 (split; [reflexivity|]). split; [exact Wd|]. split; [exact Sd|].
  intros o Ho. destruct (H o Ho) as [H1 H2]. cbn [d_x]. split; [exists (o_tt ox); auto|].
  intros T HT. rewrite <- Rx, (d_shape_ishape _ Wx). apply H2. now apply (tangent_at_iff (o_tt ox) x).
Qed.
Print Assumptions C56_project_has_value.

(** The projection is a fixed point: projecting the result of [project] at the same point gives the same array. *)
Theorem C56_project_twice : forall de a b v w, means de (CallProject a b) v -> means (de ++ [v]) (CallProject (length de) b) w -> d_x w = d_x v.
Proof.
  intros de a b v w (z & x & Ha & Hb & M & HV) (z' & x' & Ha' & Hb' & M' & HW).
  rewrite nth_error_app2, Nat.sub_diag in Ha' by auto. injection Ha' as <-. rewrite nth_error_app1 in Hb' by (apply nth_error_Some; congruence).
  assert (x' = x) by congruence. subst x'.
  destruct HV as (Bx & Hd & (u & Du & Fu & _) & Mv & Bv & _ & Wv & Sv & PV). destruct HW as (_ & _ & _ & Mw & Bw & _ & Ww & Sw & PW).
  pose proof Du as (Wu & Ru & _). apply tensor_ext; [exact Ww|exact Wv|congruence|].
  intros i Hi. rewrite Sw, d_shape_pre in Hi. apply vidx_app_inv in Hi as (o & j & -> & Ho & Hj). rewrite <- Ru, (d_shape_ishape u Wu) in Hj.
  destruct (PW o Ho) as [W1 W2]. rewrite Bv in Ho. destruct (PV o Ho) as [V1 _]. rewrite <- Ru, (d_shape_ishape u Wu) in W2.
  apply (IntrinsicThms.proj_unique u (fun j => get (d_x w) (o ++ j)) (fun j => get (d_x v) (o ++ j))); auto.
  - rewrite <- (axes_ndims u x Du). exact Hd.
  - apply (tangent_at_iff u x); auto.
  - apply (tangent_at_iff u x); auto.
  - intros T HT. apply W2. apply (tangent_at_iff u x); auto.
Qed.
Print Assumptions C56_project_twice.

(** The hypotheses hold for the samples of C43: a 3-dimensional tensor with exact ranks, another tensor projected on the tangent space, twice. *)
Example C56_project_ex : exists de v w, denote_all [Obj 0 (toR s_a) None; Obj 1 (toR s_b) None] de /\
  means_run de [CallProject 1 0; CallProject 2 0] [v; w] /\ d_modes v = rshape (toR s_a) /\ d_x w = d_x v.
Proof.
  set (t := toR s_a). set (u := toR s_b). assert (Wt : wf t) by exact r_a_wf. assert (Wu : wf u) by exact r_b_wf.
  destruct (full_correct Rring t Wt) as (dt & Ft & _). destruct (full_correct Rring u Wu) as (du & Fu & _).
  set (x := DV (rshape t) None (rk t) dt). set (y := DV (rshape u) (bsz u) (rk u) du).
  assert (Dx : denotes t x) by (split; [exact Wt|]; do 2 (split; [reflexivity|]); split; [exact Ft|]; intros; apply le_n).
  assert (Dy : denotes u y) by (split; [exact Wu|]; do 2 (split; [reflexivity|]); split; [exact Fu|]; intros; apply le_n).
  assert (HE : denote_all [Obj 0 t None; Obj 1 u None] [x; y]) by (constructor; [exact Dx|constructor; [exact Dy|constructor]]).
  assert (HX : exact_ranks x) by (exists t; split; [exact Dx|]; split; [exact Properties_Riem.r_a_full|]; reflexivity).
  destruct (C56_project_has_value _ [x; y] 1 0 x y HE eq_refl eq_refl eq_refl eq_refl ltac:(cbn; lia) HX) as (v & HV).
  destruct Properties_Decomp.C27_qr_exists as [qr Hq]. destruct Properties_Svd.C29_svd_exists as [svd Hs]. destruct Properties_Kron.C40_inv_exists as [minv Hi].
  destruct (call_denotes qr svd (Linalg minv (fun _ => Err TFError)) (fun _ _ => []) Hq Hs Hi _ _ HE _ _ HV eq_refl) as (o & _ & Do).
  pose proof (denote_all_snoc _ _ o v HE Do) as HE'. pose proof HV as (y' & x' & Ey & Ex & _ & HP). injection Ex as <-. destruct HP as (_ & _ & _ & Mv & _).
  destruct (C56_project_has_value _ ([x; y] ++ [v]) 2 0 x v HE' eq_refl eq_refl Mv eq_refl ltac:(cbn; lia) HX) as (w & HW).
  exists [x; y], v, w. split; [exact HE|]. split; [exact (conj HV (conj HW I))|]. split; [exact Mv|]. exact (C56_project_twice [x; y] 1 0 v w HV HW).
Qed.

(** ** Gradients *)
(** The gradient of X -> <X, Z> has the value of the projection of Z. *)
Theorem C56_linear_gradient : forall de a b v z (t : rtt), nth_error de b = Some z -> d_batch z = None -> denotes t z ->
  means de (CallProject b a) v -> means de (CallGradients (linear_func t) a false) v.
Proof.
  intros de a b v z t Hb Bz Dt (z' & x & Hb' & Ha & M & HP). assert (z' = z) by congruence. subst z'. rewrite Bz in HP.
  pose proof HP as (Bx & Hd & (u & Du & _) & _). pose proof Du as (Wu & Ru & _). pose proof Dt as (Wt & Rt & Bt & Ft & _). rewrite Bz in Bt.
  pose proof (linear_fun u t (d_x z) Wu Wt ltac:(congruence) Bt Ft) as [H1 H2].
  exists x, (fun T => inner (ishape u) T (get (d_x z))), (get (d_x z)). rewrite <- Ru, (d_shape_ishape u Wu). split; [exact Ha|].
  split; [intros w Ww Rw Bw dw Fw; now apply H1|]. split; [exact H2|]. split; [apply linear_grad|]. split; [discriminate|].
  destruct HP as (P1 & P2 & P3 & P4 & P5 & P6 & P7 & P8 & P9). do 8 (split; [assumption|]). intros o Ho. specialize (P9 o Ho). inversion Ho; subst o. exact P9.
Qed.
Print Assumptions C56_linear_gradient.

(** With the projection of the example above, the gradient has a value too; a tape may still return None. *)
Example C56_gradients_ex : exists de v, denote_all [Obj 0 (toR s_a) None; Obj 1 (toR s_b) None] de /\
  means de (CallGradients (linear_func (toR s_b)) 0 false) v.
Proof.
  destruct C56_project_ex as (de & v & w & HE & (HM & _) & _). exists de, v. split; [exact HE|].
  pose proof HM as (z & x & Hb & _). destruct (arg_get _ _ 1 z HE Hb) as (o & Eo & Do). injection Eo as <-.
  apply (C56_linear_gradient de 0 1 v z (toR s_b) Hb); auto. destruct Do as (_ & _ & B & _). now rewrite <- B.
Qed.

(** ** Hessians: for the squared norm it has the value of twice the projection of the vector.  The bounds of the
    ranks are those of the projection. *)
Theorem C56_norm_hessian : forall qr differentiable de a b v, qr_ok qr -> means de (CallProject b a) v -> d_batch v = None ->
  means de (CallHessianVectorProduct (norm_func qr differentiable) a b false)
    (DV (d_modes v) None (d_rank v) (mk (K := Rring) (shape (d_x v)) (fun i => 2 * get (d_x v) i)%R)).
Proof.
  intros qr df de a b v Hq (z & x & Hb & Ha & M & HP) Bv. pose proof HP as (Bx & Hd & HX & Mv & Bv' & Kv & Wv & Sv & PV). rewrite Bv in Bv'. rewrite <- Bv' in *.
  pose proof HX as (u & Du & Fu & _). pose proof Du as (Wu & Ru & Bu & _). rewrite Bx in Bu. rewrite (axes_ndims u x Du) in Hd.
  pose proof (norm_fun qr df u Hq Wu) as [N1 N2]. destruct (PV [] ltac:(constructor)) as [P1 P2]. cbn [app] in P1, P2.
  exists x, z, (fun T => inner (ishape u) T T), (fun Y i => 2 * Y i)%R, two_id, (get (d_x v)). rewrite <- Ru, (d_shape_ishape u Wu) in *. do 3 (split; [auto|]). split; [auto|].
  split; [intros w Ww Rw Bw dw Fw; now apply N1|]. split; [exact N2|]. split; [intros T; exists 1%R; split; [lra|]; intros s _; apply norm_grad|].
  split; [apply norm_hess|]. split; [discriminate|]. split; [split; [exact P1|rewrite <- Ru, (d_shape_ishape u Wu); exact P2]|].
  split; [exact Bx|]. split; [rewrite (axes_ndims u x Du); exact Hd|]. split; [exact HX|]. cbn [d_modes d_batch d_rank d_x]. split; [congruence|]. split; [reflexivity|]. split; [exact Kv|].
  split; [apply wft_mk|]. rewrite shape_mk. split; [rewrite <- Ru, d_shape_ishape by auto; exact Sv|]. intros o Ho. inversion Ho; subst o. cbn [app].
  assert (A : agree (ishape u) (fun i => get (mk (K := Rring) (shape (d_x v)) (fun i => 2 * get (d_x v) i)%R) i) (fun i => 2 * get (d_x v) i)%R).
  { intros i Hi. rewrite Sv. now rewrite get_mk. }
  split.
  - apply (tangent_at_iff u x) in P1; auto. apply (tangent_at_iff u x); auto. destruct (tangent_lin u Wu Hd _ _ 2%R 0%R P1 P1) as [D HD].
    exists D. intros i Hi. rewrite <- HD by exact Hi. rewrite A by exact Hi. ring.
  - intros T HT. etransitivity; [|symmetry; rewrite <- Ru, d_shape_ishape by auto; apply (isum_ext Rring); intros i Hi; rewrite two_id_inner by exact Hi; reflexivity].
    rewrite <- Ru, d_shape_ishape by auto. apply (isum_ext Rring). intros i Hi. now rewrite A.
Qed.
Print Assumptions C56_norm_hessian.

(** A gradient and a Hessian in one program, on the sample: the projection and twice the projection of the second object. *)
Example C56_hessian_ex : forall qr differentiable, qr_ok qr -> exists de v w, denote_all [Obj 0 (toR s_a) None; Obj 1 (toR s_b) None] de /\
  means_run de [CallGradients (linear_func (toR s_b)) 0 false; CallHessianVectorProduct (norm_func qr differentiable) 0 1 false] [v; w] /\
  forall i, vidx (shape (d_x w)) i -> get (d_x w) i = (2 * get (d_x v) i)%R.
Proof.
  intros qr df Hq. destruct C56_project_ex as (de & v & w & HE & (HM & _) & _).
  pose proof HM as (z & x & Hb & Ha & M & (_ & _ & _ & _ & Bv & _)). destruct (arg_get _ _ 1 z HE Hb) as (o & Eo & Do). injection Eo as <-.
  assert (Bz : d_batch z = None) by (destruct Do as (_ & _ & B & _); now rewrite <- B).
  pose proof (C56_linear_gradient de 0 1 v z (toR s_b) Hb Bz Do HM) as G.
  assert (HM' : means (de ++ [v]) (CallProject 1 0) v).
  { destruct HM as (z' & x' & Hb' & Ha' & HM). exists z', x'. split; [rewrite nth_error_app1 by (apply nth_error_Some; congruence); exact Hb'|].
    split; [rewrite nth_error_app1 by (apply nth_error_Some; congruence); exact Ha'|exact HM]. }
  exists de, v. eexists. split; [exact HE|]. split; [split; [exact G|split; [apply (C56_norm_hessian qr df (de ++ [v]) 0 1 v Hq HM'); congruence|exact I]]|].
  cbn [d_x]. intros i Hi. rewrite shape_mk in Hi. now rewrite get_mk.
Qed.

(** A steady tape exists. *)
Theorem C56_tape_exists : exists grad, grad_ok grad /\ steady grad /\ forall f ds, ~ In None (grad f ds).
Proof. destruct C48_gradients_exist as (grad & Hg & HN). exists grad. split; [exact Hg|]. split; [|exact HN]. intros f ds ds' Q. exfalso. exact (HN f ds Q). Qed.
Print Assumptions C56_tape_exists.

(** ** Random arrays: there is a value for any drawn numbers, sizes and ranks. *)
Theorem C56_random_has_value : forall e xi l r rs sd, 2 <= length l -> positive l -> InitProofs.rank_arg (length l) r rs -> (0 <= sd)%R ->
  exists v, means e (CallRandomTensor xi (S1Vec (nints l)) r 0 sd) v.
Proof.
  intros e xi l r rs sd Hl Hp Hr Hs. destruct (random_tensor_ok xi l r rs 0 sd Hl Hp Hr) as (t & _ & [W R K B G]).
  destruct (RandomProofs.rank_arg_pos (length l) r rs ltac:(lia) Hr) as (_ & Pr & _).
  exists (dense [l] None (fun k => nth k rs 0) (tt_at t)), l, rs, (core_stddev (length l) rs sd). split; [repeat split; auto|].
  split; [split; [rewrite Rabs_R0; apply Rinv_0_lt_compat, pow_lt; lra|exact Hs]|].
  split; [split; [now apply core_stddev_pos|apply RandomProofs.core_stddev_pow; auto; lia]|].
  exists t. do 5 (split; [assumption|]). now apply dense_value.
Qed.
Print Assumptions C56_random_has_value.

(** An object with explicit shape and ranks, and a random tensor of the same sizes, multiplied. *)
Example C56_random_ex : forall xi : nat -> list nat -> R, exists vs,
  means_run [] [CallTensorTrain (cores (toR s_a)) (SList [2; 3; 2]) (Some [1; 2; 2; 1]); CallRandomTensor xi (S1Vec (nints [2; 3; 2])) (RAnum (NI 2)) 0 1; CallMultiply 0 1] vs.
Proof.
  intros xi. destruct (C56_random_has_value [dense [[2; 3; 2]] None (rk (toR s_a)) (tt_at (toR s_a))] xi [2; 3; 2] (RAnum (NI 2)) [1; 2; 2; 1] 1) as (w & Hw).
  { cbn; lia. } { repeat constructor. } { left. exists 2. split; [lia|]. split; reflexivity. } { lra. }
  pose proof Hw as (l & rs & c & (El & _) & _ & _ & (u & _ & _ & _ & _ & _ & Mw & Bw & _)).
  assert (l = [2; 3; 2]) by (injection El as El; destruct l as [|a [|b [|c' [|? ?]]]]; try discriminate; cbn in El; injection El as E1 E2 E3; repeat f_equal; lia). subst l.
  set (x := dense [[2; 3; 2]] None (rk (toR s_a)) (tt_at (toR s_a))) in *.
  exists [x; w; dense [[2; 3; 2]] None (fun k => d_rank x k * d_rank w k) (fun i => (get (d_x x) i * get (d_x w) i)%R)].
  cbn [means_run app]. split; [|split; [exact Hw|split; [|exact I]]].
  - exists (toR s_a). split; [exact r_a_wf|]. do 2 (split; [reflexivity|]). split; [right; right; left; exists [2; 3; 2]; split; [reflexivity|]; right; split; [cbn; lia|reflexivity]|].
    split; [now right|]. now apply dense_value.
  - exists x, w. split; [reflexivity|]. split; [reflexivity|]. split; [symmetry; exact Mw|]. rewrite Bw. split; [exact I|]. now apply dense_value.
Qed.
