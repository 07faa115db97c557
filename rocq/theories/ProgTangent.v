(** Proofs for C56: sums of projections. *)
From Coq Require Import List Arith Lia Bool Reals.
From Verif Require Import Scalar Tensor TensorLemmas TensorLemmas2 Base Spec BaseLemmas Ops FullProofs ResultLemmas Dense OpsR Decomp DecompSpec OrthNorm
  Riem RiemProofs RiemThms RiemSpec RiemFull RiemDelta RiemInner RiemAddN RiemMade Autodiff AutoSpec Kron KronSpec SvdSpec History ProgSpec ProgRiem ProgAuto ProgThms.
Import ListNotations.
Local Open Scope nat_scope.
Local Notation get := (@get Rring).

Section Tags.
Variable qr : rtensor -> rtensor * rtensor.

(** The object of [o] was made in the tangent space at object number [b]. *)
Definition on_point (e : env) (o : obj) (b : nat) : Prop := exists y, nth_error e b = Some y /\ wf (o_tt y) /\ bsz (o_tt y) = None /\ 2 <= ndims (o_tt y) /\
  full_tt_ranks (o_tt y) /\ made qr (o_tt y) (o_addr y) (proj_of o).
Definition tagged (e : env) (o : obj) (v : dval * option nat) : Prop :=
  denotes (o_tt o) (fst v) /\ match snd v with None => True | Some b => on_point e o b end.
Definition tagged_all (e : env) (ts : list (dval * option nat)) : Prop := Forall2 (tagged e) e ts.

Lemma tagged_more e x o v : tagged e o v -> tagged (e ++ x) o v.
Proof.
  intros [D H]. split; [exact D|]. destruct (snd v); [|exact I]. destruct H as (y & Ey & H). exists y. split; [|exact H].
  rewrite nth_error_app1; [exact Ey|]. apply nth_error_Some. congruence.
Qed.
Lemma tagged_snoc e ts o v : tagged_all e ts -> tagged e o v -> tagged_all (e ++ [o]) (ts ++ [v]).
Proof.
  intros H T. apply Forall2_app.
  - unfold tagged_all in H. assert (G : forall l l', Forall2 (tagged e) l l' -> Forall2 (tagged (e ++ [o])) l l').
    { intros l l' Q. induction Q; constructor; auto. now apply tagged_more. }
    now apply G.
  - constructor; [now apply tagged_more|constructor].
Qed.
Lemma tagged_denote e ts : tagged_all e ts -> denote_all e (map fst ts).
Proof. unfold tagged_all, denote_all. generalize e at 1. intros e'. intros H. induction H as [|o v l l' [D _] H IH]; cbn [map]; constructor; auto. Qed.
Lemma tagged_get e ts a v : tagged_all e ts -> nth_error ts a = Some v -> exists o, nthr e a = Ok o /\ tagged e o v.
Proof.
  assert (G : forall l l', Forall2 (tagged e) l l' -> forall a, nth_error l' a = Some v -> exists o, nthr l a = Ok o /\ tagged e o v).
  { intros l l' H. induction H as [|o w l l' T H IH]; intros [|k] E; cbn in E; try discriminate.
    - injection E as <-. exists o. split; [reflexivity|exact T].
    - destruct (IH k E) as (o' & E' & D). exists o'. split; [exact E'|exact D]. }
  intros H. now apply G.
Qed.

Lemma nthr_error {A} (l : list A) a o : nthr l a = Ok o -> nth_error l a = Some o.
Proof. unfold nthr. destruct (nth_error l a); [intros H; injection H as ->; reflexivity|discriminate]. Qed.

(** The points of projections and gradients. *)
Lemma point_made svd la grad e ts c v o b : qr_ok qr -> grad_ok grad -> (second_order c = true -> steady grad) -> tagged_all e ts -> means (map fst ts) c v -> point_of c = Some b -> call qr svd la grad e c = Ok o -> on_point e o b.
Proof.
  intros Hq Hg HS HT HM HB HC. pose proof (tagged_denote e ts HT) as HE.
  assert (G : forall x F B, nth_error (map fst ts) b = Some x -> projections v x B F ->
    exists y, nthr e b = Ok y /\ nth_error e b = Some y /\ denotes (o_tt y) x /\ wf (o_tt y) /\ bsz (o_tt y) = None /\ 2 <= ndims (o_tt y) /\ full_tt_ranks (o_tt y)).
  { intros x F B Hx HP. destruct (arg_get e _ b x HE Hx) as (y & Ey & Dy). destruct HP as (Bx & Hd & HX & _). rewrite (axes_ndims _ x Dy) in Hd.
    exists y. split; [exact Ey|]. split; [now apply nthr_error|]. split; [exact Dy|]. pose proof (exact_full _ x Dy Bx HX) as HR. destruct Dy as (W & _ & Bt & _). rewrite Bx in Bt. auto. }
  destruct c; try discriminate; cbn [point_of] in HB; injection HB as ->; cbn [means] in HM; cbn [call] in HC.
  - destruct HM as (z & x & Hz & Hx & M & HP). destruct (G x _ _ Hx HP) as (y & Ey & Ny & Dy & W & Bt & Hd & HR). destruct (arg_get e _ what z HE Hz) as (oz & Ez & Dz).
    rewrite Ez in HC. cbn [bind] in HC. rewrite Ey in HC. cbn [bind] in HC. unfold on in HC. destruct (project qr (o_tt oz) (o_addr y) (o_tt y)) as [q|] eqn:Ep; cbn [bind] in HC; [|discriminate].
    injection HC as <-. exists y. do 5 (split; [assumption|]). destruct Dz as (Wz & Rz & _). destruct Dy as (_ & Ry & _). unfold proj_of. cbn [o_tt o_on].
    apply (made_project _ _ _ (o_tt oz)); [exact Wz|congruence|]. rewrite Ep. now destruct q.
  - destruct HM as (z & x & N & Hz & Hx & M & HN & HP). destruct (G x _ _ Hx HP) as (y & Ey & Ny & Dy & W & Bt & Hd & HR). destruct (arg_get e _ what z HE Hz) as (oz & Ez & Dz).
    rewrite Ez in HC. cbn [bind] in HC. rewrite Ey in HC. cbn [bind] in HC. unfold on in HC. destruct (project_sum qr (o_tt oz) (o_addr y) (o_tt y) weights) as [q|] eqn:Ep; cbn [bind] in HC; [|discriminate].
    injection HC as <-. exists y. do 5 (split; [assumption|]). destruct Dz as (Wz & Rz & Bz & _). destruct Dy as (_ & Ry & _). unfold proj_of. cbn [o_tt o_on].
    apply (made_sum _ _ _ (o_tt oz) weights); [exact Wz|congruence| |rewrite Ep; now destruct q].
    unfold good_weights. destruct weights as [w|]; [|exact I]. unfold count in HN. unfold ocnt. rewrite Bz. destruct HN as [[S _]|(n & Hn & S & _)]; [now left|right; now exists n].
  - destruct HM as (z & x & m & B & rows & cols & Hz & Hx & Hm & Mx & Mz & Bz & My & By & HP). destruct (G x _ _ Hx HP) as (y & Ey & Ny & Dy & W & Bt & Hd & HR).
    destruct (arg_get e _ what z HE Hz) as (oz & Ez & Dz). destruct (arg_get e _ matrix m HE Hm) as (om & Em & Dm).
    rewrite Ez in HC. cbn [bind] in HC. rewrite Ey in HC. cbn [bind] in HC. rewrite Em in HC. cbn [bind] in HC. unfold on in HC.
    destruct (project_matmul qr (o_tt oz) (o_addr y) (o_tt y) (o_tt om)) as [q|] eqn:Ep; cbn [bind] in HC; [|discriminate].
    injection HC as <-. exists y. do 5 (split; [assumption|]). destruct Dz as (Wz & Rz & Bz' & _). destruct Dy as (_ & Ry & _). destruct Dm as (Wm & Rm & Bm & _). unfold proj_of. cbn [o_tt o_on].
    apply (made_matmul _ _ _ (o_tt oz) (o_tt om)); auto; try congruence.
    + unfold is_tt_matrix. now rewrite Ry, Mx.
    + unfold is_batch. now rewrite Bz', Bz.
    + rewrite Rm, My, Ry, Mx. reflexivity.
    + rewrite Ep. now destruct q.
  - pose proof HM as (x & F & E & A & Hf & HF & HG & HV & HP). destruct (G x _ _ A HP) as (y & Ey & Ny & Dy & W & Bt & Hd & HR).
    rewrite Ey in HC. cbn [bind] in HC. unfold on in HC. destruct (gradients qr grad func (o_addr y) (o_tt y) runtime_check) as [q|] eqn:Ep; cbn [bind] in HC; [|discriminate].
    injection HC as <-. exists y. do 5 (split; [assumption|]). unfold proj_of. cbn [o_tt o_on].
    pose proof (proj2 (gradients_means qr grad func F E runtime_check _ _ x v q Hq Hg Dy Hf HF HG HV HP Ep)) as M. now destruct q.
  - pose proof HM as (x & z & F & E & H & W' & A & A' & M & Bz & Hf & HF & HG & HH & HV & HW & HP). destruct (G x _ _ A HP) as (y & Ey & Ny & Dy & W & Bt & Hd & HR).
    destruct (arg_get e _ vector z HE A') as (y' & Ey' & Dy').
    rewrite Ey in HC. cbn [bind] in HC. rewrite Ey' in HC. cbn [bind] in HC. unfold on in HC. destruct (hessian_vector_product qr grad func (o_addr y) (o_tt y) (o_tt y') runtime_check) as [q|] eqn:Ep; cbn [bind] in HC; [|discriminate].
    injection HC as <-. exists y. do 5 (split; [assumption|]). unfold proj_of. cbn [o_tt o_on].
    pose proof (proj2 (hvp_means qr grad func F E H W' runtime_check _ _ _ x z v Hq Hg Dy Dy' M Bz Hf HF HG HH HV HW HP q (HS eq_refl) Ep)) as M'. now destruct q.
Qed.

(** The sum itself. *)
Lemma add_made svd la grad e ts l coef v : qr_ok qr -> tagged_all e ts -> means_on ts (CallAddNProjected l coef) v ->
  exists o, call qr svd la grad e (CallAddNProjected l coef) = Ok o /\ tagged e o v.
Proof.
  intros Hq HT (b & x & xs & B & HL & HB & HC & Hs & HV).
  assert (LG : forall l ys, Forall2 (fun a y => nth_error ts a = Some (y, Some b)) l ys -> exists os, mapM (nthr e) l = Ok os /\ Forall2 (fun o y => tagged e o (y, Some b)) os ys).
  { clear - HT. intros l ys H. induction H as [|a y l ys A H IH]; [exists []; split; [reflexivity|constructor]|].
    destruct (tagged_get e ts a _ HT A) as (o & Eo & To). destruct IH as (os & Eos & Tos). exists (o :: os). split; [|now constructor]. cbn [mapM]. rewrite Eo. cbn [bind]. now rewrite Eos. }
  destruct (LG _ _ HL) as (os & Eos & Tos). cbn [call]. rewrite Eos. cbn [bind].
  assert (Lo : length os = S (length xs)) by (clear - Tos; change (S (length xs)) with (length (x :: xs)); induction Tos; cbn; congruence).
  assert (Ll : length l = S (length xs)) by (clear - HL; change (S (length xs)) with (length (x :: xs)); induction HL; cbn; congruence).
  destruct os as [|o0 os']; [discriminate|]. pose proof Tos as Tos'. inversion Tos' as [|? ? ? ? [D0 (y & Ny & Wy & By & Hd & HR & M0)] T']; subst. cbn [fst snd] in D0.
  pose proof (full_admissible _ Wy HR) as HA.
  assert (Tn : forall o, In o (o0 :: os') -> made qr (o_tt y) (o_addr y) (proj_of o) /\ bsz (o_tt o) = B).
  { intros o Ho. revert Ho. generalize (o0 :: os') as k, (x :: xs) as k', Tos, HB. clear - Ny. intros k k' H F. induction H as [|o1 v1 k k' [D (y' & Ny' & _ & _ & _ & _ & M)] H IH]; intros Ho; [destruct Ho|].
    inversion F; subst. destruct Ho as [->|Ho]; [|now apply IH]. split; [assert (y' = y) by congruence; subst y'; exact M|]. destruct D as (_ & _ & Q & _). exact Q. }
  destruct (c46_sum qr (o_tt y) (o_addr y) Hq Wy By Hd HA (map proj_of (o0 :: os')) B coef) as (t & dt & ds & Et & Mt & Wt & Rt & Bt & Kt & Ft & Eds & Gt).
  { discriminate. } { intros q Q. apply in_map_iff in Q as (o & <- & Ho). now apply Tn. } { intros q Q. apply in_map_iff in Q as (o & <- & Ho). now apply Tn. }
  { unfold good_coef. rewrite map_length. destruct coef as [w|]; [|exact I]. rewrite Ll in HC. rewrite Lo. exact HC. }
  rewrite Et. cbn [bind on p_tt p_on]. eexists. split; [reflexivity|]. split; cbn [o_tt o_on].
  - pose proof D0 as (W0 & R0 & B0 & F0 & K0).
    assert (R0t : rshape t = d_modes x).
    { rewrite Rt, <- R0. destruct (frame_ok qr (o_tt y) Hq Wy By) as (l' & r' & EF & HF).
      destruct (made_gblocks qr (o_tt y) (o_addr y) Hq Wy By Hd HA l' r' (proj_of o0) EF HF M0) as (ob & D & t0 & E0 & G0 & _).
      unfold proj_of in E0. injection E0 as E0 _. rewrite E0. symmetry. exact (bl_rs _ l' r' _ _ _ G0). }
    assert (N0 : ndims (o_tt o0) = ndims t) by (apply (AddProofs.same_ndims Rring); [exact W0|exact Wt|congruence]).
    eapply value_denotes; [exact Wt|exact R0t|exact Bt|exact Ft| | |exact HV].
    + intros i Hi. rewrite d_shape_pre in Hi. apply vidx_app_inv in Hi as (o & j & -> & Ho & Hj). rewrite <- R0t, (d_shape_ishape t Wt) in Hj.
      assert (Hj' : vidx (ishape (o_tt y)) j) by (rewrite <- (same_ishape t (o_tt y) Rt); exact Hj).
      rewrite (Gt o j Ho Hj'), map_length. rewrite Lo, Ll. apply (sumn_ext Rring). intros k Hk. apply f_equal2.
      * unfold acoef, weight. destruct coef as [w|]; [|reflexivity]. unfold rank. destruct HC as [S|(n & -> & S)]; rewrite S; cbn [length Nat.eqb]; [reflexivity|].
        cbn [pre_of] in Ho. apply vidx_1_inv in Ho as (p & -> & Hp). reflexivity.
      * f_equal. f_equal. pose proof (mapM_nth _ _ _ Eds k (proj_of o0) rzero ltac:(rewrite map_length, Lo; exact Hk)) as Ek. rewrite (map_nth proj_of) in Ek. cbn [proj_of p_tt] in Ek.
        assert (Dk : denotes (o_tt (nth k (o0 :: os') o0)) (nth k (x :: xs) x)).
        { assert (G : forall l1 l2 (d : obj) (d' : dval) k, Forall2 (fun o y => tagged e o (y, Some b)) l1 l2 -> k < length l1 -> denotes (o_tt (nth k l1 d)) (nth k l2 d')).
          { clear. intros l1 l2 d d' k H. revert k. induction H as [|o1 v1 k1 k2 [D1 _] H IH]; intros [|k] Hk; cbn [length] in Hk; try lia; [exact D1|]. cbn [nth]. apply IH. lia. }
          apply G; [exact Tos|rewrite Lo; exact Hk]. }
        destruct Dk as (_ & _ & _ & Fk & _). congruence.
    + intros k Hk. specialize (Kt (proj_of o0) (or_introl eq_refl)). cbn [proj_of p_tt] in Kt. unfold rk. rewrite <- Kt. apply K0. lia.
  - rewrite Hs. exists y. do 5 (split; [assumption|]). exact Mt.
Qed.
End Tags.
