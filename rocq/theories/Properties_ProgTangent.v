(** C56, continued: dense programs that add up projections with add_n_projected.  The function checks that its arguments
    belong to the tangent space at one and the same object, so the value of a program variable now records this point
    ([means_on] of ProgSpec.v); inputs carry no point. *)
From Coq Require Import List Arith Lia Lra Bool Reals.
From Verif Require Import Scalar Tensor TensorLemmas Base Spec BaseLemmas Ops FullProofs ResultLemmas Dense OpsR BatchOps Det Decomp DecompSpec SvdSpec Approx Kron KronSpec Init History.
From Verif Require Import Riem RiemSpec Autodiff AutoSpec ProgSpec ProgThms AutoMain ProgTangent Properties_Auto Properties_Prog Samples.
Import ListNotations.
Local Open Scope nat_scope.
Local Notation get := (@get Rring).

Definition inputs (de : list dval) : list (dval * option nat) := map (fun x => (x, None)) de.

Lemma inputs_tagged qr e de : denote_all e de -> tagged_all qr e (inputs de).
Proof.
  unfold denote_all, tagged_all, inputs. generalize e at 2. intros e' H. induction H; cbn [map]; constructor; auto. split; [assumption|exact I].
Qed.
Lemma inputs_fst de : map fst (inputs de) = de.
Proof. unfold inputs. rewrite map_map. apply map_id. Qed.

(** One call. *)
Lemma tagged_call qr svd la grad e ts c v o : qr_ok qr -> svd_ok svd -> inv_ok (tf_inv la) -> cho_ok (tf_cholesky la) -> grad_ok grad ->
  (second_order c = true -> steady grad) -> tagged_all qr e ts -> means_on ts c v -> call qr svd la grad e c = Ok o -> tagged qr e o v.
Proof.
  intros Hq Hs Hi Hc Hg HS HT HM EC.
  assert (G : means (map fst ts) c (fst v) /\ snd v = point_of c -> tagged qr e o v).
  { intros [M P]. split; [apply (call_correct qr svd la grad Hq Hs Hi Hc Hg e _ (tagged_denote qr e ts HT) c); auto|].
    rewrite P. destruct (point_of c) as [b|] eqn:EB; [|exact I]. exact (point_made qr svd la grad e ts c (fst v) o b Hq Hg HS HT M EB EC). }
  destruct c; try (apply G; exact HM).
  destruct (add_made qr svd la grad e ts _ _ v Hq HT HM) as (o' & E' & T). assert (o' = o) by congruence. now subst o'.
Qed.
Lemma tagged_returns qr svd la grad e ts c v : qr_ok qr -> svd_ok svd -> inv_ok (tf_inv la) -> grad_ok grad ->
  (differentiates c = true -> forall f ds, ~ In None (grad f ds)) -> tagged_all qr e ts -> means_on ts c v -> negb (may_raise c) || differentiates c = true ->
  exists o, call qr svd la grad e c = Ok o /\ tagged qr e o v.
Proof.
  intros Hq Hs Hi Hg HN HT HM HC.
  assert (G : means (map fst ts) c (fst v) /\ snd v = point_of c -> exists o, call qr svd la grad e c = Ok o /\ tagged qr e o v).
  { intros [M P]. destruct (C56_call_returns qr svd la grad e _ c (fst v) Hq Hs Hi Hg HN (tagged_denote qr e ts HT) M HC) as (o & EC & D). exists o. split; [exact EC|]. split; [exact D|].
    rewrite P. destruct (point_of c) as [b|] eqn:EB; [|exact I]. refine (point_made qr svd la grad e ts c (fst v) o b Hq Hg _ HT M EB EC).
    intros Q f ds ds' HI. exfalso. refine (HN _ f ds HI). destruct c; try discriminate; reflexivity. }
  destruct c; try (apply G; exact HM). exact (add_made qr svd la grad e ts _ _ v Hq HT HM).
Qed.

Lemma tagged_run qr svd la grad p : qr_ok qr -> svd_ok svd -> inv_ok (tf_inv la) -> cho_ok (tf_cholesky la) -> grad_ok grad ->
  forall e ts vs, (existsb second_order p = true -> steady grad) -> tagged_all qr e ts -> means_on_run ts p vs -> length (run qr svd la grad e p) = length e + length p ->
  tagged_all qr (run qr svd la grad e p) (ts ++ vs).
Proof.
  intros Hq Hs Hi Hc Hg. induction p as [|c p IH]; intros e ts vs HS HE HM HL; destruct vs as [|v vs]; try contradiction; cbn [run].
  - now rewrite app_nil_r.
  - destruct HM as [HM HM']. cbn [run] in HL. destruct (call qr svd la grad e c) as [o|] eqn:EC.
    + replace (ts ++ v :: vs) with ((ts ++ [v]) ++ vs) by (rewrite <- app_assoc; reflexivity). cbn [existsb] in HS. apply IH; [| |exact HM'|].
      * intros Q. apply HS. rewrite Q. apply orb_true_r.
      * apply tagged_snoc; [exact HE|]. apply (tagged_call qr svd la grad e ts c); auto. intros Q. apply HS. now rewrite Q.
      * rewrite app_length. cbn [length] in *. lia.
    + exfalso. pose proof (run_length qr svd la grad p e). cbn [length] in HL. lia.
Qed.

(** Programs that run to the end. *)
Theorem C56_tangent_programs : forall qr svd la grad p (e : env) de vs, qr_ok qr -> svd_ok svd -> inv_ok (tf_inv la) -> cho_ok (tf_cholesky la) -> grad_ok grad ->
  (existsb second_order p = true -> steady grad) -> denote_all e de -> means_on_run (inputs de) p vs -> length (run qr svd la grad e p) = length e + length p ->
  denote_all (run qr svd la grad e p) (de ++ map fst vs).
Proof.
  intros qr svd la grad p e de vs Hq Hs Hi Hc Hg HS HE HM HL.
  pose proof (tagged_denote _ _ _ (tagged_run qr svd la grad p Hq Hs Hi Hc Hg e _ vs HS (inputs_tagged qr e de HE) HM HL)) as H. now rewrite map_app, inputs_fst in H.
Qed.
Print Assumptions C56_tangent_programs.

(** Programs of calls that do not raise; [add_n_projected] is one of them. *)
Theorem C56_tangent_programs_succeed : forall qr svd la grad p (e : env) de vs, qr_ok qr -> svd_ok svd -> inv_ok (tf_inv la) -> grad_ok grad ->
  (existsb differentiates p = true -> forall f ds, ~ In None (grad f ds)) ->
  denote_all e de -> means_on_run (inputs de) p vs -> forallb (fun c => negb (may_raise c) || differentiates c) p = true ->
  length (run qr svd la grad e p) = length e + length p /\ denote_all (run qr svd la grad e p) (de ++ map fst vs).
Proof.
  intros qr svd la grad p e de vs Hq Hs Hi Hg HN HE HM HC.
  assert (G : forall e ts vs, tagged_all qr e ts -> means_on_run ts p vs ->
    length (run qr svd la grad e p) = length e + length p /\ tagged_all qr (run qr svd la grad e p) (ts ++ vs)).
  { clear - Hq Hs Hi Hg HN HC. induction p as [|c p IH]; intros e ts vs HE HM; destruct vs as [|v vs]; try contradiction; cbn [run length].
    - rewrite app_nil_r. split; [lia|exact HE].
    - destruct HM as [HM HM']. cbn [forallb] in HC. apply andb_prop in HC as [HC HC']. cbn [existsb] in HN.
      destruct (tagged_returns qr svd la grad e ts c v Hq Hs Hi Hg) as (o & -> & D); auto; [intros Q; apply HN; now rewrite Q|].
      replace (ts ++ v :: vs) with ((ts ++ [v]) ++ vs) by (rewrite <- app_assoc; reflexivity).
      destruct (IH ltac:(intros Q; apply HN; rewrite Q; apply orb_true_r) HC' (e ++ [o]) (ts ++ [v]) vs) as [L D']; auto; [now apply tagged_snoc|].
      split; [|exact D']. rewrite L, app_length. cbn. lia. }
  destruct (G e _ vs (inputs_tagged qr e de HE) HM) as [L T]. split; [exact L|]. apply tagged_denote in T. now rewrite map_app, inputs_fst in T.
Qed.
Print Assumptions C56_tangent_programs_succeed.

(** The value of such a program is unique. *)
Theorem C56_tangent_values_unique : forall p (e : env) de vs vs', denote_all e de -> means_on_run (inputs de) p vs -> means_on_run (inputs de) p vs' ->
  forallb (fun c => negb (may_raise c) || differentiates c) p = true ->
  Forall2 (fun v v' => d_modes (fst v) = d_modes (fst v') /\ d_batch (fst v) = d_batch (fst v') /\ d_x (fst v) = d_x (fst v')) vs vs'.
Proof.
  intros p e de vs vs' HE HM HM' HC. destruct Properties_Decomp.C27_qr_exists as [qr Hq]. destruct Properties_Svd.C29_svd_exists as [svd Hs]. destruct Properties_Kron.C40_inv_exists as [minv Hi]. destruct Properties_Kron.C40_cholesky_exists as [mcho Hc].
  destruct Properties_Auto.C48_gradients_exist as (grad & Hg & HN). set (la := Linalg minv mcho). assert (Hi' : inv_ok (tf_inv la)) by exact Hi.
  destruct (C56_tangent_programs_succeed qr svd la grad p e de vs Hq Hs Hi' Hg (fun _ => HN) HE HM HC) as [_ D].
  destruct (C56_tangent_programs_succeed qr svd la grad p e de vs' Hq Hs Hi' Hg (fun _ => HN) HE HM' HC) as [_ D'].
  apply Forall2_app_inv_r in D as (l1 & l2 & D1 & D2 & E). apply Forall2_app_inv_r in D' as (l1' & l2' & D1' & D2' & E').
  assert (X : l2 = l2'). { rewrite E in E'. pose proof (forall2_length _ _ _ D1) as L. pose proof (forall2_length _ _ _ D1') as L'. rewrite <- L' in L. clear - E' L. revert l1' E' L. induction l1 as [|x l1 IH]; intros [|y l1'] E L; try discriminate; [exact E|]. injection E as _ E. injection L as L. eauto. }
  subst l2'. clear - D2 D2'. revert l2 vs' D2 D2'. induction vs as [|v vs IH]; intros l2 [|v' vs'] H H'; cbn [map] in H, H'; inversion H; subst; inversion H'; subst; constructor; eauto.
  match goal with A : denotes _ (fst v), B : denotes _ (fst v') |- _ => destruct A as (_ & R & Q & F & _), B as (_ & R' & Q' & F' & _) end. split; [congruence|]. split; congruence.
Qed.
Print Assumptions C56_tangent_values_unique.

(** Programs without [add_n_projected] mean what they meant before. *)
Theorem C56_points_conservative : forall p ts vs, forallb (fun c => match c with CallAddNProjected _ _ => false | _ => true end) p = true ->
  means_run (map fst ts) p vs -> exists us, means_on_run ts p us /\ map fst us = vs.
Proof.
  induction p as [|c p IH]; intros ts vs HC HM; destruct vs as [|v vs]; try contradiction.
  - exists []. split; [exact I|reflexivity].
  - cbn [forallb] in HC. apply andb_prop in HC as [HC HC']. destruct HM as [HM HM'].
    destruct (IH (ts ++ [(v, point_of c)]) vs HC') as (us & HU & EU); [now rewrite map_app|].
    exists ((v, point_of c) :: us). split; [|cbn [map fst]; now rewrite EU]. split; [|exact HU]. destruct c; try discriminate; (split; [exact HM|reflexivity]).
Qed.
Print Assumptions C56_points_conservative.

(** The hypotheses hold: two projections at a point of full ranks, and their sum. *)
Example C56_tangent_ex : exists de v w s, denote_all [Obj 0 (toR s_a) None; Obj 1 (toR s_b) None] de /\
  means_on_run (inputs de) [CallProject 1 0; CallProject 2 0; CallAddNProjected [2; 3] None] [(v, Some 0); (w, Some 0); (s, Some 0)] /\
  forall i, vidx (shape (d_x v)) i -> get (d_x s) i = (2 * get (d_x v) i)%R.
Proof.
  destruct C56_project_ex as (de & v & w & HE & (HV & HW & _) & _ & Ew). assert (L : length de = 2) by (pose proof (forall2_length _ _ _ HE) as H; cbn in H; congruence).
  pose proof HV as (z & x & Hz & Hx & _ & HP). destruct HP as (_ & _ & _ & Mv & Bv & _ & Wv & Sv & _). rewrite <- Mv, <- Bv in Sv.
  pose proof HW as (z' & x' & Hz' & Hx' & _ & HP'). assert (z' = v) by (rewrite nth_error_app2, L in Hz' by lia; cbn in Hz'; congruence).
  subst z'. destruct HP' as (_ & _ & _ & _ & Bw & _).
  exists de, v, w, (dense (d_modes v) (d_batch v) (d_rank v) (fun i => (2 * get (d_x v) i)%R)). split; [exact HE|]. split.
  - split; [split; [rewrite inputs_fst; exact HV|reflexivity]|]. split; [split; [rewrite map_app, inputs_fst; exact HW|reflexivity]|]. split; [|exact I].
    exists 0, v, [w], (d_batch v).
    assert (Li : length (inputs de) = 2) by (unfold inputs; now rewrite map_length).
    split; [constructor; [|constructor; [|constructor]]|].
    + rewrite nth_error_app1 by (rewrite app_length, Li; cbn; lia). rewrite nth_error_app2, Li by lia. reflexivity.
    + rewrite nth_error_app2, app_length, Li by (rewrite app_length, Li; cbn; lia). reflexivity.
    + split; [constructor; [reflexivity|constructor; [exact Bw|constructor]]|]. split; [exact I|]. split; [reflexivity|].
      apply dense_value. intros i Hi. cbn. rewrite Ew. lra.
  - intros i Hi. cbn [dense d_x]. rewrite get_mk by (rewrite <- Sv; exact Hi). reflexivity.
Qed.

(** The library computes this sum. *)
Example C56_tangent_ex_run : forall qr svd la grad, qr_ok qr -> svd_ok svd -> inv_ok (tf_inv la) -> grad_ok grad -> exists v s o,
  nth_error (run qr svd la grad [Obj 0 (toR s_a) None; Obj 1 (toR s_b) None] [CallProject 1 0; CallProject 2 0; CallAddNProjected [2; 3] None]) 4 = Some o /\
  denotes (o_tt o) s /\ forall i, vidx (shape (d_x v)) i -> get (d_x s) i = (2 * get (d_x v) i)%R.
Proof.
  intros qr svd la grad Hq Hs Hi Hg. destruct C56_tangent_ex as (de & v & w & s & HE & HM & H).
  destruct (C56_tangent_programs_succeed qr svd la grad [CallProject 1 0; CallProject 2 0; CallAddNProjected [2; 3] None] _ de _ Hq Hs Hi Hg ltac:(discriminate) HE HM eq_refl) as [L D].
  assert (Ld : length de = 2) by (pose proof (forall2_length _ _ _ HE) as Q; cbn in Q; congruence). revert D L. generalize (run qr svd la grad [Obj 0 (toR s_a) None; Obj 1 (toR s_b) None] [CallProject 1 0; CallProject 2 0; CallAddNProjected [2; 3] None]). intros r D L.
  destruct (arg_get r _ 4 s D) as (o & Eo & Do); [rewrite nth_error_app2, Ld by lia; reflexivity|]. exists v, s, o. split; [now apply nthr_error|]. auto.
Qed.

(** A projection plus a gradient. *)
Example C56_tangent_gradient_ex : exists de v s, denote_all [Obj 0 (toR s_a) None; Obj 1 (toR s_b) None] de /\
  means_on_run (inputs de) [CallProject 1 0; CallGradients (linear_func (toR s_b)) 0 false; CallAddNProjected [2; 3] None] [(v, Some 0); (v, Some 0); (s, Some 0)] /\
  forall i, vidx (shape (d_x v)) i -> get (d_x s) i = (2 * get (d_x v) i)%R.
Proof.
  destruct C56_project_ex as (de & v & w & HE & (HV & _) & _). assert (L : length de = 2) by (pose proof (forall2_length _ _ _ HE) as H; cbn in H; congruence).
  pose proof HV as (z & x & Hz & Hx & _ & HP). destruct HP as (_ & _ & _ & Mv & Bv & _ & Wv & Sv & _). rewrite <- Mv, <- Bv in Sv.
  destruct (arg_get _ _ 1 z HE Hz) as (o & Eo & Do). injection Eo as <-. assert (Bz : d_batch z = None) by (destruct Do as (_ & _ & B & _); now rewrite <- B).
  assert (HV' : means (de ++ [v]) (CallProject 1 0) v).
  { destruct HV as (z1 & x1 & A & B & C). exists z1, x1. rewrite !nth_error_app1 by lia. auto. }
  assert (HG : means (de ++ [v]) (CallGradients (linear_func (toR s_b)) 0 false) v).
  { apply (C56_linear_gradient _ 0 1 v z (toR s_b)); auto. rewrite nth_error_app1 by lia. exact Hz. }
  exists de, v, (dense (d_modes v) (d_batch v) (d_rank v) (fun i => (2 * get (d_x v) i)%R)). split; [exact HE|]. split.
  - split; [split; [rewrite inputs_fst; exact HV|reflexivity]|]. split; [split; [rewrite map_app, inputs_fst; exact HG|reflexivity]|]. split; [|exact I].
    exists 0, v, [v], (d_batch v).
    assert (Li : length (inputs de) = 2) by (unfold inputs; now rewrite map_length).
    split; [constructor; [|constructor; [|constructor]]|].
    + rewrite nth_error_app1 by (rewrite app_length, Li; cbn; lia). rewrite nth_error_app2, Li by lia. reflexivity.
    + rewrite nth_error_app2, app_length, Li by (rewrite app_length, Li; cbn; lia). reflexivity.
    + split; [constructor; [reflexivity|constructor; [reflexivity|constructor]]|]. split; [exact I|]. split; [reflexivity|].
      apply dense_value. intros i Hi. cbn. lra.
  - intros i Hi. cbn [dense d_x]. rewrite get_mk by (rewrite <- Sv; exact Hi). reflexivity.
Qed.
