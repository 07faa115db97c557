(** The losses and the steps of tensor completion. *)
From Coq Require Import String List Arith ZArith Lia Lra Bool Reals Permutation.
From Verif Require Import Scalar Tensor TensorLemmas TensorLemmas2 Base Spec Chain BaseLemmas Ops FullProofs ResultLemmas Dense
  OpsR Decomp DecompSpec Riem RiemSpec RiemProofs Vars VarSpec VarProofs AssignProofs AutoSpec AutoProofs GradExists GatherProofs DescentProofs CompressProofs Completion CompletionSpec CompletionProofs.
Import ListNotations.
Local Open Scope nat_scope.
Local Notation get := (@get Rring).
Local Ltac req := match goal with |- @eq _ ?u ?v => change (@eq R u v) end.
Local Notation rs := (sumn (K := Rring)).

(** ** The losses as sums over cells *)
Definition mask_weight (sh : list nat) (observed : list nat -> bool) (m : nat) : R := (1 / INR (count sh observed) * if observed (unravel sh m) then 1 else 0)%R.

Lemma get_sq (e : rtensor) i : wft e -> vidx (shape e) i -> get (tmap (K := Rring) (fun y => y * y)%R e) i = sq (get e i).
Proof.
  intros We Hi. unfold Tensor.get, tmap. cbn [shape data]. rewrite (nth_map_default _ _ _ 0%R); [reflexivity|]. rewrite We. now apply ravel_lt.
Qed.
Lemma sum_sq (e : rtensor) : wft e -> sum_all (tmap (K := Rring) (fun y => y * y)%R e) = isum (K := Rring) (shape e) (fun i => sq (get e i)).
Proof. intros We. unfold sum_all. apply (isum_ext Rring). intros i Hi. now apply get_sq. Qed.

Lemma filter_sum (L : list (list nat)) (observed : list nat -> bool) (f : list nat -> R) :
  fold_right Rplus 0%R (map f (filter observed L)) = fold_right Rplus 0%R (map (fun i => if observed i then f i else 0%R) L).
Proof. induction L as [|i L IH]; cbn; auto. destruct (observed i); cbn; rewrite IH; auto. ring. Qed.
Lemma fold_sumn (g : nat -> R) n : fold_right Rplus 0%R (map g (seq 0 n)) = rs n g.
Proof.
  induction n as [|n IH]; [reflexivity|]. rewrite seq_S, map_app, fold_right_app. cbn [map fold_right Nat.add sumn].
  assert (G : forall L c, fold_right Rplus c L = (fold_right Rplus 0 L + c)%R) by (induction L as [|a L IHL]; intros c; cbn; [ring|rewrite IHL; ring]).
  rewrite G, IH. change (rs n g + (g n + 0) = rs n g + g n)%R. ring.
Qed.
Lemma count_sum sh observed : INR (count sh observed) = rs (prodn sh) (fun m => if observed (unravel sh m) then 1%R else 0%R).
Proof.
  unfold count. rewrite <- (fold_sumn (fun m => if observed (unravel sh m) then 1%R else 0%R)). rewrite <- (map_map (unravel sh) (fun i => if observed i then 1%R else 0%R)). rewrite <- (filter_sum _ observed (fun _ => 1%R)).
  induction (filter observed _) as [|i L IH]; [reflexivity|]. cbn [length map fold_right]. rewrite S_INR, IH. ring.
Qed.
Lemma mean_sum sh observed f : mean_over sh observed f = rs (prodn sh) (fun m => mask_weight sh observed m * f (unravel sh m))%R.
Proof.
  unfold mean_over. rewrite filter_sum, map_map, fold_sumn. unfold Rdiv. rewrite Rmult_comm. etransitivity; [symmetry; apply (sumn_mul_l Rring)|]. apply (sumn_ext Rring). intros m _. unfold mask_weight.
  destruct (observed (unravel sh m)); cbn; req; unfold Rdiv; ring.
Qed.

Section Losses.
Variable t : rtt.
Hypothesis Hw : wf t.
Hypothesis Hb : bsz t = None.
Local Notation sh := (get_shape t).
Lemma sh_ishape : sh = ishape t.
Proof. rewrite get_shape_ishape. unfold bpre. now rewrite Hb. Qed.

Lemma masked_loss_ok observed (a : rtensor) : shape a = sh ->
  masked_loss (mask_of sh observed) (observed_part sh observed a) t = Ok (mean_over sh observed (fun i => sq (tt_at t i - get a i))).
Proof.
  intros Sa. destruct (full_correct Rring t Hw) as (d & F & Wd & Sd & Ed). unfold masked_loss. rewrite F. cbn [bind].
  destruct (ewise_same Rmult (mask_of sh observed) d sh) as (m & Em & Wm & Sm & Gm); [reflexivity|exact Sd|]. rewrite Em. cbn [bind].
  destruct (ewise_same Rminus m (observed_part sh observed a) sh) as (e & Ee & We & Se & Ge); [exact Sm|reflexivity|]. rewrite Ee. cbn [bind].
  rewrite sum_sq by auto. f_equal. rewrite mean_sum. rewrite Se.
  assert (SM : sum_all (mask_of sh observed) = INR (count sh observed)).
  { unfold sum_all. change (shape (mask_of sh observed)) with sh. rewrite count_sum, (isum_unravel Rring). apply (sumn_ext Rring). intros k Hk. unfold mask_of. rewrite get_mk by now apply unravel_valid. reflexivity. }
  rewrite SM, (isum_unravel Rring). etransitivity; [symmetry; apply (sumn_mul_l Rring)|]. apply (sumn_ext Rring). intros k Hk. pose proof (unravel_valid sh k Hk) as V.
  rewrite Ge, Gm, Ed by auto. unfold mask_of, observed_part, mask_weight. rewrite !get_mk by auto. unfold sq. destruct (observed (unravel sh k)); cbn; req; ring.
Qed.

Lemma test_loss_ok (a : rtensor) : shape a = sh -> test_loss a t = Ok (mean_over sh (fun _ => true) (fun i => sq (tt_at t i - get a i))).
Proof.
  intros Sa. destruct (full_correct Rring t Hw) as (d & F & Wd & Sd & Ed). unfold test_loss. rewrite F. cbn [bind].
  destruct (ewise_same Rminus d a sh) as (e & Ee & We & Se & Ge); [exact Sd|exact Sa|]. rewrite Ee. cbn [bind]. rewrite sum_sq by auto. f_equal. rewrite mean_sum, Se, Sa.
  assert (CT : count sh (fun _ => true) = prodn sh). { unfold count. transitivity (length (map (unravel sh) (seq 0 (prodn sh)))); [|now rewrite map_length, seq_length]. induction (map (unravel sh) (seq 0 (prodn sh))); cbn; auto. }
  unfold mask_weight. rewrite CT, (isum_unravel Rring). etransitivity; [symmetry; apply (sumn_mul_l Rring)|]. apply (sumn_ext Rring). intros k Hk. rewrite Ge, Ed by now apply unravel_valid. cbn; req; ring.
Qed.

Lemma sparse_loss_ok (ix : itensor) (vals : rtensor) M : is_tt_matrix t = false -> shape ix = [M; length sh] -> rows_valid ix sh -> shape vals = [M] ->
  sparse_loss ix vals t = Ok (cell_loss M (fun _ => / INR M)%R (row ix (length sh)) (fun m => get vals [m]) t).
Proof.
  intros Ht Si Hv Sv. destruct (gather_nd_full Rring t ix M Hw Ht Si Hv) as (d & r & F & Eg & Wr & Sr & Gr). unfold sparse_loss. rewrite Eg. cbn [bind].
  destruct (ewise_same Rminus r vals [M]) as (e & Ee & We & Se & Ge); auto. rewrite Ee. cbn [bind]. rewrite sum_sq by auto. f_equal. rewrite Se. unfold cell_loss. cbn [isum]. replace (prodn [M]) with M by (unfold prodn; cbn; lia).
  unfold Rdiv. rewrite Rmult_comm. etransitivity; [symmetry; apply (sumn_mul_l Rring)|]. apply (sumn_ext Rring). intros m Hm. rewrite Ge by (repeat constructor; auto). rewrite Gr by auto.
  destruct (full_correct Rring t Hw) as (d' & F' & _ & _ & Ed). rewrite F in F'. injection F' as <-. rewrite Ed by (apply (row_valid ix sh M); auto). reflexivity.
Qed.
End Losses.

(** ** The two losses agree *)
Lemma unravel_nodup sh : NoDup (map (unravel sh) (seq 0 (prodn sh))).
Proof.
  apply NoDup_map_inv with (f := ravel sh). rewrite map_map. rewrite (map_ext_in _ (fun k => k)); [rewrite map_id; apply seq_NoDup|]. intros k Hk. apply in_seq in Hk. apply ravel_unravel. lia.
Qed.
Lemma fold_perm (f : list nat -> R) L L' : Permutation L L' -> fold_right Rplus 0%R (map f L) = fold_right Rplus 0%R (map f L').
Proof. intros H. induction H; cbn; try congruence; try lra. Qed.
Lemma mean_listed sh (observed : list nat -> bool) (f : list nat -> R) (I : nat -> list nat) M : (forall m, m < M -> vidx sh (I m)) -> NoDup (map I (seq 0 M)) ->
  (forall i, vidx sh i -> (observed i = true <-> exists m, m < M /\ I m = i)) ->
  count sh observed = M /\ mean_over sh observed f = (rs M (fun m => f (I m)) / INR M)%R.
Proof.
  intros HI ND HO. assert (P : Permutation (filter observed (map (unravel sh) (seq 0 (prodn sh)))) (map I (seq 0 M))).
  { apply NoDup_Permutation; [apply NoDup_filter, unravel_nodup|exact ND|]. intros i. rewrite filter_In. split.
    - intros [H1 H2]. apply in_map_iff in H1 as (k & <- & Hk). apply in_seq in Hk. apply HO in H2 as (m & Hm & E); [|apply unravel_valid; lia]. rewrite <- E. apply in_map, in_seq. lia.
    - intros H. apply in_map_iff in H as (m & <- & Hm). apply in_seq in Hm. split.
      + apply in_map_iff. exists (ravel sh (I m)). split; [apply unravel_ravel, HI; lia|]. apply in_seq. pose proof (ravel_lt sh (I m) (HI m ltac:(lia))). lia.
      + apply HO; [apply HI; lia|]. exists m. split; [lia|reflexivity]. }
  assert (C : count sh observed = M) by (unfold count; rewrite (Permutation_length P), map_length, seq_length; reflexivity). split; [exact C|].
  unfold mean_over. rewrite C, (fold_perm f _ _ P), map_map, fold_sumn. reflexivity.
Qed.

(** ** Steps *)
Section Step.
Context {loss ost : Type}.
Implicit Types s : store Rring loss.
Variable grad : (list rtensor -> res R) -> list rtensor -> list (option rtensor).
Variable opt : ost -> list (nat * rtensor * rtensor) -> ost * list rtensor.

(** Writing a list of cores of the right shapes. *)
Lemma write_cores s (X : vobj Rring) (vals : list rtensor) : is_variable s X -> wf (value s X) -> same_shapes (cores (value s X)) vals ->
  let s' := run_ops (combine (ids_of X) vals) s in
  value s' X = TT vals (vrshape X) (vrks X) (vbsz X) /\ is_variable s' X /\ wf (value s' X) /\
  names s' = names s /\ coll s' = coll s /\ losses s' = losses s /\ length (heap s') = length (heap s) /\
  forall id, ~ In (CVar id) (vcores X) -> nth_error (heap s') id = nth_error (heap s) id.
Proof.
  intros HV Hw HS s'. pose proof (cores_are_ids s X HV) as EI. pose proof (ids_nodup s X HV) as ND.
  assert (EC : cores (value s X) = map (value_of (heap s)) (ids_of X)) by (unfold value, deref; cbn [cores]; rewrite EI, map_map; reflexivity).
  assert (L : length (ids_of X) = length vals) by (pose proof (same_shapes_len _ _ HS) as L; rewrite EC, map_length in L; lia).
  assert (LT : forall id, In id (ids_of X) -> id < length (heap s)).
  { intros id Hid. apply ids_in in Hid. destruct (proj2 HV _ Hid) as (i & v & E & H & _). injection E as <-. apply nth_error_Some. congruence. }
  assert (F : map fst (combine (ids_of X) vals) = ids_of X). { clear -L. revert vals L. induction (ids_of X) as [|i ids IH]; intros [|v vals] L; cbn in L |- *; try lia; auto. f_equal. apply IH. lia. }
  destruct (run_ops_only (combine (ids_of X) vals) s (ids_of X)) as (O & N1 & N2 & N3).
  { intros id x Hin. split; [now apply in_combine_l in Hin|]. rewrite EC in HS. clear -HS Hin. revert vals HS Hin. induction (ids_of X) as [|i ids IH]; intros [|v' vals] HS Hp; cbn in HS, Hp; try tauto.
    inversion HS as [|? ? ? ? [_ H1] H2]; subst. destruct Hp as [E|Hp]; [|now apply (IH vals)]. now injection E as <- <-. }
  fold s' in O, N1, N2, N3.
  assert (EV : value s' X = TT vals (vrshape X) (vrks X) (vbsz X)).
  { unfold value, deref. f_equal. rewrite EI, map_map. apply nth_ext with (d := rzero) (d' := rzero); [now rewrite map_length|]. intros i Hi. rewrite map_length in Hi. rewrite (nth_map_default _ _ _ 0) by auto. cbn [read].
    apply run_ops_value; [now rewrite F| |].
    - intros p Hp. apply LT. rewrite <- F. now apply in_map.
    - rewrite <- (combine_nth (ids_of X) vals i 0 rzero) by auto. apply nth_In. rewrite combine_length. lia. }
  assert (DN : length vals = ndims (value s X)) by (pose proof (same_shapes_len _ _ HS) as L'; exact L').
  split; [exact EV|]. split.
  { destruct HV as [V1 V2]. split; [exact V1|]. intros c Hc. destruct (V2 c Hc) as (id & v & -> & H1 & H2). specialize (O id). rewrite H1 in O. destruct (nth_error (heap s') id) as [v'|] eqn:E'; [|tauto].
    exists id, v'. split; [reflexivity|]. split; [exact E'|]. destruct O as (_ & O & _). congruence. }
  split.
  { rewrite EV. constructor; unfold ndims; cbn [cores rshape rks bsz]; rewrite ?DN; try apply Hw. intros k Hk.
    destruct (same_shapes_nth _ _ k HS Hk) as [W1 S1]. rewrite nth_core in S1 by auto. pose proof (wf_core Hw k Hk) as [_ S2]. unfold core. cbn [cores]. rewrite (nth_indep _ _ rzero) by lia. split; [exact W1|]. rewrite S1, S2. reflexivity. }
  do 3 (split; [assumption|]). split; [apply (only_length _ _ _ O)|].
  intros id Hid. specialize (O id). rewrite <- ids_in in Hid. destruct (nth_error (heap s) id), (nth_error (heap s') id); try tauto. f_equal. now apply O.
Qed.

(** The list given to the optimizer. *)
Definition triples s (X : vobj Rring) (gs : list rtensor) : list (nat * rtensor * rtensor) :=
  map (fun p => (fst p, value_of (heap s) (fst p), snd p)) (combine (ids_of X) gs).
Lemma used_triples s X gs : is_variable s X -> length gs = length (ids_of X) ->
  flat_map (fun p : option rtensor * cref Rring => match p with (Some g, CVar id) => [(id, value_of (heap s) id, g)] | _ => [] end) (combine (map Some gs) (vcores X)) = triples s X gs.
Proof.
  intros HV L. rewrite (cores_are_ids s X HV). unfold triples. revert gs L. induction (ids_of X) as [|i ids IH]; intros [|g gs] L; cbn in L |- *; try lia; auto. f_equal. apply IH. lia.
Qed.
Lemma triples_ids s X gs : length gs = length (ids_of X) -> map (fun u => fst (fst u)) (triples s X gs) = ids_of X.
Proof. unfold triples. rewrite map_map. cbn [fst]. revert gs. induction (ids_of X) as [|i ids IH]; intros [|g gs] L; cbn in L |- *; try lia; auto. f_equal. apply IH. lia. Qed.
Lemma triples_values s X gs : is_variable s X -> length gs = length (ids_of X) -> map (fun u => snd (fst u)) (triples s X gs) = cores (value s X).
Proof.
  intros HV L. unfold triples, value, deref. cbn [cores]. rewrite (cores_are_ids s X HV), map_map, map_map. cbn [fst snd read]. revert gs L. induction (ids_of X) as [|i ids IH]; intros [|g gs] L; cbn in L |- *; try lia; auto. f_equal. apply IH. lia.
Qed.

Hypothesis Hopt : opt_ok opt.
Variable f : rtt -> res R.
Variable X : vobj Rring.
Hypothesis Htape : tape_ok grad (of_cores f X).
Variable n : nat.
Variable c : nat -> R.
Variable I : nat -> list nat.
Variable v : nat -> R.
Hypothesis HB : vbsz X = None.
Hypothesis HI : forall m, m < n -> vidx (ishape (TT [] (vrshape X) (vrks X) None : rtt)) (I m).
Hypothesis Hf : forall t : rtt, wf t -> rshape t = vrshape X -> rks t = vrks X -> bsz t = None -> f t = Ok (cell_loss n c I v t).

Lemma f_gradient s : wf (value s X) -> is_gradient (of_cores f X) (cores (value s X)) (cell_grads n c I v (value s X)).
Proof.
  intros Hw. apply cell_gradient; auto. intros t Wt Rt Kt Bt. unfold of_cores. rewrite <- (Hf t) by auto. f_equal. destruct t as [cs r k b]. cbn in *. now rewrite Rt, Kt, Bt, HB.
Qed.

Lemma train_step_ok s st : is_variable s X -> wf (value s X) ->
  let gs := cell_grads n c I v (value s X) in let o := opt st (triples s X gs) in
  exists s', train_step grad opt f X st s = (s', Ok (fst o, cell_loss n c I v (value s X))) /\
  value s' X = TT (snd o) (vrshape X) (vrks X) None /\ same_shapes (cores (value s X)) (snd o) /\ is_variable s' X /\ wf (value s' X) /\
  names s' = names s /\ coll s' = coll s /\ losses s' = losses s /\ length (heap s') = length (heap s) /\
  forall id, ~ In (CVar id) (vcores X) -> nth_error (heap s') id = nth_error (heap s) id.
Proof.
  intros HV Hw gs o. pose proof (f_gradient s Hw) as HG. pose proof (Htape _ _ HG) as Eg. fold gs in Eg.
  assert (LC : ndims (value s X) = length (ids_of X)) by (unfold ndims, value, deref; cbn [cores]; rewrite (cores_are_ids s X HV), !map_length; reflexivity).
  assert (LG : length gs = length (ids_of X)) by (unfold gs, cell_grads; rewrite map_length, seq_length; exact LC).
  assert (HS : same_shapes (cores (value s X)) (snd o)). { rewrite <- (triples_values s X gs HV LG). apply Hopt. }
  destruct (write_cores s X (snd o) HV Hw HS) as (EV & HV' & Hw' & R). rewrite HB in EV. eexists. split; [|split; [exact EV|split; [exact HS|split; [exact HV'|split; [exact Hw'|exact R]]]]].
  unfold train_step, bindM, liftR. change (map (read (heap s)) (vcores X)) with (cores (value s X)).
  assert (E : of_cores f X (cores (value s X)) = Ok (cell_loss n c I v (value s X))). { unfold of_cores. change (TT (cores (value s X)) (vrshape X) (vrks X) (vbsz X)) with (value s X). now apply Hf. }
  rewrite E. change (map (read (heap s)) (vcores X)) with (cores (value s X)). rewrite Eg. unfold apply_gradients. rewrite used_triples by auto.
  destruct (triples s X gs) as [|u us] eqn:ET.
  { exfalso. pose proof (triples_ids s X gs LG) as X1. rewrite ET in X1. cbn in X1. pose proof (wf_d Hw). rewrite <- X1 in LC. cbn [length] in LC. lia. }
  unfold o. rewrite <- ET. rewrite triples_ids by auto. destruct (opt st (triples s X gs)) as [st' news]. reflexivity.
Qed.
End Step.

(** ** Loops *)
Lemma loop_ok {loss ost B : Type} (stepf : ost -> M Rring loss (ost * B)) (Inv : store Rring loss -> Prop) (P : store Rring loss -> store Rring loss -> B -> Prop) (b0 : B) :
  (forall s st, Inv s -> exists s' st' b, stepf st s = (s', Ok (st', b)) /\ Inv s' /\ P s s' b) ->
  forall N k s st log, Inv s -> exists (ss : nat -> store Rring loss) st' log',
    forM (fun _ a => bindM (stepf (fst a)) (fun p => ret (fst p, snd a ++ [snd p]))) (seq k N) (st, log) s = (ss N, Ok (st', log ++ log')) /\
    ss 0 = s /\ length log' = N /\ (forall i, i <= N -> Inv (ss i)) /\ forall i, i < N -> P (ss i) (ss (S i)) (nth i log' b0).
Proof.
  intros HS N. induction N as [|N IH]; intros k s st log HI; cbn [seq forM].
  - exists (fun _ => s), st, []. split; [unfold ret; now rewrite app_nil_r|]. split; [reflexivity|]. split; [reflexivity|]. split; [auto|]. intros i Hi. lia.
  - destruct (HS s st HI) as (s1 & st1 & b & E & HI1 & HP). destruct (IH (S k) s1 st1 (log ++ [b]) HI1) as (ss & st' & log' & E1 & S0 & L & HI' & HP').
    exists (fun i => match i with 0 => s | S i => ss i end), st', (b :: log'). split.
    { unfold bindM at 1 2. cbn [fst]. rewrite E. unfold ret at 1. cbn [fst snd]. rewrite E1. now rewrite <- app_assoc. }
    split; [reflexivity|]. split; [cbn; lia|]. split.
    + intros [|i] Hi; [exact HI|]. apply HI'. lia.
    + intros [|i] Hi; [rewrite S0; exact HP|]. apply HP'. lia.
Qed.

(** ** Descent *)
Lemma slope_down (phi : R -> R) l : derivable_pt_lim phi 0%R l -> (0 < l)%R -> exists d, (0 < d)%R /\ forall h, (0 < h < d)%R -> (phi (- h) < phi 0)%R.
Proof.
  intros H Hl. destruct (H l Hl) as ([d Hd] & HD). exists d. split; [exact Hd|]. intros h Hh. specialize (HD (- h)%R ltac:(lra)). cbn [pos] in HD. rewrite Rabs_Ropp, (Rabs_right h) in HD by lra. specialize (HD ltac:(lra)).
  rewrite Rplus_0_l in HD. apply Rabs_def2 in HD as [_ HD]. assert (Q : (0 < (phi (- h) - phi 0) / - h)%R) by lra.
  destruct (Rlt_le_dec (phi (- h)%R) (phi 0%R)) as [|G]; auto. exfalso. replace ((phi (- h) - phi 0) / - h)%R with (- ((phi (- h) - phi 0) * / h))%R in Q by (field; lra).
  assert (0 <= (phi (- h) - phi 0) * / h)%R; [|lra]. apply Rmult_le_pos; [lra|]. left. apply Rinv_0_lt_compat. lra.
Qed.
Lemma gradient_descends f ds gs l0 : is_gradient f ds gs -> Forall wft ds -> f ds = Ok l0 -> (0 < inners gs gs)%R ->
  exists d, (0 < d)%R /\ forall h, (0 < h < d)%R -> exists l, f (move (- h)%R ds gs) = Ok l /\ (l < l0)%R.
Proof.
  intros [S H] HW E HP. destruct (H gs S) as (phi & (eps & He & Hphi) & D). destruct (slope_down phi _ D HP) as (d & Hd & HD). exists (Rmin d eps). split; [now apply Rmin_glb_lt|].
  intros h Hh. pose proof (Rmin_l d eps). pose proof (Rmin_r d eps). exists (phi (- h)%R). split; [apply Hphi; rewrite Rabs_Ropp, Rabs_right; lra|].
  assert (E0 : phi 0%R = l0). { specialize (Hphi 0%R ltac:(rewrite Rabs_R0; lra)). replace (move 0 ds gs) with ds in Hphi; [congruence|]. clear -S HW. unfold move. induction S as [|d g ds gs [_ Sg] _ IH]; [reflexivity|]. inversion HW; subst. cbn. f_equal; [|auto].
    apply (tensor_ext Rring); [auto|apply wft_mk|reflexivity|]. intros i Hi. symmetry. etransitivity; [apply (get_mk Rring); auto|]. req. ring. }
  rewrite <- E0. apply HD. lra.
Qed.
Lemma inners_nonneg gs : (0 <= inners gs gs)%R.
Proof.
  induction gs as [|g gs IH]; cbn [inners]; [lra|]. assert (0 <= inner (shape g) (get g) (get g))%R; [|lra]. unfold inner. generalize (get g). generalize (shape g). clear. intros s. induction s as [|n s IH]; intros f; cbn [isum]; [apply Rle_0_sqr|].
  change (0 <= rs n (fun k => isum (K := Rring) s (fun i => f (k :: i) * f (k :: i))%R))%R. induction n as [|n IHn]; [change (0 <= 0)%R; lra|]. change (0 <= rs n (fun k => isum (K := Rring) s (fun i => f (k :: i) * f (k :: i))%R) + isum (K := Rring) s (fun i => f (n :: i) * f (n :: i))%R)%R. specialize (IH (fun i => f (n :: i))). cbv beta in IH. lra.
Qed.

(** ** SGD *)
Lemma sgd_ok lr : opt_ok (sgd lr).
Proof. intros st l. unfold sgd. cbn [snd]. induction l as [|u l IH]; cbn [map]; constructor; auto. split; [apply wft_mk|reflexivity]. Qed.
Lemma sgd_move {loss} lr (s : store Rring loss) X gs : is_variable s X -> length gs = length (ids_of X) -> snd (sgd lr Datatypes.tt (triples s X gs)) = move (- lr)%R (cores (value s X)) gs.
Proof.
  intros HV L. unfold sgd, triples, value, deref, move. cbn [snd cores]. rewrite (cores_are_ids s X HV), !map_map. cbn [fst snd read]. revert gs L. induction (ids_of X) as [|i ids IH]; intros [|g gs] L; cbn in L |- *; try lia; auto.
  f_equal; [|apply IH; lia]. apply (mk_ext Rring). intros idx _. req. ring.
Qed.

(** ** Entries no cell depends on *)
Lemma chain_dead (G : nat -> nat -> list nat -> nat -> R) r v k : forall J k0 a, k0 <= k < k0 + length J -> (forall a b, G k a (nth (k - k0) J []) b = 0%R) ->
  chain (K := Rring) G r k0 J v a = 0%R.
Proof.
  induction J as [|j J IH]; intros k0 a Hk H; cbn [length] in Hk; [lia|]. cbn [chain]. apply (sumn_zero Rring). intros b _. destruct (Nat.eq_dec k k0) as [->|N].
  - rewrite Nat.sub_diag in H. cbn [nth] in H. rewrite H. apply Rmult_0_l.
  - rewrite IH; [apply Rmult_0_r|lia|]. intros a' b'. specialize (H a' b'). replace (k - k0) with (S (k - S k0)) in H by lia. exact H.
Qed.
Lemma partial_dead (x : rtt) k idx i : wf x -> vidx (ishape x) i -> k < ndims x -> nth k (split_idx x i) [] <> mid idx -> partial_entry x k idx i = 0%R.
Proof.
  intros W Hi Hk N. destruct (split_idx_valid _ x i W Hi) as [_ L]. unfold partial_entry. apply (chain_dead _ _ _ k); [lia|]. rewrite Nat.sub_0_r. intros a b. rewrite Nat.eqb_refl. unfold unit_core.
  destruct (list_eqb _ idx) eqn:E; [|reflexivity]. exfalso. apply list_eqb_eq in E. apply N. rewrite <- E. unfold mid. cbn [tl]. now rewrite removelast_last.
Qed.
