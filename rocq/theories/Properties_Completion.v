(** C67: tensor completion (docs/tutorials/tensor_completion.ipynb).

    [X]: a TT variable of the store [s].  [observed]: which cells are observed.  [mean_over sh observed f]: the mean of [f] over
    the observed cells (CompletionSpec.v).  [grad], [opt]: the gradient tape and the optimizer, with the contracts [tape_ok], [opt_ok] (satisfiable:
    [C67_tape_exists], [C67_sgd_is_an_optimizer]).  [is_gradient f ds gs] (AutoSpec.v): the derivative of f at ds in the direction
    hs is the scalar product of gs and hs. *)
From Coq Require Import String List Arith ZArith Lia Lra Bool Reals ClassicalEpsilon.
From Verif Require Import Scalar Tensor TensorLemmas TensorLemmas2 Base Spec Chain BaseLemmas Ops FullProofs ResultLemmas
  OpsR Vars VarSpec VarProofs AutoSpec AutoProofs GradExists GatherProofs TutorialSpec DescentProofs CompressProofs Completion CompletionSpec CompletionProofs CompletionThms Dense TangentSpace Birthday.
Import ListNotations.
Local Open Scope nat_scope.
Local Notation get := (@get Rring).

Definition mean_square (sh : list nat) (observed : list nat -> bool) (d a : rtensor) : R := mean_over sh observed (fun i => sq (get d i - get a i)).
Definition all_cells : list nat -> bool := fun _ => true.

(** ** The losses *)
(** The mean of the squared errors over the observed cells. *)
Theorem C67_masked_loss : forall (t : rtt) observed (a : rtensor), wf t -> bsz t = None -> let sh := get_shape t in shape a = sh -> 0 < count sh observed ->
  exists d, full t = Ok d /\ masked_loss (mask_of sh observed) (observed_part sh observed a) t = Ok (mean_square sh observed d a).
Proof.
  intros t observed a Hw Hb sh Sa _. destruct (full_correct Rring t Hw) as (d & F & _ & Sd & Ed). exists d. split; [exact F|]. unfold sh in *. rewrite masked_loss_ok by auto. f_equal. unfold mean_square. rewrite !mean_sum. apply (sumn_ext Rring). intros m Hm. rewrite Ed by now apply unravel_valid. reflexivity.
Qed.
Print Assumptions C67_masked_loss.
Theorem C67_test_loss : forall (t : rtt) (a : rtensor), wf t -> bsz t = None -> let sh := get_shape t in shape a = sh ->
  exists d, full t = Ok d /\ test_loss a t = Ok (mean_square sh all_cells d a).
Proof.
  intros t a Hw Hb sh Sa. destruct (full_correct Rring t Hw) as (d & F & _ & Sd & Ed). exists d. split; [exact F|]. unfold sh in *. rewrite test_loss_ok by auto. f_equal. unfold mean_square, all_cells. rewrite !mean_sum. apply (sumn_ext Rring). intros m Hm. rewrite Ed by now apply unravel_valid. reflexivity.
Qed.
Print Assumptions C67_test_loss.
(** The mean of the squared errors over the list of observations, computed without the full tensor. *)
Theorem C67_sparse_loss : forall (t : rtt) (ix : itensor) (vals : rtensor) M, wf t -> bsz t = None -> is_tt_matrix t = false -> let sh := get_shape t in
  shape ix = [M; length sh] -> rows_valid ix sh -> shape vals = [M] -> 0 < M ->
  exists d, full t = Ok d /\ sparse_loss ix vals t = Ok (sumn (K := Rring) M (fun m => sq (get d (row ix (length sh) m) - get vals [m])) / INR M)%R.
Proof.
  intros t ix vals M Hw Hb Ht sh Si Hv Sv _. destruct (full_correct Rring t Hw) as (d & F & _ & Sd & Ed). exists d. split; [exact F|]. unfold sh in *. rewrite (sparse_loss_ok t Hw ix vals M) by auto. f_equal. unfold cell_loss, Rdiv.
  rewrite Rmult_comm. etransitivity; [|apply (sumn_mul_l Rring)]. apply (sumn_ext Rring). intros m Hm. rewrite Ed by now apply (row_valid ix (get_shape t) M). reflexivity.
Qed.
Print Assumptions C67_sparse_loss.
(** Both are the same if the listed cells are different and are the observed ones. *)
Theorem C67_losses_agree : forall (t : rtt) observed (a : rtensor) (ix : itensor) (vals : rtensor) M, wf t -> bsz t = None -> is_tt_matrix t = false -> let sh := get_shape t in
  shape a = sh -> shape ix = [M; length sh] -> rows_valid ix sh -> shape vals = [M] -> 0 < M ->
  NoDup (map (row ix (length sh)) (seq 0 M)) ->
  (forall i, vidx sh i -> (observed i = true <-> exists m, m < M /\ row ix (length sh) m = i)) ->
  (forall m, m < M -> get vals [m] = get a (row ix (length sh) m)) ->
  exists l, sparse_loss ix vals t = Ok l /\ masked_loss (mask_of sh observed) (observed_part sh observed a) t = Ok l.
Proof.
  intros t observed a ix vals M Hw Hb Ht sh Sa Si Hv Sv HM ND HO HA. assert (V : forall m, m < M -> vidx sh (row ix (length sh) m)) by (intros; now apply (row_valid ix sh M)).
  destruct (mean_listed sh observed (fun i => sq (tt_at t i - get a i)) (row ix (length sh)) M V ND HO) as [C E]. eexists. split; [apply (sparse_loss_ok t Hw ix vals M); auto|]. unfold sh in *. rewrite masked_loss_ok by auto. f_equal.
  rewrite E. unfold cell_loss, Rdiv. rewrite Rmult_comm. etransitivity; [symmetry; apply (sumn_mul_l Rring)|]. apply (sumn_ext Rring). intros m Hm. rewrite HA by auto. reflexivity.
Qed.
Print Assumptions C67_losses_agree.

(** ** The gradients *)
Section Facts.
Context {loss : Type}.
Implicit Types s : store Rring loss.
Lemma shape_of_value s (X : vobj Rring) (t : rtt) : rshape t = vrshape X -> bsz t = None -> vbsz X = None -> get_shape t = get_shape (value s X).
Proof. intros R B B'. unfold get_shape, is_tt_matrix, value, deref. cbn [rshape bsz]. now rewrite R, B, B'. Qed.
Lemma masked_cells s (X : vobj Rring) observed (a : rtensor) : vbsz X = None -> let sh := get_shape (value s X) in shape a = sh ->
  forall t : rtt, wf t -> rshape t = vrshape X -> rks t = vrks X -> bsz t = None ->
  masked_loss (mask_of sh observed) (observed_part sh observed a) t = Ok (cell_loss (prodn sh) (mask_weight sh observed) (unravel sh) (fun m => get a (unravel sh m)) t).
Proof.
  intros HB sh Sa t Wt Rt Kt Bt. assert (E : sh = get_shape t) by (symmetry; now apply shape_of_value). rewrite E in *. rewrite masked_loss_ok by auto. f_equal. apply mean_sum.
Qed.
Lemma sparse_cells s (X : vobj Rring) (ix : itensor) (vals : rtensor) M : vbsz X = None -> is_tt_matrix (value s X) = false -> let sh := get_shape (value s X) in
  shape ix = [M; length sh] -> rows_valid ix sh -> shape vals = [M] ->
  forall t : rtt, wf t -> rshape t = vrshape X -> rks t = vrks X -> bsz t = None ->
  sparse_loss ix vals t = Ok (cell_loss M (fun _ => / INR M)%R (row ix (length sh)) (fun m => get vals [m]) t).
Proof.
  intros HB Ht sh Si Hv Sv t Wt Rt Kt Bt. assert (E : sh = get_shape t) by (symmetry; now apply shape_of_value). rewrite E in *. apply (sparse_loss_ok t Wt ix vals M); auto.
  unfold is_tt_matrix in *. now rewrite Rt.
Qed.
Lemma cells_valid s (X : vobj Rring) i : vbsz X = None -> vidx (get_shape (value s X)) i -> vidx (ishape (TT [] (vrshape X) (vrks X) None : rtt)) i.
Proof. intros B H. rewrite get_shape_ishape in H. unfold bpre in H. change (bsz (value s X)) with (vbsz X) in H. rewrite B in H. exact H. Qed.
End Facts.

(** The losses are differentiable in the cores; the gradients. *)
Theorem C67_masked_gradient : forall (loss : Type) (s : store Rring loss) X observed (a : rtensor), wf (value s X) -> vbsz X = None ->
  let x := value s X in let sh := get_shape x in shape a = sh -> 0 < count sh observed ->
  exists gs d, full x = Ok d /\ is_gradient (of_cores (masked_loss (mask_of sh observed) (observed_part sh observed a)) X) (cores x) gs /\
    forall k idx, k < ndims x -> vidx (shape (core x k)) idx ->
      get (nth k gs (Tensor [] [])) idx = mean_over sh observed (fun i => 2 * (get d i - get a i) * partial_entry x k idx i)%R.
Proof.
  intros loss s X observed a Hw HB x sh Sa _. destruct (full_correct Rring x Hw) as (d & F & _ & _ & Ed). exists (cell_grads (prodn sh) (mask_weight sh observed) (unravel sh) (fun m => get a (unravel sh m)) x), d. split; [exact F|]. split.
  { refine (f_gradient _ X _ _ _ _ HB _ _ s Hw); [intros m Hm; apply (cells_valid s); [exact HB|now apply unravel_valid]|now apply masked_cells]. }
  intros k idx Hk Hidx. unfold cell_grads. rewrite (nth_map_default _ _ _ 0) by (rewrite seq_length; auto). rewrite seq_nth by auto. cbn [Nat.add]. rewrite get_mk by auto. rewrite mean_sum. apply (sumn_ext Rring). intros m Hm. rewrite Ed by now apply unravel_valid. change (value s X) with x.
  change (@eq R (2 * mask_weight sh observed m * (tt_at x (unravel sh m) - get a (unravel sh m)) * partial_entry x k idx (unravel sh m)) (mask_weight sh observed m * (2 * (tt_at x (unravel sh m) - get a (unravel sh m)) * partial_entry x k idx (unravel sh m))))%R. ring.
Qed.
Print Assumptions C67_masked_gradient.
Theorem C67_sparse_gradient : forall (loss : Type) (s : store Rring loss) X (ix : itensor) (vals : rtensor) M, wf (value s X) -> vbsz X = None -> is_tt_matrix (value s X) = false ->
  let x := value s X in let sh := get_shape x in shape ix = [M; length sh] -> rows_valid ix sh -> shape vals = [M] -> 0 < M ->
  exists gs d, full x = Ok d /\ is_gradient (of_cores (sparse_loss ix vals) X) (cores x) gs /\
    forall k idx, k < ndims x -> vidx (shape (core x k)) idx ->
      get (nth k gs (Tensor [] [])) idx =
        (sumn (K := Rring) M (fun m => 2 * (get d (row ix (length sh) m) - get vals [m]) * partial_entry x k idx (row ix (length sh) m)) / INR M)%R.
Proof.
  intros loss s X ix vals M Hw HB Ht x sh Si Hv Sv _. destruct (full_correct Rring x Hw) as (d & F & _ & _ & Ed). exists (cell_grads M (fun _ => / INR M)%R (row ix (length sh)) (fun m => get vals [m]) x), d. split; [exact F|]. split.
  { refine (f_gradient _ X _ _ _ _ HB _ _ s Hw); [intros m Hm; apply (cells_valid s); [exact HB|now apply (row_valid ix sh M)]|now apply sparse_cells]. }
  intros k idx Hk Hidx. unfold cell_grads. rewrite (nth_map_default _ _ _ 0) by (rewrite seq_length; auto). rewrite seq_nth by auto. cbn [Nat.add]. rewrite get_mk by auto. unfold Rdiv. etransitivity; [|apply (Rmult_comm (/ INR M))]. etransitivity; [|apply (sumn_mul_l Rring)].
  apply (sumn_ext Rring). intros m Hm. rewrite Ed by now apply (row_valid ix sh M). change (value s X) with x. fold sh.
  change (@eq R (2 * / INR M * (tt_at x (row ix (length sh) m) - get vals [m]) * partial_entry x k idx (row ix (length sh) m)) (/ INR M * (2 * (tt_at x (row ix (length sh) m) - get vals [m]) * partial_entry x k idx (row ix (length sh) m))))%R. ring.
Qed.
Print Assumptions C67_sparse_gradient.

(** ** Training *)
Theorem C67_tape_exists : exists grad, forall f, tape_ok grad f.
Proof.
  exists the_grad. intros f ds gs H. unfold the_grad. destruct (excluded_middle_informative _) as [HE|N]; [|exfalso; apply N; eauto].
  destruct (constructive_indefinite_description _ HE) as [gs' H']. cbn [proj1_sig]. now rewrite (gradient_unique f ds gs' gs H' H).
Qed.
Print Assumptions C67_tape_exists.
Theorem C67_sgd_is_an_optimizer : forall lr, opt_ok (sgd lr).
Proof. exact sgd_ok. Qed.
Print Assumptions C67_sgd_is_an_optimizer.

(** What holds of the variable at every moment. *)
Definition in_training {loss} (s0 : store Rring loss) (X : vobj Rring) (s : store Rring loss) : Prop :=
  is_variable s X /\ wf (value s X) /\ only_changes X s0 s.
Lemma only_changes_trans {loss} X (s s' s'' : store Rring loss) : only_changes X s s' -> only_changes X s' s'' -> only_changes X s s''.
Proof. intros (A & B & C & D) (A' & B' & C' & D'). split; [congruence|]. split; [congruence|]. split; [congruence|]. intros id H. rewrite D' by auto. now apply D. Qed.

(** Any number of steps (cell 8): no step raises; step i returns the loss before its update and the test loss after it; [ds i] is the
    full tensor after i steps.  Shape and ranks of the variable do not change, other variables keep their values. *)
Theorem C67_masked_train : forall (loss ost : Type) grad (opt : ost -> _) (s : store Rring loss) X st observed (a truth : rtensor) n, opt_ok opt ->
  is_variable s X -> wf (value s X) -> vbsz X = None -> let sh := get_shape (value s X) in shape a = sh -> shape truth = sh -> 0 < count sh observed ->
  tape_ok grad (of_cores (masked_loss (mask_of sh observed) (observed_part sh observed a)) X) ->
  exists ss ds st' log, masked_train grad opt (mask_of sh observed) (observed_part sh observed a) truth X st n s = (ss n, Ok (st', log)) /\ ss 0 = s /\ length log = n /\
    (forall i, i <= n -> in_training s X (ss i) /\ full (value (ss i) X) = Ok (ds i)) /\
    forall i, i < n -> nth i log (0, 0)%R = (mean_square sh observed (ds i) a, mean_square sh all_cells (ds (S i)) truth).
Proof.
  intros loss ost grad opt s X st observed a truth n Ho HV Hw HB sh Sa St Hc Htape.

  destruct (loop_ok (masked_step grad opt (mask_of sh observed) (observed_part sh observed a) truth X) (in_training s X)
    (fun s1 s2 b => forall d1 d2, full (value s1 X) = Ok d1 -> full (value s2 X) = Ok d2 -> b = (mean_square sh observed d1 a, mean_square sh all_cells d2 truth)) (0, 0)%R) with (N := n) (k := 0) (s := s) (st := st) (log := @nil (R * R)) as (ss & st' & log & E & S0 & L & HI & HP).
  - intros s1 st1 (V1 & W1 & O1).
    destruct (train_step_ok grad opt Ho _ X Htape _ _ _ _ HB (fun m Hm => cells_valid s X (unravel sh m) HB (unravel_valid sh m Hm)) (masked_cells s X observed a HB Sa) s1 st1 V1 W1) as (s2 & E & _ & _ & V2 & W2 & N1 & N2 & _ & N4 & N5).
    destruct (C67_masked_loss (value s1 X) observed a W1 HB Sa Hc) as (d1 & F1 & L1). destruct (C67_test_loss (value s2 X) truth W2 HB St) as (d2 & F2 & L2).
    exists s2. eexists. exists (mean_square sh observed d1 a, mean_square sh all_cells d2 truth). split; [|split].
    + assert (EQ : cell_loss (prodn sh) (mask_weight sh observed) (unravel sh) (fun m => get a (unravel sh m)) (value s1 X) = mean_square sh observed d1 a).
      { pose proof (masked_cells s X observed a HB Sa (value s1 X) W1 eq_refl eq_refl HB) as L1'. fold sh in L1'. change (get_shape (value s1 X)) with sh in L1. rewrite L1 in L1'. injection L1' as L1'. symmetry. exact L1'. }
      fold sh in E. rewrite EQ in E. unfold masked_step, bindM. rewrite E. unfold liftR. fold (value s2 X). rewrite L2. reflexivity.
    + split; [exact V2|]. split; [exact W2|]. apply (only_changes_trans X s s1 s2 O1). split; auto.
    + intros d1' d2' F1' F2'. rewrite F1 in F1'. rewrite F2 in F2'. now injection F1' as <-; injection F2' as <-.
  - split; [exact HV|]. split; [exact Hw|]. split; auto.
  - exists ss, (fun i => match full (value (ss i) X) with Ok d => d | Err _ => Tensor [] [] end), st', log.
    assert (FD : forall i, i <= n -> full (value (ss i) X) = Ok (match full (value (ss i) X) with Ok d => d | Err _ => Tensor [] [] end)).
    { intros i Hi. destruct (HI i Hi) as (_ & Wi & _). destruct (full_correct Rring _ Wi) as (d & F & _). now rewrite F. }
    split; [exact E|]. split; [exact S0|]. split; [exact L|]. split; [intros i Hi; split; [now apply HI|now apply FD]|].
    intros i Hi. apply (HP i Hi); apply FD; lia.
Qed.
Print Assumptions C67_masked_train.

(** The program that only looks at the observations (cell 19). *)
Theorem C67_sparse_train : forall (loss ost : Type) grad (opt : ost -> _) (s : store Rring loss) X st (ix : itensor) (vals : rtensor) M n, opt_ok opt ->
  is_variable s X -> wf (value s X) -> vbsz X = None -> is_tt_matrix (value s X) = false -> let sh := get_shape (value s X) in
  shape ix = [M; length sh] -> rows_valid ix sh -> shape vals = [M] -> 0 < M -> tape_ok grad (of_cores (sparse_loss ix vals) X) ->
  exists ss ds st' log, sparse_train grad opt ix vals X st n s = (ss n, Ok (st', log)) /\ ss 0 = s /\ length log = n /\
    (forall i, i <= n -> in_training s X (ss i) /\ full (value (ss i) X) = Ok (ds i)) /\
    forall i, i < n -> nth i log 0%R = (sumn (K := Rring) M (fun m => sq (get (ds i) (row ix (length sh) m) - get vals [m])) / INR M)%R.
Proof.
  intros loss ost grad opt s X st ix vals M n Ho HV Hw HB Ht sh Si Hv Sv HM Htape.
  destruct (loop_ok (train_step grad opt (sparse_loss ix vals) X) (in_training s X)
    (fun s1 s2 b => forall d1, full (value s1 X) = Ok d1 -> b = (sumn (K := Rring) M (fun m => sq (get d1 (row ix (length sh) m) - get vals [m])) / INR M)%R) 0%R) with (N := n) (k := 0) (s := s) (st := st) (log := @nil R) as (ss & st' & log & E & S0 & L & HI & HP).
  - intros s1 st1 (V1 & W1 & O1).
    destruct (train_step_ok grad opt Ho _ X Htape _ _ _ _ HB (fun m Hm => cells_valid s X (row ix (length sh) m) HB (row_valid ix sh M m Si Hv Hm)) (sparse_cells s X ix vals M HB Ht Si Hv Sv) s1 st1 V1 W1) as (s2 & E & _ & _ & V2 & W2 & N1 & N2 & _ & N4 & N5).
    destruct (C67_sparse_loss (value s1 X) ix vals M W1 HB Ht Si Hv Sv HM) as (d1 & F1 & L1).
    exists s2. eexists. eexists. split; [exact E|]. split.
    + split; [exact V2|]. split; [exact W2|]. apply (only_changes_trans X s s1 s2 O1). split; auto.
    + intros d1' F1'. rewrite F1 in F1'. injection F1' as <-. pose proof (sparse_cells s X ix vals M HB Ht Si Hv Sv (value s1 X) W1 eq_refl eq_refl HB) as L1'. rewrite L1 in L1'. injection L1' as L1'. symmetry. exact L1'.
  - split; [exact HV|]. split; [exact Hw|]. split; auto.
  - exists ss, (fun i => match full (value (ss i) X) with Ok d => d | Err _ => Tensor [] [] end), st', log.
    assert (FD : forall i, i <= n -> full (value (ss i) X) = Ok (match full (value (ss i) X) with Ok d => d | Err _ => Tensor [] [] end)).
    { intros i Hi. destruct (HI i Hi) as (_ & Wi & _). destruct (full_correct Rring _ Wi) as (d & F & _). now rewrite F. }
    split; [exact E|]. split; [exact S0|]. split; [exact L|]. split; [intros i Hi; split; [now apply HI|now apply FD]|].
    intros i Hi. apply (HP i Hi); apply FD; lia.
Qed.
Print Assumptions C67_sparse_train.

(** ** Gradient descent *)
(** A step of SGD subtracts the gradients times the learning rate; unless all gradients are zero, the loss decreases for all small learning rates. *)
Definition sgd_descends {loss} grad (f : rtt -> res R) (X : vobj Rring) (s : store Rring loss) : Prop :=
  exists gs l, is_gradient (of_cores f X) (cores (value s X)) gs /\ f (value s X) = Ok l /\
    (forall lr, exists s', train_step grad (sgd lr) f X Datatypes.tt s = (s', Ok (Datatypes.tt, l)) /\ in_training s X s' /\ cores (value s' X) = move (- lr)%R (cores (value s X)) gs) /\
    ((0 < inners gs gs)%R -> exists lr0, (0 < lr0)%R /\ forall lr, (0 < lr < lr0)%R -> exists s' l', train_step grad (sgd lr) f X Datatypes.tt s = (s', Ok (Datatypes.tt, l)) /\ f (value s' X) = Ok l' /\ (l' < l)%R).
Lemma descends {loss} grad f (X : vobj Rring) n c I v (s : store Rring loss) : vbsz X = None -> (forall m, m < n -> vidx (get_shape (value s X)) (I m)) ->
  (forall t : rtt, wf t -> rshape t = vrshape X -> rks t = vrks X -> bsz t = None -> f t = Ok (cell_loss n c I v t)) -> tape_ok grad (of_cores f X) ->
  is_variable s X -> wf (value s X) -> sgd_descends grad f X s.
Proof.
  intros HB HI Hf Htape HV Hw. pose proof (f_gradient f X n c I v HB (fun m Hm => cells_valid s X _ HB (HI m Hm)) Hf s Hw) as HG.
  assert (ST : forall lr, exists s', train_step grad (sgd lr) f X Datatypes.tt s = (s', Ok (Datatypes.tt, cell_loss n c I v (value s X))) /\ in_training s X s' /\ cores (value s' X) = move (- lr)%R (cores (value s X)) (cell_grads n c I v (value s X)) /\
    value s' X = TT (cores (value s' X)) (vrshape X) (vrks X) (vbsz X)).
  { intros lr. destruct (train_step_ok grad (sgd lr) (sgd_ok lr) f X Htape n c I v HB (fun m Hm => cells_valid s X _ HB (HI m Hm)) Hf s Datatypes.tt HV Hw) as (s' & E & EV & _ & V2 & W2 & N1 & N2 & _ & N4 & N5). exists s'. split; [exact E|].
    split; [split; [exact V2|]; split; [exact W2|]; split; auto|]. split; [|reflexivity]. rewrite EV. cbn [cores]. apply sgd_move; [exact HV|]. unfold cell_grads. rewrite map_length, seq_length. unfold ndims, value, deref. cbn [cores]. now rewrite (cores_are_ids s X HV), !map_length. }
  exists (cell_grads n c I v (value s X)), (cell_loss n c I v (value s X)). split; [exact HG|]. assert (FX : f (value s X) = Ok (cell_loss n c I v (value s X))) by now apply Hf. split; [exact FX|]. split.
  - intros lr. destruct (ST lr) as (s' & A & B & C & _). exists s'. auto.
  - intros HP. destruct (gradient_descends _ _ _ (cell_loss n c I v (value s X)) HG) as (d & Hd & HD); auto.
    { apply Forall_forall. intros y Hy. apply (In_nth _ _ (core0 Rring)) in Hy as (k & Hk & <-). apply (wf_core Hw k Hk). }
    exists d. split; [exact Hd|]. intros lr Hlr. destruct (ST lr) as (s' & A & B & C & D). destruct (HD lr Hlr) as (l' & E1 & E2). exists s', l'. split; [exact A|]. split; [|exact E2]. rewrite D, C. exact E1.
Qed.
Theorem C67_masked_sgd : forall (loss : Type) grad (s : store Rring loss) X observed (a : rtensor),
  is_variable s X -> wf (value s X) -> vbsz X = None -> let sh := get_shape (value s X) in shape a = sh -> 0 < count sh observed ->
  tape_ok grad (of_cores (masked_loss (mask_of sh observed) (observed_part sh observed a)) X) ->
  sgd_descends grad (masked_loss (mask_of sh observed) (observed_part sh observed a)) X s.
Proof. intros loss grad s X observed a HV Hw HB sh Sa _ Ht. eapply descends; [exact HB| |apply (masked_cells s X observed a HB Sa)|exact Ht|exact HV|exact Hw]. intros m Hm. now apply unravel_valid. Qed.
Print Assumptions C67_masked_sgd.
Theorem C67_sparse_sgd : forall (loss : Type) grad (s : store Rring loss) X (ix : itensor) (vals : rtensor) M,
  is_variable s X -> wf (value s X) -> vbsz X = None -> is_tt_matrix (value s X) = false -> let sh := get_shape (value s X) in
  shape ix = [M; length sh] -> rows_valid ix sh -> shape vals = [M] -> 0 < M -> tape_ok grad (of_cores (sparse_loss ix vals) X) -> sgd_descends grad (sparse_loss ix vals) X s.
Proof. intros loss grad s X ix vals M HV Hw HB Hm sh Si Hv Sv _ Ht. eapply descends; [exact HB| |apply (sparse_cells s X ix vals M HB Hm Si Hv Sv)|exact Ht|exact HV|exact Hw]. intros m Hm'. now apply (row_valid ix sh M). Qed.
Print Assumptions C67_sparse_sgd.

(** The slices of the cores that belong to no observed cell keep their initial values under SGD. *)
Theorem C67_unobserved_slices_stay : forall (loss : Type) grad (s : store Rring loss) X (ix : itensor) (vals : rtensor) M lr n k p,
  is_variable s X -> wf (value s X) -> vbsz X = None -> is_tt_matrix (value s X) = false -> let sh := get_shape (value s X) in
  shape ix = [M; length sh] -> rows_valid ix sh -> shape vals = [M] -> 0 < M -> tape_ok grad (of_cores (sparse_loss ix vals) X) ->
  k < ndims (value s X) -> p < nth k sh 0 -> (forall m, m < M -> nth k (row ix (length sh) m) 0 <> p) ->
  exists s' log, sparse_train grad (sgd lr) ix vals X Datatypes.tt n s = (s', Ok (Datatypes.tt, log)) /\
    forall a b, a < rk (value s X) k -> b < rk (value s X) (S k) -> get (core (value s' X) k) [a; p; b] = get (core (value s X) k) [a; p; b].
Proof.
  intros loss grad s X ix vals M lr n k p HV Hw HB Ht sh Si Hv Sv HM Htape Hk Hp HN.
  set (same := fun s' : store Rring loss => forall a b, a < rk (value s X) k -> b < rk (value s X) (S k) -> get (core (value s' X) k) [a; p; b] = get (core (value s X) k) [a; p; b]).
  destruct (loop_ok (train_step grad (sgd lr) (sparse_loss ix vals) X) (fun s1 => in_training s X s1 /\ same s1) (fun _ _ _ => True) 0%R) with (N := n) (k := 0) (s := s) (st := Datatypes.tt) (log := @nil R) as (ss & [] & log & E & _ & _ & HI & _).
  - intros s1 [] ((V1 & W1 & O1) & H1). pose proof (sparse_cells s X ix vals M HB Ht Si Hv Sv) as Hf.
    destruct (train_step_ok grad (sgd lr) (sgd_ok lr) _ X Htape _ _ _ _ HB (fun m Hm => cells_valid s X (row ix (length sh) m) HB (row_valid ix sh M m Si Hv Hm)) Hf s1 Datatypes.tt V1 W1) as (s2 & E & EV & _ & V2 & W2 & N1 & N2 & _ & N4 & N5).
    exists s2. eexists. eexists. split; [exact E|]. split; [|exact I]. split; [split; [exact V2|]; split; [exact W2|]; apply (only_changes_trans X s s1 s2 O1); split; auto|].
    intros a b Ha Hb. rewrite <- (H1 a b Ha Hb). set (gs := cell_grads M _ _ _ (value s1 X)) in EV.
    assert (D1 : ndims (value s1 X) = ndims (value s X)) by (unfold ndims, value, deref; cbn [cores]; now rewrite !map_length).
    assert (LG : length gs = length (ids_of X)) by (unfold gs, cell_grads; rewrite map_length, seq_length; unfold ndims, value, deref; cbn [cores]; now rewrite (cores_are_ids s1 X V1), !map_length).
    rewrite EV. unfold core at 1. cbn [cores]. change (cell_grads M _ _ _ (value s1 X)) with gs. rewrite sgd_move by auto.
    assert (Sc : shape (core (value s1 X) k) = rk (value s X) k :: modes (value s X) k ++ [rk (value s X) (S k)]).
    { rewrite (core_shape _ _ k W1) by lia. unfold bpre. change (bsz (value s1 X)) with (vbsz X). rewrite HB. reflexivity. }
    assert (Mk : modes (value s X) k = [nth k sh 0]).
    { destruct (wf_kind_cases _ (value s X) Hw) as [(_ & Hl & _)|(E1 & _)]; [|congruence]. unfold modes, sh, get_shape. rewrite Ht. change (bsz (value s X)) with (vbsz X). rewrite HB. destruct (rshape (value s X)) as [|r [|r' rest]]; cbn in Hl |- *; try lia; reflexivity. }
    rewrite Mk in Sc. cbn [app] in Sc.
    assert (Vi : vidx (shape (core (value s1 X) k)) [a; p; b]) by (rewrite Sc; repeat constructor; auto).
    assert (EN : forall (ds gs : list rtensor) j, length gs = length ds -> j < length ds -> nth j (move (- lr)%R ds gs) (core0 Rring) = mk (K := Rring) (shape (nth j ds (core0 Rring))) (fun i => get (nth j ds (core0 Rring)) i + - lr * get (nth j gs (core0 Rring)) i)%R).
    { clear. unfold move. induction ds as [|d ds IH]; intros [|g gs] j L Hj; cbn in L, Hj; try lia. destruct j; [reflexivity|]. cbn. apply IH; lia. }
    rewrite EN; [|rewrite LG; unfold value, deref; cbn [cores]; rewrite (cores_are_ids s1 X V1), !map_length; reflexivity|change (k < ndims (value s1 X)); lia].
    fold (core (value s1 X) k). rewrite get_mk by auto.
    assert (Z : get (nth k gs (core0 Rring)) [a; p; b] = 0%R).
    { unfold gs, cell_grads. rewrite (nth_map_default _ _ _ 0) by (rewrite seq_length; lia). rewrite seq_nth by lia. cbn [Nat.add]. rewrite get_mk by auto. apply (sumn_zero Rring). intros m Hm.
      rewrite (partial_dead (value s1 X) k); [apply Rmult_0_r|exact W1| |lia|].
      - pose proof (cells_valid s X (row ix (length sh) m) HB (row_valid ix sh M m Si Hv Hm)) as Vr. exact Vr.
      - unfold split_idx. change (is_tt_matrix (value s1 X)) with (is_tt_matrix (value s X)). rewrite Ht. unfold mid. cbn [tl removelast]. intros E1. apply (HN m Hm).
        assert (Lr : k < length (row ix (length sh) m)). { unfold row. rewrite map_length, seq_length. destruct (Nat.lt_ge_cases k (length sh)) as [|G]; auto. rewrite nth_overflow in Hp by lia. lia. }
        rewrite (nth_map_default _ _ _ 0) in E1 by auto. now injection E1. }
    rewrite Z. change (@eq R (get (core (value s1 X) k) [a; p; b] + - lr * 0) (get (core (value s1 X) k) [a; p; b]))%R. ring.
  - split; [|intros a b _ _; reflexivity]. split; [exact HV|]. split; [exact Hw|]. split; auto.
  - exists (ss n), log. split; [exact E|]. apply (HI n). lia.
Qed.
Print Assumptions C67_unobserved_slices_stay.

(** ** A case *)
(** The variable holds the 2 x 3 matrix with rows (1 1 5), (2 2 10) and TT-rank 1; observed are (0,0) with the value 3 and (1,1) with the value 2.
    The loss is 2, the gradient is not zero, the last column is never observed. *)
Local Notation RT := (Tensor (K := Rring)).
Definition case_store : store Rring unit := Store [Var "e/core_0" Float32 (RT [1;2;1] [1;2]%R); Var "e/core_1" Float32 (RT [1;3;1] [1;1;5]%R)] [] [] [].
Definition case_var : vobj Rring := VObj [CVar 0; CVar 1] [[2;3]] [1;1;1] None Float32.
Definition case_ix : itensor := Tensor (K := Zring) [2;2] [0;0;1;1]%Z.
Definition case_vals : rtensor := RT [2] [3;2]%R.
Lemma case_wf : is_variable case_store case_var /\ wf (value case_store case_var).
Proof.
  split.
  - split; [cbn; constructor; [intros [E|[]]; discriminate|]; constructor; [intros []|constructor]|]. intros c [<-|[<-|[]]]; [exists 0|exists 1]; eexists; repeat split; reflexivity.
  - apply wfb_wf. vm_compute. reflexivity.
Qed.
Example C67_case : let sh := get_shape (value case_store case_var) in
  rows_valid case_ix sh /\ NoDup (map (row case_ix (length sh)) (seq 0 2)) /\
  sparse_loss case_ix case_vals (value case_store case_var) = Ok 2%R /\
  (forall m, m < 2 -> nth 1 (row case_ix (length sh) m) 0 <> 2) /\
  exists grad, tape_ok grad (of_cores (sparse_loss case_ix case_vals) case_var) /\
  exists lr0, (0 < lr0)%R /\ forall lr, (0 < lr < lr0)%R -> exists s' l', train_step grad (sgd lr) (sparse_loss case_ix case_vals) case_var Datatypes.tt case_store = (s', Ok (Datatypes.tt, 2%R)) /\
    sparse_loss case_ix case_vals (value s' case_var) = Ok l' /\ (l' < 2)%R.
Proof.
  destruct case_wf as [HV Hw]. intros sh. assert (RV : rows_valid case_ix sh). { intros m k Hm Hk. cbn in Hm, Hk. destruct m as [|[|m]], k as [|[|k]]; try lia; (vm_compute; split; [discriminate|reflexivity]). }
  assert (L : sparse_loss case_ix case_vals (value case_store case_var) = Ok 2%R).
  { destruct (C67_sparse_loss (value case_store case_var) case_ix case_vals 2 Hw eq_refl eq_refl eq_refl RV eq_refl ltac:(lia)) as (d & F & ->). f_equal. destruct (full_correct Rring _ Hw) as (d' & F' & _ & _ & Ed). rewrite F in F'. injection F' as <-.
    cbn [sumn]. rewrite !Ed by (cbn; repeat constructor). cbv -[Rplus Rmult Rdiv Rminus IZR]. cbn. lra. }
  split; [exact RV|]. split; [cbn; constructor; [intros [E|[]]; discriminate|]; constructor; [intros []|constructor]|]. split; [exact L|].
  split; [intros m Hm; destruct m as [|[|m]]; [vm_compute; discriminate|vm_compute; discriminate|lia]|].
  destruct C67_tape_exists as (grad & Hg). exists grad. split; [apply Hg|].
  destruct (C67_sparse_sgd unit grad case_store case_var case_ix case_vals 2 HV Hw eq_refl eq_refl eq_refl RV eq_refl ltac:(lia) (Hg _)) as (gs & l & HG & El & _ & HD). rewrite L in El. injection El as <-. apply HD.
  destruct (C67_sparse_gradient unit case_store case_var case_ix case_vals 2 Hw eq_refl eq_refl eq_refl RV eq_refl ltac:(lia)) as (gs' & d & F & HG' & EG). rewrite (gradient_unique _ _ _ _ HG HG').
  destruct (full_correct Rring _ Hw) as (d' & F' & _ & _ & Ed). rewrite F in F'. injection F' as <-.
  specialize (EG 0 [0;0;0] ltac:(cbn; lia) ltac:(cbn; repeat constructor)). cbn [sumn] in EG. rewrite !Ed in EG by (cbn; repeat constructor).
  assert (N : get (nth 0 gs' (Tensor [] [])) [0;0;0] = (-2)%R).
  { etransitivity; [exact EG|]. cbv -[Rplus Rmult Rdiv Rminus IZR Ropp Rinv]. cbn. lra. }
  destruct HG' as [S _]. inversion S as [|c g cs gs1 [Wg Sg] S1]; subst. cbn [nth] in N. cbn [inners]. pose proof (inners_nonneg gs1) as P1.
  assert (P0 : (0 < inner (shape g) (get g) (get g))%R).
  { destruct (Req_dec (inner (shape g) (get g) (get g)) 0) as [Z|NZ].
    - exfalso. destruct (isum_zero_each (shape g) (fun i => Rsqr (get g i))) as [_ Q]; [intros; apply Rle_0_sqr|]. specialize (Q Z [0;0;0]). rewrite Sg in Q. specialize (Q ltac:(cbn; repeat constructor)). apply Rsqr_0_uniq in Q. rewrite N in Q. lra.
    - pose proof (inners_nonneg [g]) as P. cbn [inners] in P. lra. }
  lra.
Qed.

(** Repeated indices count repeatedly: with (0,0) listed twice the loss is not the masked one. *)
Theorem C67_duplicates_refuted : exists (t : rtt) observed (a : rtensor) (ix : itensor) (vals : rtensor) l l', wf t /\ bsz t = None /\ is_tt_matrix t = false /\ let sh := get_shape t in
  shape a = sh /\ shape ix = [3; length sh] /\ rows_valid ix sh /\ shape vals = [3] /\
  (forall i, vidx sh i -> (observed i = true <-> exists m, m < 3 /\ row ix (length sh) m = i)) /\
  (forall m, m < 3 -> get vals [m] = get a (row ix (length sh) m)) /\
  sparse_loss ix vals t = Ok l /\ masked_loss (mask_of sh observed) (observed_part sh observed a) t = Ok l' /\ l <> l'.
Proof.
  destruct case_wf as [_ Hw]. set (t := value case_store case_var) in *.
  set (observed := fun i => orb (list_eqb i [0;0]) (list_eqb i [1;1])). set (a := RT [2;3] [3;0;0;0;2;0]%R). set (ix := Tensor (K := Zring) [3;2] [0;0;0;0;1;1]%Z : itensor). set (vals := RT [3] [3;3;2]%R).
  exists t, observed, a, ix, vals.
  assert (RV : rows_valid ix (get_shape t)). { intros m k Hm Hk. cbn in Hm, Hk. destruct m as [|[|[|m]]], k as [|[|k]]; try lia; (vm_compute; split; [discriminate|reflexivity]). }
  destruct (full_correct Rring t Hw) as (d & F & _ & _ & Ed).
  destruct (C67_sparse_loss t ix vals 3 Hw eq_refl eq_refl eq_refl RV eq_refl ltac:(lia)) as (d1 & F1 & L1). rewrite F in F1. injection F1 as <-.
  destruct (C67_masked_loss t observed a Hw eq_refl eq_refl) as (d2 & F2 & L2); [vm_compute; lia|]. rewrite F in F2. injection F2 as <-.
  eexists. eexists. split; [exact Hw|]. do 4 (split; [reflexivity|]). split; [exact RV|]. split; [reflexivity|]. split; [|split; [|split; [exact L1|split; [exact L2|]]]].
  - intros i Hi. unfold observed. rewrite orb_true_iff, !list_eqb_eq. split.
    + intros [->| ->]; [exists 0|exists 2]; split; auto.
    + intros (m & Hm & <-). destruct m as [|[|[|m]]]; cbn; auto; lia.
  - intros m Hm. destruct m as [|[|[|m]]]; try lia; reflexivity.
  - cbn [sumn]. rewrite !Ed by (cbn; repeat constructor). unfold mean_square, mean_over. cbn [count filter map seq prodn]. 
    assert (E1 : filter observed (map (unravel (get_shape t)) (seq 0 (prodn (get_shape t)))) = [[0;0];[1;1]]) by reflexivity. unfold count. rewrite E1. cbn [map fold_right length].
    rewrite !Ed by (cbn; repeat constructor). cbv -[Rplus Rmult Rdiv Rminus IZR not]. cbn. intros H. lra.
Qed.
Print Assumptions C67_duplicates_refuted.

(** How often is that so?  Of the [prodn sh ^ M] arrays of M cells of a tensor, those without a repeated cell ([L]: any list of such arrays) are at
    most the fraction exp (- M (M - 1) / (2 prodn sh)). *)
Theorem C67_distinct_arrays : forall sh M (L : list (list (list nat))), 0 < prodn sh -> NoDup L ->
  Forall (fun w => length w = M /\ NoDup w /\ Forall (vidx sh) w) L ->
  (INR (length L) <= exp (- (INR M * (INR M - 1) / (2 * INR (prodn sh)))) * INR (prodn sh) ^ M)%R.
Proof.
  intros sh M L HN ND HF. set (xs := map (unravel sh) (seq 0 (prodn sh))). set (dec := list_eq_dec Nat.eq_dec).
  assert (EL : length xs = prodn sh) by (unfold xs; now rewrite map_length, seq_length).
  pose proof (distinct_bound dec xs M (unravel_nodup sh) ltac:(rewrite EL; exact HN)) as B. rewrite words_length, pow_INR, EL in B. eapply Rle_trans; [|exact B]. apply le_INR. apply NoDup_incl_length; auto.
  intros w Hw. rewrite Forall_forall in HF. destruct (HF w Hw) as (E & N & V). apply filter_In. split; [|now apply distinct_NoDup]. apply in_words. split; [exact E|]. intros i Hi. rewrite Forall_forall in V. specialize (V i Hi).
  apply in_map_iff. exists (ravel sh i). split; [now apply unravel_ravel|]. apply in_seq. split; [lia|]. now apply ravel_lt.
Qed.
Print Assumptions C67_distinct_arrays.
(** Cell 11 draws 10000 cells of a tensor of 10^7; its comment says that duplicates have probability 10^(-14).  At most one array in
    a hundred has none. *)
Theorem C67_comment_refuted : forall L : list (list (list nat)), let sh := [10;10;10;10;10;10;10] in let M := Z.to_nat 10000 in
  NoDup L -> Forall (fun w => length w = M /\ NoDup w /\ Forall (vidx sh) w) L -> (INR (length L) <= / 100 * 10000000 ^ M)%R.
Proof.
  intros L sh M ND HF. assert (EN : INR (prodn sh) = 10000000%R). { unfold sh. rewrite !prodn_cons, !mult_INR. change (prodn []) with 1. cbn [INR]. lra. }
  pose proof (C67_distinct_arrays sh M L) as B. rewrite EN in B. eapply Rle_trans; [apply B; auto|]. 
  { apply INR_lt. rewrite EN. cbn. lra. }
  apply Rmult_le_compat_r; [apply pow_le; lra|]. assert (EM : INR M = 10000%R). { unfold M. rewrite INR_IZR_INZ, Z2Nat.id by lia. reflexivity. } rewrite EM. exact exp_bound.
Qed.
Print Assumptions C67_comment_refuted.
