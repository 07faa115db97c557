(** C53: operations keep objects valid, along all programs.
    Model: History.v (and the files it calls); vocabulary: ValidSpec.v, HistorySpec.v. *)
From Coq Require Import List Arith ZArith Lia Bool Reals.
From Verif Require Import Scalar Tensor Base Spec BaseLemmas Ops OpsR BatchOps Decomp Approx Kron KronSpec KronExists Riem Autodiff Init History
  ValidSpec ValidProofs HistorySpec ValidThms Samples.
Import ListNotations.
Local Open Scope nat_scope.

(** *** The assumption: matrix inverse and Cholesky factorization keep the shape of the argument. *)
Theorem C53_linalg_exists : exists la, inv_ok (tf_inv la) /\ cho_ok (tf_cholesky la) /\ keeps_shapes la.
Proof.
  exists (Linalg some_inv some_cho). split; [exact some_inv_ok|]. split; [exact some_cho_ok|].
  split; cbn [tf_inv tf_cholesky]; unfold some_inv, some_cho, lift; cbv zeta; intros x y H; destruct (ClassicalEpsilon.excluded_middle_informative _);
    try discriminate; injection H as <-; reflexivity.
Qed.
Print Assumptions C53_linalg_exists.

(** *** One call.  Whatever QR, SVD and automatic differentiation return, a call that succeeds gives a
    valid object; the exceptions are in [proper]. *)
Theorem C53_call qr svd la grad e c o : keeps_shapes la -> all_valid e -> proper e c ->
  call qr svd la grad e c = Ok o -> valid (o_tt o).
Proof. intros. eapply call_valid; eauto. Qed.
Print Assumptions C53_call.

(** *** All programs, of any length: every object that was made is valid. *)
Theorem C53_programs qr svd la grad p : keeps_shapes la -> proper_run qr svd la grad [] p ->
  forall o, In o (run qr svd la grad [] p) -> valid (o_tt o).
Proof. intros H P. apply (run_valid qr svd la grad H p []); auto. intros o []. Qed.
Print Assumptions C53_programs.

(** *** Valid objects are those the constructors accept, and what is stored is what the cores have:
    the constructor infers the same object from the cores alone. *)
Theorem C53_accepted qr svd la grad p : keeps_shapes la -> proper_run qr svd la grad [] p ->
  forall o, In o (run qr svd la grad [] p) ->
  let t := o_tt o in
  match bsz t with
  | None => TensorTrain (cores t) (STuple (rshape t)) (Some (rks t)) = Ok t /\ TensorTrain (cores t) SNone None = Ok t
  | Some b => TensorTrainBatch (cores t) (STuple (rshape t)) (Some (rks t)) (Some b) = Ok t /\
              TensorTrainBatch (cores t) SNone None (Some b) = Ok t /\ TensorTrainBatch (cores t) SNone None None = Ok t
  end.
Proof. intros H P o Ho. apply valid_accepted. exact (C53_programs qr svd la grad p H P o Ho). Qed.
Print Assumptions C53_accepted.

(** *** A program: ones of shape 2 x 3, their sum, a call that raises, a product, a slice, a batch. *)
Definition ex_prog : list op :=
  [CallTensorOnes (S1Vec [NI 2; NI 3]); CallAdd 0 0; CallMatmul 0 1; CallMultiply 1 1;
   CallGetitem 2 [IInt 1; full_slice]; CallExpandBatchDim 2; CallConcat [4; 4]].
Example ex_proper qr svd la grad : proper_run qr svd la grad [] ex_prog.
Proof. unfold ex_prog. cbn [proper_run]. repeat (split; [exact I|]; match goal with |- match ?x with _ => _ end => destruct x | _ => idtac end; cbn [proper_run]); exact I. Qed.
Example ex_result qr svd la grad :
  map (fun o => (rshape (o_tt o), rks (o_tt o), bsz (o_tt o))) (run qr svd la grad [] ex_prog) =
  [([[2; 3]], [1; 1; 1], None); ([[2; 3]], [1; 2; 1], None); ([[2; 3]], [1; 4; 1], None); ([[3]], [1; 1], None);
   ([[2; 3]], [1; 4; 1], Some 1); ([[2; 3]], [1; 4; 1], Some 2)].
Proof. cbv -[Rplus Rmult IZR]. reflexivity. Qed.

(** *** The exceptions: for each one a call that succeeds and gives an object that is not valid. *)
Definition breaks (e : env) (c : op) : Prop :=
  forall qr svd la grad, all_valid e /\ exists o, call qr svd la grad e c = Ok o /\ ~ valid (o_tt o).

Lemma none_valid : all_valid []. Proof. intros o []. Qed.

(** t3f.eye([2]): one core, but the shape says two. *)
Theorem C53_eye_refuted : breaks [] (CallEye (S1Vec [NI 2])).
Proof.
  intros qr svd la grad. split; [exact none_valid|]. eexists. split; [reflexivity|]. intros V. pose proof (v_rlen _ _ V [2; 2] (or_introl eq_refl)). discriminate.
Qed.
Print Assumptions C53_eye_refuted.

(** t3f.matrix_ones([[2], [3]]) and a shape of three rows. *)
Theorem C53_matrix_refuted : breaks [] (CallMatrixOnes (S2Rows [Some [NI 2]; Some [NI 3]])) /\
  breaks [] (CallMatrixOnes (S2Rows [Some [NI 2; NI 2]; Some [NI 3; NI 3]; Some [NI 1; NI 1]])).
Proof.
  split; intros qr svd la grad; (split; [exact none_valid|]; eexists; split; [reflexivity|]; intros V).
  - pose proof (v_rlen _ _ V [2; 3] (or_introl eq_refl)). discriminate.
  - destruct (v_kind _ _ V) as [X|X]; discriminate X.
Qed.
Print Assumptions C53_matrix_refuted.

(** t3f.ones_like of a TT-matrix with one core. *)
Definition one_core : rtt := TT (K := Rring) [mk (K := Rring) [1; 2; 3; 1] (fun _ => 1%R)] [[2]; [3]] [1; 1] None.
Lemma one_core_valid : valid one_core.
Proof. constructor; cbn; auto; try lia; [intros s [<-|[<-|[]]]; reflexivity|]. intros [|i] Hi; [reflexivity|lia]. Qed.
Theorem C53_ones_like_refuted : breaks [Obj 0 one_core None] (CallOnesLike 0).
Proof.
  intros qr svd la grad. split; [intros o [<-|[]]; exact one_core_valid|]. eexists. split; [reflexivity|]. intros V. pose proof (v_rlen _ _ V [2; 3] (or_introl eq_refl)). discriminate.
Qed.
Print Assumptions C53_ones_like_refuted.

(** TensorTrain of a core with two axes, with five axes, with more entries in the shape or in the
    ranks than cores; TensorTrainBatch without batch_size of cores with different first axes. *)
Definition one (sh : list nat) : rtensor := mk (K := Rring) sh (fun _ => 1%R).
Theorem C53_constructor_refuted :
  breaks [] (CallTensorTrain [one [1; 1]] SNone None) /\
  breaks [] (CallTensorTrain [one [1; 2; 2; 2; 1]] SNone None) /\
  breaks [] (CallTensorTrain [one [1; 2; 1]] (STuple [[2; 2]]) None) /\
  breaks [] (CallTensorTrain [one [1; 2; 2; 1]] (STuple [[2]]) None) /\
  breaks [] (CallTensorTrain [one [1; 2; 1]] SNone (Some [1; 1; 5])) /\
  breaks [] (CallTensorTrainBatch [one [1; 1; 2; 1]; one [3; 1; 2; 1]] SNone None None).
Proof.
  repeat match goal with |- _ /\ _ => split end; intros qr svd la grad; (split; [exact none_valid|]; eexists; split; [reflexivity|]; intros V).
  - destruct (v_kind _ _ V) as [X|X]; discriminate X.
  - destruct (v_kind _ _ V) as [X|X]; discriminate X.
  - pose proof (v_rlen _ _ V [2; 2] (or_introl eq_refl)). discriminate.
  - pose proof (v_core _ _ V 0 (v_d _ _ V)). discriminate.
  - pose proof (v_klen _ _ V). discriminate.
  - pose proof (v_core _ _ V 1 ltac:(cbn; lia)). discriminate.
Qed.
Print Assumptions C53_constructor_refuted.

(** deltas_to_tangent_space with a batch as [left]. *)
Definition one_batch : rtt := TT (K := Rring) [one [1; 1; 2; 2; 1]] [[2]; [2]] [1; 1] (Some 1).
Lemma one_batch_valid : valid one_batch.
Proof. constructor; cbn; auto; try lia; [intros s [<-|[<-|[]]]; reflexivity|]. intros [|i] Hi; [reflexivity|lia]. Qed.
Theorem C53_deltas_refuted : breaks [Obj 0 one_batch None] (CallDeltasToTangentSpace [one [1; 1; 2; 2; 1]] 0 (Some 0) (Some 0)).
Proof.
  intros qr svd la grad. split; [intros o [<-|[]]; exact one_batch_valid|]. eexists. split; [reflexivity|]. intros V. destruct (v_kind _ _ V) as [X|X]; discriminate X.
Qed.
Print Assumptions C53_deltas_refuted.
