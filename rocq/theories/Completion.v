(** The programs of docs/tutorials/tensor_completion.ipynb, over the library calls.  Model only, no proofs.

    [grad] is [tape.gradient]: from the function computed under the tape and the values of the variables to the
    gradients (None for variables the value does not depend on).  [opt] is the update rule of a Keras optimizer: from its
    state and the list of (variable, value, gradient) to the new state and the new values. *)
From Coq Require Import String List Arith ZArith Bool Reals.
From Verif Require Import Scalar Tensor Base Ops OpsR Vars.
Import ListNotations.
Local Open Scope nat_scope.

(** [tf.reduce_sum(x)] over all axes, cells 5 and 7. *)
Definition sum_all (x : rtensor) : R := isum (K := Rring) (shape x) (get x).

(** Cell 7: [1.0 / observed_total * tf.reduce_sum((sparsity_mask * t3f.full(estimated) - sparse_observation)**2)] with
    [observed_total = tf.reduce_sum(sparsity_mask)] (cell 5). *)
Definition masked_loss (mask obs : rtensor) (t : rtt) : res R :=
  do d <- full t;
  do m <- ewise (K := Rring) Rmult mask d;
  do e <- ewise (K := Rring) Rminus m obs;
  Ok (1 / sum_all mask * sum_all (tmap (K := Rring) (fun y => y * y) e))%R.
(** Cell 7: [1.0 / total * tf.reduce_sum((t3f.full(estimated) - ground_truth)**2)], [total = np.prod(shape)]. *)
Definition test_loss (truth : rtensor) (t : rtt) : res R :=
  do d <- full t;
  do e <- ewise (K := Rring) Rminus d truth;
  Ok (1 / INR (prodn (shape truth)) * sum_all (tmap (K := Rring) (fun y => y * y) e))%R.
(** Cell 15: [estimated_vals = t3f.gather_nd(estimated, observation_idx)],
    [tf.reduce_mean((estimated_vals - observations) ** 2)] *)
Definition sparse_loss (ix : itensor) (vals : rtensor) (t : rtt) : res R :=
  do g <- gather_nd (K := Rring) t ix;
  do e <- ewise (K := Rring) Rminus g vals;
  Ok (sum_all (tmap (K := Rring) (fun y => y * y) e) / INR (prodn (shape e)))%R.

Section Steps.
Context {loss : Type} {ost : Type}.
Variable grad : (list rtensor -> res R) -> list rtensor -> list (option rtensor).
Variable opt : ost -> list (nat * rtensor * rtensor) -> ost * list rtensor.

(** [optimizer.apply_gradients(zip(gradients, estimated.tt_cores))] (Keras, TF 2.4): pairs without a gradient are left out; ValueError if
    none remains. *)
Definition apply_gradients (st : ost) (gs : list (option rtensor)) (cs : list (cref Rring)) : M Rring loss ost := fun s =>
  let used := flat_map (fun p => match p with (Some g, CVar id) => [(id, value_of (heap s) id, g)] | _ => [] end) (combine gs cs) in
  match used with
  | [] => (s, Err ValueError)
  | _ => let '(st', news) := opt st used in (run_ops (combine (map (fun u => fst (fst u)) used) news) s, Ok st')
  end.

(** The function of the cores under the tape (cells 7 and 16). *)
Definition of_cores (f : rtt -> res R) (X : vobj Rring) (cs : list rtensor) : res R := f (TT cs (vrshape X) (vrks X) (vbsz X)).
(** Cells 7 and 16: loss, gradients, update; the value of the loss before the update is returned. *)
Definition train_step (f : rtt -> res R) (X : vobj Rring) (st : ost) : M Rring loss (ost * R) :=
  bindM (fun s => liftR (of_cores f X (map (read (heap s)) (vcores X))) s) (fun l =>
  bindM (fun s => apply_gradients st (grad (of_cores f X) (map (read (heap s)) (vcores X))) (vcores X) s) (fun st' => ret (st', l))).
(** Cell 7, [step()]: also the test loss after the update. *)
Definition masked_step (mask obs truth : rtensor) (X : vobj Rring) (st : ost) : M Rring loss (ost * (R * R)) :=
  bindM (train_step (masked_loss mask obs) X st) (fun p =>
  bindM (fun s => liftR (test_loss truth (deref (heap s) X)) s) (fun t => ret (fst p, (snd p, t)))).
(** Cell 8: [for i in range(n): ...] *)
Definition masked_train (mask obs truth : rtensor) (X : vobj Rring) (st : ost) (n : nat) : M Rring loss (ost * list (R * R)) :=
  forM (fun _ a => bindM (masked_step mask obs truth X (fst a)) (fun p => ret (fst p, snd a ++ [snd p]))) (seq 0 n) (st, []).
(** Cell 19. *)
Definition sparse_train (ix : itensor) (vals : rtensor) (X : vobj Rring) (st : ost) (n : nat) : M Rring loss (ost * list R) :=
  forM (fun _ a => bindM (train_step (sparse_loss ix vals) X (fst a)) (fun p => ret (fst p, snd a ++ [snd p]))) (seq 0 n) (st, []).
End Steps.

(** [tf.keras.optimizers.SGD(learning_rate=lr)]: [var - lr * gradient]. *)
Definition sgd (lr : R) (st : unit) (l : list (nat * rtensor * rtensor)) : unit * list rtensor :=
  (st, map (fun u => mk (K := Rring) (shape (snd (fst u))) (fun i => get (K := Rring) (snd (fst u)) i - lr * get (K := Rring) (snd u) i)%R) l).
