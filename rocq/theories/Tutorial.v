(** The programs of the tutorials, over the library calls.  Model only, no proofs.

    [qr], [svd] are tf.linalg.qr and tf.linalg.svd (contracts: [qr_ok], [svd_ok]). *)
From Coq Require Import String Ascii List Arith ZArith Bool Reals.
From Verif Require Import Scalar Tensor Base Ops OpsR Decomp Riem Vars.
Import ListNotations.
Local Open Scope nat_scope.

Section Tutorial.
Variable qr : rtensor -> rtensor * rtensor.
Variable svd : rtensor -> rtensor * rtensor * rtensor.

(** ** docs/tutorials/riemannian.ipynb, code cells 2 and 3 (cells number 3 and 4 of the notebook) *)

(** Cell 3: the new value of X: [gradF = X - A], [riemannian_grad = t3f.riemannian.project(gradF, X)],
    [t3f.round(X - alpha * riemannian_grad, max_tt_rank=r)].  [addr]: the identity of the object X. *)
Definition descent_update (x a : rtt) (addr : nat) (alpha : R) (r : rank_arg) : res rtt :=
  do g <- tt_sub x a;
  do p <- project qr g addr x;
  do s <- multiply (p_tt p) (FNum alpha);
  do y <- tt_sub x s;
  round qr svd y r None.

(** [0.5 * t3f.frobenius_norm_squared(X - A)] *)
Definition descent_loss (x a : rtt) : res R :=
  do d <- tt_sub x a;
  do n <- frobenius_norm_squared qr d false;
  Ok (1 / 2 * get n [])%R.

(** Cell 3, [def step()].  X and A are variables in eager mode, read when used; both have the dtype of X
    (another dtype of A would be an error of TF; not modelled).  The tutorial has alpha = 1.0, r = 2. *)
Definition descent_step {loss} (X A : vobj Rring) (addr : nat) (alpha : R) (r : rank_arg) : M Rring loss R :=
  bindM (fun s => liftR (descent_update (deref (heap s) X) (deref (heap s) A) addr alpha r) s) (fun y =>
  bindM (assign X (VObj (map CTensor (cores y)) (rshape y) (rks y) (bsz y) (vdt X))) (fun _ s =>
  liftR (descent_loss (deref (heap s) X) (deref (heap s) A)) s)).

(** Cell 4, [for i in range(n): F = step(); log.append(F)] *)
Definition descent {loss} (X A : vobj Rring) (addr : nat) (alpha : R) (r : rank_arg) (n : nat) : M Rring loss (list R) :=
  forM (fun _ log => bindM (descent_step X A addr alpha r) (fun f => ret (log ++ [f]))) (seq 0 n) [].

End Tutorial.
