(** The bound of the claim about rounding with inexact QR and singular value decompositions. *)
From Coq Require Import List Arith Reals.
From Verif Require Import NearSpec.

(** What the inexactness adds for [d] cores, relative to the product of the norms of the cores: the
    truncation sweep works on a train whose orthonormal cores are off by [delta] already (hence
    (1 + delta)^2 - 1), whose norm grew by at most (1 + delta)^(d-1), and which is away from the given
    tensor by what the orthogonalization lost.  Of first order in [delta], and 0 for [delta] = 0. *)
Definition round_loss (delta : R) (d : nat) : R :=
  (near_loss ((1 + delta) * (1 + delta) - 1) d * (1 + delta) ^ (d - 1) + (1 + sqrt (INR (d - 1))) * ((1 + delta) ^ (d - 1) - 1))%R.
