(** Binary floating point numbers with [p] bits and rounding to the nearest number, ties to even (Flocq):
    the format of IEEE 754 numbers without bounds of the exponent ([p] = 24 for tf.float32, 53 for tf.float64). *)
From Coq Require Import ZArith Reals Lra Lia.
From Flocq Require Import Core Relative.
From Verif Require Import FloatSpec.
Local Open Scope R_scope.

Definition round_bits (p : nat) (x : R) : R := round radix2 (FLX_exp (Z.of_nat p)) ZnearestE x.

Lemma round_bits_ok (p : nat) x : (0 < p)%nat -> rounds ((/ 2) ^ p) x (round_bits p x).
Proof.
  intros Hp. unfold rounds, round_bits. assert (P : Prec_gt_0 (Z.of_nat p)) by (unfold Prec_gt_0; lia).
  eapply Rle_trans; [apply (relative_error_N_FLX radix2 (Z.of_nat p) P)|]. apply Rmult_le_compat_r; [apply Rabs_pos|]. apply Req_le.
  rewrite bpow_plus, bpow_opp. change (bpow radix2 1) with 2. rewrite <- (Rinv_pow 2) by lra.
  replace (bpow radix2 (Z.of_nat p)) with (2 ^ p); [field; apply pow_nonzero; lra|].
  clear. induction p as [|p IH]; [reflexivity|]. change (2 ^ S p) with (2 * 2 ^ p).
  rewrite IH, Nat2Z.inj_succ. unfold Z.succ. rewrite bpow_plus. change (bpow radix2 1) with 2. lra.
Qed.
