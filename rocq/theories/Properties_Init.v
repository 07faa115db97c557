(** C36, C37, C38: the initializers.

    [nints l] is the list [l] as an array of integers; [rows_of r c s]: the argument [s] is [[r, c]],
    or [[None, c]] or [[r, None]] with ones for the missing row.  [rank_arg d r rk]: the argument
    tt_rank is an integer [n >= 1] and [rk = (1, n, ..., n, 1)], or it is the list [rk] itself with
    ones at both ends.  [xi k ix]: the standard normal number at position [ix] of the [k]-th tensor
    drawn. *)
From Coq Require Import String List Arith ZArith Lia Lra Bool Reals.
From Verif Require Import Scalar Tensor TensorLemmas Base Spec BaseLemmas Ops FullProofs ResultLemmas Dense OpsR Init InitProofs RandomSpec RandomProofs Samples.
Import ListNotations.
Local Open Scope nat_scope.

(** * C36 *)
Theorem C36_tensor_ones : forall (K : cring) l, 2 <= length l -> Forall (fun n => 0 < n) l ->
  exists t d, tensor_ones (K := K) (S1Vec (nints l)) = Ok t /\ wf t /\ rshape t = [l] /\ rks t = repeat 1 (S (length l)) /\ bsz t = None /\
    full t = Ok d /\ shape d = l /\ forall i, vidx l i -> get d i = c1.
Proof. intros. apply tensor_const_ok; auto. Qed.
Print Assumptions C36_tensor_ones.
Theorem C36_tensor_zeros : forall (K : cring) l, 2 <= length l -> Forall (fun n => 0 < n) l ->
  exists t d, tensor_zeros (K := K) (S1Vec (nints l)) = Ok t /\ wf t /\ rshape t = [l] /\ rks t = repeat 1 (S (length l)) /\ bsz t = None /\
    full t = Ok d /\ shape d = l /\ forall i, vidx l i -> get d i = c0.
Proof. intros. apply tensor_const_ok; auto. Qed.
Print Assumptions C36_tensor_zeros.
Theorem C36_eye : forall (K : cring) l, 2 <= length l -> Forall (fun n => 0 < n) l ->
  exists t d, eye (K := K) (S1Vec (nints l)) = Ok t /\ wf t /\ rshape t = [l; l] /\ rks t = repeat 1 (S (length l)) /\ bsz t = None /\
    full t = Ok d /\ shape d = [prodn l; prodn l] /\
    forall i j, i < prodn l -> j < prodn l -> get d [i; j] = if Nat.eqb i j then c1 else c0.
Proof. intros. apply eye_ok; auto. Qed.
Print Assumptions C36_eye.
Theorem C36_matrix_ones : forall (K : cring) r c s, rows_of r c s -> 2 <= length r -> length c = length r ->
  Forall (fun n => 0 < n) r -> Forall (fun n => 0 < n) c ->
  exists t d, matrix_ones (K := K) s = Ok t /\ wf t /\ rshape t = [r; c] /\ rks t = repeat 1 (S (length r)) /\ bsz t = None /\
    full t = Ok d /\ shape d = [prodn r; prodn c] /\ forall i j, i < prodn r -> j < prodn c -> get d [i; j] = c1.
Proof. intros. apply matrix_const_ok; auto. Qed.
Print Assumptions C36_matrix_ones.
Theorem C36_matrix_zeros : forall (K : cring) r c s, rows_of r c s -> 2 <= length r -> length c = length r ->
  Forall (fun n => 0 < n) r -> Forall (fun n => 0 < n) c ->
  exists t d, matrix_zeros (K := K) s = Ok t /\ wf t /\ rshape t = [r; c] /\ rks t = repeat 1 (S (length r)) /\ bsz t = None /\
    full t = Ok d /\ shape d = [prodn r; prodn c] /\ forall i j, i < prodn r -> j < prodn c -> get d [i; j] = c0.
Proof. intros. apply matrix_const_ok; auto. Qed.
Print Assumptions C36_matrix_zeros.
(** Of a batch, the shape of one element is taken. *)
Theorem C36_ones_like : forall (K : cring) (t : tt K), wf t -> 2 <= ndims t ->
  exists z d, ones_like t = Ok z /\ wf z /\ rshape z = rshape t /\ rks z = repeat 1 (S (ndims t)) /\ bsz z = None /\
    full z = Ok d /\ get_shape t = bpre t ++ shape d /\ forall i, vidx (shape d) i -> get d i = c1.
Proof. intros. apply const_like_ok; auto. Qed.
Print Assumptions C36_ones_like.
Theorem C36_zeros_like : forall (K : cring) (t : tt K), wf t -> 2 <= ndims t ->
  exists z d, zeros_like t = Ok z /\ wf z /\ rshape z = rshape t /\ rks z = repeat 1 (S (ndims t)) /\ bsz z = None /\
    full z = Ok d /\ get_shape t = bpre t ++ shape d /\ forall i, vidx (shape d) i -> get d i = c0.
Proof. intros. apply const_like_ok; auto. Qed.
Print Assumptions C36_zeros_like.

(** "All shapes" fails for one axis: the constructors squeeze the shape.  A tensor shape of one
    element raises TypeError, the identity of a one-element shape is an object that says it is a
    tensor of shape (n, n), not a matrix; an empty shape raises IndexError. *)
Theorem C36_one_axis_refuted : forall (K : cring) n, 0 < n ->
  tensor_ones (K := K) (S1Vec (nints [n])) = Err TypeError /\ tensor_zeros (K := K) (S1Vec (nints [n])) = Err TypeError.
Proof. intros K n Hn. unfold tensor_ones, tensor_zeros, tensor_const. rewrite !validate_tensor_ok by auto. split; reflexivity. Qed.
Print Assumptions C36_one_axis_refuted.
Theorem C36_one_core_matrix_refuted : exists t : tt Zring, eye (S1Vec (nints [2])) = Ok t /\ is_tt_matrix t = false /\ rshape t = [[2; 2]] /\
  ~ rshape t = [[2]; [2]].
Proof. eexists. split; [reflexivity|]. split; [reflexivity|]. split; [reflexivity|discriminate]. Qed.
Print Assumptions C36_one_core_matrix_refuted.
Theorem C36_empty_shape_refuted : forall (K : cring), exists e, tensor_ones (K := K) (S1Vec (nints [])) = Err e /\ e <> ValueError.
Proof. intros K. eexists. split; [reflexivity|discriminate]. Qed.
Print Assumptions C36_empty_shape_refuted.

Example C36_ex : 2 <= length [2; 3] /\ Forall (fun n => 0 < n) [2; 3] /\ rows_of [2; 3] [1; 1] (S2Rows [Some (nints [2; 3]); None]) /\
  rows_of [2; 3] [4; 1] (S2Rows [Some (nints [2; 3]); Some (nints [4; 1])]) /\
  (exists t d, eye (K := Zring) (S1Vec (nints [2; 3])) = Ok t /\ full t = Ok d /\ get (K := Zring) d [4; 4] = 1%Z /\ get (K := Zring) d [4; 5] = 0%Z).
Proof.
  split; [cbn; lia|]. split; [repeat constructor|]. split; [right; right; auto|]. split; [now left|].
  eexists _, _. split; [reflexivity|]. split; [vm_compute; reflexivity|]. split; reflexivity.
Qed.

(** * C37 *)
(** The requested sizes, and every core element is the number drawn for it. *)
Theorem C37_tensor_with_random_cores : forall xi l r rk mean sd, 2 <= length l -> Forall (fun n => 0 < n) l -> rank_arg (length l) r rk ->
  exists t, tensor_with_random_cores xi (S1Vec (nints l)) r mean sd = Ok t /\ wf t /\ rshape t = [l] /\ rks t = rk /\ bsz t = None /\
    forall k ix, k < ndims t -> vidx (shape (core t k)) ix -> get (K := Rring) (core t k) ix = (mean + sd * xi k ix)%R.
Proof. intros. destruct (tensor_random_ok xi l r rk mean sd) as (t & Et & []); auto. exists t. split; [exact Et|]. auto. Qed.
Print Assumptions C37_tensor_with_random_cores.
Theorem C37_tensor_batch_with_random_cores : forall xi l r rk b mean sd, 2 <= length l -> Forall (fun n => 0 < n) l -> rank_arg (length l) r rk -> 0 < b ->
  exists t, tensor_batch_with_random_cores xi (S1Vec (nints l)) r (NI (Z.of_nat b)) mean sd = Ok t /\ wf t /\ rshape t = [l] /\ rks t = rk /\ bsz t = Some b /\
    forall k ix, k < ndims t -> vidx (shape (core t k)) ix -> get (K := Rring) (core t k) ix = (mean + sd * xi k ix)%R.
Proof. intros. destruct (tensor_batch_random_ok xi l r rk b mean sd) as (t & Et & []); auto. exists t. split; [exact Et|]. auto. Qed.
Print Assumptions C37_tensor_batch_with_random_cores.
Theorem C37_matrix_with_random_cores : forall xi rows cols s r rk mean sd, 2 <= length rows -> length cols = length rows -> rows_of rows cols s ->
  Forall (fun n => 0 < n) rows -> Forall (fun n => 0 < n) cols -> rank_arg (length rows) r rk ->
  exists t, matrix_with_random_cores xi s r mean sd = Ok t /\ wf t /\ rshape t = [rows; cols] /\ rks t = rk /\ bsz t = None /\
    forall k ix, k < ndims t -> vidx (shape (core t k)) ix -> get (K := Rring) (core t k) ix = (mean + sd * xi k ix)%R.
Proof. intros. destruct (matrix_random_ok xi rows cols s r rk mean sd) as (t & Et & []); auto. exists t. split; [exact Et|]. auto. Qed.
Print Assumptions C37_matrix_with_random_cores.
Theorem C37_matrix_batch_with_random_cores : forall xi rows cols s r rk b mean sd, 2 <= length rows -> length cols = length rows -> rows_of rows cols s ->
  Forall (fun n => 0 < n) rows -> Forall (fun n => 0 < n) cols -> rank_arg (length rows) r rk -> 0 < b ->
  exists t, matrix_batch_with_random_cores xi s r (NI (Z.of_nat b)) mean sd = Ok t /\ wf t /\ rshape t = [rows; cols] /\ rks t = rk /\ bsz t = Some b /\
    forall k ix, k < ndims t -> vidx (shape (core t k)) ix -> get (K := Rring) (core t k) ix = (mean + sd * xi k ix)%R.
Proof. intros. destruct (matrix_batch_random_ok xi rows cols s r rk b mean sd) as (t & Et & []); auto. exists t. split; [exact Et|]. auto. Qed.
Print Assumptions C37_matrix_batch_with_random_cores.
(** random_tensor, random_matrix, their batches, glorot, he and lecun. *)
Theorem C37_random_objects : forall xi l r rk b sd, 2 <= length l -> Forall (fun n => 0 < n) l -> rank_arg (length l) r rk -> 0 < b ->
  (exists t, random_tensor xi (S1Vec (nints l)) r 0 sd = Ok t /\ wf t /\ rshape t = [l] /\ rks t = rk /\ bsz t = None) /\
  (exists t, random_tensor_batch xi (S1Vec (nints l)) r (NI (Z.of_nat b)) 0 sd = Ok t /\ wf t /\ rshape t = [l] /\ rks t = rk /\ bsz t = Some b) /\
  forall cols s, length cols = length l -> Forall (fun n => 0 < n) cols -> rows_of l cols s ->
  (exists t, random_matrix xi s r 0 sd = Ok t /\ wf t /\ rshape t = [l; cols] /\ rks t = rk /\ bsz t = None) /\
  (exists t, random_matrix_batch xi s r (NI (Z.of_nat b)) 0 sd = Ok t /\ wf t /\ rshape t = [l; cols] /\ rks t = rk /\ bsz t = Some b) /\
  Forall (fun init => exists t, init s r = Ok t /\ wf t /\ rshape t = [l; cols] /\ rks t = rk /\ bsz t = None)
    [glorot_initializer xi; he_initializer xi; lecun_initializer xi].
Proof.
  intros xi l r rk b sd Hl Hp Hr Hb. split; [|split].
  - destruct (random_tensor_ok xi l r rk 0 sd) as (t & Et & []); auto. rewrite check_mean0 in Et. eauto 8.
  - destruct (random_tensor_batch_ok xi l r rk b 0 sd) as (t & Et & []); auto. rewrite check_mean0 in Et. eauto 8.
  - intros cols s Hc Hp2 Hs. split; [|split].
    + destruct (random_matrix_ok xi l cols s r rk 0 sd) as (t & Et & []); auto. rewrite check_mean0 in Et. eauto 8.
    + destruct (random_matrix_batch_ok xi l cols s r rk b 0 sd) as (t & Et & []); auto. rewrite check_mean0 in Et. eauto 8.
    + repeat apply Forall_cons; try apply Forall_nil;
        (match goal with |- exists t, ?f _ _ _ = _ /\ _ => unfold f end);
        (match goal with |- exists t, variance_initializer _ ?lb _ _ = _ /\ _ => destruct (variance_ok xi lb l cols s r rk) as (t & Et & []); auto end); eauto 8.
Qed.
Print Assumptions C37_random_objects.

(** Refused with ValueError, whatever the other arguments are. *)
Theorem C37_bad_shape_raises : forall xi (K : cring) s r b mean sd,
  (s = S1Other \/ exists l, s = S1Vec l /\ ~ Forall (fun x => exists n, 0 < n /\ x = NI (Z.of_nat n)) l) ->
  tensor_with_random_cores xi s r mean sd = Err ValueError /\ tensor_batch_with_random_cores xi s r b mean sd = Err ValueError /\
  random_tensor xi s r mean sd = Err ValueError /\ random_tensor_batch xi s r b mean sd = Err ValueError /\
  tensor_ones (K := K) s = Err ValueError /\ tensor_zeros (K := K) s = Err ValueError /\ eye (K := K) s = Err ValueError.
Proof.
  intros xi K s r b mean sd H. assert (E : validate_tensor s = Err ValueError).
  { apply bad_shape1_err. destruct H as [->|(l & -> & H)]; [exact I|exact H]. }
  unfold tensor_with_random_cores, tensor_batch_with_random_cores, random_tensor, random_tensor_batch, tensor_ones, tensor_zeros, tensor_const, eye. rewrite E. repeat split.
Qed.
Print Assumptions C37_bad_shape_raises.
(** A rank that is not a positive integer, a list with such a rank or of the wrong length. *)
Theorem C37_bad_rank_raises : forall xi l r b mean sd, Forall (fun n => 0 < n) l -> 0 < b ->
  (match r with
   | RAnum x => ~ exists n, 0 < n /\ x = NI (Z.of_nat n)
   | RAvec rl => length rl <> S (length l) \/ ~ Forall (fun x => exists n, 0 < n /\ x = NI (Z.of_nat n)) rl
   end) ->
  tensor_with_random_cores xi (S1Vec (nints l)) r mean sd = Err ValueError /\
  tensor_batch_with_random_cores xi (S1Vec (nints l)) r (NI (Z.of_nat b)) mean sd = Err ValueError /\
  random_tensor xi (S1Vec (nints l)) r mean sd = Err ValueError /\
  random_tensor_batch xi (S1Vec (nints l)) r (NI (Z.of_nat b)) mean sd = Err ValueError /\
  forall cols s, length cols = length l -> Forall (fun n => 0 < n) cols -> rows_of l cols s ->
    matrix_with_random_cores xi s r mean sd = Err ValueError /\ matrix_batch_with_random_cores xi s r (NI (Z.of_nat b)) mean sd = Err ValueError /\
    random_matrix xi s r mean sd = Err ValueError /\ random_matrix_batch xi s r (NI (Z.of_nat b)) mean sd = Err ValueError /\
    glorot_initializer xi s r = Err ValueError /\ he_initializer xi s r = Err ValueError /\ lecun_initializer xi s r = Err ValueError.
Proof.
  intros xi l r b mean sd Hp Hb Hr. assert (E : validate_rank (length l) r = Err ValueError) by (apply bad_rank_err; destruct r; exact Hr).
  assert (Eb : validate_batch (NI (Z.of_nat b)) = Ok b).
  { unfold validate_batch. cbn [pos_int to_nat]. replace (1 <=? Z.of_nat b)%Z with true by (symmetry; apply Z.leb_le; lia). now rewrite Nat2Z.id. }
  unfold tensor_with_random_cores, tensor_batch_with_random_cores, random_tensor, random_tensor_batch. rewrite validate_tensor_ok by auto. cbn [bind]. rewrite Eb. cbn [bind]. rewrite E.
  do 4 (split; [reflexivity|]). intros cols s Hc Hp2 Hs.
  unfold matrix_with_random_cores, matrix_batch_with_random_cores, random_matrix, random_matrix_batch, glorot_initializer, he_initializer, lecun_initializer, variance_initializer.
  rewrite (matrix_rows_ok l cols s) by auto. cbn [bind nth]. rewrite Eb. cbn [bind]. rewrite E. repeat split.
Qed.
Print Assumptions C37_bad_rank_raises.
(** A list of ranks not starting and ending with 1. *)
Theorem C37_end_ranks_raise : forall xi l rk b mean sd, 2 <= length l -> Forall (fun n => 0 < n) l -> 0 < b -> Forall (fun n => 0 < n) rk ->
  length rk = S (length l) -> nth 0 rk 0 <> 1 \/ nth (length l) rk 0 <> 1 ->
  tensor_with_random_cores xi (S1Vec (nints l)) (RAvec (nints rk)) mean sd = Err ValueError /\
  tensor_batch_with_random_cores xi (S1Vec (nints l)) (RAvec (nints rk)) (NI (Z.of_nat b)) mean sd = Err ValueError /\
  random_tensor xi (S1Vec (nints l)) (RAvec (nints rk)) mean sd = Err ValueError /\
  random_tensor_batch xi (S1Vec (nints l)) (RAvec (nints rk)) (NI (Z.of_nat b)) mean sd = Err ValueError /\
  forall cols s, length cols = length l -> Forall (fun n => 0 < n) cols -> rows_of l cols s ->
    matrix_with_random_cores xi s (RAvec (nints rk)) mean sd = Err ValueError /\
    matrix_batch_with_random_cores xi s (RAvec (nints rk)) (NI (Z.of_nat b)) mean sd = Err ValueError /\
    random_matrix xi s (RAvec (nints rk)) mean sd = Err ValueError /\
    random_matrix_batch xi s (RAvec (nints rk)) (NI (Z.of_nat b)) mean sd = Err ValueError.
Proof.
  intros xi l rk b mean sd Hl Hp Hb Hr HL He. pose proof (validate_list (length l) rk ltac:(lia) HL Hr) as V.
  assert (Eb : validate_batch (NI (Z.of_nat b)) = Ok b).
  { unfold validate_batch. cbn [pos_int to_nat]. replace (1 <=? Z.of_nat b)%Z with true by (symmetry; apply Z.leb_le; lia). now rewrite Nat2Z.id. }
  assert (Ee : forall d, expand_rank d (RAvec (nints rk)) = Ok rk) by (intros d; cbn; now rewrite nints_nat).
  assert (A1 : forall m s, tensor_with_random_cores xi (S1Vec (nints l)) (RAvec (nints rk)) m s = Err ValueError).
  { intros m s. unfold tensor_with_random_cores. rewrite validate_tensor_ok by auto. cbn [bind]. rewrite V. cbn [bind]. rewrite Ee. cbn [bind].
    apply (random_ends_err xi None [l] rk m s (length l)); auto. }
  assert (A2 : forall m s, tensor_batch_with_random_cores xi (S1Vec (nints l)) (RAvec (nints rk)) (NI (Z.of_nat b)) m s = Err ValueError).
  { intros m s. unfold tensor_batch_with_random_cores. rewrite validate_tensor_ok by auto. cbn [bind]. rewrite Eb. cbn [bind]. rewrite V. cbn [bind]. rewrite Ee. cbn [bind].
    apply (random_ends_err xi (Some b) [l] rk m s (length l)); auto. }
  split; [auto|]. split; [auto|]. split; [|split].
  - unfold random_tensor. rewrite validate_tensor_ok by auto. cbn [bind]. rewrite V. cbn [bind]. rewrite Ee. cbn [bind]. now rewrite A1.
  - unfold random_tensor_batch. rewrite validate_tensor_ok by auto. cbn [bind]. rewrite Eb. cbn [bind]. rewrite V. cbn [bind]. rewrite Ee. cbn [bind]. now rewrite A2.
  - intros cols s Hc Hp2 Hs.
    assert (A3 : forall s m sd, rows_of l cols s -> matrix_with_random_cores xi s (RAvec (nints rk)) m sd = Err ValueError).
    { intros s' m sd' Hs'. unfold matrix_with_random_cores. rewrite (matrix_rows_ok l cols s') by auto. cbn [bind nth]. rewrite V. cbn [bind]. rewrite Ee. cbn [bind firstn].
      apply (random_ends_err xi None [l; cols] rk m sd' (length l)); auto. }
    assert (A4 : forall s m sd, rows_of l cols s -> matrix_batch_with_random_cores xi s (RAvec (nints rk)) (NI (Z.of_nat b)) m sd = Err ValueError).
    { intros s' m sd' Hs'. unfold matrix_batch_with_random_cores. rewrite (matrix_rows_ok l cols s') by auto. cbn [bind nth]. rewrite Eb. cbn [bind]. rewrite V. cbn [bind]. rewrite Ee. cbn [bind firstn].
      apply (random_ends_err xi (Some b) [l; cols] rk m sd' (length l)); auto. }
    split; [auto|]. split; [auto|]. split.
    + unfold random_matrix. rewrite (matrix_rows_ok l cols s) by auto. cbn [bind nth]. rewrite V. cbn [bind]. rewrite Ee. cbn [bind map]. rewrite A3; [reflexivity|now left].
    + unfold random_matrix_batch. rewrite (matrix_rows_ok l cols s) by auto. cbn [bind nth]. rewrite Eb. cbn [bind]. rewrite V. cbn [bind]. rewrite Ee. cbn [bind map]. rewrite A4; [reflexivity|now left].
Qed.
Print Assumptions C37_end_ranks_raise.
Theorem C37_bad_batch_raises : forall xi l r s b mean sd, Forall (fun n => 0 < n) l ->
  (~ exists n, 0 < n /\ b = NI (Z.of_nat n)) ->
  tensor_batch_with_random_cores xi (S1Vec (nints l)) r b mean sd = Err ValueError /\ random_tensor_batch xi (S1Vec (nints l)) r b mean sd = Err ValueError /\
  forall cols, length cols = length l -> Forall (fun n => 0 < n) cols -> rows_of l cols s ->
    matrix_batch_with_random_cores xi s r b mean sd = Err ValueError /\ random_matrix_batch xi s r b mean sd = Err ValueError.
Proof.
  intros xi l r s b mean sd Hp Hb. pose proof (bad_batch_err b Hb) as E.
  unfold tensor_batch_with_random_cores, random_tensor_batch. rewrite validate_tensor_ok by auto. cbn [bind]. rewrite E.
  do 2 (split; [reflexivity|]). intros cols Hc Hp2 Hs. unfold matrix_batch_with_random_cores, random_matrix_batch. rewrite (matrix_rows_ok l cols s) by auto. cbn [bind]. rewrite E. repeat split.
Qed.
Print Assumptions C37_bad_batch_raises.
(** Matrix shapes: rows of different lengths, elements that are not positive integers, a list of
    numbers. *)
Theorem C37_bad_matrix_shape_raises : forall xi (K : cring) s r b mean sd,
  (exists r1 r2, s = S2Rows [Some r1; Some r2] /\ (length r1 <> length r2 \/ ~ Forall (fun x => exists n, 0 < n /\ x = NI (Z.of_nat n)) (r1 ++ r2))) \/
  (exists r1, (s = S2Rows [Some r1; None] \/ s = S2Rows [None; Some r1]) /\ ~ Forall (fun x => exists n, 0 < n /\ x = NI (Z.of_nat n)) r1) \/
  (exists l, s = S2Vec l /\ 2 <= length l) ->
  matrix_with_random_cores xi s r mean sd = Err ValueError /\ matrix_batch_with_random_cores xi s r b mean sd = Err ValueError /\
  random_matrix xi s r mean sd = Err ValueError /\ random_matrix_batch xi s r b mean sd = Err ValueError /\
  matrix_ones (K := K) s = Err ValueError /\ matrix_zeros (K := K) s = Err ValueError /\
  glorot_initializer xi s r = Err ValueError /\ he_initializer xi s r = Err ValueError /\ lecun_initializer xi s r = Err ValueError.
Proof.
  intros xi K s r b mean sd H. assert (E : matrix_rows s = Err ValueError) by now apply bad_rows_err.
  unfold matrix_with_random_cores, matrix_batch_with_random_cores, random_matrix, random_matrix_batch, matrix_ones, matrix_zeros, matrix_const,
    glorot_initializer, he_initializer, lecun_initializer, variance_initializer. rewrite E. repeat split.
Qed.
Print Assumptions C37_bad_matrix_shape_raises.

(** Not every malformed shape raises ValueError: fewer than two rows, both rows omitted, three rows. *)
Theorem C37_malformed_shape_refuted : forall xi r mean sd,
  matrix_with_random_cores xi (S2Rows [Some (nints [2; 2])]) r mean sd = Err IndexError /\
  matrix_with_random_cores xi (S2Rows [None; None]) r mean sd = Err TypeError /\
  (exists t : tt Zring, matrix_ones (S2Rows [Some (nints [2; 2]); Some (nints [3; 3]); Some (nints [1; 1])]) = Ok t /\ rshape t = [[2; 2]; [3; 3]; [1; 1]]).
Proof. intros. split; [reflexivity|]. split; [reflexivity|]. eexists. split; reflexivity. Qed.
Print Assumptions C37_malformed_shape_refuted.
(** With one axis the requested shape is not the shape of the result, see C36. *)
Theorem C37_one_axis_refuted : forall xi mean sd,
  tensor_with_random_cores xi (S1Vec (nints [5])) (RAnum (NI 2)) mean sd = Err TypeError /\
  exists t, matrix_with_random_cores xi (S2Rows [Some (nints [2]); Some (nints [3])]) (RAnum (NI 2)) mean sd = Ok t /\ rshape t = [[2; 3]] /\ is_tt_matrix t = false.
Proof. intros. split; [reflexivity|]. eexists. split; [reflexivity|]. split; reflexivity. Qed.
Print Assumptions C37_one_axis_refuted.
(** A mean other than 0 is not supported. *)
Theorem C37_mean_raises : forall xi l r rk b mean sd, 2 <= length l -> Forall (fun n => 0 < n) l -> rank_arg (length l) r rk -> 0 < b -> (/ 10 ^ 8 <= Rabs mean)%R ->
  random_tensor xi (S1Vec (nints l)) r mean sd = Err NotImplementedError /\
  random_tensor_batch xi (S1Vec (nints l)) r (NI (Z.of_nat b)) mean sd = Err NotImplementedError /\
  forall cols s, length cols = length l -> Forall (fun n => 0 < n) cols -> rows_of l cols s ->
    random_matrix xi s r mean sd = Err NotImplementedError /\ random_matrix_batch xi s r (NI (Z.of_nat b)) mean sd = Err NotImplementedError.
Proof.
  intros xi l r rk b mean sd Hl Hp Hr Hb Hm. assert (X : forall t : rtt, check_mean mean t = Err NotImplementedError).
  { intros t. unfold check_mean. destruct (Rlt_dec _ _) as [H|H]; [lra|reflexivity]. }
  split; [|split].
  - destruct (random_tensor_ok xi l r rk mean sd) as (t & -> & _); auto.
  - destruct (random_tensor_batch_ok xi l r rk b mean sd) as (t & -> & _); auto.
  - intros cols s Hc Hp2 Hs. split.
    + destruct (random_matrix_ok xi l cols s r rk mean sd) as (t & -> & _); auto.
    + destruct (random_matrix_batch_ok xi l cols s r rk b mean sd) as (t & -> & _); auto.
Qed.
Print Assumptions C37_mean_raises.

Example C37_ex : rank_arg 3 (RAnum (NI 4)) [1; 4; 4; 1] /\ rank_arg 3 (RAvec (nints [1; 2; 3; 1])) [1; 2; 3; 1] /\
  (~ exists n, 0 < n /\ NI 0 = NI (Z.of_nat n)) /\ ~ Forall (fun x => exists n, 0 < n /\ x = NI (Z.of_nat n)) [NI 2; NF] /\
  ~ Forall (fun x => exists n, 0 < n /\ x = NI (Z.of_nat n)) [NI 2; NI (-1)].
Proof.
  split; [left; exists 4; repeat split; lia|]. split; [right; repeat split; repeat constructor|].
  split; [intros (n & Hn & E); injection E; lia|].
  split; intros H; inversion H as [|? ? _ H2]; inversion H2 as [|? ? (n & Hn & E) _]; [discriminate|injection E; lia].
Qed.

(** * C38 *)
(** [white E S xi]: under the expectation [E] the numbers drawn at the positions [S] are independent
    with mean 0 and variance 1 (RandomSpec.v).  [element r i] is the element at [i] of the dense form
    of the object [r].  Every element has mean 0 and variance stddev^2, and different elements are
    uncorrelated. *)
Theorem C38_random_tensor : forall W (E : expectation W) (w0 : W) xi l r rk sd, 2 <= length l -> Forall (fun n => 0 < n) l -> rank_arg (length l) r rk ->
  (0 <= sd)%R -> white E (core_draws None [l] rk) xi ->
  let X i w := element (random_tensor (xi w) (S1Vec (nints l)) r 0 sd) i in
  forall i i', vidx l i -> vidx l i' ->
    expects E (X i) 0 /\ expects E (fun w => X i w * X i' w)%R (if list_eq_dec Nat.eq_dec i i' then sd ^ 2 else 0)%R.
Proof.
  intros W E w0 xi l r rk sd Hl Hp Hr Hs Hw X i i' Hi Hi'.
  apply (moments_at E w0 None [l] rk xi (fun w => random_tensor (xi w) (S1Vec (nints l)) r 0 sd) (length l) sd); auto; try lia.
  - now apply (rank_arg_pos (length l) r rk ltac:(lia)).
  - intros w. destruct (random_tensor_ok (xi w) l r rk 0 sd Hl Hp Hr) as (t & Et & D). rewrite check_mean0 in Et. eauto.
Qed.
Print Assumptions C38_random_tensor.
Theorem C38_random_tensor_batch : forall W (E : expectation W) (w0 : W) xi l r rk b sd, 2 <= length l -> Forall (fun n => 0 < n) l -> rank_arg (length l) r rk ->
  0 < b -> (0 <= sd)%R -> white E (core_draws (Some b) [l] rk) xi ->
  let X i w := element (random_tensor_batch (xi w) (S1Vec (nints l)) r (NI (Z.of_nat b)) 0 sd) i in
  forall i i', vidx (b :: l) i -> vidx (b :: l) i' ->
    expects E (X i) 0 /\ expects E (fun w => X i w * X i' w)%R (if list_eq_dec Nat.eq_dec i i' then sd ^ 2 else 0)%R.
Proof.
  intros W E w0 xi l r rk b sd Hl Hp Hr Hb Hs Hw X i i' Hi Hi'.
  apply (moments_at E w0 (Some b) [l] rk xi (fun w => random_tensor_batch (xi w) (S1Vec (nints l)) r (NI (Z.of_nat b)) 0 sd) (length l) sd); auto; try lia.
  - now apply (rank_arg_pos (length l) r rk ltac:(lia)).
  - intros w. destruct (random_tensor_batch_ok (xi w) l r rk b 0 sd Hl Hp Hr Hb) as (t & Et & D). rewrite check_mean0 in Et. eauto.
Qed.
Print Assumptions C38_random_tensor_batch.
Theorem C38_random_matrix : forall W (E : expectation W) (w0 : W) xi rows cols s r rk sd, 2 <= length rows -> length cols = length rows -> rows_of rows cols s ->
  Forall (fun n => 0 < n) rows -> Forall (fun n => 0 < n) cols -> rank_arg (length rows) r rk -> (0 <= sd)%R -> white E (core_draws None [rows; cols] rk) xi ->
  let X i w := element (random_matrix (xi w) s r 0 sd) i in
  forall i i', vidx [prodn rows; prodn cols] i -> vidx [prodn rows; prodn cols] i' ->
    expects E (X i) 0 /\ expects E (fun w => X i w * X i' w)%R (if list_eq_dec Nat.eq_dec i i' then sd ^ 2 else 0)%R.
Proof.
  intros W E w0 xi rows cols s r rk sd Hl Hc Hs' Hp Hp2 Hr Hs Hw X i i' Hi Hi'.
  apply (moments_at E w0 None [rows; cols] rk xi (fun w => random_matrix (xi w) s r 0 sd) (length rows) sd); auto; try lia.
  - now apply (rank_arg_pos (length rows) r rk ltac:(lia)).
  - intros w. destruct (random_matrix_ok (xi w) rows cols s r rk 0 sd Hl Hc Hs' Hp Hp2 Hr) as (t & Et & D). rewrite check_mean0 in Et. eauto.
Qed.
Print Assumptions C38_random_matrix.
Theorem C38_random_matrix_batch : forall W (E : expectation W) (w0 : W) xi rows cols s r rk b sd, 2 <= length rows -> length cols = length rows -> rows_of rows cols s ->
  Forall (fun n => 0 < n) rows -> Forall (fun n => 0 < n) cols -> rank_arg (length rows) r rk -> 0 < b -> (0 <= sd)%R -> white E (core_draws (Some b) [rows; cols] rk) xi ->
  let X i w := element (random_matrix_batch (xi w) s r (NI (Z.of_nat b)) 0 sd) i in
  forall i i', vidx [b; prodn rows; prodn cols] i -> vidx [b; prodn rows; prodn cols] i' ->
    expects E (X i) 0 /\ expects E (fun w => X i w * X i' w)%R (if list_eq_dec Nat.eq_dec i i' then sd ^ 2 else 0)%R.
Proof.
  intros W E w0 xi rows cols s r rk b sd Hl Hc Hs' Hp Hp2 Hr Hb Hs Hw X i i' Hi Hi'.
  apply (moments_at E w0 (Some b) [rows; cols] rk xi (fun w => random_matrix_batch (xi w) s r (NI (Z.of_nat b)) 0 sd) (length rows) sd); auto; try lia.
  - now apply (rank_arg_pos (length rows) r rk ltac:(lia)).
  - intros w. destruct (random_matrix_batch_ok (xi w) rows cols s r rk b 0 sd Hl Hc Hs' Hp Hp2 Hr Hb) as (t & Et & D). rewrite check_mean0 in Et. eauto.
Qed.
Print Assumptions C38_random_matrix_batch.

(** The advertised variances, with n_in = the product of the first row of the shape and n_out that of
    the second. *)
Theorem C38_weight_initializers : forall W (E : expectation W) (w0 : W) xi rows cols s r rk, 2 <= length rows -> length cols = length rows -> rows_of rows cols s ->
  Forall (fun n => 0 < n) rows -> Forall (fun n => 0 < n) cols -> rank_arg (length rows) r rk -> white E (core_draws None [rows; cols] rk) xi ->
  Forall (fun iv : ((nat -> list nat -> R) -> shape2 -> rarg -> res rtt) * R =>
    let X i w := element (fst iv (xi w) s r) i in
    forall i i', vidx [prodn rows; prodn cols] i -> vidx [prodn rows; prodn cols] i' ->
      expects E (X i) 0 /\ expects E (fun w => X i w * X i' w)%R (if list_eq_dec Nat.eq_dec i i' then snd iv else 0)%R)
  [(glorot_initializer, 2 / (INR (prodn rows) + INR (prodn cols)))%R; (he_initializer, 2 / INR (prodn rows))%R; (lecun_initializer, 1 / INR (prodn rows))%R].
Proof.
  intros W E w0 xi rows cols s r rk Hl Hc Hs' Hp Hp2 Hr Hw.
  assert (P1 : (0 < INR (prodn rows))%R) by (apply lt_0_INR; now apply prodn_pos). assert (P2 : (0 < INR (prodn cols))%R) by (apply lt_0_INR; now apply prodn_pos).
  assert (G : forall lb v, lb [rows; cols] = v -> (0 <= v)%R -> forall i i', vidx [prodn rows; prodn cols] i -> vidx [prodn rows; prodn cols] i' ->
      expects E (fun w => element (variance_initializer (xi w) lb s r) i) 0 /\
      expects E (fun w => element (variance_initializer (xi w) lb s r) i * element (variance_initializer (xi w) lb s r) i')%R (if list_eq_dec Nat.eq_dec i i' then v else 0)%R).
  { intros lb v Ev Hv i i' Hi Hi'. rewrite <- (pow2_sqrt v Hv).
    apply (moments_at E w0 None [rows; cols] rk xi (fun w => variance_initializer (xi w) lb s r) (length rows) (sqrt v)); auto; try lia.
    - apply sqrt_pos.
    - now apply (rank_arg_pos (length rows) r rk ltac:(lia)).
    - intros w. destruct (variance_ok (xi w) lb rows cols s r rk Hl Hc Hs' Hp Hp2 Hr) as (t & Et & D). rewrite Ev in D. eauto. }
  repeat apply Forall_cons; try apply Forall_nil; intros X i i'; apply G; try reflexivity; unfold Rdiv; apply Rmult_le_pos; try lra; apply Rlt_le, Rinv_0_lt_compat; lra.
Qed.
Print Assumptions C38_weight_initializers.

(** The mean is not the argument: a mean of 1 is not supported, and one below 10^-8 is ignored. *)
Theorem C38_mean_refuted : exists mean : R, mean <> 0%R /\
  forall W (E : expectation W) (w0 : W) xi l r rk sd, 2 <= length l -> Forall (fun n => 0 < n) l -> rank_arg (length l) r rk ->
  (0 <= sd)%R -> white E (core_draws None [l] rk) xi -> forall i, vidx l i ->
  expects E (fun w => element (random_tensor (xi w) (S1Vec (nints l)) r mean sd) i) 0.
Proof.
  exists (/ 10 ^ 9)%R. split; [apply Rinv_neq_0_compat; apply pow_nonzero; lra|].
  intros W E w0 xi l r rk sd Hl Hp Hr Hs Hw i Hi.
  eapply (proj1 (moments_at E w0 None [l] rk xi (fun w => random_tensor (xi w) (S1Vec (nints l)) r (/ 10 ^ 9) sd) (length l) sd ltac:(lia) Hs eq_refl _ _ Hw i i Hi Hi)).
  Unshelve.
  - now apply (rank_arg_pos (length l) r rk ltac:(lia)).
  - intros w. destruct (random_tensor_ok (xi w) l r rk (/ 10 ^ 9) sd Hl Hp Hr) as (t & Et & D). exists t. split; auto. rewrite Et. unfold check_mean.
    destruct (Rlt_dec _ _) as [|H]; [reflexivity|]. exfalso. apply H. rewrite Rabs_right by (apply Rle_ge, Rlt_le, Rinv_0_lt_compat, pow_lt; lra).
    apply Rinv_lt_contravar; [apply Rmult_lt_0_compat; apply pow_lt; lra|]. apply Rlt_pow; [lra|lia].
Qed.
Print Assumptions C38_mean_refuted.
Theorem C38_mean_one_refuted : forall xi, random_tensor xi (S1Vec (nints [2; 3])) (RAnum (NI 2)) 1 1 = Err NotImplementedError.
Proof.
  intros xi. refine (proj1 (C37_mean_raises xi [2; 3] (RAnum (NI 2)) [1; 2; 1] 1 1 1 _ _ _ _ _)); [cbn; lia|repeat constructor|left; exists 2; repeat split; lia|lia|].
  rewrite Rabs_R1, <- Rinv_1. apply Rinv_le_contravar; [lra|]. apply pow_R1_Rle. lra.
Qed.
Print Assumptions C38_mean_one_refuted.

(** Uncorrelated is not independent: with rank 1 one element is determined by three others. *)
Theorem C38_independence_refuted : forall xi sd, exists t d, random_tensor xi (S1Vec (nints [2; 2])) (RAnum (NI 1)) 0 sd = Ok t /\ full t = Ok d /\
  (get (K := Rring) d [0; 0]%nat * get (K := Rring) d [1; 1]%nat = get (K := Rring) d [0; 1]%nat * get (K := Rring) d [1; 0]%nat)%R.
Proof.
  intros xi sd. destruct (random_tensor_ok xi [2; 2] (RAnum (NI 1)) [1; 1; 1] 0 sd) as (t & Et & D); [cbn; lia|repeat constructor|left; exists 1; repeat split; lia|].
  rewrite check_mean0 in Et. exists t. pose proof (dr_wf _ _ _ _ _ _ _ D) as Wt.
  assert (G : forall i, vidx [2; 2] i -> exists d, full t = Ok d /\ get (K := Rring) d i = (core_stddev 2 [1; 1; 1]%nat sd ^ 2 * (xi 0%nat [0; nth 0 i 0; 0]%nat * xi 1%nat [0; nth 1 i 0; 0]%nat))%R).
  { intros i Hi. destruct (elem_paths None [[2; 2]] [1; 1; 1] xi _ t i D) as (d & F & S & Eg).
    - unfold get_shape, is_tt_matrix. rewrite (dr_shape _ _ _ _ _ _ _ D), (dr_batch _ _ _ _ _ _ _ D). exact Hi.
    - exists d. split; [exact F|]. rewrite Eg. apply vidx_2_inv in Hi as (x & y & -> & _ & _).
      assert (Nd : ndims t = 2). { pose proof (wf_klen Wt) as L. rewrite (dr_ranks _ _ _ _ _ _ _ D) in L. cbn in L. lia. }
      rewrite Nd. cbn [length]. f_equal. cbn. match goal with |- @eq _ ?u ?v => change (@eq R u v) end. ring. }
  destruct (G [0; 0]) as (d & F & G00); [vm_compute; repeat constructor|]. exists d. split; [exact Et|]. split; [exact F|].
  destruct (G [1; 1]) as (d1 & F1 & G11); [vm_compute; repeat constructor|]. destruct (G [0; 1]) as (d2 & F2 & G01); [vm_compute; repeat constructor|]. destruct (G [1; 0]) as (d3 & F3 & G10); [vm_compute; repeat constructor|].
  assert (d1 = d) by congruence. assert (d2 = d) by congruence. assert (d3 = d) by congruence. subst d1 d2 d3.
  rewrite G00, G11, G01, G10. cbn [nth]. ring.
Qed.
Print Assumptions C38_independence_refuted.

(** The contract on the random numbers can be met: independent signs, for any finite set of
    positions, in particular for those of the cores of any object. *)
Theorem C38_contract_satisfiable : forall P : list draw, NoDup P ->
  white (signs (length P)) (fun p => In p P) (fun w k ix => sign_at P w (k, ix)).
Proof. exact signs_white. Qed.
Print Assumptions C38_contract_satisfiable.
Example C38_ex : exists P, white (signs (length P)) (core_draws None [[2; 2]] [1; 2; 1]) (fun w k ix => sign_at P w (k, ix)) /\ length P = 8.
Proof.
  set (P := [(0, [0;0;0]); (0, [0;0;1]); (0, [0;1;0]); (0, [0;1;1]); (1, [0;0;0]); (1, [0;1;0]); (1, [1;0;0]); (1, [1;1;0])]%nat : list draw).
  exists P. split; [|reflexivity]. assert (ND : NoDup P). { repeat constructor; cbn; intuition discriminate. }
  intros l Hl HS. apply (C38_contract_satisfiable P ND l Hl). eapply Forall_impl; [|exact HS]. intros ((k & ix) & e) [H1 H2]. split; [|exact H2]. cbn [fst] in *.
  destruct H1 as [Hk Hv]. cbn in Hk. destruct k as [|[|k]]; [| |lia]; cbn in Hv;
    inversion Hv as [|x ? y1 ? Hx Hv1]; subst; inversion Hv1 as [|x1 ? y2 ? Hx1 Hv2]; subst; inversion Hv2 as [|x2 ? y3 ? Hx2 Hv3]; subst; inversion Hv3; subst;
    destruct x as [|[|x]]; try lia; destruct x1 as [|[|x1]]; try lia; destruct x2 as [|[|x2]]; try lia; cbn; auto 10.
Qed.
