(** C61: the arithmetic work of inner products.
    Calls are counted in multiplications; [best_order ec]: every tf.einsum is done two tensors at a time in an
    order with the fewest multiplications; [some_order ec]: in any order; [greedy_order ec]: in a greedy order. *)
From Coq Require Import String Ascii List Arith ZArith Lia Bool Permutation.
From Verif Require Import Scalar Tensor TensorLemmas TensorLemmas2 Base Spec BaseLemmas Ops BatchOps Cost CostOps CostErase CostProofs
  CostInner CostOrder CostContract CostGreedy CostAny.
Import ListNotations.

Lemma costed {A} ec c (m : tr A) (r : A) n : tcost ec c m (fun _ => True) n -> erase m = Ok r -> exists l, m = Ok (r, l) /\ total ec c l <= n.
Proof. destruct m as [[a l]|e]; [|discriminate]. intros [_ H] E. injection E as <-. eauto. Qed.

(** An einsum done two tensors at a time, in any order, has the value of the einsum. *)
Theorem C61_einsum_order : forall (K : cring) eq (ts : list (tensor K)) p r ins out,
  parse_eq eq [] [] = Some (ins, out) -> NoDup out -> Forall wft ts -> is_order (length ts) p ->
  einsum eq ts = Ok r -> einsum_in_order eq ts p = Ok r.
Proof. intros. eapply order_value; eauto. Qed.
Print Assumptions C61_einsum_order.

Example C61_einsum_order_ex :
  let x := mk (K := Zring) [2; 2] (fun i => Z.of_nat (ravel [2; 2] i)) in
  let y := mk (K := Zring) [2; 3; 2] (fun i => Z.sub (Z.of_nat (ravel [2; 3; 2] i)) 4) in
  einsum_in_order "ac,aib,cid->bd" [x; y; y] (ONode (ONode (OLeaf 1) (OLeaf 2)) (OLeaf 0)) =
  einsum "ac,aib,cid->bd" [x; y; y] /\
  (exists r, einsum "ac,aib,cid->bd" [x; y; y] = Ok r) /\
  order_cost "ac,aib,cid->bd" [[2; 2]; [2; 3; 2]; [2; 3; 2]] (ONode (ONode (OLeaf 1) (OLeaf 2)) (OLeaf 0)) = 64 /\
  order_cost "ac,aib,cid->bd" [[2; 2]; [2; 3; 2]; [2; 3; 2]] (ONode (ONode (OLeaf 0) (OLeaf 1)) (OLeaf 2)) = 48.
Proof. cbv zeta. split; [vm_compute; reflexivity|]. split; [eexists; vm_compute; reflexivity|]. split; reflexivity. Qed.

(** The assumptions on tf.einsum can be met. *)
Theorem C61_assumptions_met : best_order best_cost /\ some_order best_cost /\ greedy_order greedy_cost.
Proof.
  split; [exact best_cost_best|]. split; [intros eq shs H; apply (best_cost_best eq shs H)|exact greedy_cost_greedy].
Qed.
Print Assumptions C61_assumptions_met.

(** flat_inner: at most 2 B d r1 r2 n max(r1, r2) multiplications. *)
Theorem C61_flat_inner : forall (K : cring) ec c (a b : tt K) x, best_order ec -> wf a -> wf b -> tt_tt_flat_inner a b = Ok x ->
  exists l, t_flat_inner a b = Ok (x, l) /\
    total ec c l <= 2 * (Nat.max (bnum a) (bnum b) * ndims a * (rmax a * rmax b * nmax a * Nat.max (rmax a) (rmax b))).
Proof. intros K ec c a b x He Ha Hb E. apply costed; [now apply flat_inner_cost|now rewrite erase_flat_inner]. Qed.
Print Assumptions C61_flat_inner.

(** In the form of the docstring: B d r^3 n. *)
Theorem C61_flat_inner_cubic : forall (K : cring) ec c (a b : tt K) x r, best_order ec -> wf a -> wf b -> tt_tt_flat_inner a b = Ok x ->
  rmax a <= r -> rmax b <= r ->
  exists l, t_flat_inner a b = Ok (x, l) /\ total ec c l <= 2 * (Nat.max (bnum a) (bnum b) * ndims a * (r * r * r * nmax a)).
Proof.
  intros K ec c a b x r He Ha Hb E Ra Rb. destruct (C61_flat_inner K ec c a b x He Ha Hb E) as (l & El & H). exists l. split; [exact El|].
  etransitivity; [exact H|]. apply Nat.mul_le_mono_l, Nat.mul_le_mono_l.
  replace (r * r * r * nmax a) with (r * r * nmax a * r) by lia. repeat apply Nat.mul_le_mono; auto. now apply Nat.max_lub.
Qed.
Print Assumptions C61_flat_inner_cubic.

(** With an arbitrary order of contractions: at most 2 B d r1^2 r2^2 n. *)
Theorem C61_flat_inner_any_order : forall (K : cring) ec c (a b : tt K) x, some_order ec -> wf a -> wf b -> tt_tt_flat_inner a b = Ok x ->
  exists l, t_flat_inner a b = Ok (x, l) /\
    total ec c l <= 2 * (Nat.max (bnum a) (bnum b) * ndims a * (rmax a * rmax a * (rmax b * rmax b) * nmax a)).
Proof. intros K ec c a b x He Ha Hb E. apply costed; [now apply flat_inner_any|now rewrite erase_flat_inner]. Qed.
Print Assumptions C61_flat_inner_any_order.

(** With greedy orders no multiple of d r^3 n suffices: there are TT-tensors with three cores (axes n, TT-ranks
    1, r, r, 1) for which flat_inner takes more. *)
Theorem C61_greedy_order_refuted : forall (K : cring) ec c C, greedy_order ec ->
  exists a : tt K, wf a /\ bsz a = None /\ ndims a = 3 /\
    C * (ndims a * (rmax a * rmax a * rmax a * nmax a)) < total ec c (calls (t_flat_inner a a)).
Proof.
  intros K ec c C G. destruct (greedy_flat_inner (K := K) ec c C G) as (n & r & Hn & Hr & H). exists (ones3 n r).
  split; [now apply ones3_wf|]. split; [reflexivity|]. split; [reflexivity|].
  eapply Nat.le_lt_trans; [|exact H]. apply Nat.mul_le_mono_l. change (ndims (ones3 (K := K) n r)) with 3. apply Nat.mul_le_mono_l.
  assert (Er : rmax (ones3 (K := K) n r) = r) by (unfold rmax; cbn [rks ones3 list_max fold_right]; lia).
  assert (En : nmax (ones3 (K := K) n r) = n).
  { unfold nmax. change (ndims (ones3 (K := K) n r)) with 3. unfold modes, prodn. cbn [seq map rshape ones3 nth list_max fold_right]. lia. }
  rewrite Er, En. lia.
Qed.
Print Assumptions C61_greedy_order_refuted.

(** pairwise_flat_inner and gram_matrix. *)
Theorem C61_pairwise : forall (K : cring) ec c (a b : tt K) P Q x, best_order ec -> wf a -> wf b -> is_tt_matrix a = is_tt_matrix b ->
  bsz a = Some P -> bsz b = Some Q -> pairwise_flat_inner a b = Ok x ->
  exists l, t_pairwise_flat_inner a b = Ok (x, l) /\
    total ec c l <= 2 * (P * Q * ndims a * (rmax a * rmax b * nmax a * Nat.max (rmax a) (rmax b))).
Proof. intros K ec c a b P Q x He Ha Hb Hk Ba Bb E. apply costed; [now apply pairwise_cost|now rewrite erase_pairwise]. Qed.
Print Assumptions C61_pairwise.

(** With a matrix: P Q d R r1 r2 (n r1 + n m R + m r2). *)
Theorem C61_pairwise_matrix : forall (K : cring) ec c (a b M : tt K) P Q x, best_order ec -> wf a -> wf b -> wf M ->
  bsz a = Some P -> bsz b = Some Q -> pairwise_flat_inner_mat a b M = Ok x ->
  exists l, t_pairwise_flat_inner_mat a b M = Ok (x, l) /\
    total ec c l <= P * Q * ndims a *
      (rmax M * rmax a * rmax b * (rowmax M * rmax a + rowmax M * colmax M * rmax M + colmax M * rmax b)).
Proof. intros K ec c a b M P Q x He Ha Hb HM Ba Bb E. apply costed; [now apply pairwise_mat_cost|now rewrite erase_pairwise_mat]. Qed.
Print Assumptions C61_pairwise_matrix.

(** gram_matrix: 2 B^2 d r^3 n, and with a matrix B^2 d R r^2 n (2 r + n R). *)
Theorem C61_gram_matrix : forall (K : cring) ec c (t : tt K) B x, best_order ec -> wf t -> bsz t = Some B -> gram_matrix t None = Ok x ->
  exists l, t_gram_matrix t None = Ok (x, l) /\ total ec c l <= 2 * (B * B * ndims t * (rmax t * rmax t * rmax t * nmax t)).
Proof.
  intros K ec c t B x He Ht Bt E. destruct (C61_pairwise K ec c t t B B x He Ht Ht eq_refl Bt Bt E) as (l & El & H). exists l. split; [exact El|].
  rewrite Nat.max_id in H. replace (rmax t * rmax t * rmax t * nmax t) with (rmax t * rmax t * nmax t * rmax t) by lia. exact H.
Qed.
Print Assumptions C61_gram_matrix.

Theorem C61_gram_matrix_matrix : forall (K : cring) ec c (t M : tt K) B n x, best_order ec -> wf t -> wf M -> bsz t = Some B ->
  rowmax M <= n -> colmax M <= n -> gram_matrix t (Some M) = Ok x ->
  exists l, t_gram_matrix t (Some M) = Ok (x, l) /\
    total ec c l <= B * B * ndims t * (rmax M * rmax t * rmax t * n * (2 * rmax t + n * rmax M)).
Proof.
  intros K ec c t M B n x He Ht HM Bt Hr Hc E. destruct (C61_pairwise_matrix K ec c t t M B B x He Ht Ht HM Bt Bt E) as (l & El & H). exists l. split; [exact El|].
  etransitivity; [exact H|]. apply Nat.mul_le_mono_l. rewrite <- !Nat.mul_assoc. apply Nat.mul_le_mono_l, Nat.mul_le_mono_l, Nat.mul_le_mono_l.
  assert (rowmax M * rmax t <= n * rmax t) by now apply Nat.mul_le_mono_r. assert (colmax M * rmax t <= n * rmax t) by now apply Nat.mul_le_mono_r.
  assert (rowmax M * (colmax M * rmax M) <= n * (n * rmax M)) by (repeat apply Nat.mul_le_mono; auto). lia.
Qed.
Print Assumptions C61_gram_matrix_matrix.

(** bilinear_form: B d rA rb rc (n rb + n m rA + m rc) for vectors b and c ([colmax b] is the size of their second axes,
    1 for vectors). *)
Theorem C61_bilinear_form : forall (K : cring) ec c (A b d : tt K) x, best_order ec -> wf A -> wf b -> wf d -> bilinear_form A b d = Ok x ->
  exists l, t_bilinear_form A b d = Ok (x, l) /\
    total ec c l <= bnum b * ndims A * (colmax b * rmax A * rmax b * rmax d *
      (rowmax A * rmax b + rowmax A * colmax A * rmax A + colmax A * rmax d)).
Proof. intros K ec c A b d x He HA Hb Hd E. apply costed; [now apply bilinear_cost|now rewrite erase_bilinear_form]. Qed.
Print Assumptions C61_bilinear_form.

(** A concrete case: n = 4, TT-ranks 1, 3, 3, 1. *)
Example C61_ex : let a := ones3 (K := Zring) 4 3 in
  wf a /\ rmax a = 3 /\ nmax a = 4 /\ (exists x, tt_tt_flat_inner a a = Ok x) /\
  total best_cost 1 (calls (t_flat_inner a a)) = 297 /\
  total greedy_cost 1 (calls (t_flat_inner a a)) = 297 /\
  2 * (1 * ndims a * (rmax a * rmax a * nmax a * rmax a)) = 648.
Proof.
  cbv zeta. split; [apply ones3_wf; lia|]. split; [reflexivity|]. split; [reflexivity|]. split; [eexists; vm_compute; reflexivity|].
  split; [vm_compute; reflexivity|]. split; vm_compute; reflexivity.
Qed.
(** n = 20: the greedy order contracts the cores first. *)
Example C61_ex_greedy : let a := ones3 (K := Zring) 20 3 in
  total best_cost 1 (calls (t_flat_inner a a)) = 1449 /\ total greedy_cost 1 (calls (t_flat_inner a a)) = 2070.
Proof. cbv zeta. split; vm_compute; reflexivity. Qed.
