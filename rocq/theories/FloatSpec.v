(** Rounding: what is assumed about floating point operations.

    [rounds u x y]: [y] is [x] rounded with unit roundoff [u] (the standard model of floating point
    arithmetic, without overflow and underflow).
    [fl_eval u m z x X]: some expression of rounded additions, multiplications and fused multiply-adds
    evaluates to [z]; without rounding its value is [x], with the absolute values of all its inputs it is [X], and
    [m] roundings are nested at most. *)
From Coq Require Import String Ascii List Arith Bool Reals.
From Verif Require Import Scalar Tensor TensorLemmas Base Spec Ops OpsR Float.
Import ListNotations.
Local Open Scope R_scope.

Definition rounds (u x y : R) : Prop := Rabs (y - x) <= u * Rabs x.

Inductive fl_eval (u : R) : nat -> R -> R -> R -> Prop :=
| ev_number x : fl_eval u 0 x x (Rabs x)
| ev_mul m n a' a A b' b B z : fl_eval u m a' a A -> fl_eval u n b' b B -> rounds u (a' * b') z ->
    fl_eval u (S (m + n)) z (a * b) (A * B)
| ev_add m a' a A b' b B z : fl_eval u m a' a A -> fl_eval u m b' b B -> rounds u (a' + b') z ->
    fl_eval u (S m) z (a + b) (A + B)
| ev_fma m n p a' a A b' b B c' c C z : fl_eval u m a' a A -> fl_eval u n b' b B -> fl_eval u p c' c C ->
    (m + n <= p)%nat -> rounds u (a' * b' + c') z -> fl_eval u (S p) z (a * b + c) (A * B + C)
| ev_more m n z x X : fl_eval u m z x X -> (m <= n)%nat -> fl_eval u n z x X.

(** Absolute values of a tensor and of the cores of a TT object. *)
Definition tabs (x : rtensor) : rtensor := tmap (K := Rring) Rabs x.
Definition tt_abs (t : rtt) : rtt := TT (map tabs (cores t)) (rshape t) (rks t) (bsz t).

(** Number of terms of the sums of an einsum: product of the sizes of the labels that are not in
    the output. *)
Definition einsum_terms (eq : string) (ts : list rtensor) : nat :=
  match parse_eq eq [] [] with
  | None => 0
  | Some (ins, out) => match bind_all (K := Rring) ins ts [] with
                       | Ok env => prodn (map snd (filter (fun p => negb (existsb (Ascii.eqb (fst p)) out)) env))
                       | Err _ => 0
                       end
  end.

(** [z] is the result of an operation with [n] nested roundings: [d] is the exact result, [D] that for the absolute values. *)
Definition computed (u : R) (n : nat) (z d D : res rtensor) : Prop :=
  match d with
  | Err e => z = Err e
  | Ok d => exists z' D', z = Ok z' /\ D = Ok D' /\ wft z' /\ shape z' = shape d /\
      forall i, vidx (shape d) i -> fl_eval u n (@get Rring z' i) (@get Rring d i) (@get Rring D' i)
  end.

(** A product of matrices with [n] columns and rows computes every element with at most [n] nested roundings
    ([n] products and [n - 1] additions, in any order, fused or not); an einsum of [k] operands whose sums have [n] terms
    with at most [n + k - 2] (directly, or contracting two operands at a time). *)
Record arith_ok (u : R) (ar : arith) : Prop := {
  ok_matmul : forall a b, wft a -> wft b ->
    computed u (last (shape a) 0%nat) (f_matmul ar a b) (matmul (K := Rring) a b) (matmul (K := Rring) (tabs a) (tabs b));
  ok_einsum : forall eq ts, Forall wft ts -> (2 <= length ts)%nat ->
    computed u (einsum_terms eq ts + length ts - 2) (f_einsum ar eq ts) (einsum (K := Rring) eq ts) (einsum (K := Rring) eq (map tabs ts)) }.

(** Sum of the ranks between the cores, and of the ranks to the left of the cores. *)
Definition interior_ranks (t : rtt) : nat := list_sum (map (rk t) (seq 1 (ndims t - 1))).
Definition left_ranks (t : rtt) : nat := list_sum (map (rk t) (seq 0 (ndims t))).
(** Terms of the sums in a contraction of two objects over all axes: for every axis the product of the two ranks with the
    number of positions, and one more multiplication for every axis after the first. *)
Definition inner_terms (a b : rtt) : nat :=
  list_sum (map (fun k => rk a k * rk b k * prodn (modes a k))%nat (seq 0 (ndims a))) + (ndims a - 1).
(** Multiplications for a TT-matrix times a dense matrix, and for a dense matrix times a TT-matrix. *)
Definition columns_terms (a : rtt) : nat := list_sum (map (fun k => mode a 1 k * rk a (S k))%nat (seq 0 (ndims a))).
Definition rows_terms (b : rtt) : nat := list_sum (map (fun k => mode b 0 k * rk b (S k))%nat (seq 0 (ndims b))).

(** Expressions over TT objects. *)
Inductive texp :=
| TLeaf (t : rtt)
| TAdd (x y : texp)
| TMul (x y : texp)
| TMatmul (x y : texp)
| TTranspose (x : texp).

(** The result with exact operations, and with those of [ar]. *)
Fixpoint run_exact (e : texp) : res rtt :=
  match e with
  | TLeaf t => Ok t
  | TAdd x y => do a <- run_exact x; do b <- run_exact y; add a b
  | TMul x y => do a <- run_exact x; do b <- run_exact y; tt_multiply a b
  | TMatmul x y => do a <- run_exact x; do b <- run_exact y; tt_tt_matmul a b
  | TTranspose x => do a <- run_exact x; tt_transpose a
  end.
Fixpoint run_fl (ar : arith) (e : texp) : res rtt :=
  match e with
  | TLeaf t => Ok t
  | TAdd x y => do a <- run_fl ar x; do b <- run_fl ar y; add a b
  | TMul x y => do a <- run_fl ar x; do b <- run_fl ar y; tt_multiply_fl ar a b
  | TMatmul x y => do a <- run_fl ar x; do b <- run_fl ar y; tt_tt_matmul_fl ar a b
  | TTranspose x => do a <- run_fl ar x; tt_transpose a
  end.
(** The expression with the absolute values of all numbers. *)
Fixpoint abs_exp (e : texp) : texp :=
  match e with
  | TLeaf t => TLeaf (tt_abs t)
  | TAdd x y => TAdd (abs_exp x) (abs_exp y)
  | TMul x y => TMul (abs_exp x) (abs_exp y)
  | TMatmul x y => TMatmul (abs_exp x) (abs_exp y)
  | TTranspose x => TTranspose (abs_exp x)
  end.
(** All intermediate results exist and are well-formed. *)
Fixpoint all_good (e : texp) : Prop :=
  (exists t, run_exact e = Ok t /\ wf t) /\
  match e with
  | TLeaf _ => True
  | TAdd x y | TMul x y | TMatmul x y => all_good x /\ all_good y
  | TTranspose x => all_good x
  end.
(** Nested roundings in core [k] of the result: an addition moves numbers, an elementwise product multiplies once, a
    matrix product sums as many products as its operands have columns and rows. *)
Fixpoint roundings (e : texp) (k : nat) : nat :=
  match e with
  | TLeaf _ => 0
  | TAdd x y => Nat.max (roundings x k) (roundings y k)
  | TMul x y => roundings x k + roundings y k + 1
  | TMatmul x y => roundings x k + roundings y k + match run_exact x with Ok a => mode a 1 k | Err _ => 0 end
  | TTranspose x => roundings x k
  end.
Definition all_roundings (e : texp) (d : nat) : nat := list_sum (map (roundings e) (seq 0 d)).
