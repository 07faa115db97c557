(** Validity of TT objects: what is stored describes the cores.  Weaker than [wf] of Spec.v: dimensions
    may be zero (empty slices). *)
From Coq Require Import List Arith.
From Verif Require Import Scalar Tensor Base Spec.
Import ListNotations.

Section Valid.
Variable K : cring.

(** There is a core; the object is a TT-tensor or a TT-matrix; the stored shape has one entry per core
    and the stored ranks one more; the first and the last rank are 1; and core [i] is of size
    (batch size x) rank i x modes x rank (i+1), where rank i, the modes and the batch size are the
    stored ones (hence the ranks of neighbouring cores are the same). *)
Record valid (t : tt K) : Prop := Valid {
  v_d : 0 < ndims t;
  v_kind : length (rshape t) = 1 \/ length (rshape t) = 2;
  v_rlen : forall s, In s (rshape t) -> length s = ndims t;
  v_klen : length (rks t) = S (ndims t);
  v_first : rk t 0 = 1;
  v_last : rk t (ndims t) = 1;
  v_core : forall i, i < ndims t -> shape (core t i) = bpre t ++ rk t i :: modes t i ++ [rk t (S i)] }.

End Valid.
Arguments valid {K} _. Arguments Valid {K} _ _ _ _ _ _ _ _.
