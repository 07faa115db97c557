(** Facts about determinants, through mathcomp's [\det]: R as a commutative ring of mathcomp. *)
From Coq Require Import Reals Lia ClassicalEpsilon FunctionalExtensionality.
From mathcomp Require Import ssreflect ssrfun ssrbool eqtype ssrnat seq choice fintype bigop ssralg perm matrix.
From Verif Require Import Scalar Det DecompSpec KronSpec.
Set Implicit Arguments.
Unset Strict Implicit.
Delimit Scope R_scope with R.
Delimit Scope ring_scope with RR.

(** ** R as a ring of mathcomp *)
Definition R_eqb (x y : R) : bool := if Req_EM_T x y then true else false.
Lemma R_eqP : Equality.axiom R_eqb.
Proof. move=> x y; rewrite /R_eqb; case: Req_EM_T => h; constructor; exact: h. Qed.
Definition R_eqMixin := EqMixin R_eqP.
Canonical R_eqType := Eval hnf in EqType R R_eqMixin.
Definition R_find (P : pred R) (n : nat) : option R :=
  match excluded_middle_informative (exists x, P x) with
  | left H => Some (proj1_sig (constructive_indefinite_description _ H))
  | right _ => None
  end.
Lemma R_find_correct P n x : R_find P n = Some x -> P x.
Proof.
  rewrite /R_find; case: excluded_middle_informative => // H [<-].
  exact: (proj2_sig (constructive_indefinite_description _ H)).
Qed.
Lemma R_find_complete (P : pred R) : (exists x, P x) -> exists n, R_find P n.
Proof. move=> H; exists 0%nat; rewrite /R_find; case: excluded_middle_informative => //. Qed.
Lemma R_find_ext P Q : P =1 Q -> R_find P =1 R_find Q.
Proof. move=> H n; have -> : P = Q by apply: functional_extensionality. by []. Qed.
Definition R_choiceMixin := Choice.Mixin R_find_correct R_find_complete R_find_ext.
Canonical R_choiceType := Eval hnf in ChoiceType R R_choiceMixin.
Lemma RaddA : associative Rplus. Proof. by move=> x y z; rewrite Rplus_assoc. Qed.
Definition R_zmodMixin := ZmodMixin RaddA Rplus_comm Rplus_0_l Rplus_opp_l.
Canonical R_zmodType := Eval hnf in ZmodType R R_zmodMixin.
Lemma RmulA : associative Rmult. Proof. by move=> x y z; rewrite Rmult_assoc. Qed.
Lemma RmulD : left_distributive Rmult Rplus. Proof. by move=> x y z; rewrite Rmult_plus_distr_r. Qed.
Lemma R1_neq_0 : is_true (R1 != R0). Proof. by apply/eqP; exact: R1_neq_R0. Qed.
Definition R_ringMixin := ComRingMixin RmulA Rmult_comm Rmult_1_l RmulD R1_neq_0.
Canonical R_ringType := Eval hnf in RingType R R_ringMixin.
Canonical R_comRingType := Eval hnf in ComRingType R Rmult_comm.


Lemma sumn_big n (f : nat -> R) : @sumn Rring n f = (\sum_(i < n) f i)%RR.
Proof.
  elim: n => [|n IH]; first by rewrite big_ord0.
  by rewrite big_ord_recr /= IH.
Qed.

(** The matrix with given elements. *)
Definition mx n (A : nat -> nat -> R) : 'M[R]_n := (\matrix_(i, j) A i j)%RR.
Lemma mxE' n A (i j : 'I_n) : (mx n A) i j = A i j. Proof. exact: mxE. Qed.
Lemma mx_ext n A B : meq n A B -> mx n A = mx n B.
Proof. move=> H; apply/matrixP=> i j; rewrite !mxE. apply: H; exact/ltP. Qed.
Lemma pow_exp (x : R) k : pow x k = (x ^+ k)%RR.
Proof. elim: k => [|k IH] //=. by rewrite GRing.exprS IH. Qed.

Lemma det_mx n A : det n A = (\det (mx n A))%RR.
Proof.
  elim: n A => [|n IH] A; first by rewrite det_mx00.
  rewrite (expand_det_row _ ord0) /det -/det sumn_big. apply: eq_bigr => j _.
  rewrite mxE' /cofactor IH /= add0n.
  have -> : row' ord0 (col' j (mx n.+1 A)) = mx n (fun r c => A (S r) (skip j c)).
  { apply/matrixP=> r c. rewrite !mxE /= /bump /skip leq0n add1n.
    case: (PeanoNat.Nat.ltb_spec c j) => H.
    - have -> : (j <= c) = false by apply/negbTE; rewrite -ltnNge; apply/ltP.
      by rewrite add0n.
    - have -> : (j <= c) = true by apply/leP. by rewrite add1n. }
  rewrite -pow_exp. set d := (\det _)%RR.
  change ((-1) ^ j * A 0%nat j * d = A 0%nat j * (pow (-(1)) j * d))%R.
  have -> : (-1 = -(1))%R by []. ring.
Qed.

Lemma det_ext n A B : meq n A B -> det n A = det n B.
Proof. by move=> H; rewrite !det_mx (mx_ext H). Qed.

Lemma mx_mul n A B : mx n (mmul n A B) = (mx n A *m mx n B)%RR.
Proof.
  apply/matrixP=> i j; rewrite !mxE /mmul sumn_big. apply: eq_bigr => k _. by rewrite !mxE.
Qed.
Lemma det_mul n A B : det n (mmul n A B) = (det n A * det n B)%R.
Proof. by rewrite !det_mx mx_mul det_mulmx. Qed.

Lemma mx_kron n : mx n kron = (1%:M)%RR.
Proof.
  apply/matrixP=> i j; rewrite !mxE /kron. case: (PeanoNat.Nat.eqb_spec i j) => H.
  - by rewrite (val_inj H) eqxx.
  - by case: eqP => // E; case: H; rewrite E.
Qed.
Lemma det_kron1 n : det n kron = 1%R.
Proof. by rewrite det_mx mx_kron det1. Qed.

(** A right inverse is a left inverse, and shows that the determinant is not zero. *)
Lemma inverse_comm n A B : right_inverse n A B -> right_inverse n B A.
Proof.
  move=> H. have E : (mx n A *m mx n B = 1%:M)%RR by rewrite -mx_mul -mx_kron; apply: mx_ext.
  have E' := mulmx1C E. move=> i j Hi Hj.
  have Hi' : (i < n)%N by apply/ltP. have Hj' : (j < n)%N by apply/ltP.
  have := congr1 (fun M : 'M[R]_n => M (Ordinal Hi') (Ordinal Hj')) E'.
  by rewrite -mx_mul -mx_kron !mxE.
Qed.
Lemma inverse_det n A B : right_inverse n A B -> det n A <> 0%R.
Proof.
  move=> H Z. have : det n (mmul n A B) = 1%R by rewrite (det_ext H) det_kron1.
  rewrite det_mul Z Rmult_0_l. move/esym; exact: R1_neq_R0.
Qed.

(** Block triangular matrices. *)
Lemma det_blocks m n (F : nat -> nat -> R) : (forall i j, (i < m)%coq_nat -> (j < n)%coq_nat -> F i (m + j)%coq_nat = 0%R) ->
  det (m + n)%coq_nat F = (det m F * det n (fun i j => F (m + i)%coq_nat (m + j)%coq_nat))%R.
Proof.
  move=> H. rewrite !det_mx.
  set a := mx m F. set b := mx n _. rewrite -[RHS]/(\det a * \det b)%RR.
  rewrite -(det_lblock a (\matrix_(i < n, j < m) F (m + i)%coq_nat j)%RR). congr (determinant _).
  rewrite -[LHS]submxK. congr (block_mx _ _ _ _); apply/matrixP=> i j; rewrite !mxE /= //.
  apply: H; exact/ltP.
Qed.

(** The same permutation of rows and columns. *)
Lemma det_reindex n (s : nat -> nat) F : (forall i, (i < n)%coq_nat -> (s i < n)%coq_nat) ->
  (forall i j, (i < n)%coq_nat -> (j < n)%coq_nat -> s i = s j -> i = j) ->
  det n (fun i j => F (s i) (s j)) = det n F.
Proof.
  move=> Hs Hi.
  have Hs' (i : 'I_n) : (s i < n)%N by apply/ltP; apply: Hs; exact/ltP.
  pose f (i : 'I_n) : 'I_n := Ordinal (Hs' i).
  have finj : injective f.
  { move=> i j E. apply: val_inj. refine (Hi (val i) (val j) _ _ (congr1 val E)); apply/ltP; exact: ltn_ord. }
  rewrite !det_mx.
  have -> : mx n (fun i j => F (s i) (s j)) = row_perm (perm finj) (col_perm (perm finj) (mx n F)).
  { apply/matrixP=> i j. by rewrite !mxE /= !permE. }
  rewrite row_permE det_mulmx col_permE det_mulmx !det_perm odd_permV.
  rewrite GRing.mulrC -GRing.mulrA -GRing.signr_addb addbb GRing.expr0 GRing.mulr1. by [].
Qed.

(** A matrix with a nonzero determinant has an inverse. *)
Lemma inverse_exists n A : det n A <> 0%R -> exists B, right_inverse n A B.
Proof.
  move=> Hd.
  pose B (i j : nat) : R := match insub i : option 'I_n, insub j : option 'I_n with
                            | Some i', Some j' => (/ det n A * (\adj (mx n A))%RR i' j')%R
                            | _, _ => 0%R end.
  exists B. move=> i j Hi Hj.
  have Hi' : (i < n)%N by apply/ltP. have Hj' : (j < n)%N by apply/ltP.
  have := congr1 (fun M : 'M[R]_n => M (Ordinal Hi') (Ordinal Hj')) (mul_mx_adj (mx n A)).
  rewrite -det_mx !mxE /mmul sumn_big => E.
  have -> : (\sum_(k < n) (A i k * B k j)%R)%RR = (Rinv (det n A) * (\sum_(k < n) mx n A (Ordinal Hi') k * (\adj (mx n A)) k (Ordinal Hj')))%RR.
  { rewrite GRing.mulr_sumr. apply: eq_bigr => k _.
    have -> : B k j = (/ det n A * (\adj (mx n A))%RR k (Ordinal Hj'))%R.
    { rewrite /B valK insubT /=. by []. }
    rewrite [mx n A _ k]mxE /=.
    change (A i k * (/ det n A * (\adj (mx n A))%RR k (Ordinal Hj')) = / det n A * (A i k * (\adj (mx n A))%RR k (Ordinal Hj')))%R.
    ring. }
  rewrite E /kron.
  case: (PeanoNat.Nat.eqb_spec i j) => H.
  - have -> : (Ordinal Hi' == Ordinal Hj') by apply/eqP; apply: val_inj.
    change (/ det n A * det n A = 1)%R. by apply: Rinv_l.
  - have -> : (Ordinal Hi' == Ordinal Hj') = false by apply/eqP => E2; apply: H; exact: (congr1 val E2).
    change (/ det n A * 0 = 0)%R. ring.
Qed.
