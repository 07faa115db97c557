(** Rounding errors of elements of the represented tensors, and of expressions. *)
From Coq Require Import String Ascii List Arith ZArith Lia Lra Bool Reals.
From Verif Require Import Scalar Tensor TensorLemmas TensorLemmas2 Base Spec Chain BaseLemmas Ops OpsR FullProofs ResultLemmas Dense AddProofs MulProofs MatmulProofs DenseMatmul FlatProofs NormProofs GatherProofs ValidProofs Float FloatSpec FloatProofs FloatThms FloatThms2 FloatThms3 FloatThms4.
Import ListNotations.
Local Open Scope nat_scope.
Local Notation get := (@get Rring).

Section U.
Variable u : R.
Hypothesis Hu : (0 <= u)%R.
Local Notation near := (near u).
Local Notation tnear := (tnear u).
Local Notation ttnear := (ttnear u).

Lemma chain_near w z x X pre : ttnear w z x X -> forall J k a, k + length J <= ndims x ->
  near (list_sum (map w (seq k (length J)))) (chain (coreG z pre) (rk z) k J (fun _ => 1%R) a) (chain (coreG x pre) (rk x) k J (fun _ => 1%R) a) (chain (coreG X pre) (rk X) k J (fun _ => 1%R) a).
Proof.
  intros H. pose proof (ttnear_same _ _ _ _ _ H) as ((_ & K1 & _) & (_ & K2 & _)).
  induction J as [|j J IH]; intros k a Hk; cbn [chain length seq map list_sum fold_right].
  - now apply near_1.
  - rewrite K1, K2. cbn [length] in Hk. apply (sumn_rel near (near_0 u) (near_add u)). intros b _. apply near_mul; [exact Hu| |apply IH; lia].
    apply tnear_get. apply ttnear_core; [exact H|lia].
Qed.

Lemma entry_near w z x X pre J : ttnear w z x X -> length J = ndims x -> near (csum w (ndims x)) (tt_entry z pre J) (tt_entry x pre J) (tt_entry X pre J).
Proof. intros H L. unfold csum. rewrite <- L. apply (chain_near w z x X pre H J 0 0). lia. Qed.

Lemma at_near w z x X i : ttnear w z x X -> wf x -> vidx (get_shape x) i -> near (csum w (ndims x)) (tt_at z i) (tt_at x i) (tt_at X i).
Proof.
  intros H Hw Hi. pose proof H as (R1 & _ & B1 & R2 & _ & B2 & _). unfold tt_at. rewrite B1, B2.
  rewrite (split_idx_ext _ z x) by auto. rewrite (split_idx_ext _ z x) by auto. rewrite (split_idx_ext _ X x), (split_idx_ext _ X x) by auto.
  rewrite get_shape_ishape in Hi. apply vidx_app_inv in Hi as (pre & j & -> & Hp & Hj). unfold bpre in Hp.
  pose proof (split_idx_valid _ x j Hw Hj) as [_ L].
  destruct (bsz x) as [b|]; [apply vidx_1_inv in Hp as (o & -> & Ho)|inversion Hp; subst]; cbn [app nth tl]; now apply entry_near.
Qed.

Lemma ttnear_wf w z x X : ttnear w z x X -> wf x -> wf z /\ wf X.
Proof.
  intros H [H1 H2 H3 H4 H5 H6 H7 H8 H9 H10]. pose proof (ttnear_same _ _ _ _ _ H) as ((N1 & K1 & _) & (N2 & K2 & _)). pose proof H as (R1 & L1 & B1 & R2 & L2 & B2 & _).
  split; constructor; rewrite ?N1, ?N2, ?R1, ?R2, ?L1, ?L2, ?K1, ?K2; unfold bpre in *; rewrite ?B1, ?B2; try assumption.
  - intros k Hk. pose proof (ttnear_core _ _ _ _ _ k H Hk) as (W & _ & _ & E & _). split; [exact W|]. rewrite E, !K1. unfold modes. rewrite R1. now apply H10.
  - intros k Hk. pose proof (ttnear_core _ _ _ _ _ k H Hk) as (_ & _ & W & _ & E & _). split; [exact W|]. rewrite E, !K2. unfold modes. rewrite R2. now apply H10.
Qed.

Variable ar : arith.
Hypothesis Har : arith_ok u ar.

Lemma exp_near e : all_good e -> rel3 (ttnear (roundings e)) (run_fl ar e) (run_exact e) (run_exact (abs_exp e)).
Proof.
  induction e as [t|x IHx y IHy|x IHx y IHy|x IHx y IHy|x IHx]; cbn [all_good]; intros [(r & Er & Wr) Hs].
  - cbn [run_exact] in Er. okinv Er. cbn. now apply ttnear_self.
  - destruct Hs as [Hx Hy]. specialize (IHx Hx). specialize (IHy Hy). cbn [run_fl run_exact abs_exp] in *.
    assert (Wx : exists t, run_exact x = Ok t /\ wf t) by (destruct x; apply Hx). assert (Wy : exists t, run_exact y = Ok t /\ wf t) by (destruct y; apply Hy).
    destruct Wx as (a & Ea & Wa), Wy as (b & Eb & Wb). rewrite Ea, Eb in Er. cbn [bind] in Er.
    eapply rel3_bind; [apply rel3_eqn, IHx|]. intros z1 x1 X1 (T1 & E1). rewrite Ea in E1. apply Ok_inj in E1. subst x1.
    eapply rel3_bind; [apply rel3_eqn, IHy|]. intros z2 x2 X2 (T2 & E2). rewrite Eb in E2. apply Ok_inj in E2. subst x2.
    apply add_rel; auto. unfold add in Er. destruct (Bool.eqb _ _); [|discriminate]. destruct (llist_eqb (rshape a) (rshape b)) eqn:El; [|discriminate].
    apply llist_eqb_eq in El. now apply (same_ndims Rring).
  - destruct Hs as [Hx Hy]. specialize (IHx Hx). specialize (IHy Hy). cbn [run_fl run_exact abs_exp] in *.
    assert (Wx : exists t, run_exact x = Ok t /\ wf t) by (destruct x; apply Hx). assert (Wy : exists t, run_exact y = Ok t /\ wf t) by (destruct y; apply Hy).
    destruct Wx as (a & Ea & Wa), Wy as (b & Eb & Wb).
    eapply rel3_bind; [apply rel3_eqn, IHx|]. intros z1 x1 X1 (T1 & E1). rewrite Ea in E1. apply Ok_inj in E1. subst x1.
    eapply rel3_bind; [apply rel3_eqn, IHy|]. intros z2 x2 X2 (T2 & E2). rewrite Eb in E2. apply Ok_inj in E2. subst x2.
    apply multiply_rel; auto.
  - destruct Hs as [Hx Hy]. specialize (IHx Hx). specialize (IHy Hy). cbn [run_fl run_exact abs_exp] in *.
    assert (Wx : exists t, run_exact x = Ok t /\ wf t) by (destruct x; apply Hx). assert (Wy : exists t, run_exact y = Ok t /\ wf t) by (destruct y; apply Hy).
    destruct Wx as (a & Ea & Wa), Wy as (b & Eb & Wb). rewrite Ea, Eb in Er. cbn [bind] in Er. cbn [roundings].
    assert (Ma : is_tt_matrix a = true /\ is_tt_matrix b = true).
    { destruct (is_tt_matrix a) eqn:Ma, (is_tt_matrix b) eqn:Mb; auto; unfold tt_tt_matmul in Er; rewrite Ma, Mb in Er; discriminate. }
    destruct Ma as [Ma Mb].
    assert (Hin : nth 1 (rshape a) [] = nth 0 (rshape b) []).
    { destruct (list_eq_dec Nat.eq_dec (nth 1 (rshape a) []) (nth 0 (rshape b) [])) as [|N]; [assumption|].
      destruct (matmul_inner_err Rring a b Wa Wb Ma Mb N) as (er & E). rewrite E in Er. discriminate. }
    rewrite Ea. rewrite Ea, Eb in *. revert IHx. cbn [run_exact] in *. intros IHx.
    destruct (run_fl ar x) as [z1|], (run_exact (abs_exp x)) as [X1|]; cbn [rel3] in IHx; try contradiction.
    destruct (run_fl ar y) as [z2|], (run_exact (abs_exp y)) as [X2|]; cbn [rel3] in IHy; try contradiction. cbn [bind].
    apply (mm_rel u Hu ar Har _ _ _ _ _ _ _ _ IHx IHy); auto.
  - specialize (IHx Hs). cbn [run_fl run_exact abs_exp roundings] in *. eapply rel3_bind; [apply IHx|]. intros. now apply transpose_tt_rel.
Qed.
End U.
