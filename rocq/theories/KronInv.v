(** inv and cholesky of [t3f/kronecker.py]; the assumptions about TensorFlow's inverse and Cholesky
    factorization can be satisfied. *)
From Coq Require Import String List Arith ZArith Lia Lra Bool Reals Classical ClassicalEpsilon.
From Verif Require Import Scalar Tensor TensorLemmas Base Spec Chain BaseLemmas Ops FullProofs ResultLemmas Dense GatherProofs OpsR ScaleProofs InitProofs
  Det DecompSpec KronSpec Kron DetProofs KronProofs KronThms.
Import ListNotations.
Local Open Scope nat_scope.
Local Notation get := (@get Rring).

Lemma TensorTrainBatch_none (cs : list rtensor) rsh ranks b :
  shaped [b] rsh ranks cs -> 0 < length cs -> rsh <> [] ->
  Forall (fun s => length s = length cs) rsh -> length ranks = S (length cs) ->
  nth 0 ranks 0 = 1 -> nth (length cs) ranks 0 = 1 ->
  TensorTrainBatch cs (STuple rsh) (Some ranks) None = Ok (TT cs rsh ranks (Some b)).
Proof.
  intros Hs Hd. intros. unfold TensorTrainBatch. destruct rsh as [|s rsh]; [congruence|].
  cbn [clean_raw_shape bind].
  change 1 with (length [b]) at 1. rewrite (cores_valid_ok Rring [b] (s :: rsh) ranks cs (Some (s :: rsh)) (Some ranks) None); eauto.
  cbn [bind negb]. rewrite (nthr_nth cs 0 (core0 Rring)) by lia. cbn [bind]. rewrite Hs by lia. reflexivity.
Qed.

Lemma mapM_err {A B} (f : A -> res B) e l : (forall x, In x l -> (exists y, f x = Ok y) \/ f x = Err e) -> (exists x, In x l /\ f x = Err e) -> mapM f l = Err e.
Proof.
  induction l as [|x l IH]; intros H (y & Hy & Ey); [destruct Hy|]. cbn [mapM].
  destruct (H x ltac:(now left)) as [[z Ez]|Ex].
  - rewrite Ez. cbn [bind]. destruct Hy as [->|Hy]; [congruence|]. rewrite IH; [reflexivity| |eauto]. intros; apply H; now right.
  - now rewrite Ex.
Qed.

Section K.
Variables (t : rtt) (ns : list nat).
Hypothesis HK : kronecker t ns.
Let Hw : wf t := proj1 HK.
Let Hr : rshape t = [ns; ns] := proj1 (proj2 HK).
Let Hk := proj2 (proj2 HK).

Lemma map_kron_ok f (Q : nat -> rtensor -> Prop) :
  (forall k, k < ndims t -> exists m y, core_matrix t k = Ok m /\ f m = Ok y /\ wft y /\ shape y = bpre t ++ [nth k ns 0; nth k ns 0] /\ Q k y) ->
  exists z, map_kron f t = Ok z /\ kronecker z ns /\ bsz z = bsz t /\ rks z = rks t /\
    forall k, k < ndims t -> exists y, Q k y /\ forall p, vidx (bpre t) p -> meq (nth k ns 0) (factor z p k) (mat y p).
Proof.
  intros H. unfold map_kron. rewrite (check_kron_ok t ns HK). cbn [bind].
  set (g := fun i => do m <- core_matrix t i; do x <- f m;
      match bsz t with Some _ => Ok (expand_dims (expand_dims x 1) 4) | None => Ok (expand_dims (expand_dims x 0) 3) end).
  destruct (build_ok Rring g (fun k c => exists y, Q k y /\ forall p, vidx (bpre t) p -> forall i j, i < nth k ns 0 -> j < nth k ns 0 -> get c (p ++ [0; i; j; 0]) = mat y p i j)
    (ndims t) (bsz t) (rshape t) (rks t)) as (cs & Ecs & Lcs & Con & W & G).
  - apply (wf_d Hw).
  - apply (wf_kind Hw).
  - apply (wf_rlen Hw).
  - apply (wf_klen Hw).
  - apply (wf_first Hw).
  - apply (wf_last Hw).
  - apply (wf_rpos Hw).
  - apply (wf_kpos Hw).
  - apply (wf_bpos Hw).
  - intros k Hkk. destruct (H k Hkk) as (m & y & Em & Ey & Wy & Sy & Qy). unfold g. rewrite Em. cbn [bind]. rewrite Ey. cbn [bind].
    change (nth k (rks t) 0) with (rk t k). change (nth (S k) (rks t) 0) with (rk t (S k)). rewrite !Hk by lia. rewrite Hr. cbn [map].
    unfold bpre, pre_of in *. destruct (bsz t) as [b|]; cbn [app] in *.
    + eexists. split; [reflexivity|]. unfold expand_dims. rewrite Sy. cbn [shape data firstn skipn app].
      split; [unfold wft in *; cbn [shape data]; rewrite Wy, Sy; unfold prodn; cbn [fold_right]; lia|]. split; [reflexivity|]. exists y. split; [exact Qy|].
      intros p Hp i j Hi Hj. apply vidx_1_inv in Hp as (o & -> & Ho). unfold mat. cbn [app]. apply (get_reshaped Rring); [reflexivity|]. rewrite Sy. cbn [ravel]. unfold prodn; cbn [fold_right]. ring.
    + eexists. split; [reflexivity|]. unfold expand_dims. rewrite Sy. cbn [shape data firstn skipn app].
      split; [unfold wft in *; cbn [shape data]; rewrite Wy, Sy; unfold prodn; cbn [fold_right]; lia|]. split; [reflexivity|]. exists y. split; [exact Qy|].
      intros p Hp i j Hi Hj. inversion Hp; subst. unfold mat. cbn [app]. apply (get_reshaped Rring); [reflexivity|]. rewrite Sy. cbn [ravel]. unfold prodn; cbn [fold_right]. ring.
  - rewrite Ecs. cbn [bind]. exists (TT cs (rshape t) (rks t) (bsz t)). split.
    + unfold construct in Con. pose proof (wf_shaped Rring _ W) as Hs. cbn [cores rshape rks bsz] in Hs. unfold bpre in Hs. cbn [bsz] in Hs.
      destruct (bsz t) as [b|]; [|exact Con].
      apply TensorTrainBatch_none; auto; rewrite ?Lcs; [exact (wf_d Hw)|rewrite Hr; discriminate|exact (wf_rlen Hw)|exact (wf_klen Hw)|exact (wf_first Hw)|exact (wf_last Hw)].
    + split; [|split; [reflexivity|split; [reflexivity|]]].
      * split; [exact W|]. split; [exact Hr|]. intros k Hkk. unfold rk. cbn [rks]. unfold ndims in Hkk. cbn [cores] in Hkk. apply Hk. lia.
      * intros k Hkk. exact (G k Hkk).
Qed.

Lemma factors_nonzero D p : full t = Ok D -> vidx (bpre t) p -> det (prodn ns) (mat D p) <> 0%R <-> forall k, k < ndims t -> det (nth k ns 0) (factor t p k) <> 0%R.
Proof.
  intros HD Hp. rewrite (k_det t ns HK D p HD Hp). unfold dprod.
  assert (E : forall l, rprod (map (dterm t ns p) l) <> 0%R <-> forall k, In k l -> dterm t ns p k <> 0%R).
  { induction l as [|x l IH]; cbn [map rprod fold_right].
    - split; [intros _ k []|lra].
    - split.
      + intros H k [->|Hin]; [intros E; rewrite E in H; apply H; ring|]. apply IH; auto. intros E. apply H. unfold rprod in E. rewrite E. ring.
      + intros H E. apply Rmult_integral in E as [E|E]; [now apply (H x (or_introl eq_refl))|]. revert E. apply IH. intros k Hin. apply H. now right. }
  rewrite E. split.
  - intros H k Hkk Z. apply (H k); [apply in_seq; lia|]. unfold dterm. rewrite Z. apply pow_i. destruct (core_pow_nat t ns HK k Hkk). lia.
  - intros H k Hin. apply in_seq in Hin. unfold dterm. apply pow_nonzero. apply H. lia.
Qed.

Lemma matrix_shape_pos k : k < ndims t -> Forall (fun k => 0 < k) (bpre t ++ [nth k ns 0; nth k ns 0]).
Proof.
  intros Hkk. apply Forall_app. split; [apply (wf_bpos Hw)|]. assert (0 < nth k ns 0); [|auto].
  apply (Forall_nth (fun n => 0 < n) ns); [apply (k_pos t ns HK)|rewrite (k_len t ns HK); lia].
Qed.

Lemma right_inverse_ext n A A' B B' : meq n A A' -> meq n B B' -> right_inverse n A B -> right_inverse n A' B'.
Proof.
  intros HA HB H i j Hi Hj. rewrite <- (H i j Hi Hj). unfold mmul. apply (sumn_ext Rring). intros k Hkk. now rewrite HA, HB.
Qed.
Lemma cholesky_factor_ext n A A' B B' : meq n A A' -> meq n B B' -> cholesky_factor n A B -> cholesky_factor n A' B'.
Proof.
  intros HA HB (H1 & H2 & H3). split; [|split].
  - intros i j Hij Hj. rewrite <- HB by lia. auto.
  - intros i Hi. rewrite <- HB by lia. auto.
  - intros i j Hi Hj. rewrite <- HA, <- (H3 i j) by auto. unfold mmul, mtr. apply (sumn_ext Rring). intros k Hkk. now rewrite !HB.
Qed.

Theorem inv_correct la D : inv_ok (tf_inv la) -> full t = Ok D -> (forall p, vidx (bpre t) p -> det (prodn ns) (mat D p) <> 0%R) ->
  exists z E, inv la t = Ok z /\ kronecker z ns /\ bsz z = bsz t /\ full z = Ok E /\ shape E = shape D /\
    forall p, vidx (bpre t) p -> right_inverse (prodn ns) (mat D p) (mat E p) /\ right_inverse (prodn ns) (mat E p) (mat D p).
Proof.
  intros HI HD Hdet.
  destruct (map_kron_ok (tf_inv la) (fun k y => forall p, vidx (bpre t) p -> right_inverse (nth k ns 0) (factor t p k) (mat y p))) as (z & Ez & Kz & Bz & _ & Fz).
  - intros k Hkk. destruct (core_matrix_ok t ns HK k Hkk) as (m & Em & Wm & Sm & Gm).
    destruct (HI _ _ m Wm Sm (matrix_shape_pos k Hkk)) as [(y & Ey & Wy & Sy & Gy) _].
    { intros p Hp. rewrite (det_ext (Gm p Hp)). apply (proj1 (factors_nonzero D p HD Hp)); auto. }
    exists m, y. do 3 (split; auto). split; [congruence|]. intros p Hp. apply (right_inverse_ext _ (mat m p) _ (mat y p) _ (Gm p Hp)); auto. intros i j _ _; reflexivity.
  - destruct (full_correct Rring z (proj1 Kz)) as (E & HE & _). exists z, E. split; [exact Ez|]. split; [exact Kz|]. split; [exact Bz|]. split; [exact HE|].
    assert (Bp : bpre z = bpre t) by (unfold bpre; now rewrite Bz).
    split; [rewrite (k_dense t ns HK D HD), (k_dense z ns Kz E HE), Bp; reflexivity|].
    intros p Hp. assert (HRI : right_inverse (prodn ns) (mat D p) (mat E p)); [|split; [exact HRI|now apply inverse_comm]].
    apply (right_inverse_ext _ (kall ns (factor t p) 0) _ (kall ns (factor z p) 0)).
    + intros i j Hi Hj. symmetry. now apply (k_full t ns HK).
    + intros i j Hi Hj. symmetry. apply (k_full z ns Kz); auto. now rewrite Bp.
    + apply kall_inverse. intros k Hkk. rewrite (k_len t ns HK) in Hkk. destruct (Fz k Hkk) as (y & Gy & Gz). cbn [Nat.add].
      apply (right_inverse_ext _ (factor t p k) _ (mat y p)); [intros i j _ _; reflexivity| |now apply Gy]. apply meq_sym, Gz. exact Hp.
Qed.

Theorem inv_singular la D : inv_ok (tf_inv la) -> full t = Ok D -> (exists p, vidx (bpre t) p /\ det (prodn ns) (mat D p) = 0%R) -> inv la t = Err TFError.
Proof.
  intros HI HD (p0 & Hp0 & Z). unfold inv, map_kron. rewrite (check_kron_ok t ns HK). cbn [bind].
  match goal with |- bind (mapM ?f _) _ = _ => assert (E : mapM f (seq 0 (ndims t)) = Err TFError); [|rewrite E; reflexivity] end.
  apply mapM_err.
  - intros k Hin. apply in_seq in Hin. destruct (core_matrix_ok t ns HK k ltac:(lia)) as (m & Em & Wm & Sm & Gm). rewrite Em. cbn [bind].
    destruct (HI _ _ m Wm Sm (matrix_shape_pos k ltac:(lia))) as [H1 H2].
    destruct (classic (exists p, vidx (bpre t) p /\ det (nth k ns 0) (mat m p) = 0%R)) as [He|He].
    + right. now rewrite (H2 He).
    + left. destruct H1 as (y & Ey & _); [intros p Hp Zp; apply He; eauto|]. rewrite Ey. cbn [bind]. destruct (bsz t); eauto.
  - assert (Hf : exists k, k < ndims t /\ det (nth k ns 0) (factor t p0 k) = 0%R).
    { apply NNPP. intros Hn. apply (proj2 (factors_nonzero D p0 HD Hp0)); [|exact Z]. intros k Hkk Zk. apply Hn. eauto. }
    destruct Hf as (k & Hkk & Zk). exists k. split; [apply in_seq; lia|]. destruct (core_matrix_ok t ns HK k Hkk) as (m & Em & Wm & Sm & Gm). rewrite Em. cbn [bind].
    destruct (HI _ _ m Wm Sm (matrix_shape_pos k Hkk)) as [_ H2]. rewrite H2; [reflexivity|]. exists p0. split; auto. now rewrite (det_ext (Gm p0 Hp0)).
Qed.

Lemma symmetric_ext n A B : meq n A B -> symmetric n B -> symmetric n A.
Proof. intros H S i j Hi Hj. rewrite !H by auto. now apply S. Qed.
Lemma quad_ext n A B v : meq n A B -> quad n A v = quad n B v.
Proof. intros H. unfold quad. apply (sumn_ext Rring). intros i Hi. apply (sumn_ext Rring). intros j Hj. now rewrite H. Qed.
Lemma posdef_ext n A B : meq n A B -> posdef n B -> posdef n A.
Proof. intros H P v Hv. rewrite (quad_ext n A B v H). now apply P. Qed.

Theorem cholesky_correct la D : cho_ok (tf_cholesky la) -> full t = Ok D ->
  (forall p k, vidx (bpre t) p -> k < ndims t -> symmetric (nth k ns 0) (factor t p k) /\ posdef (nth k ns 0) (factor t p k)) ->
  exists z E, cholesky la t = Ok z /\ kronecker z ns /\ bsz z = bsz t /\ full z = Ok E /\ shape E = shape D /\
    forall p, vidx (bpre t) p -> cholesky_factor (prodn ns) (mat D p) (mat E p).
Proof.
  intros HI HD Hpd.
  destruct (map_kron_ok (tf_cholesky la) (fun k y => forall p, vidx (bpre t) p -> cholesky_factor (nth k ns 0) (factor t p k) (mat y p))) as (z & Ez & Kz & Bz & _ & Fz).
  - intros k Hkk. destruct (core_matrix_ok t ns HK k Hkk) as (m & Em & Wm & Sm & Gm).
    destruct (HI _ _ m Wm Sm (matrix_shape_pos k Hkk)) as [(y & Ey & Wy & Sy & Gy) _].
    { intros p Hp. apply (symmetric_ext _ _ _ (Gm p Hp)). now apply Hpd. }
    { intros p Hp. apply (posdef_ext _ _ _ (Gm p Hp)). now apply Hpd. }
    exists m, y. do 3 (split; auto). split; [congruence|]. intros p Hp. apply (cholesky_factor_ext _ (mat m p) _ (mat y p) _ (Gm p Hp)); auto. intros i j _ _; reflexivity.
  - destruct (full_correct Rring z (proj1 Kz)) as (E & HE & _). exists z, E. split; [exact Ez|]. split; [exact Kz|]. split; [exact Bz|]. split; [exact HE|].
    assert (Bp : bpre z = bpre t) by (unfold bpre; now rewrite Bz).
    split; [rewrite (k_dense t ns HK D HD), (k_dense z ns Kz E HE), Bp; reflexivity|].
    intros p Hp. apply (cholesky_factor_ext _ (kall ns (factor t p) 0) _ (kall ns (factor z p) 0)).
    + intros i j Hi Hj. symmetry. now apply (k_full t ns HK).
    + intros i j Hi Hj. symmetry. apply (k_full z ns Kz); auto. now rewrite Bp.
    + apply kall_cholesky. intros k Hkk. rewrite (k_len t ns HK) in Hkk. destruct (Fz k Hkk) as (y & Gy & Gz). cbn [Nat.add].
      apply (cholesky_factor_ext _ (factor t p k) _ (mat y p)); [intros i j _ _; reflexivity| |now apply Gy]. apply meq_sym, Gz. exact Hp.
Qed.

Theorem cholesky_indefinite la : cho_ok (tf_cholesky la) ->
  (forall p k, vidx (bpre t) p -> k < ndims t -> symmetric (nth k ns 0) (factor t p k)) ->
  (exists p k, vidx (bpre t) p /\ k < ndims t /\ ~ posdef (nth k ns 0) (factor t p k)) -> cholesky la t = Err TFError.
Proof.
  intros HI Hs (p0 & k0 & Hp0 & Hk0 & Z). unfold cholesky, map_kron. rewrite (check_kron_ok t ns HK). cbn [bind].
  match goal with |- bind (mapM ?f _) _ = _ => assert (E : mapM f (seq 0 (ndims t)) = Err TFError); [|rewrite E; reflexivity] end.
  apply mapM_err.
  - intros k Hin. apply in_seq in Hin. destruct (core_matrix_ok t ns HK k ltac:(lia)) as (m & Em & Wm & Sm & Gm). rewrite Em. cbn [bind].
    destruct (HI _ _ m Wm Sm (matrix_shape_pos k ltac:(lia))) as [H1 H2].
    { intros p Hp. apply (symmetric_ext _ _ _ (Gm p Hp)). apply Hs; auto; lia. }
    destruct (classic (exists p, vidx (bpre t) p /\ ~ posdef (nth k ns 0) (mat m p))) as [He|He].
    + right. now rewrite (H2 He).
    + left. destruct H1 as (y & Ey & _); [intros p Hp; apply NNPP; intros Zp; apply He; eauto|]. rewrite Ey. cbn [bind]. destruct (bsz t); eauto.
  - exists k0. split; [apply in_seq; lia|]. destruct (core_matrix_ok t ns HK k0 Hk0) as (m & Em & Wm & Sm & Gm). rewrite Em. cbn [bind].
    destruct (HI _ _ m Wm Sm (matrix_shape_pos k0 Hk0)) as [_ H2].
    { intros p Hp. apply (symmetric_ext _ _ _ (Gm p Hp)). now apply Hs. }
    rewrite H2; [reflexivity|]. exists p0. split; auto. intros P. apply Z. apply (posdef_ext _ _ _ (meq_sym _ _ _ (Gm p0 Hp0)) P).
Qed.
End K.
