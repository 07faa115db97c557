(** Rounding errors of inner products, products and lookups. *)
From Coq Require Import String Ascii List Arith ZArith Lia Lra Bool Reals.
From Verif Require Import Scalar Tensor TensorLemmas TensorLemmas2 Base Spec Chain BaseLemmas Ops OpsR FullProofs ResultLemmas Dense AddProofs MulProofs MatmulProofs FlatProofs NormProofs ValidProofs Float FloatSpec FloatProofs FloatThms.
Import ListNotations.
Local Open Scope nat_scope.
Local Notation get := (@get Rring).

Section U.
Variable u : R.
Hypothesis Hu : (0 <= u)%R.
Variable ar : arith.
Hypothesis Har : arith_ok u ar.
Local Notation tnear := (tnear u).
Local Notation ttnear := (ttnear u).

(** ** Flat inner product *)
Definition fi_terms (a b : rtt) (k : nat) : nat := rk a k * rk b k * prodn (modes a k).
Definition fi_count (wa wb : nat -> nat) (a b : rtt) (i : nat) : nat := csum wa i + csum wb i + csum (fi_terms a b) i + (i - 1).

Lemma fi_step_terms (a b : rtt) i (r : rtensor) : wf a -> wf b -> rshape a = rshape b -> i < ndims a -> i < ndims b ->
  (match bsz a, bsz b with Some x, Some y => x = y | _, _ => True end) ->
  shape r = pre_of (ubs (bsz a) (bsz b)) ++ [rk a i; rk b i] ->
  einsum_terms (fi_eq Rring a b) [r; core a i; core b i] = fi_terms a b i.
Proof.
  intros Ha Hb Hr Hi Hi' Hbs Sr. unfold fi_terms.
  pose proof (core_shape _ a _ Ha Hi) as Sa; pose proof (core_shape _ b _ Hb Hi') as Sb.
  rewrite <- (modes_ext _ a b _ Hr) in Sb.
  unfold fi_eq, fi_init, fi_b, fi_r, fi_ax, is_batch, ubs, bpre in *.
  destruct (wf_kind_cases _ a Ha) as [(E & _ & Hm)|(E & _ & Hm)]; rewrite E, Hm in *; clear E Hm;
  destruct (bsz a) as [x|], (bsz b) as [y|]; cbn [pre_of app] in *; try subst y;
    unfold einsum_terms; einsum_step; unfold prodn; cbn [fold_right]; nia.
Qed.

Lemma fi_init_terms (a b : rtt) : wf a -> wf b -> rshape a = rshape b ->
  (match bsz a, bsz b with Some x, Some y => x = y | _, _ => True end) ->
  einsum_terms (fi_init Rring a b) [core a 0; core b 0] = fi_terms a b 0.
Proof.
  intros Ha Hb Hr Hbs. pose proof (wf_d Ha) as Hi. pose proof (wf_d Hb) as Hi'. unfold fi_terms.
  pose proof (core_shape _ a _ Ha Hi) as Sa; pose proof (core_shape _ b _ Hb Hi') as Sb.
  rewrite <- (modes_ext _ a b _ Hr) in Sb.
  unfold fi_init, fi_b, fi_r, fi_ax, is_batch, ubs, bpre in *.
  destruct (wf_kind_cases _ a Ha) as [(E & _ & Hm)|(E & _ & Hm)]; rewrite E, Hm in *; clear E Hm;
  destruct (bsz a) as [x|], (bsz b) as [y|]; cbn [pre_of app] in *; try subst y;
    unfold einsum_terms; einsum_step; unfold prodn; cbn [fold_right]; nia.
Qed.

Lemma rel3_eqn {A} (P : A -> A -> A -> Prop) z x X : rel3 P z x X -> rel3 (fun a b c => P a b c /\ x = Ok b) z x X.
Proof. destruct z, x, X; cbn; auto. Qed.

Lemma csum_1 w : csum w 1 = w 0.
Proof. unfold csum. cbn. lia. Qed.

(** The sweep shared by flat_inner and frobenius_norm_squared. *)
Lemma sweep_rel wa wb a' a A b' b B : ttnear wa a' a A -> ttnear wb b' b B -> wf a -> wf b -> rshape a = rshape b ->
  (match bsz a, bsz b with Some x, Some y => x = y | _, _ => True end) -> forall e0 e1, e0 = fi_init Rring a b -> e1 = fi_eq Rring a b ->
  rel3 (tnear (fi_count wa wb a b (ndims a)))
    (do r0 <- f_einsum ar e0 [core a' 0; core b' 0]; foldM (fun i r => f_einsum ar e1 [r; core a' i; core b' i]) (seq 1 (ndims a - 1)) r0)
    (do r0 <- einsum e0 [core a 0; core b 0]; foldM (fun i r => einsum e1 [r; core a i; core b i]) (seq 1 (ndims a - 1)) r0)
    (do r0 <- einsum e0 [core A 0; core B 0]; foldM (fun i r => einsum e1 [r; core A i; core B i]) (seq 1 (ndims a - 1)) r0).
Proof.
  intros Ta Tb Ha Hb Hr Hbs e0 e1 -> ->. pose proof (same_ndims Rring a b Ha Hb Hr) as Hd. pose proof (wf_d Ha) as Hda.
  eapply rel3_bind.
  - apply rel3_eqn. eapply (einsum_rel u Hu ar Har); [apply lnear2; apply ttnear_core; try eassumption; lia|cbn; lia].
  - intros r0' r0 R0 (T0 & E0).
    assert (I0 : (fun i z x X => tnear (fi_count wa wb a b i) z x X /\ shape x = pre_of (ubs (bsz a) (bsz b)) ++ [rk a i; rk b i]) 1 r0' r0 R0).
    { split.
      - eapply tnear_more; [exact Hu|exact T0|]. rewrite fi_init_terms by auto. unfold fi_count. rewrite !csum_1. cbn [list_sum fold_right length]. lia.
      - destruct (fi_init_ok Rring a b Ha Hb Hr Hbs) as (r & Er & _ & Sr & _). rewrite E0 in Er. apply Ok_inj in Er. now subst r. }
    replace (ndims a) with (1 + (ndims a - 1)) at 1 by lia.
    eapply rel3_mono; [apply (foldM_rel (fun i z x X => tnear (fi_count wa wb a b i) z x X /\ shape x = pre_of (ubs (bsz a) (bsz b)) ++ [rk a i; rk b i])); [exact I0|]|cbn beta; tauto].
    intros i z x X Hi (T & Sx).
    eapply rel3_mono; [apply rel3_eqn; eapply (einsum_rel u Hu ar Har); [apply lnear3; [exact T|apply ttnear_core; [exact Ta|lia]|apply ttnear_core; [exact Tb|lia]]|cbn; lia]|].
    cbn beta. intros z1 x1 X1 (T1 & E1). split.
    + eapply tnear_more; [exact Hu|exact T1|]. rewrite fi_step_terms by (auto; lia). unfold fi_count. rewrite !csum_S. cbn [list_sum fold_right length]. lia.
    + destruct (fi_step_ok Rring a b i x Ha Hb Hr ltac:(lia) ltac:(lia) Hbs Sx) as (r & Er & _ & Sr & _). rewrite E1 in Er. apply Ok_inj in Er. now subst r.
Qed.

Lemma bind_bind {A B C} (x : res A) (f : A -> res B) (g : B -> res C) : bind (bind x f) g = bind x (fun a => bind (f a) g).
Proof. now destruct x. Qed.

Lemma fi_count_ext wa wb (a b c d : rtt) n : rks a = rks c -> rks b = rks d -> rshape a = rshape c -> fi_count wa wb a b n = fi_count wa wb c d n.
Proof.
  intros H1 H2 H3. unfold fi_count. do 2 f_equal. unfold csum. f_equal. apply map_ext. intros k. unfold fi_terms, rk, modes. now rewrite H1, H2, H3.
Qed.

Lemma flat_inner_rel wa wb a' a A b' b B : ttnear wa a' a A -> ttnear wb b' b B -> wf a -> wf b -> rshape a = rshape b -> bc_ok (bsz a) (bsz b) ->
  rel3 (tnear (fi_count wa wb a b (ndims a))) (tt_tt_flat_inner_fl ar a' b') (tt_tt_flat_inner a b) (tt_tt_flat_inner A B).
Proof.
  intros Ta Tb Ha Hb Hr Hbc.
  assert (Hd : ndims a = ndims b) by (apply (same_ndims Rring a b Ha Hb Hr)).
  assert (Hm : is_tt_matrix b = is_tt_matrix a) by (unfold is_tt_matrix; now rewrite Hr).
  pose proof (proj1 (bc_ok_possible Rring a b) Hbc) as Hbp.
  pose proof (ttnear_same _ _ _ _ _ Ta) as ((N1 & _ & _ & M1 & _) & (N2 & _ & _ & M2 & _)). pose proof Ta as (_ & _ & B1 & _ & _ & B2 & _).
  pose proof (ttnear_same _ _ _ _ _ Tb) as ((N3 & _ & _ & M3 & _) & (N4 & _ & _ & M4 & _)). pose proof Tb as (_ & _ & B3 & _ & _ & B4 & _).
  assert (P1 : is_batch_broadcasting_possible a' b' = true) by (rewrite <- Hbp; unfold is_batch_broadcasting_possible; now rewrite B1, B3).
  assert (P2 : is_batch_broadcasting_possible A B = true) by (rewrite <- Hbp; unfold is_batch_broadcasting_possible; now rewrite B2, B4).
  unfold tt_tt_flat_inner_fl, tt_tt_flat_inner. rewrite P1, P2, Hbp, M1, M2, M3, M4, Hm, N1, N2, N3, N4, <- Hd, Nat.eqb_refl, Bool.eqb_reflx, Bool.andb_diag. cbn [negb].
  destruct (squeeze_entries Rring a Ha) as (a1 & Sa & Wa & Ra & Ka & Ba & Na & _).
  destruct (squeeze_entries Rring b Hb) as (b1 & Sb & Wb & Rb & Kb & Bb & Nb & _).
  eapply rel3_bind; [apply rel3_eqn; apply squeeze_batch_rel; exact Ta|]. intros sa' sa sA (Tsa & Ea). rewrite Sa in Ea. apply Ok_inj in Ea. subst sa.
  eapply rel3_bind; [apply rel3_eqn; apply squeeze_batch_rel; exact Tb|]. intros sb' sb sB (Tsb & Eb). rewrite Sb in Eb. apply Ok_inj in Eb. subst sb.
  pose proof (ttnear_same _ _ _ _ _ Tsa) as ((_ & _ & _ & _ & _ & Q1) & (_ & _ & _ & _ & _ & Q2)).
  pose proof (ttnear_same _ _ _ _ _ Tsb) as ((_ & _ & _ & _ & _ & Q3) & (_ & _ & _ & _ & _ & Q4)).
  assert (Hma : is_tt_matrix a = is_tt_matrix a1) by (unfold is_tt_matrix; now rewrite Ra).
  rewrite Q1, Q2, Q3, Q4, Hma, <- Na.
  pose proof (wf_bpos Ha) as Z1. pose proof (wf_bpos Hb) as Z2. unfold bpre in Z1, Z2.
  assert (Hbs : match bsz a1, bsz b1 with Some x, Some y => x = y | _, _ => True end).
  { rewrite Ba, Bb. unfold sqb, bc_ok in *. destruct (bsz a) as [[|[|x]]|], (bsz b) as [[|[|y]]|]; auto;
     try lia; exfalso; inversion Z1; inversion Z2; subst; lia. }
  rewrite <- !bind_bind. eapply rel3_bind.
  - eapply (sweep_rel wa wb sa' a1 sA sb' b1 sB Tsa Tsb Wa Wb ltac:(congruence) Hbs); reflexivity.
  - intros z x X T. cbn [rel3]. rewrite (fi_count_ext wa wb a b a1 b1) by congruence. now apply squeeze_rel.
Qed.

(** ** Elementwise product *)
Lemma mul_terms_le (a b : rtt) i eq : wf a -> wf b -> rshape a = rshape b -> i < ndims a ->
  (exists sl sr so, In (sl, sr, so) [("", "", ""); ("n", "", "n"); ("", "n", "n"); ("n", "n", "n"); ("n", "m", "nm")]%string /\
     (is_tt_matrix a = true /\ eq = (sl ++ "aijb," ++ sr ++ "cijd->" ++ so ++ "acijbd")%string \/
      is_tt_matrix a = false /\ eq = (sl ++ "aib," ++ sr ++ "cid->" ++ so ++ "acibd")%string)) ->
  einsum_terms eq [core a i; core b i] <= 1.
Proof.
  intros Ha Hb Hr Hi (sl & sr & so & Hin & He). pose proof (same_ndims Rring a b Ha Hb Hr) as Hd.
  pose proof (core_shape _ a _ Ha Hi) as Sa; pose proof (core_shape _ b i Hb ltac:(lia)) as Sb.
  rewrite <- (modes_ext _ a b _ Hr) in Sb. unfold bpre in *.
  destruct (wf_kind_cases _ a Ha) as [(E & _ & Hm)|(E & _ & Hm)]; rewrite E, Hm in *; clear E Hm;
  destruct He as [[F ->]|[F ->]]; try discriminate; cbn [In] in Hin;
  decompose [or] Hin; try contradiction; match goal with H : (_, _, _) = (sl, sr, so) |- _ => injection H as <- <- <- end;
    destruct (bsz a) as [x|], (bsz b) as [y|]; cbn [app] in *; unfold einsum_terms; einsum_step; repeat (destruct (Nat.eqb _ _); einsum_step); cbn; first [lia|apply le_n].
Qed.

Lemma multiply_rel wa wb a' a A b' b B : ttnear wa a' a A -> ttnear wb b' b B -> wf a -> wf b ->
  rel3 (ttnear (fun k => wa k + wb k + 1)) (tt_multiply_fl ar a' b') (tt_multiply a b) (tt_multiply A B).
Proof.
  intros Ta Tb Ha Hb.
  pose proof (ttnear_same _ _ _ _ _ Ta) as ((N1 & K1 & O1 & M1 & _ & Q1) & (N2 & K2 & O2 & M2 & _ & Q2)). pose proof Ta as (R1 & L1 & B1 & R2 & L2 & B2 & _).
  pose proof (ttnear_same _ _ _ _ _ Tb) as ((N3 & K3 & O3 & M3 & _ & Q3) & (N4 & K4 & O4 & M4 & _ & Q4)). pose proof Tb as (R3 & L3 & B3 & R4 & L4 & B4 & _).
  assert (P1 : is_batch_broadcasting_possible a' b' = is_batch_broadcasting_possible a b) by (unfold is_batch_broadcasting_possible; now rewrite B1, B3).
  assert (P2 : is_batch_broadcasting_possible A B = is_batch_broadcasting_possible a b) by (unfold is_batch_broadcasting_possible; now rewrite B2, B4).
  unfold tt_multiply_fl, tt_multiply. rewrite P1, P2, M1, M2, M3, M4, R1, R2, R3, R4, B1, B2, B3, B4, N1, N2, L1, L2, L3, L4, Q1, Q2, Q3, Q4.
  destruct (Bool.eqb _ _); cbn [negb]; [|cbn; auto]. destruct (llist_eqb (rshape a) (rshape b)) eqn:Er; cbn [negb]; [|cbn; auto].
  destruct (is_batch_broadcasting_possible a b); cbn [negb]; [|cbn; auto].
  apply llist_eqb_eq in Er. pose proof (same_ndims Rring a b Ha Hb Er) as Hd.
  assert (G : forall sl sr so obs, In (sl, sr, so) [("", "", ""); ("n", "", "n"); ("", "n", "n"); ("n", "n", "n"); ("n", "m", "nm")]%string ->
    rel3 (ttnear (fun k => wa k + wb k + 1))
    (do cs <- mapM (fun i =>
      let lr := rk a' i * rk b' i in
      let rr := rk a' (S i) * rk b' (S i) in
      do c <- (if is_tt_matrix a then
          do c <- f_einsum ar (sl ++ "aijb," ++ sr ++ "cijd->" ++ so ++ "acijbd")%string [core a' i; core b' i];
          reshape c [None; Some lr; Some (mode a' 0 i); Some (mode a' 1 i); Some rr]
        else
          do c <- f_einsum ar (sl ++ "aib," ++ sr ++ "cid->" ++ so ++ "acibd")%string [core a' i; core b' i];
          reshape c [None; Some lr; Some (mode a' 0 i); Some rr]);
      if is_batch a || is_batch b then Ok c else squeeze_axis c 0)
    (seq 0 (ndims a));
    let out_ranks := map2 Nat.mul (rks a) (rks b) in
    if is_batch a || is_batch b then TensorTrainBatch cs (STuple (rshape a)) (Some out_ranks) obs
    else TensorTrain cs (STuple (rshape a)) (Some out_ranks))
    (do cs <- mapM (fun i =>
      let lr := rk a i * rk b i in
      let rr := rk a (S i) * rk b (S i) in
      do c <- (if is_tt_matrix a then
          do c <- einsum (sl ++ "aijb," ++ sr ++ "cijd->" ++ so ++ "acijbd")%string [core a i; core b i];
          reshape c [None; Some lr; Some (mode a 0 i); Some (mode a 1 i); Some rr]
        else
          do c <- einsum (sl ++ "aib," ++ sr ++ "cid->" ++ so ++ "acibd")%string [core a i; core b i];
          reshape c [None; Some lr; Some (mode a 0 i); Some rr]);
      if is_batch a || is_batch b then Ok c else squeeze_axis c 0)
    (seq 0 (ndims a));
    let out_ranks := map2 Nat.mul (rks a) (rks b) in
    if is_batch a || is_batch b then TensorTrainBatch cs (STuple (rshape a)) (Some out_ranks) obs
    else TensorTrain cs (STuple (rshape a)) (Some out_ranks))
    (do cs <- mapM (fun i =>
      let lr := rk A i * rk B i in
      let rr := rk A (S i) * rk B (S i) in
      do c <- (if is_tt_matrix a then
          do c <- einsum (sl ++ "aijb," ++ sr ++ "cijd->" ++ so ++ "acijbd")%string [core A i; core B i];
          reshape c [None; Some lr; Some (mode A 0 i); Some (mode A 1 i); Some rr]
        else
          do c <- einsum (sl ++ "aib," ++ sr ++ "cid->" ++ so ++ "acibd")%string [core A i; core B i];
          reshape c [None; Some lr; Some (mode A 0 i); Some rr]);
      if is_batch a || is_batch b then Ok c else squeeze_axis c 0)
    (seq 0 (ndims a));
    let out_ranks := map2 Nat.mul (rks a) (rks b) in
    if is_batch a || is_batch b then TensorTrainBatch cs (STuple (rshape a)) (Some out_ranks) obs
    else TensorTrain cs (STuple (rshape a)) (Some out_ranks))).
  { intros sl sr so obs Hin. eapply rel3_bind.
    - apply (mapM_rel (fun k => tnear (wa k + wb k + 1)) (Tensor [] [])). intros i Hi. cbn [Nat.add]. cbv zeta.
      rewrite K1, K2, K3, K4, !K1, !K2, !K3, !K4, !O1, !O2.
      assert (EE : forall eq, einsum_terms eq [core a i; core b i] <= 1 ->
        rel3 (tnear (wa i + wb i + 1)) (f_einsum ar eq [core a' i; core b' i]) (einsum eq [core a i; core b i]) (einsum eq [core A i; core B i])).
      { intros eq He. eapply rel3_mono; [eapply (einsum_rel u Hu ar Har); [apply lnear2; apply ttnear_core; try eassumption; lia|cbn; lia]|].
        intros ? ? ? T. eapply tnear_more; [exact Hu|exact T|]. cbn [list_sum fold_right length]. lia. }
      eapply rel3_bind; [instantiate (1 := tnear (wa i + wb i + 1))|].
      + destruct (is_tt_matrix a) eqn:Em; (eapply rel3_bind; [apply EE; apply mul_terms_le; auto; exists sl, sr, so; auto|]; intros ? ? ? T; now apply reshape_rel).
      + intros ? ? ? T. destruct (is_batch a || is_batch b); [exact T|now apply squeeze_axis_rel].
    - intros l m n (T & _). cbv zeta. destruct (is_batch a || is_batch b); [now apply TensorTrainBatch_rel|now apply TensorTrain_rel]. }
  destruct (bsz a) as [x|], (bsz b) as [y|]; [destruct (x =? y)|..]; apply G; cbn; auto 10.
Qed.
End U.
