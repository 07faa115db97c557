(** [transpose], [tt_dense_matmul], [dense_tt_matmul]: correctness. *)
From Coq Require Import String List Arith ZArith Lia Bool Ring.
From Verif Require Import Scalar Tensor TensorLemmas TensorLemmas2 Base Spec Chain BaseLemmas Ops
  FullProofs ResultLemmas Dense AddProofs MulProofs MatmulProofs.
Import ListNotations.

Lemma firstn_snoc {A} k (l : list A) d : k < length l -> firstn (S k) l = firstn k l ++ [nth k l d].
Proof.
  revert l; induction k; intros [|x l] H; cbn [length] in H; try lia; [reflexivity|].
  change (firstn (S (S k)) (x :: l)) with (x :: firstn (S k) l). rewrite IHk by lia. reflexivity.
Qed.

Section WithK.
Variable K : cring.
Add Ring Kring : (cth K).
Implicit Types t : tt K.

Lemma chain_map (f : list nat -> list nat) (G G' : nat -> nat -> list nat -> nat -> K) r k J v a :
  (forall m a j b, k <= m < k + length J -> a < r m -> b < r (S m) -> In j J -> G' m a (f j) b = G m a j b) ->
  a < r k ->
  chain G' r k (map f J) v a = chain G r k J v a.
Proof.
  revert k a; induction J as [|j J IH]; intros k a H Ha; cbn [chain map]; auto.
  apply sumn_ext. intros b Hb. rewrite H by (cbn; auto; lia). f_equal. apply IH; auto.
  intros. apply H; cbn; auto; lia.
Qed.

Lemma vchain_in ms k J j : vchain ms k J -> In j J -> exists m, k <= m < k + length J /\ vidx (ms m) j.
Proof.
  revert k; induction J as [|j' J IH]; intros k H Hin; [destruct Hin|].
  destruct Hin as [->|Hin]; cbn [vchain length] in *.
  - exists k. split; [lia|apply H].
  - destruct (IH (S k)) as (m & Hm & Hv); [apply H|auto|]. exists m. split; [lia|auto].
Qed.

Definition swap2 (j : list nat) : list nat := match j with [i; k] => [k; i] | j => j end.

Lemma map_swap2 I J : map swap2 (pairs I J) = pairs J I.
Proof. revert J; induction I; destruct J; cbn; auto. f_equal. apply IHI. Qed.

(** *** transpose *)
Lemma transpose_core_ok t i : wf t -> is_tt_matrix t = true -> i < ndims t ->
  exists c, transpose (core t i) (if is_batch t then [0; 1; 3; 2; 4] else [0; 2; 1; 3]) = Ok c /\ wft c /\
    shape c = bpre t ++ rk t i :: [mode t 1 i; mode t 0 i] ++ [rk t (S i)] /\
    forall pre a j k b, vidx (bpre t) pre -> a < rk t i -> j < mode t 0 i -> k < mode t 1 i -> b < rk t (S i) ->
      get c (pre ++ a :: [k; j] ++ [b]) = coreG t pre i a [j; k] b.
Proof.
  intros Hw Hm Hi. pose proof (core_shape _ t i Hw Hi) as Sc.
  destruct (wf_kind_cases _ t Hw) as [(E & _)|(_ & _ & E)]; [congruence|]. rewrite E in Sc.
  unfold is_batch, bpre, coreG in *. destruct (bsz t) as [B|]; cbn [app] in Sc.
  - destruct (transpose_ok K (core t i) [0; 1; 3; 2; 4]) as (c & Hc & Hwc & Hs & Hg).
    { unfold rank. rewrite Sc. reflexivity. }
    exists c. rewrite Sc in *. repeat (split; [assumption|]).
    intros pre a j k b Hp Ha Hj Hk Hb. apply vidx_1_inv in Hp as (o & -> & Ho).
    apply (Hg [o; a; j; k; b]). vsolve.
  - destruct (transpose_ok K (core t i) [0; 2; 1; 3]) as (c & Hc & Hwc & Hs & Hg).
    { unfold rank. rewrite Sc. reflexivity. }
    exists c. rewrite Sc in *. repeat (split; [assumption|]).
    intros pre a j k b Hp Ha Hj Hk Hb. inversion Hp; subst.
    apply (Hg [a; j; k; b]). vsolve.
Qed.

Lemma transpose_entries t : wf t -> is_tt_matrix t = true ->
  exists c, tt_transpose t = Ok c /\ wf c /\ rshape c = [nth 1 (rshape t) []; nth 0 (rshape t) []] /\
    rks c = rks t /\ bsz c = bsz t /\ ndims c = ndims t /\
    (forall i pre a j k b, i < ndims t -> vidx (bpre t) pre -> a < rk t i -> j < mode t 0 i -> k < mode t 1 i ->
       b < rk t (S i) -> coreG c pre i a [k; j] b = coreG t pre i a [j; k] b) /\
    forall pre I J, vidx (bpre t) pre -> vidx (nth 0 (rshape t) []) I -> vidx (nth 1 (rshape t) []) J ->
      tt_entry c pre (pairs J I) = tt_entry t pre (pairs I J).
Proof.
  intros Hw Hm. unfold tt_transpose. rewrite Hm. cbn [negb].
  destruct (matrix_rows_len K t Hw Hm) as [L0 L1].
  match goal with |- context [mapM ?f _] => destruct (build_ok K f
    (fun i c => forall pre a j k b, vidx (bpre t) pre -> a < rk t i -> j < mode t 0 i -> k < mode t 1 i ->
      b < rk t (S i) -> get c (pre ++ a :: [k; j] ++ [b]) = coreG t pre i a [j; k] b)
    (ndims t) (bsz t) [nth 1 (rshape t) []; nth 0 (rshape t) []] (rks t))
    as (cs & Hcs & Hl & Hcon & Hwc & HP) end; try apply Hw; auto.
  - apply Nat.eqb_eq in Hm. repeat constructor; [apply (Forall_nth' _ _ 1 [] (wf_rpos Hw)); lia|
      apply (Forall_nth' _ _ 0 [] (wf_rpos Hw)); lia].
  - intros i Hi. destruct (transpose_core_ok t i Hw Hm Hi) as (c & Hc & Hwc & Hs & Hg).
    exists c. repeat (split; [assumption|]). exact Hg.
  - rewrite Hcs. cbn [bind].
    set (c := TT cs [nth 1 (rshape t) []; nth 0 (rshape t) []] (rks t) (bsz t)) in *.
    exists c. split; [unfold construct in Hcon; destruct (bsz t); exact Hcon|].
    repeat (split; [first [reflexivity|assumption]|]).
    assert (HG : forall i pre a j k b, i < ndims t -> vidx (bpre t) pre -> a < rk t i -> j < mode t 0 i ->
       k < mode t 1 i -> b < rk t (S i) -> coreG c pre i a [k; j] b = coreG t pre i a [j; k] b).
    { intros. unfold coreG at 1, core. cbn [cores c]. apply HP; auto. }
    split; [exact HG|].
    intros pre I J Hp HI HJ. unfold tt_entry. rewrite <- map_swap2.
    destruct (pairs_valid K t I J Hw Hm HI HJ) as [V1 V2].
    change (rk c) with (rk t). rewrite (chain_map swap2 (fun m a j b => coreG c pre m a (swap2 j) b)).
    + symmetry. eapply chain_ext; eauto.
      * rewrite (wf_first Hw). lia.
      * intros m x j y Hmm Hx Hy Hj.
        destruct (wf_kind_cases _ t Hw) as [(E & _)|(_ & _ & E)]; [congruence|]. rewrite E in Hj.
        apply vidx_2_inv in Hj as (j0 & j1 & -> & H0 & H1). cbn [swap2]. symmetry. apply HG; auto. lia.
    + intros. reflexivity.
    + rewrite (wf_first Hw). lia.
Qed.

Lemma transpose_full t : wf t -> is_tt_matrix t = true ->
  exists c da dc, tt_transpose t = Ok c /\ wf c /\ rshape c = [nth 1 (rshape t) []; nth 0 (rshape t) []] /\ bsz c = bsz t /\ rks c = rks t /\
    full t = Ok da /\ full c = Ok dc /\
    shape da = bpre t ++ [prodn (nth 0 (rshape t) []); prodn (nth 1 (rshape t) [])] /\
    shape dc = bpre t ++ [prodn (nth 1 (rshape t) []); prodn (nth 0 (rshape t) [])] /\
    forall pre i j, vidx (bpre t) pre -> i < prodn (nth 0 (rshape t) []) -> j < prodn (nth 1 (rshape t) []) ->
      get dc (pre ++ [j; i]) = get da (pre ++ [i; j]).
Proof.
  intros Hw Hm. destruct (transpose_entries t Hw Hm) as (c & Hc & Hwc & R & Kc & B & N & _ & E).
  assert (Mc : is_tt_matrix c = true) by (unfold is_tt_matrix; now rewrite R).
  destruct (full_matrix K t Hw Hm) as (da & Fa & Wa & Sa & Ea).
  destruct (full_matrix K c Hwc Mc) as (dc & Fc & Wc & Sc & Ec).
  assert (Bc : bpre c = bpre t) by (unfold bpre; now rewrite B).
  rewrite Bc in *. rewrite R in Sc, Ec. cbn [nth] in *.
  exists c, da, dc. repeat (split; [assumption|]).
  intros pre i j Hp Hi Hj. rewrite Ec, Ea by auto. apply E; auto using unravel_valid.
Qed.

Lemma tt_ext (a b : tt K) : wf a -> wf b -> rshape a = rshape b -> rks a = rks b -> bsz a = bsz b -> ndims a = ndims b ->
  (forall i pre x j y, i < ndims a -> vidx (bpre a) pre -> x < rk a i -> vidx (modes a i) j -> y < rk a (S i) ->
     coreG a pre i x j y = coreG b pre i x j y) -> a = b.
Proof.
  intros Ha Hb R Kk B N H.
  assert (HC : cores a = cores b).
  { apply (nth_ext _ _ (core0 K) (core0 K) N). intros i Hi.
    change (core a i = core b i).
    assert (Hi' : i < ndims b) by (unfold ndims in *; lia).
    apply tensor_ext.
    - now apply core_wft.
    - now apply core_wft.
    - rewrite !core_shape by auto. unfold bpre, rk, modes. now rewrite R, Kk, B.
    - intros idx. rewrite core_shape by auto. intros Hv.
      apply vidx_app_inv in Hv as (pre & I & -> & Hp & HI).
      apply vidx_cons_inv' in HI as (x & I' & -> & Hx & HI').
      apply vidx_app_inv in HI' as (j & Y & -> & Hj & HY). apply vidx_1_inv in HY as (y & -> & Hy).
      apply H; auto. }
  destruct a, b; cbn in *; subst; reflexivity.
Qed.

Lemma transpose_involutive t c : wf t -> is_tt_matrix t = true -> tt_transpose t = Ok c -> tt_transpose c = Ok t.
Proof.
  intros Hw Hm Hc. destruct (transpose_entries t Hw Hm) as (c' & Hc' & Hwc & R & Kc & B & N & G & E).
  assert (c' = c) by congruence. subst c'.
  assert (Mc : is_tt_matrix c = true) by (unfold is_tt_matrix; now rewrite R).
  destruct (transpose_entries c Hwc Mc) as (t' & Ht' & Hwt & R' & K' & B' & N' & G' & E').
  rewrite Ht'. f_equal. rewrite R in R'. cbn [nth] in R'.
  assert (RR : rshape t' = rshape t).
  { rewrite R'. apply Nat.eqb_eq in Hm. destruct (rshape t) as [|s0 [|s1 [|? ?]]]; cbn in Hm; try lia; reflexivity. }
  apply tt_ext; auto; try congruence.
  assert (Hb : bpre t' = bpre c /\ bpre c = bpre t) by (unfold bpre; split; [now rewrite B'|now rewrite B]). destruct Hb as [Hb1 Hb2].
  assert (Hk : forall i, rk t' i = rk c i /\ rk c i = rk t i) by (intros; unfold rk; split; [now rewrite K'|now rewrite Kc]).
  assert (Hmo : forall i, mode c 0 i = mode t 1 i /\ mode c 1 i = mode t 0 i).
  { intros. unfold mode. rewrite R. auto. }
  intros i pre x j y Hi Hp Hx Hj Hy.
  rewrite (modes_ext _ t' t i RR) in Hj.
  destruct (wf_kind_cases _ t Hw) as [(E0 & _)|(_ & _ & E0)]; [congruence|]. rewrite E0 in Hj.
  apply vidx_2_inv in Hj as (j0 & j1 & -> & H0 & H1).
  destruct (Hk i) as [K1 K2]. destruct (Hk (S i)) as [K3 K4]. destruct (Hmo i) as [M1 M2].
  rewrite G'; [apply G| | | | | |]; try congruence; lia.
Qed.

Lemma transpose_kind_err t : is_tt_matrix t = false -> tt_transpose t = Err ValueError.
Proof. intros H. unfold tt_transpose. now rewrite H. Qed.

(** *** TT-matrix by dense matrix *)
Section TTDense.
Variable a : tt K.
Variable b : tensor K.
Variable P : nat.
Hypothesis Hw : wf a.
Hypothesis Hm : is_tt_matrix a = true.
Hypothesis Hb : bsz a = None.
Hypothesis Wb : wft b.
Let rows := nth 0 (rshape a) [].
Let cols := nth 1 (rshape a) [].
Hypothesis Sb : shape b = [prodn cols; P].

Definition vsh (i : nat) : list nat := skipn i rows ++ P :: firstn i cols ++ [rk a i].

Definition dinv (i : nat) (D : tensor K) : Prop :=
  wft D /\ size D = prodn (vsh i) /\
  (0 < i -> shape D = [prodn (skipn i rows ++ P :: firstn (i - 1) cols); mode a 1 (i - 1); rk a i]) /\
  forall I p J x, vidx (skipn i rows) I -> p < P -> vidx (firstn i cols) J -> x < rk a i ->
    get (Tensor (vsh i) (data D)) (I ++ p :: J ++ [x]) =
    isum (skipn i cols) (fun J' => chain (coreG a []) (rk a) i (pairs I J') (fun _ => c1) x *
       get b [ravel cols (J ++ J'); p])%K.

Lemma cols_pos : Forall (fun n => 0 < n) cols /\ Forall (fun n => 0 < n) rows.
Proof.
  apply Nat.eqb_eq in Hm. unfold cols, rows. split; [apply (Forall_nth' _ _ 1 [] (wf_rpos Hw)); lia|
      apply (Forall_nth' _ _ 0 [] (wf_rpos Hw)); lia].
Qed.

Lemma mode_pos1 i : i < ndims a -> 0 < mode a 1 i /\ 0 < mode a 0 i.
Proof.
  intros Hi. destruct (matrix_rows_len K a Hw Hm) as [L0 L1]. destruct cols_pos as [C1 C2].
  unfold mode. split; [apply (Forall_nth' _ _ i 0 C1)|apply (Forall_nth' _ _ i 0 C2)]; unfold rows, cols; lia.
Qed.

(** Reshape to three axes before processing core [i]. *)
Lemma dinv_reshape i (D : tensor K) : 0 < i <= ndims a -> wft D -> size D = prodn (vsh i) ->
  exists D', reshape D [None; Some (mode a 1 (i - 1)); Some (rk a i)] = Ok D' /\ data D' = data D /\
    wft D' /\ shape D' = [prodn (skipn i rows ++ P :: firstn (i - 1) cols); mode a 1 (i - 1); rk a i].
Proof.
  intros Hi WD SD. destruct (matrix_rows_len K a Hw Hm) as [L0 L1].
  destruct (mode_pos1 (i - 1) ltac:(lia)) as [Hp _]. pose proof (rk_pos _ a i Hw ltac:(lia)) as Hr.
  assert (Ef : firstn i cols = firstn (i - 1) cols ++ [mode a 1 (i - 1)]).
  { replace i with (S (i - 1)) at 1 by lia. rewrite (firstn_snoc _ _ 0) by (unfold cols; lia). reflexivity. }
  assert (Esz : prodn (skipn i rows ++ P :: firstn (i - 1) cols) * (mode a 1 (i - 1) * rk a i) = size D).
  { rewrite SD. unfold vsh. rewrite Ef. pns. ring. }
  eexists. split; [|split; [|split]].
  - apply (reshape_infer K D [] [mode a 1 (i - 1); rk a i]
       (prodn (skipn i rows ++ P :: firstn (i - 1) cols))).
    + pns. lia.
    + pns. nia.
    + rewrite <- Esz. pns. lia.
  - reflexivity.
  - unfold wft. cbn [data shape app]. rewrite WD. fold (size D). rewrite <- Esz.
    rewrite !prodn_cons, prodn_nil. lia.
  - reflexivity.
Qed.

Lemma dinv_step i (D : tensor K) : i < ndims a -> dinv (S i) D ->
  exists D', (do d' <- einsum "aijb,rjb->ira" [core a i; D];
      if Nat.ltb 0 i then reshape d' [None; Some (mode a 1 (i - 1)); Some (rk a i)]
      else Ok d') = Ok D' /\ dinv i D'.
Proof.
  intros Hi (WD & SD & ShD & GD). specialize (ShD ltac:(lia)).
  replace (S i - 1) with i in ShD by lia.
  destruct (matrix_rows_len K a Hw Hm) as [L0 L1].
  pose proof (core_shape _ a i Hw Hi) as Sc. unfold bpre in Sc. rewrite Hb in Sc. cbn [app] in Sc.
  destruct (wf_kind_cases _ a Hw) as [(E & _)|(_ & _ & E)]; [congruence|]. rewrite E in Sc. cbn [app] in Sc.
  set (R := prodn (skipn (S i) rows ++ P :: firstn i cols)) in *.
  assert (HE : exists d', einsum "aijb,rjb->ira" [core a i; D] = Ok d' /\ wft d' /\
     shape d' = [mode a 0 i; R; rk a i] /\
     forall im r x, im < mode a 0 i -> r < R -> x < rk a i ->
       get d' [im; r; x] = sumn (mode a 1 i) (fun j => sumn (rk a (S i)) (fun y =>
          get (core a i) [x; im; j; y] * get D [r; j; y]))%K).
  { einsum_solve. }
  destruct HE as (d' & Ed & Wd & Sd & Gd). rewrite Ed. cbn [bind].
  assert (Er : skipn i rows = mode a 0 i :: skipn (S i) rows).
  { apply skipn_nth_cons. unfold rows. lia. }
  assert (Ec : skipn i cols = mode a 1 i :: skipn (S i) cols).
  { apply skipn_nth_cons. unfold cols. lia. }
  assert (Ef : firstn (S i) cols = firstn i cols ++ [mode a 1 i]).
  { apply firstn_snoc. unfold cols. lia. }
  assert (Sz : size d' = prodn (vsh i)).
  { unfold size. rewrite Sd. unfold vsh. rewrite Er. unfold R. pns. ring. }
  assert (HG : forall I p J x, vidx (skipn i rows) I -> p < P -> vidx (firstn i cols) J -> x < rk a i ->
    get (Tensor (vsh i) (data d')) (I ++ p :: J ++ [x]) =
    isum (skipn i cols) (fun J' => chain (coreG a []) (rk a) i (pairs I J') (fun _ => c1) x *
       get b [ravel cols (J ++ J'); p])%K).
  { intros I p J x HI Hp HJ Hx. rewrite Er in HI. apply vidx_cons_inv' in HI as (im & I' & -> & Him & HI').
    pose proof (vidx_length _ _ HI') as LI'. pose proof (vidx_length _ _ HJ) as LJ.
    rewrite (get_reshaped K _ _ d' _ [im; ravel (skipn (S i) rows ++ P :: firstn i cols) (I' ++ p :: J); x]); auto.
    2:{ rewrite Sd. unfold vsh. rewrite Er. cbn [app ravel]. rewrite !ravel_app by auto. cbn [ravel].
        rewrite !ravel_app by auto. cbn [ravel]. unfold R. pns. ring. }
    rewrite Gd; auto.
    2:{ apply ravel_lt. apply vidx_app; auto. apply vidx_cons; auto. }
    rewrite Ec. cbn [isum]. apply sumn_ext. intros j Hj.
    rewrite (sumn_ext _ _ _ (fun y => isum (skipn (S i) cols) (fun J' =>
      coreG a [] i x [im; j] y * chain (coreG a []) (rk a) (S i) (pairs I' J') (fun _ => c1) y *
      get b [ravel cols (J ++ j :: J'); p]))%K).
    2:{ intros y Hy.
        assert (EG : get D [ravel (skipn (S i) rows ++ P :: firstn i cols) (I' ++ p :: J); j; y] =
          get (Tensor (vsh (S i)) (data D)) (I' ++ p :: (J ++ [j]) ++ [y])).
        { symmetry. apply get_reshaped; auto. rewrite ShD. unfold vsh. rewrite Ef.
          cbn [app ravel]. rewrite !ravel_app by auto. cbn [ravel].
          rewrite !ravel_app by (rewrite ?app_length; cbn; auto; lia). cbn [ravel].
          rewrite ?ravel_app by auto. cbn [ravel]. pns. ring. }
        rewrite EG, GD; auto.
        2:{ rewrite Ef. apply vidx_app; auto. vsolve. }
        rewrite <- isum_mul_l. apply isum_ext. intros J' _. rewrite <- app_assoc. cbn [app]. unfold coreG at 2. cbn [app]. ring. }
    rewrite <- isum_sumn_swap. apply isum_ext. intros J' _. cbn [pairs map2 chain]. fold (pairs I' J').
    rewrite <- sumn_mul_r. reflexivity. }
  destruct (Nat.ltb_spec 0 i) as [Hi0|Hi0].
  - destruct (dinv_reshape i d' ltac:(lia) Wd Sz) as (D' & E1 & E2 & E3 & E4).
    exists D'. split; [exact E1|]. split; [exact E3|]. split; [|split].
    + unfold size. rewrite <- E3, E2, Wd. exact Sz.
    + auto.
    + rewrite E2. exact HG.
  - exists d'. split; [reflexivity|]. split; [exact Wd|]. split; [exact Sz|]. split; [lia|exact HG].
Qed.

Lemma tt_dense_ok : exists r, tt_dense_matmul a b = Ok r /\ wft r /\ shape r = [prodn rows; P] /\
  forall i p, i < prodn rows -> p < P ->
    get r [i; p] = sumn (prodn cols) (fun j =>
       tt_entry a [] (pairs (unravel rows i) (unravel cols j)) * get b [j; p])%K.
Proof.
  destruct (matrix_rows_len K a Hw Hm) as [L0 L1].
  assert (Hsh : get_shape a = [prodn rows; prodn cols]).
  { rewrite get_shape_ishape. unfold bpre, ishape. rewrite Hb, Hm. unfold rows, cols. apply Nat.eqb_eq in Hm.
    destruct (rshape a) as [|s0 [|s1 [|? ?]]]; cbn in Hm; try lia; reflexivity. }
  unfold tt_dense_matmul, lazy_shape, is_batch. rewrite Hb, Hm, Sb, Hsh. cbn [negb orb].
  unfold nthr at 1. cbn [nth_error bind nth]. rewrite Nat.eqb_refl. cbn [negb].
  unfold transpose_rev.
  destruct (transpose_ok K b [1; 0]) as (d0 & E0 & W0 & S0 & G0).
  { unfold rank. rewrite Sb. reflexivity. }
  unfold rank. rewrite Sb. cbn [length seq rev app]. rewrite E0. cbn [bind].
  rewrite Sb in S0. cbn [map nth] in S0.
  pose proof (wf_d Hw) as Hd.
  assert (Sz0 : size d0 = prodn (vsh (ndims a))).
  { unfold size, vsh. rewrite S0. rewrite skipn_all2 by (unfold rows; lia).
    rewrite firstn_all2 by (unfold cols; lia). rewrite (wf_last Hw). cbn [app]. pns. lia. }
  destruct (dinv_reshape (ndims a) d0 ltac:(lia) W0 Sz0) as (d1 & E1 & D1 & W1 & S1).
  rewrite (wf_last Hw) in E1. rewrite E1. cbn [bind].
  destruct (foldM_rev_seq (fun i d =>
      do d' <- einsum "aijb,rjb->ira" [core a i; d];
      if Nat.ltb 0 i then reshape d' [None; Some (mode a 1 (i - 1)); Some (rk a i)]
      else Ok d') dinv (ndims a) d1) as (d2 & E2 & W2 & Sz2 & _ & G2).
  - split; [exact W1|]. split; [unfold size; rewrite <- W1, D1, W0; exact Sz0|].
    split; [intros _; exact S1|].
    intros I p J x HI Hp HJ Hx. rewrite skipn_all2 in * by (unfold rows, cols; lia).
    rewrite firstn_all2 in HJ by (unfold cols; lia). inversion HI; subst. cbn [pairs map2 app isum chain].
    rewrite app_nil_r. rewrite (wf_last Hw) in Hx. assert (x = 0) by lia. subst x.
    pose proof (vidx_length _ _ HJ) as LJ.
    rewrite (get_reshaped K _ _ d0 _ [p; ravel cols J]); auto.
    2:{ rewrite S0. unfold vsh. rewrite skipn_all2 by (unfold rows; lia).
        rewrite firstn_all2 by (unfold cols; lia). rewrite (wf_last Hw). cbn [app ravel].
        rewrite ravel_app by auto. cbn [ravel]. pns. ring. }
    pose proof (G0 [ravel cols J; p]) as HG. cbn [map nth] in HG. rewrite HG.
    + ring.
    + rewrite Sb. apply vidx_cons; [now apply ravel_lt|vsolve].
  - intros i D Hi HD. now apply dinv_step.
  - rewrite E2. cbn [bind]. unfold nthr. cbn [nth_error bind].
    assert (Sz : prodn [prodn rows; P] = size d2).
    { rewrite Sz2. unfold vsh. cbn [skipn firstn]. rewrite (wf_first Hw). cbn [app]. pns. lia. }
    pose proof (reshape_exact K d2 [prodn rows; P] Sz) as HR. cbn [map] in HR. cbn [nth]. rewrite HR.
    eexists. split; [reflexivity|]. split; [|split; [reflexivity|]].
    { unfold wft. cbn [data shape]. rewrite W2. symmetry. exact Sz. }
    intros i p Hi Hp. specialize (G2 (unravel rows i) p [] 0).
    cbn [skipn firstn app] in G2.
    transitivity (get (Tensor (vsh 0) (data d2)) (unravel rows i ++ [p; 0])).
    { unfold get. cbn [data shape]. f_equal. unfold vsh. cbn [skipn firstn app].
      rewrite (wf_first Hw). rewrite ravel_app by (apply vidx_length; now apply unravel_valid).
      cbn [ravel]. rewrite ravel_unravel by auto. pns. lia. }
    rewrite G2; auto using unravel_valid.
    2:{ constructor. }
    2:{ rewrite (wf_first Hw). lia. }
    rewrite isum_unravel. apply sumn_ext. intros j Hj. unfold tt_entry. now rewrite ravel_unravel.
Qed.

End TTDense.

Lemma tt_dense_full (a : tt K) (b : tensor K) P : wf a -> is_tt_matrix a = true -> bsz a = None -> wft b ->
  shape b = [prodn (nth 1 (rshape a) []); P] ->
  exists da r, full a = Ok da /\ tt_dense_matmul a b = Ok r /\ wft r /\ dense_product da b r.
Proof.
  intros Hw Hm Hb Wb Sb.
  destruct (tt_dense_ok a b P Hw Hm Hb Sb) as (r & Hr & Wr & Sr & Gr).
  destruct (full_matrix K a Hw Hm) as (da & Fa & Wa & Sa & Ea).
  exists da, r. repeat (split; [assumption|]). unfold bpre in *. rewrite Hb in *. cbn [app] in Sa.
  do 3 eexists. repeat (split; [eassumption|]).
  intros i k Hi Hk. rewrite Gr by auto. apply sumn_ext. intros j Hj.
  specialize (Ea [] i j). cbn [app] in Ea. rewrite Ea; auto. constructor.
Qed.

Lemma tt_dense_mis (a : tt K) (b : tensor K) n l : bsz a = None -> is_tt_matrix a = true ->
  shape b = n :: l -> n <> prodn (nth 1 (rshape a) []) -> tt_dense_matmul a b = Err TypeError.
Proof.
  intros Hb Hm Sb Hn. unfold tt_dense_matmul, is_batch. rewrite Hb, Hm, Sb. cbn [negb orb].
  unfold nthr. cbn [nth_error bind].
  assert (Hsh : nth 1 (get_shape a) 0 = prodn (nth 1 (rshape a) [])).
  { rewrite get_shape_ishape. unfold bpre, ishape. rewrite Hb, Hm. apply Nat.eqb_eq in Hm.
    destruct (rshape a) as [|s0 [|s1 [|? ?]]]; cbn in Hm; try lia; reflexivity. }
  rewrite Hsh. assert (E : Nat.eqb (prodn (nth 1 (rshape a) [])) n = false) by (apply Nat.eqb_neq; auto).
  now rewrite E.
Qed.

Lemma tt_dense_kind_err (a : tt K) (b : tensor K) : is_batch a = true \/ is_tt_matrix a = false ->
  tt_dense_matmul a b = Err ValueError.
Proof.
  intros [H|H]; unfold tt_dense_matmul; rewrite H; auto. now rewrite orb_true_r.
Qed.

Lemma dense_tt_full (a : tensor K) (b : tt K) M : wf b -> is_tt_matrix b = true -> bsz b = None -> wft a ->
  shape a = [M; prodn (nth 0 (rshape b) [])] ->
  exists db r, full b = Ok db /\ dense_tt_matmul a b = Ok r /\ wft r /\ dense_product a db r.
Proof.
  intros Hw Hm Hb Wa Sa. unfold dense_tt_matmul, transpose_rev.
  destruct (transpose_ok K a [1; 0]) as (at' & Ea & Wat & Sat & Gat).
  { unfold rank. rewrite Sa. reflexivity. }
  unfold rank at 1. rewrite Sa. cbn [length seq rev app]. rewrite Ea. cbn [bind].
  rewrite Sa in Sat. cbn [map nth] in Sat.
  destruct (transpose_full b Hw Hm) as (bt & db & dbt & Ebt & Wbt & _ & Bbt & Kbt & Fb & Fbt & Sdb & Sdbt & Gb).
  rewrite Ebt. cbn [bind].
  destruct (transpose_entries b Hw Hm) as (bt' & Ebt' & _ & R & _).
  assert (bt' = bt) by congruence. subst bt'.
  assert (Mbt : is_tt_matrix bt = true) by (unfold is_tt_matrix; now rewrite R).
  unfold bpre in *. rewrite Hb in *. cbn [app] in *.
  destruct (tt_dense_full bt at' M Wbt Mbt ltac:(congruence) Wat) as (dbt' & r0 & F & Hr0 & Wr0 & Hp).
  { rewrite R. cbn [nth]. exact Sat. }
  rewrite Hr0. cbn [bind]. assert (dbt' = dbt) by congruence. subst dbt'.
  destruct Hp as (N' & M' & P' & Z1 & Z2 & Z3 & Z4).
  rewrite Sdbt in Z1. injection Z1 as <- <-. rewrite Sat in Z2. injection Z2 as <-.
  destruct (transpose_ok K r0 [1; 0]) as (r & Er & Wr & Sr & Gr).
  { unfold rank. rewrite Z3. reflexivity. }
  unfold rank. rewrite Z3. cbn [length seq rev app]. rewrite Er. rewrite Z3 in Sr, Gr. cbn [map nth] in Sr.
  exists db, r. repeat (split; [first [reflexivity|assumption]|]).
  do 3 eexists. repeat (split; [eassumption|]).
  intros i k Hi Hk. pose proof (Gr [k; i]) as G1. cbn [map nth] in G1. rewrite G1 by vsolve.
  rewrite Z4 by auto. apply sumn_ext. intros j Hj.
  pose proof (Gb [] j k) as G2. cbn [app] in G2. rewrite G2 by (auto; constructor).
  pose proof (Gat [i; j]) as G3. cbn [map nth] in G3. rewrite Sa in G3. rewrite G3 by vsolve. ring.
Qed.

Lemma dense_tt_mis (a : tensor K) (b : tt K) M n : wf b -> is_tt_matrix b = true -> bsz b = None -> wft a ->
  shape a = [M; n] -> n <> prodn (nth 0 (rshape b) []) -> dense_tt_matmul a b = Err TypeError.
Proof.
  intros Hw Hm Hb Wa Sa Hn. unfold dense_tt_matmul, transpose_rev.
  destruct (transpose_ok K a [1; 0]) as (at' & Ea & Wat & Sat & Gat).
  { unfold rank. rewrite Sa. reflexivity. }
  unfold rank at 1. rewrite Sa. cbn [length seq rev app]. rewrite Ea. cbn [bind].
  rewrite Sa in Sat. cbn [map nth] in Sat.
  destruct (transpose_entries b Hw Hm) as (bt & Ebt & Wbt & R & Kb & Bb & _).
  rewrite Ebt. cbn [bind].
  rewrite (tt_dense_mis bt at' n [M]); auto; try congruence.
  - unfold is_tt_matrix. now rewrite R.
  - now rewrite R.
Qed.

End WithK.
