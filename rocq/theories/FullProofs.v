(** [full] computes the tensor the TT format stands for. *)
From Coq Require Import String List Arith ZArith Lia Bool Ring.
From Verif Require Import Scalar Tensor TensorLemmas TensorLemmas2 Base Spec Chain BaseLemmas Ops.
Import ListNotations.

Section WithK.
Variable K : cring.
Add Ring Kring : (cth K).
Implicit Types t : tt K.

Definition fm (ms : nat -> list nat) (i : nat) : list nat := List.concat (map ms (seq 0 i)).

Lemma fm_S ms i : fm ms (S i) = fm ms i ++ ms i.
Proof. unfold fm. rewrite seq_S, map_app, concat_app. cbn. now rewrite app_nil_r. Qed.

Lemma concat_snoc {A} (J : list (list A)) j : List.concat (J ++ [j]) = List.concat J ++ j.
Proof. rewrite concat_app. cbn. now rewrite app_nil_r. Qed.

Lemma vidx_concat ms J : vchain ms 0 J -> vidx (fm ms (length J)) (List.concat J).
Proof.
  induction J as [|j J IH] using rev_ind; intros H; [constructor|].
  rewrite app_length. cbn. rewrite Nat.add_1_r, fm_S, concat_snoc.
  apply vchain_app in H as [H1 [H2 _]]. apply vidx_app; auto.
Qed.

Lemma snoc_inv {A} (l : list A) n : length l = S n -> exists l' x, l = l' ++ [x] /\ length l' = n.
Proof.
  intros H. destruct l as [|x l'] using rev_ind; [discriminate|].
  rewrite app_length in H. cbn in H. exists l', x. split; auto. lia.
Qed.

(** Data of the running product after the first [i] cores. *)
Definition full_inv t (i : nat) (r : tensor K) : Prop :=
  length (data r) = prodn (shape r) /\ prodn (shape r) = prodn (bpre t) * prodn (fm (modes t) i) * rk t i /\
  forall pre J b, vidx (bpre t) pre -> vchain (modes t) 0 J -> length J = i -> b < rk t i ->
    nth ((ravel (bpre t) pre * prodn (fm (modes t) i) + ravel (fm (modes t) i) (List.concat J)) * rk t i + b)
        (data r) c0 =
    chain (coreG t pre) (rk t) 0 J (delta b) 0.

Lemma fm_pos t i : wf t -> i <= ndims t -> 0 < prodn (fm (modes t) i).
Proof.
  intros Hw. induction i; intros Hi; [unfold prodn; cbn; lia|].
  rewrite fm_S, prodn_app.
  pose proof (prodn_pos _ (modes_pos _ t i Hw ltac:(lia))). specialize (IHi ltac:(lia)). nia.
Qed.

Lemma bpre_pos t : wf t -> 0 < prodn (bpre t).
Proof. intros Hw. apply prodn_pos, Hw. Qed.

(** Position of an element of core i in its data, the core seen as (batch, left, rest). *)
Lemma core_nth t pre i l j b : wf t -> i < ndims t ->
  vidx (bpre t) pre -> l < rk t i -> vidx (modes t i) j -> b < rk t (S i) ->
  nth ((ravel (bpre t) pre * rk t i + l) * (prodn (modes t i) * rk t (S i)) +
       (ravel (modes t i) j * rk t (S i) + b)) (data (core t i)) c0 = coreG t pre i l j b.
Proof.
  intros Hw Hi Hpre Hl Hj Hb. unfold coreG, get. f_equal.
  rewrite core_shape by auto.
  rewrite ravel_app by (now apply vidx_length). rewrite prodn_cons. cbn [ravel].
  rewrite ravel_app by (now apply vidx_length). rewrite prodn_app.
  cbn [ravel]. pn. nia.
Qed.

Lemma full_inv_1 t : wf t -> full_inv t 1 (core t 0).
Proof.
  intros Hw. pose proof (wf_d Hw) as Hd.
  assert (Hsh := core_shape _ t 0 Hw Hd).
  split; [exact (core_wft _ t 0 Hw Hd)|]. split.
  - rewrite Hsh, prodn_app, prodn_cons, prodn_app, fm_S. cbn [fm map seq List.concat app].
    unfold fm; cbn [map seq List.concat app].
    rewrite (wf_first Hw). pn. lia.
  - intros pre J b Hpre HJ HlJ Hb. destruct J as [|j [|? ?]]; try discriminate.
    destruct HJ as [Hj _]. rewrite fm_S. unfold fm. cbn [map seq List.concat app].
    rewrite app_nil_r. cbn [chain].
    rewrite sumn_deltar by auto.
    rewrite <- (core_nth t pre 0 0 j b) by (auto; rewrite (wf_first Hw); lia).
    f_equal. rewrite (wf_first Hw). lia.
Qed.

(** Abstract step: if [r'] is the product of the running matrix and core i. *)
Lemma full_inv_step t i r r' : wf t -> 0 < i -> i < ndims t -> full_inv t i r ->
  wft r' -> prodn (shape r') = prodn (bpre t) * prodn (fm (modes t) (S i)) * rk t (S i) ->
  (forall pre x y, vidx (bpre t) pre -> x < prodn (fm (modes t) i) -> y < prodn (modes t i) * rk t (S i) ->
     nth ((ravel (bpre t) pre * prodn (fm (modes t) i) + x) * (prodn (modes t i) * rk t (S i)) + y) (data r') c0 =
     sumn (rk t i) (fun l =>
       (nth ((ravel (bpre t) pre * prodn (fm (modes t) i) + x) * rk t i + l) (data r) c0 *
        nth ((ravel (bpre t) pre * rk t i + l) * (prodn (modes t i) * rk t (S i)) + y) (data (core t i)) c0)%K)) ->
  full_inv t (S i) r'.
Proof.
  intros Hw Hi0 Hi (Hl & Hp & Hr) Hwf' Hp' H. split; [exact Hwf'|]. split; [exact Hp'|].
  intros pre J b Hpre HJ HlJ Hb.
  destruct (snoc_inv J i HlJ) as (J' & j & -> & HlJ').
  apply vchain_app in HJ as [HJ' [Hj _]]. rewrite HlJ' in Hj. cbn in Hj.
  pose proof (vidx_concat _ _ HJ') as HvJ. rewrite HlJ' in HvJ.
  pose proof (ravel_lt _ _ HvJ) as Hlt. pose proof (ravel_lt _ _ Hj) as Hltj.
  rewrite concat_snoc, fm_S, ravel_app by (now apply vidx_length). rewrite prodn_app.
  specialize (H pre (ravel (fm (modes t) i) (List.concat J')) (ravel (modes t i) j * rk t (S i) + b) Hpre Hlt ltac:(nia)).
  transitivity (nth ((ravel (bpre t) pre * prodn (fm (modes t) i) + ravel (fm (modes t) i) (List.concat J')) *
         (prodn (modes t i) * rk t (S i)) + (ravel (modes t i) j * rk t (S i) + b)) (data r') c0);
    [f_equal; nia|].
  rewrite H. rewrite chain_app. rewrite HlJ'. cbn [Nat.add].
  rewrite chain_delta by (rewrite (wf_first Hw); lia).
  rewrite HlJ'. cbn [Nat.add]. apply sumn_ext. intros l Hll.
  rewrite Hr by auto. f_equal. rewrite core_nth by auto.
  cbn [chain]. now rewrite sumn_deltar.
Qed.

Lemma full_loop t : wf t -> bsz t = None ->
  exists r, foldM (fun i r =>
      do r' <- reshape r [None; Some (rk t i)];
      do c <- reshape (core t i) [Some (rk t i); None];
      matmul r' c) (seq 1 (ndims t - 1)) (core t 0) = Ok r /\ full_inv t (ndims t) r.
Proof.
  intros Hw Hb. pose proof (wf_d Hw) as Hd.
  assert (Epre : bpre t = []) by (unfold bpre; now rewrite Hb).
  destruct (foldM_seq (fun i r =>
      do r' <- reshape r [None; Some (rk t i)];
      do c <- reshape (core t i) [Some (rk t i); None];
      matmul r' c) (full_inv t) (ndims t - 1) 1 (core t 0)) as (r & H1 & H2).
  - now apply full_inv_1.
  - intros i r [Hi1 Hi2] Hinv. assert (Hi : i < ndims t) by lia. clear Hi2.
    pose proof Hinv as (Hlen & Hp & _).
    pose proof (rk_pos _ t i Hw ltac:(lia)) as Hri.
    rewrite Epre in Hp. pnh Hp. rewrite Nat.mul_1_l in Hp.
    pose proof (reshape_infer K r [] [rk t i] (prodn (fm (modes t) i))) as E1. cbn [map app] in E1.
    rewrite E1 by (unfold size in *; pn; lia). clear E1. cbn [bind].
    pose proof (core_shape _ t i Hw Hi) as Hsh. rewrite Epre in Hsh. cbn [app] in Hsh.
    assert (Hsz : size (core t i) = rk t i * (prodn (modes t i) * rk t (S i))).
    { unfold size. rewrite Hsh, prodn_cons, prodn_app. pn. lia. }
    pose proof (reshape_infer K (core t i) [rk t i] [] (prodn (modes t i) * rk t (S i))) as E2.
    cbn [map app] in E2.
    rewrite E2 by (try rewrite Hsz; pn; nia). clear E2. cbn [bind].
    destruct (matmul_ok2 K (Tensor [prodn (fm (modes t) i); rk t i] (data r))
       (Tensor [rk t i; prodn (modes t i) * rk t (S i)] (data (core t i))) _ _ _ eq_refl eq_refl)
      as (r' & Hr' & Hwf' & Hsh' & Hget).
    exists r'. split; [exact Hr'|].
    apply full_inv_step with (r := r); auto.
    + rewrite Hsh', Epre, fm_S, prodn_app. pn. lia.
    + intros pre x y Hpre Hx Hy. rewrite Epre in *. inversion Hpre; subst pre. cbn [ravel].
      rewrite !Nat.mul_0_l, !Nat.add_0_l.
      specialize (Hget x y Hx Hy). unfold get at 1 in Hget. rewrite Hsh' in Hget.
      cbn [ravel] in Hget. pnh Hget. rewrite Nat.add_0_r in Hget. rewrite Hget.
      apply sumn_ext. intros l Hl. unfold get. cbn [shape data ravel].
      pn. now rewrite !Nat.add_0_r.
  - exists r. split; auto. now replace (1 + (ndims t - 1)) with (ndims t) in H2 by lia.
Qed.

Lemma full_loop_batch t bs : wf t -> bsz t = Some bs ->
  exists r, foldM (fun i r =>
      do r' <- reshape r [Some bs; None; Some (rk t i)];
      do c <- reshape (core t i) [Some bs; Some (rk t i); None];
      einsum "oqb,obw->oqw" [r'; c]) (seq 1 (ndims t - 1)) (core t 0) = Ok r /\ full_inv t (ndims t) r.
Proof.
  intros Hw Hb. pose proof (wf_d Hw) as Hd.
  assert (Epre : bpre t = [bs]) by (unfold bpre; now rewrite Hb).
  assert (Hbs : 0 < bs). { pose proof (wf_bpos Hw) as H. rewrite Epre in H. now inversion H. }
  destruct (foldM_seq (fun i r =>
      do r' <- reshape r [Some bs; None; Some (rk t i)];
      do c <- reshape (core t i) [Some bs; Some (rk t i); None];
      einsum "oqb,obw->oqw" [r'; c]) (full_inv t) (ndims t - 1) 1 (core t 0)) as (r & H1 & H2).
  - now apply full_inv_1.
  - intros i r [Hi1 Hi2] Hinv. assert (Hi : i < ndims t) by lia. clear Hi2.
    pose proof Hinv as (Hlen & Hp & _).
    pose proof (rk_pos _ t i Hw ltac:(lia)) as Hri.
    rewrite Epre in Hp. pnh Hp.
    pose proof (reshape_infer K r [bs] [rk t i] (prodn (fm (modes t) i))) as E1. cbn [map app] in E1.
    rewrite E1 by (unfold size in *; pn; lia). clear E1. cbn [bind].
    pose proof (core_shape _ t i Hw Hi) as Hsh. rewrite Epre in Hsh. cbn [app] in Hsh.
    assert (Hsz : size (core t i) = bs * (rk t i * (prodn (modes t i) * rk t (S i)))).
    { unfold size. rewrite Hsh, !prodn_cons, prodn_app. pn. lia. }
    pose proof (reshape_infer K (core t i) [bs; rk t i] [] (prodn (modes t i) * rk t (S i))) as E2.
    cbn [map app] in E2.
    rewrite E2 by (try rewrite Hsz; pn; nia). clear E2. cbn [bind].
    set (ra := Tensor [bs; prodn (fm (modes t) i); rk t i] (data r)).
    set (cb := Tensor [bs; rk t i; prodn (modes t i) * rk t (S i)] (data (core t i))).
    assert (Ha : shape ra = [bs; prodn (fm (modes t) i); rk t i]) by reflexivity.
    assert (Hc : shape cb = [bs; rk t i; prodn (modes t i) * rk t (S i)]) by reflexivity.
    assert (HE : exists r', einsum "oqb,obw->oqw" [ra; cb] = Ok r' /\ wft r' /\
       shape r' = [bs; prodn (fm (modes t) i); prodn (modes t i) * rk t (S i)] /\
       forall o x y, o < bs -> x < prodn (fm (modes t) i) -> y < prodn (modes t i) * rk t (S i) ->
         get r' [o; x; y] = sumn (rk t i) (fun l => (get ra [o; x; l] * get cb [o; l; y])%K)).
    { einsum_solve. }
    destruct HE as (r' & Hr' & Hwf' & Hsh' & Hget).
    exists r'. split; [exact Hr'|].
    apply full_inv_step with (r := r); auto.
    + rewrite Hsh', Epre, fm_S, prodn_app. pn. lia.
    + intros pre x y Hpre Hx Hy. rewrite Epre in *.
      apply vidx_1_inv in Hpre as (o & -> & Ho). cbn [ravel]. pn. rewrite !Nat.add_0_r.
      specialize (Hget o x y Ho Hx Hy). unfold get at 1 in Hget. rewrite Hsh' in Hget.
      cbn [ravel] in Hget. pnh Hget. rewrite Nat.add_0_r, Nat.add_assoc in Hget.
      rewrite Nat.mul_assoc, <- Nat.mul_add_distr_r in Hget. rewrite Hget.
      apply sumn_ext. intros l Hl. unfold get, ra, cb. cbn [shape data ravel].
      pn. f_equal; f_equal; lia.
  - exists r. split; auto. now replace (1 + (ndims t - 1)) with (ndims t) in H2 by lia.
Qed.

(** *** The final reshape / transpose *)
Definition interleave (i1 i2 : list nat) : list nat := List.concat (map2 (fun i j => [i; j]) i1 i2).

Lemma interleave_length i1 i2 : length i1 = length i2 -> length (interleave i1 i2) = 2 * length i1.
Proof.
  unfold interleave. revert i2; induction i1; intros [|j i2] H; cbn in *; try lia.
  rewrite IHi1 by lia. lia.
Qed.

Lemma interleave_even i1 i2 k : length i1 = length i2 -> nth (2 * k) (interleave i1 i2) 0 = nth k i1 0.
Proof.
  unfold interleave. revert i2 k; induction i1; intros [|j i2] k H; cbn [length] in *; try lia.
  - rewrite !nth_overflow by (cbn; lia). reflexivity.
  - destruct k; [reflexivity|]. replace (2 * S k) with (S (S (2 * k))) by lia.
    cbn [map2 List.concat app nth]. apply IHi1. lia.
Qed.

Lemma interleave_odd i1 i2 k : length i1 = length i2 -> nth (2 * k + 1) (interleave i1 i2) 0 = nth k i2 0.
Proof.
  unfold interleave. revert i2 k; induction i1; intros [|j i2] k H; cbn [length] in *; try lia.
  - rewrite !nth_overflow by (cbn; lia). reflexivity.
  - destruct k; [reflexivity|]. replace (2 * S k + 1) with (S (S (2 * k + 1))) by lia.
    cbn [map2 List.concat app nth]. apply IHi1. lia.
Qed.

(** rows axes first, then columns axes; [off] leading batch axes stay. *)
Definition uperm (off d : nat) : list nat :=
  seq 0 off ++ map (fun i => off + 2 * i) (seq 0 d) ++ map (fun i => off + (2 * i + 1)) (seq 0 d).

Lemma uperm_ok off d : perm_ok (uperm off d) (off + 2 * d) = true.
Proof.
  unfold perm_ok. apply andb_true_intro. split.
  - apply Nat.eqb_eq. unfold uperm. rewrite !app_length, !map_length, !seq_length. lia.
  - apply forallb_forall. intros j Hj. apply in_seq in Hj. apply existsb_exists. exists j.
    split; [|apply Nat.eqb_refl]. unfold uperm. rewrite !in_app_iff, !in_map_iff.
    destruct (Nat.lt_ge_cases j off) as [H|H]; [left; apply in_seq; lia|right].
    destruct (Nat.even (j - off)) eqn:E; [left|right].
    + apply Nat.even_spec in E as [m Hm]. exists m. split; [lia|apply in_seq; lia].
    + assert (E' : Nat.odd (j - off) = true) by (unfold Nat.odd; now rewrite E).
      apply Nat.odd_spec in E' as [m Hm]. exists m. split; [lia|apply in_seq; lia].
Qed.

Lemma uperm_apply pre i1 i2 : length i1 = length i2 ->
  map (fun p => nth p (pre ++ interleave i1 i2) 0) (uperm (length pre) (length i1)) = pre ++ i1 ++ i2.
Proof.
  intros H. unfold uperm. rewrite !map_app, !map_map. f_equal; [|f_equal].
  - transitivity (map (fun p => nth p pre 0) (seq 0 (length pre))); [|apply map_nth_seq].
    apply map_ext_in. intros p Hp. apply in_seq in Hp. now rewrite app_nth1 by lia.
  - transitivity (map (fun p => nth p i1 0) (seq 0 (length i1))); [|apply map_nth_seq].
    apply map_ext_in. intros p Hp. rewrite app_nth2_plus. now apply interleave_even.
  - transitivity (map (fun p => nth p i2 0) (seq 0 (length i2))); [|apply map_nth_seq].
    rewrite <- H.
    apply map_ext_in. intros p Hp. rewrite app_nth2_plus. now apply interleave_odd.
Qed.

Lemma fm_tensor t : wf t -> length (rshape t) = 1 -> fm (modes t) (ndims t) = nth 0 (rshape t) [].
Proof.
  intros Hw Hr. unfold fm.
  assert (E : length (nth 0 (rshape t) []) = ndims t).
  { apply (Forall_nth' (fun s => length s = ndims t)); [apply Hw|lia]. }
  rewrite <- E. transitivity (map (fun k => nth k (nth 0 (rshape t) []) 0) (seq 0 (length (nth 0 (rshape t) []))));
    [|apply map_nth_seq].
  induction (seq 0 (length (nth 0 (rshape t) []))); cbn; auto.
  rewrite modes_tensor by auto. cbn. now f_equal.
Qed.

Lemma map2_seq s1 s2 d : length s1 = d -> length s2 = d ->
  map (fun k => [nth k s1 0; nth k s2 0]) (seq 0 d) = map2 (fun i j => [i; j]) s1 s2.
Proof.
  revert s2 d; induction s1; intros [|j s2] d H1 H2; cbn in *; subst; try discriminate; auto.
  cbn. f_equal. rewrite <- seq_shift, map_map. apply IHs1; auto.
Qed.

Lemma fm_matrix t : wf t -> length (rshape t) = 2 ->
  fm (modes t) (ndims t) = interleave (nth 0 (rshape t) []) (nth 1 (rshape t) []).
Proof.
  intros Hw Hr. unfold fm, interleave. f_equal.
  rewrite <- (map2_seq _ _ (ndims t)).
  - apply map_ext. intros k. now rewrite modes_matrix.
  - apply (Forall_nth' (fun s => length s = ndims t)); [apply Hw|lia].
  - apply (Forall_nth' (fun s => length s = ndims t)); [apply Hw|lia].
Qed.

Lemma prodn_interleave s1 s2 : length s1 = length s2 -> prodn (interleave s1 s2) = prodn s1 * prodn s2.
Proof.
  unfold interleave. revert s2; induction s1; intros [|j s2] H; cbn in H; try lia.
  - reflexivity.
  - cbn [map2 List.concat app]. pn. rewrite IHs1 by lia. lia.
Qed.

Lemma vidx_interleave s1 s2 i1 i2 : vidx s1 i1 -> vidx s2 i2 -> length s1 = length s2 ->
  vidx (interleave s1 s2) (interleave i1 i2).
Proof.
  intros H. revert s2 i2; induction H; intros s2 i2 H2 Hl; cbn in Hl.
  - constructor.
  - destruct H2; cbn in Hl; [lia|]. unfold interleave in *. cbn.
    constructor; auto. constructor; auto. apply IHForall2; auto.
Qed.

Lemma rshape_len t ax : wf t -> ax < length (rshape t) -> length (nth ax (rshape t) []) = ndims t.
Proof. intros Hw H. apply (Forall_nth' (fun s => length s = ndims t)); [apply Hw|lia]. Qed.

(** The finishing code of both variants. *)
Lemma full_finish t r (perm : list nat) : wf t -> full_inv t (ndims t) r ->
  perm = uperm (length (bpre t)) (ndims t) ->
  exists d, (if is_tt_matrix t then
      do r <- reshape r (map Some (bpre t ++ flat_map (fun i => [mode t 0 i; mode t 1 i]) (seq 0 (ndims t))));
      do r <- transpose r perm;
      reshape r (map Some (lazy_shape t))
    else reshape r (map Some (lazy_shape t))) = Ok d /\ represents t d.
Proof.
  intros Hw (Hlen & Hp & Hr) ->. rewrite (wf_last Hw), Nat.mul_1_r in Hp.
  pose proof (fm_pos t (ndims t) Hw ltac:(lia)) as Hfp.
  assert (Hat : forall pre idx, vidx (bpre t) pre -> vidx (ishape t) idx ->
     nth (ravel (bpre t) pre * prodn (fm (modes t) (ndims t)) +
          ravel (fm (modes t) (ndims t)) (List.concat (split_idx t idx))) (data r) c0 =
     tt_entry t pre (split_idx t idx)).
  { intros pre idx Hpre Hidx. destruct (split_idx_valid _ t idx Hw Hidx) as [V1 V2].
    specialize (Hr pre (split_idx t idx) 0 Hpre V1 V2). rewrite (wf_last Hw) in Hr.
    rewrite Nat.mul_1_r, Nat.add_0_r in Hr. rewrite Hr by lia.
    unfold tt_entry. eapply chain_ext; eauto; [rewrite (wf_first Hw); lia|].
    intros b Hb. rewrite V2 in Hb. cbn in Hb. rewrite (wf_last Hw) in Hb.
    replace b with 0 by lia. reflexivity. }
  assert (Hatt : forall pre idx, vidx (bpre t) pre -> tt_at t (pre ++ idx) = tt_entry t pre (split_idx t idx)).
  { intros pre idx Hpre. unfold tt_at, bpre in *. destruct (bsz t).
    - apply vidx_1_inv in Hpre as (o & -> & _). reflexivity.
    - inversion Hpre; subst. reflexivity. }
  unfold lazy_shape. rewrite !get_shape_ishape.
  destruct (wf_kind_cases _ t Hw) as [(E & Hl & Hm)|(E & Hl & Hm)]; rewrite E.
  - assert (Ei : ishape t = nth 0 (rshape t) []) by (unfold ishape; now rewrite E).
    rewrite reshape_exact.
    2:{ unfold size. rewrite Hp, prodn_app, Ei, (fm_tensor t Hw Hl). reflexivity. }
    eexists. split; [reflexivity|]. split; [|split].
    + unfold wft. cbn [shape data]. rewrite Hlen, Hp, prodn_app, Ei, (fm_tensor t Hw Hl). reflexivity.
    + cbn [shape]. now rewrite get_shape_ishape.
    + intros idx Hidx. rewrite get_shape_ishape in Hidx.
      apply vidx_app_inv in Hidx as (pre & I & -> & Hpre & HI).
      rewrite Hatt, <- Hat by auto. unfold get. cbn [shape data]. f_equal.
      rewrite ravel_app by (now apply vidx_length).
      rewrite (fm_tensor t Hw Hl), Ei. f_equal. f_equal. unfold split_idx. rewrite E.
      clear. induction I; cbn; auto. now f_equal.
  - assert (L0 := rshape_len t 0 Hw ltac:(lia)). assert (L1 := rshape_len t 1 Hw ltac:(lia)).
    remember (nth 0 (rshape t) []) as s0. remember (nth 1 (rshape t) []) as s1.
    assert (Ei : ishape t = [prodn s0; prodn s1]) by (unfold ishape; now rewrite E, Heqs0, Heqs1).
    assert (Efm : flat_map (fun i => [mode t 0 i; mode t 1 i]) (seq 0 (ndims t)) = interleave s0 s1).
    { rewrite Heqs0, Heqs1, <- (fm_matrix t Hw Hl). unfold fm. rewrite flat_map_concat_map.
      f_equal. apply map_ext. intros k. symmetry. now apply modes_matrix. }
    assert (Efm' : fm (modes t) (ndims t) = interleave s0 s1) by (rewrite (fm_matrix t Hw Hl); congruence).
    rewrite Efm. rewrite Efm' in *.
    rewrite reshape_exact by (unfold size; rewrite Hp, prodn_app; reflexivity). cbn [bind].
    set (r1 := Tensor (bpre t ++ interleave s0 s1) (data r)).
    destruct (transpose_ok K r1 (uperm (length (bpre t)) (ndims t))) as (r2 & Hr2 & Hwf2 & Hsh2 & Hget2).
    { unfold rank, r1. cbn [shape]. rewrite app_length, interleave_length, L0 by lia. apply uperm_ok. }
    rewrite Hr2. cbn [bind].
    assert (Hsh2' : shape r2 = bpre t ++ s0 ++ s1).
    { rewrite Hsh2. unfold r1. cbn [shape]. rewrite <- L0. apply uperm_apply. lia. }
    rewrite reshape_exact.
    2:{ unfold size. rewrite Hsh2', Ei. pn. lia. }
    eexists. split; [reflexivity|]. split; [|split].
    + unfold wft in *. cbn [shape data]. rewrite Hwf2, Hsh2', Ei. pn. lia.
    + cbn [shape]. now rewrite get_shape_ishape.
    + intros idx Hidx. rewrite get_shape_ishape in Hidx.
      apply vidx_app_inv in Hidx as (pre & I & -> & Hpre & HI).
      rewrite Hatt, <- Hat by auto. rewrite Ei in HI. apply vidx_2_inv in HI as (i & j & -> & Hi & Hj).
      pose proof (unravel_valid _ _ Hi) as Vi. pose proof (unravel_valid _ _ Hj) as Vj.
      transitivity (get r1 (pre ++ interleave (unravel s0 i) (unravel s1 j))).
      * rewrite <- Hget2.
        2:{ unfold r1. cbn [shape]. apply vidx_app; auto. apply vidx_interleave; auto. lia. }
        apply get_reshaped; auto. rewrite Hsh2', Ei.
        replace (length (bpre t)) with (length pre) by (now apply vidx_length).
        replace (ndims t) with (length (unravel s0 i)) by (apply vidx_length in Vi; lia).
        rewrite uperm_apply by (apply vidx_length in Vi, Vj; lia).
        rewrite !ravel_app by (now apply vidx_length). rewrite !ravel_unravel by auto.
        cbn [ravel]. pn. lia.
      * unfold get, r1. cbn [shape data]. f_equal. rewrite ravel_app by (now apply vidx_length).
        f_equal. unfold split_idx. rewrite E. cbn [nth]. now rewrite <- Heqs0, <- Heqs1.
Qed.

Theorem full_correct t : wf t -> exists d, full t = Ok d /\ represents t d.
Proof.
  intros Hw. unfold full. destruct (bsz t) as [bs|] eqn:Eb.
  - unfold full_tt_batch. unfold lazy_batch_size. rewrite Eb. cbn [bind].
    destruct (full_loop_batch t bs Hw Eb) as (r & Hr & Hinv). rewrite Hr. cbn [bind].
    assert (Epre : bpre t = [bs]) by (unfold bpre; now rewrite Eb).
    pose proof (full_finish t r (0 :: map (fun i => 2 * i + 1) (seq 0 (ndims t)) ++
       map (fun i => 2 * i + 1 + 1) (seq 0 (ndims t))) Hw Hinv) as H.
    rewrite Epre in H. apply H. unfold uperm. cbn [length seq app]. f_equal.
    f_equal; apply map_ext; intros; lia.
  - unfold full_tt. destruct (full_loop t Hw Eb) as (r & Hr & Hinv). rewrite Hr. cbn [bind].
    assert (Epre : bpre t = []) by (unfold bpre; now rewrite Eb).
    pose proof (full_finish t r (map (fun i => 2 * i) (seq 0 (ndims t)) ++
       map (fun i => 2 * i + 1) (seq 0 (ndims t))) Hw Hinv) as H.
    rewrite Epre in H. apply H. reflexivity.
Qed.

End WithK.
