(** [pairwise_flat_inner] and [gram_matrix]. *)
From Coq Require Import String Ascii List Arith ZArith Lia Bool Ring.
From Verif Require Import Scalar Tensor TensorLemmas TensorLemmas2 Base Spec Chain BaseLemmas Ops
  FullProofs ResultLemmas Dense AddProofs MulProofs MatmulProofs DenseMatmul Sweep FlatProofs BilinearProofs BatchOps.
Import ListNotations.

(** The numbers in [r], read as a matrix with [m] rows and [n] columns. *)
Definition as_matrix {K : cring} (m n : nat) (r : tensor K) (i j : nat) : K := get (Tensor [m; n] (data r)) [i; j].

Lemma as_matrix_get {K : cring} m n (r : tensor K) i j : shape r = [m; n] -> as_matrix m n r i j = get r [i; j].
Proof. intros H. unfold as_matrix, get. cbn [shape data]. now rewrite H. Qed.

Section WithK.
Variable K : cring.
Add Ring Kring : (cth K).
Implicit Types t : tt K.

Section Pair.
Variables a b : tt K.
Hypothesis Ha : wf a. Hypothesis Hb : wf b.
Hypothesis Hr : rshape a = rshape b.
Variables P Q : nat.
Hypothesis Ba : bsz a = Some P. Hypothesis Bb : bsz b = Some Q.

Definition pw_ms : string := if is_tt_matrix a then "ij" else "i".

Lemma pw_nd : ndims a = ndims b.
Proof. exact (same_ndims K a b Ha Hb Hr). Qed.

Lemma pw_step i (r : tensor K) : i < ndims a -> shape r = [P; Q; rk a i; rk b i] ->
  exists r', einsum ("pqac,pa" ++ pw_ms ++ "b,qc" ++ pw_ms ++ "d->pqbd")%string [r; core a i; core b i] = Ok r' /\ wft r' /\
    shape r' = [P; Q; rk a (S i); rk b (S i)] /\
    forall p q u v, p < P -> q < Q -> u < rk a (S i) -> v < rk b (S i) ->
      get r' [p; q; u; v] =
      sumn (rk a i) (fun x => sumn (rk b i) (fun y => isum (modes a i) (fun j =>
        get r [p; q; x; y] * (coreG a [p] i x j u * coreG b [q] i y j v))))%K.
Proof.
  intros Hi Sr. pose proof pw_nd as Hd.
  pose proof (core_shape _ a _ Ha Hi) as Sa; pose proof (core_shape _ b i Hb ltac:(lia)) as Sb.
  rewrite <- (modes_ext _ a b _ Hr) in Sb. unfold bpre, pw_ms, coreG in *. rewrite Ba in Sa. rewrite Bb in Sb.
  destruct (wf_kind_cases _ a Ha) as [(E & _ & Hm)|(E & _ & Hm)]; rewrite E, Hm in *; clear E Hm; cbn [app] in *;
    einsum_step; eexists; (split; [reflexivity|]); (split; [apply wft_mk|]); (split; [reflexivity|]);
    intros; cbn [app isum]; rewrite get_mk by vsolve; ecbv; reflexivity.
Qed.

Lemma pw_init :
  exists r', einsum ("pa" ++ pw_ms ++ "b,qc" ++ pw_ms ++ "d->pqbd")%string [core a 0; core b 0] = Ok r' /\ wft r' /\
    shape r' = [P; Q; rk a 1; rk b 1] /\
    forall p q u v, p < P -> q < Q -> u < rk a 1 -> v < rk b 1 ->
      get r' [p; q; u; v] = isum (modes a 0) (fun j => coreG a [p] 0 0 j u * coreG b [q] 0 0 j v)%K.
Proof.
  pose proof (wf_d Ha) as Hi. pose proof (wf_d Hb) as Hi'.
  pose proof (core_shape _ a _ Ha Hi) as Sa; pose proof (core_shape _ b _ Hb Hi') as Sb.
  rewrite <- (modes_ext _ a b _ Hr) in Sb. rewrite (wf_first Ha) in Sa. rewrite (wf_first Hb) in Sb.
  unfold bpre, pw_ms, coreG in *. rewrite Ba in Sa. rewrite Bb in Sb.
  destruct (wf_kind_cases _ a Ha) as [(E & _ & Hm)|(E & _ & Hm)]; rewrite E, Hm in *; clear E Hm; cbn [app] in *;
    einsum_step; eexists; (split; [reflexivity|]); (split; [apply wft_mk|]); (split; [reflexivity|]);
    intros; cbn [app isum]; rewrite get_mk by vsolve; ecbv; rewrite sumn_1;
    repeat (apply sumn_ext; intros ? _); rewrite sumn_1; reflexivity.
Qed.

Lemma pw_ok : exists r, pairwise_flat_inner a b = Ok r /\ wft r /\
  shape r = filter (fun n => negb (Nat.eqb n 1)) [P; Q] /\ length (data r) = P * Q /\
  forall p q, p < P -> q < Q -> as_matrix P Q r p q =
    jsum (all_modes a) (fun J => tt_entry a [p] J * tt_entry b [q] J)%K.
Proof.
  pose proof pw_nd as Hd. pose proof (wf_d Ha) as Hd0.
  assert (R0 : 0 < rk a 0) by (rewrite (wf_first Ha); lia).
  assert (R0' : 0 < rk b 0) by (rewrite (wf_first Hb); lia).
  unfold pairwise_flat_inner. fold pw_ms. cbv zeta.
  destruct pw_init as (r0 & E0 & W0 & S0 & G0). rewrite E0. cbn [bind].
  match goal with |- context [foldM ?f _ _] => destruct (foldM_seq f
    (fun i r => wft r /\ shape r = [P; Q; rk a i; rk b i] /\
       forall p q u v, p < P -> q < Q -> u < rk a i -> v < rk b i ->
         get r [p; q; u; v] = penv (modes a) (coreG a [p]) (rk a) (coreG b [q]) (rk b) i u v)
    (ndims a - 1) 1 r0) as (r & Er & Wr & Sr & Gr) end.
  - split; [exact W0|]. split; [exact S0|]. intros p q u v Hp Hq Hu Hv. rewrite G0 by auto.
    rewrite penv_S by auto. rewrite (wf_first Ha), (wf_first Hb), !sumn_1. apply isum_ext. intros j _.
    rewrite penv_0. ring.
  - intros i r Hi (Wr & Sr & Gr). rewrite (nthr_nth (cores b) i (core0 K)) by (unfold ndims in *; lia). cbn [bind].
    change (nth i (cores b) (core0 K)) with (core b i).
    destruct (pw_step i r ltac:(lia) Sr) as (r' & E1 & W1 & S1 & G1).
    exists r'. split; [exact E1|]. split; [exact W1|]. split; [exact S1|].
    intros p q u v Hp Hq Hu Hv. rewrite G1, penv_S by auto.
    apply sumn_ext. intros x Hx. apply sumn_ext. intros y Hy. apply isum_ext. intros j _. now rewrite Gr.
  - rewrite Er. cbn [bind]. replace (1 + (ndims a - 1)) with (ndims a) in * by lia.
    rewrite (wf_last Ha) in *. rewrite Hd, (wf_last Hb) in *. rewrite <- Hd in *.
    exists (squeeze r). split; [reflexivity|].
    assert (Ss : shape (squeeze r) = filter (fun n => negb (Nat.eqb n 1)) [P; Q]).
    { unfold squeeze. cbn [shape]. rewrite Sr. reflexivity. }
    assert (Ld : length (data (squeeze r)) = P * Q).
    { unfold squeeze. cbn [data]. rewrite Wr, Sr. pns; lia. }
    split; [|split; [exact Ss|split; [exact Ld|]]].
    { unfold wft. rewrite Ld, Ss. cbn [filter]. destruct (Nat.eqb_spec P 1), (Nat.eqb_spec Q 1); cbn [negb]; pns; nia. }
    intros p q Hp Hq. transitivity (get r [p; q; 0; 0]).
    { unfold as_matrix, get. rewrite Sr. unfold squeeze. cbn [data shape]. f_equal; cbn [ravel]; pns; lia. }
    rewrite Gr by (auto; lia). unfold penv. fold (all_modes a). apply jsum_ext. intros J HJ.
    apply vjdx_seq in HJ as [HJ HL]. unfold tt_entry.
    rewrite !lv_last; auto; rewrite HL; [|apply (wf_last Ha)]. rewrite Hd. apply (wf_last Hb).
Qed.

Lemma pairwise_full : exists r da db, pairwise_flat_inner a b = Ok r /\ wft r /\
  shape r = filter (fun n => negb (Nat.eqb n 1)) [P; Q] /\ length (data r) = P * Q /\
  full a = Ok da /\ full b = Ok db /\ shape da = P :: ishape a /\ shape db = Q :: ishape a /\
  forall p q, p < P -> q < Q -> as_matrix P Q r p q =
    isum (ishape a) (fun i => get da (p :: i) * get db (q :: i))%K.
Proof.
  destruct pw_ok as (r & Er & Wr & Sr & Lr & Gr).
  destruct (full_correct K a Ha) as (da & Fa & Wda & Sda & Eda).
  destruct (full_correct K b Hb) as (db & Fb & Wdb & Sdb & Edb).
  assert (Hm : is_tt_matrix b = is_tt_matrix a) by (unfold is_tt_matrix; now rewrite Hr).
  assert (IS : ishape b = ishape a) by (unfold ishape; now rewrite Hm, Hr).
  exists r, da, db. repeat (split; [assumption|]).
  split; [rewrite Sda, get_shape_ishape; unfold bpre; now rewrite Ba|].
  split; [rewrite Sdb, get_shape_ishape; unfold bpre; now rewrite Bb, IS|].
  intros p q Hp Hq. rewrite Gr by auto.
  rewrite (isum_ext _ _ _ (fun i => tt_entry a [p] (split_idx a i) * tt_entry b [q] (split_idx a i))%K).
  2:{ intros i Hi.
      rewrite Eda by (rewrite get_shape_ishape; unfold bpre; rewrite Ba; now apply vidx_cons).
      rewrite Edb by (rewrite get_shape_ishape; unfold bpre; rewrite Bb, IS; now apply vidx_cons).
      unfold tt_at. rewrite Ba, Bb. cbn [nth tl]. now rewrite (split_idx_ext _ b a) by auto. }
  now rewrite (isum_split K a (fun J => tt_entry a [p] J * tt_entry b [q] J)%K) by auto.
Qed.

End Pair.

(** Different shapes raise. *)
Section Mat.
(** [a], [b]: batches of row vectors, given through [tr]. *)
Variables a b M : tt K.
Hypothesis Ha : wf a. Hypothesis Hb : wf b. Hypothesis HM : wf M.
Variables rows cols ks : list nat.
Hypothesis RM : rshape M = [rows; cols].
Hypothesis Ra : rshape a = [ks; rows].
Hypothesis Rb : rshape b = [ks; cols].
Hypothesis BM : bsz M = None.
Variables P Q : nat.
Hypothesis Ba : bsz a = Some P. Hypothesis Bb : bsz b = Some Q.

Definition pm_ms (m : nat) : list nat := [mode a 0 m; mode a 1 m; mode M 1 m].
Definition pm_Gs (p q : nat) : list (train K) := [tr K a [p] 0 1; tr K M [] 1 2; tr K b [q] 0 2].

Lemma pm_dims : ndims a = ndims M /\ ndims b = ndims M /\ length rows = ndims M /\ length cols = ndims M /\ length ks = ndims M.
Proof.
  pose proof (wf_rlen HM) as L1. pose proof (wf_rlen Ha) as L2. pose proof (wf_rlen Hb) as L3.
  rewrite RM in L1. rewrite Ra in L2. rewrite Rb in L3.
  repeat match goal with H : Forall _ (_ :: _) |- _ => apply Forall_cons_iff in H as [? ?] end. lia.
Qed.
Lemma pm_core_M i : i < ndims M -> shape (core M i) = [rk M i; mode a 1 i; mode M 1 i; rk M (S i)].
Proof.
  intros Hi. rewrite core_shape by auto. unfold bpre, modes, mode. rewrite BM, RM, Ra. reflexivity.
Qed.
Lemma pm_core_a i : i < ndims M -> shape (core a i) = [P; rk a i; mode a 0 i; mode a 1 i; rk a (S i)].
Proof.
  intros Hi. destruct pm_dims as (D & _). rewrite core_shape by (auto; lia). unfold bpre, modes, mode. rewrite Ba, Ra. reflexivity.
Qed.
Lemma pm_core_b i : i < ndims M -> shape (core b i) = [Q; rk b i; mode a 0 i; mode M 1 i; rk b (S i)].
Proof.
  intros Hi. destruct pm_dims as (_ & D & _). rewrite core_shape by (auto; lia). unfold bpre, modes, mode. rewrite Bb, Rb, RM, Ra. reflexivity.
Qed.

Lemma pm_step i (r : tensor K) : i < ndims M ->
  shape r = P :: Q :: rks_at (pm_Gs 0 0) i ->
  exists r', einsum "pqace,pakib,cijd,qekjf->pqbdf" [r; core a i; core M i; core b i] = Ok r' /\ wft r' /\
    shape r' = P :: Q :: rks_at (pm_Gs 0 0) (S i) /\
    forall p q xs, p < P -> q < Q -> vidx (rks_at (pm_Gs p q) (S i)) xs ->
      get r' (p :: q :: xs) =
      isum (rks_at (pm_Gs p q) i) (fun ys => isum (pm_ms i) (fun j =>
        get r (p :: q :: ys) * gsp (pm_Gs p q) i ys j xs))%K.
Proof.
  intros Hi Sr. pose proof (pm_core_M i Hi) as SM. pose proof (pm_core_a i Hi) as Sa. pose proof (pm_core_b i Hi) as Sb.
  unfold pm_Gs, tr, pick in *. cbn [rks_at map snd] in *.
  einsum_step; eexists; (split; [reflexivity|]); (split; [apply wft_mk|]);
    (split; [reflexivity|]); intros p q xs Hp Hq Hx;
    apply vidx_cons_inv' in Hx as (u & ? & -> & Hu & Hx); apply vidx_2_inv in Hx as (v & w & -> & Hv & Hw);
    cbn [app isum pm_ms]; rewrite get_mk by vsolve; ecbv; cbn [gsp fst snd nth]; unfold coreG; cbn [app];
    repeat (apply sumn_ext; intros ? _); ring.
Qed.

Lemma pm_init :
  exists r', einsum "pakib,cijd,qekjf->pqbdf" [core a 0; core M 0; core b 0] = Ok r' /\ wft r' /\
    shape r' = P :: Q :: rks_at (pm_Gs 0 0) 1 /\
    forall p q xs, p < P -> q < Q -> vidx (rks_at (pm_Gs p q) 1) xs ->
      get r' (p :: q :: xs) = isum (pm_ms 0) (fun j => gsp (pm_Gs p q) 0 [0; 0; 0] j xs).
Proof.
  pose proof (wf_d HM) as Hi.
  pose proof (pm_core_M 0 Hi) as SM. pose proof (pm_core_a 0 Hi) as Sa. pose proof (pm_core_b 0 Hi) as Sb.
  rewrite (wf_first HM) in SM. rewrite (wf_first Ha) in Sa. rewrite (wf_first Hb) in Sb.
  unfold pm_Gs, tr, pick in *. cbn [rks_at map snd] in *.
  einsum_step; eexists; (split; [reflexivity|]); (split; [apply wft_mk|]);
    (split; [reflexivity|]); intros p q xs Hp Hq Hx;
    apply vidx_cons_inv' in Hx as (u & ? & -> & Hu & Hx); apply vidx_2_inv in Hx as (v & w & -> & Hv & Hw);
    cbn [app isum pm_ms]; rewrite get_mk by vsolve; ecbv; cbn [gsp fst snd nth]; unfold coreG; cbn [app];
    rewrite sumn_1; repeat (apply sumn_ext; intros ? _); rewrite sumn_1; repeat (apply sumn_ext; intros ? _);
    rewrite ?sumn_1; ring.
Qed.

Lemma pm_sweep : exists r0 r, einsum "pakib,cijd,qekjf->pqbdf" [core a 0; core M 0; core b 0] = Ok r0 /\
  foldM (fun i r => do c2 <- nthr (cores b) i; do cm <- nthr (cores M) i;
      einsum "pqace,pakib,cijd,qekjf->pqbdf" [r; core a i; cm; c2]) (seq 1 (ndims a - 1)) r0 = Ok r /\
  wft r /\ shape r = [P; Q; 1; 1; 1] /\
  forall p q, p < P -> q < Q -> get r [p; q; 0; 0; 0] =
    sumn (prodn ks) (fun k => sumn (prodn rows) (fun i => sumn (prodn cols) (fun j =>
      tt_entry a [p] (pairs (unravel ks k) (unravel rows i)) *
      (tt_entry M [] (pairs (unravel rows i) (unravel cols j)) *
       tt_entry b [q] (pairs (unravel ks k) (unravel cols j))))))%K.
Proof.
  destruct pm_dims as (Da & Db & L1 & L2 & L3). pose proof (wf_d HM) as Hd0.
  assert (P0 : forall p q, Forall (fun n => 0 < n) (rks_at (pm_Gs p q) 0)).
  { intros p q. cbn [rks_at pm_Gs map tr snd]. rewrite (wf_first HM), (wf_first Ha), (wf_first Hb). repeat constructor. }
  destruct pm_init as (r0 & E0 & W0 & S0 & G0). exists r0. rewrite E0.
  match goal with |- context [foldM ?f _ _] => destruct (foldM_seq f
    (fun i r => wft r /\ shape r = P :: Q :: rks_at (pm_Gs 0 0) i /\
       forall p q xs, p < P -> q < Q -> vidx (rks_at (pm_Gs p q) i) xs -> get r (p :: q :: xs) = env pm_ms (pm_Gs p q) i xs)
    (ndims a - 1) 1 r0) as (r & Er & Wr & Sr & Gr) end.
  - split; [exact W0|]. split; [exact S0|]. intros p q xs Hp Hq Hx. rewrite G0 by auto. rewrite env_S by auto.
    cbn [rks_at pm_Gs map tr snd]. rewrite (wf_first HM), (wf_first Ha), (wf_first Hb). cbn [isum]. rewrite !sumn_1.
    pose proof (env_0 K pm_ms (pm_Gs p q)) as H1. cbn [map pm_Gs] in H1.
    repeat (apply sumn_ext; intros ? _). unfold pm_Gs in *. rewrite H1. ring.
  - intros i r Hi (Wr & Sr & Gr).
    rewrite !nthr_core by lia. cbn [bind].
    destruct (pm_step i r ltac:(lia) Sr) as (r' & E1 & W1 & S1 & G1).
    exists r'. split; [exact E1|]. split; [exact W1|]. split; [exact S1|].
    intros p q xs Hp Hq Hx. rewrite G1, env_S by auto.
    apply isum_ext. intros ys Hy. apply isum_ext. intros j _. now rewrite Gr.
  - exists r. split; [reflexivity|]. split; [exact Er|]. rewrite Da in *. clear E0. 
    replace (1 + (ndims M - 1)) with (ndims M) in * by lia.
    assert (RR : forall p q, rks_at (pm_Gs p q) (ndims M) = [1; 1; 1]).
    { intros p q. cbn [rks_at pm_Gs map tr snd]. rewrite (wf_last HM). rewrite <- Da at 1. rewrite (wf_last Ha).
      rewrite <- Db at 1. now rewrite (wf_last Hb). }
    rewrite RR in Sr. split; [exact Wr|]. split; [exact Sr|].
    intros p q Hp Hq. rewrite Gr; auto. 2:{ rewrite RR. vsolve. }
    unfold env.
    assert (EM : map pm_ms (seq 0 (ndims M)) = tcols (ndims M) [ks; rows; cols]).
    { unfold tcols, pm_ms, mode. rewrite Ra, RM. reflexivity. }
    rewrite EM, <- jsum_transpose by (repeat constructor; auto).
    cbn [jsum]. rewrite isum_unravel. apply sumn_ext. intros k Hk.
    rewrite isum_unravel. apply sumn_ext. intros i Hi. rewrite isum_unravel. apply sumn_ext. intros j Hj.
    pose proof (vidx_length _ _ (unravel_valid _ _ Hi)) as U1.
    pose proof (vidx_length _ _ (unravel_valid _ _ Hj)) as U2.
    pose proof (vidx_length _ _ (unravel_valid _ _ Hk)) as U3.
    assert (TL : forall Is, length (tcols (ndims M) Is) = ndims M) by (intros; unfold tcols; now rewrite map_length, seq_length).
    cbn [lvs pm_Gs]. rewrite !lv_tr by (rewrite ?TL; auto; lia).
    rewrite !map_pick by (cbn; lia). cbn [nth]. rewrite !tcols_pairs by lia. ring.
Qed.

End Mat.

(** [to_row] on a batch of column vectors. *)
Lemma prodn_1_all s : prodn s = 1 -> s = repeat 1 (length s).
Proof.
  induction s as [|x s IH]; intros H; [reflexivity|]. rewrite prodn_cons in H.
  apply Nat.eq_mul_1 in H as [-> H]. cbn [length repeat]. f_equal. auto.
Qed.

Lemma to_row_ok t B rows ks : wf t -> bsz t = Some B -> rshape t = [rows; ks] -> prodn ks = 1 ->
  exists t' d d', to_row t = Ok t' /\ wf t' /\ bsz t' = Some B /\ rshape t' = [ks; rows] /\
    full t = Ok d /\ full t' = Ok d' /\ get_shape t' = [B; 1; prodn rows] /\
    (forall p i, p < B -> i < prodn rows -> get d' [p; 0; i] = get d [p; i; 0]) /\
    (forall p i, p < B -> i < prodn rows -> get d' [p; 0; i] = tt_entry t' [p] (pairs (unravel ks 0) (unravel rows i))).
Proof.
  intros Hw Bt Rt Hk.
  assert (Hm : is_tt_matrix t = true) by (unfold is_tt_matrix; now rewrite Rt).
  assert (GS : get_shape t = [B; prodn rows; prodn ks]) by (unfold get_shape; rewrite Bt, Hm, Rt; reflexivity).
  unfold to_row. rewrite GS. cbn [nthr nth_error bind]. rewrite Hk. cbn [bind Nat.eqb andb]. unfold nthr; cbn [nth_error bind Nat.eqb andb].
  destruct (Nat.eqb_spec (prodn rows) 1) as [H1|H1]; cbn [negb].
  - destruct (full_matrix K t Hw Hm) as (d & Fd & _ & _ & Ed).
    pose proof (wf_rlen Hw) as RL. rewrite Rt in RL.
    repeat match goal with H : Forall _ (_ :: _) |- _ => apply Forall_cons_iff in H as [? ?] end.
    assert (E : rows = ks). { rewrite (prodn_1_all rows H1), (prodn_1_all ks Hk). congruence. }
    exists t, d, d. split; [reflexivity|]. split; [auto|]. split; [auto|]. split; [congruence|].
    split; [auto|]. split; [auto|]. split; [congruence|].
    split; intros p i Hp Hi.
    + now replace i with 0 by lia.
    + rewrite Rt in Ed. cbn [nth] in Ed. specialize (Ed [p] 0 i). cbn [app] in Ed. rewrite <- E in *. apply Ed; auto; [|lia].
      unfold bpre. rewrite Bt. vsolve.
  - destruct (transpose_entries K t Hw Hm) as (c & Ec & Wc & Rc & Kc & Bc & Nc & _ & _).
    destruct (transpose_full K t Hw Hm) as (c' & d & d' & Ec' & _ & _ & _ & _ & Fd & Fd' & Sd & Sd' & Gd).
    assert (c' = c) by congruence. subst c'. rewrite Rt in *. cbn [nth] in *.
    assert (Mc : is_tt_matrix c = true) by (unfold is_tt_matrix; now rewrite Rc).
    exists c, d, d'. split; [exact Ec|]. split; [exact Wc|]. split; [congruence|]. split; [exact Rc|].
    split; [exact Fd|]. split; [exact Fd'|]. split; [unfold get_shape; rewrite Bc, Bt, Mc, Rc; cbn [nth]; now rewrite Hk|].
    unfold bpre in *. rewrite Bt in *.
    split; intros p i Hp Hi.
    + apply (Gd [p] i 0); auto; [vsolve|lia].
    + destruct (full_matrix K c Wc Mc) as (d2 & Fd2 & _ & _ & Ed2). rewrite Rc in Ed2. cbn [nth] in Ed2.
      assert (d2 = d') by congruence. subst d2. apply (Ed2 [p] 0 i); auto; [|lia]. unfold bpre. rewrite Bc. vsolve.
Qed.

Lemma pairwise_mat_full (a b M : tt K) rows cols ks P Q : wf a -> wf b -> wf M ->
  rshape M = [rows; cols] -> rshape a = [rows; ks] -> rshape b = [cols; ks] -> prodn ks = 1 ->
  bsz M = None -> bsz a = Some P -> bsz b = Some Q ->
  exists r da db dM, pairwise_flat_inner_mat a b M = Ok r /\ wft r /\
    shape r = filter (fun n => negb (Nat.eqb n 1)) [P; Q] /\ length (data r) = P * Q /\
    full a = Ok da /\ full b = Ok db /\ full M = Ok dM /\
    forall p q, p < P -> q < Q -> as_matrix P Q r p q =
      sumn (prodn rows) (fun i => sumn (prodn cols) (fun j => get da [p; i; 0%nat] * (get dM [i; j] * get db [q; j; 0%nat])))%K.
Proof.
  intros Ha Hb HM RM Ra Rb Hk BM Ba Bb.
  assert (M1 : is_tt_matrix M = true) by (unfold is_tt_matrix; now rewrite RM).
  assert (M2 : is_tt_matrix a = true) by (unfold is_tt_matrix; now rewrite Ra).
  assert (M3 : is_tt_matrix b = true) by (unfold is_tt_matrix; now rewrite Rb).
  destruct (to_row_ok a P rows ks Ha Ba Ra Hk) as (a' & da & da' & Ea & Wa & Ba' & Ra' & Fa & Fa' & GSa & Ga & Ha').
  destruct (to_row_ok b Q cols ks Hb Bb Rb Hk) as (b' & db & db' & Eb & Wb & Bb' & Rb' & Fb & Fb' & GSb & Gb & Hb').
  destruct (full_matrix K M HM M1) as (dM & FM & _ & _ & EM).
  unfold pairwise_flat_inner_mat. rewrite M1, M2, M3. cbn [andb negb]. rewrite Ra, Rb, RM. cbn [nth].
  rewrite !list_eqb_refl. cbn [negb]. rewrite Ea. cbn [bind]. rewrite Eb. cbn [bind]. rewrite GSa, GSb.
  cbn [nthr nth_error bind Nat.eqb negb].
  destruct (pm_sweep a' b' M Wa Wb HM rows cols ks RM Ra' Rb' BM P Q Ba' Bb') as (r0 & r & E0 & Er & Wr & Sr & Gr).
  rewrite E0. cbn [bind]. rewrite Er. cbn [bind].
  exists (squeeze r), da, db, dM. split; [reflexivity|].
  assert (Ss : shape (squeeze r) = filter (fun n => negb (Nat.eqb n 1)) [P; Q]).
  { unfold squeeze. cbn [shape]. rewrite Sr. cbn [filter Nat.eqb negb]. destruct (negb (P =? 1)), (negb (Q =? 1)); reflexivity. }
  assert (Ld : length (data (squeeze r)) = P * Q).
  { unfold squeeze. cbn [data]. rewrite Wr, Sr. pns; lia. }
  split; [|split; [exact Ss|split; [exact Ld|]]].
  { unfold wft. rewrite Ld, Ss. cbn [filter]. destruct (Nat.eqb_spec P 1), (Nat.eqb_spec Q 1); cbn [negb]; pns; nia. }
  repeat (split; [assumption|]). intros p q Hp Hq.
  transitivity (get r [p; q; 0; 0; 0]).
  { unfold as_matrix, get. rewrite Sr. unfold squeeze. cbn [data shape]. f_equal; cbn [ravel]; pns; lia. }
  rewrite Gr by auto. rewrite Hk, sumn_1. apply sumn_ext. intros i Hi. apply sumn_ext. intros j Hj.
  rewrite <- Ha', <- Hb' by auto. rewrite Ga, Gb by auto. f_equal. f_equal.
  rewrite RM in EM. cbn [nth] in EM. specialize (EM [] i j). cbn [app] in EM. symmetry. apply EM; auto.
  unfold bpre. rewrite BM. apply vidx_nil.
Qed.

Lemma pairwise_mat_err (a b M : tt K) :
  is_tt_matrix a && is_tt_matrix b && is_tt_matrix M = false \/
  nth 0 (rshape a) [] <> nth 0 (rshape M) [] \/ nth 0 (rshape b) [] <> nth 1 (rshape M) [] ->
  pairwise_flat_inner_mat a b M = Err ValueError.
Proof.
  intros H. unfold pairwise_flat_inner_mat.
  destruct (is_tt_matrix a && is_tt_matrix b && is_tt_matrix M); cbn [negb]; auto.
  destruct (list_eqb (nth 0 (rshape a) []) (nth 0 (rshape M) [])) eqn:E1; cbn [negb]; auto.
  destruct (list_eqb (nth 0 (rshape b) []) (nth 1 (rshape M) [])) eqn:E2; cbn [negb]; auto.
  apply list_eqb_eq in E1, E2. destruct H as [H|[H|H]]; congruence.
Qed.

End WithK.
