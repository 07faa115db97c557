(** [bilinear_form] and [bilinear_form_two_mat]: values and errors. *)
From Coq Require Import String Ascii List Arith ZArith Lia Bool Ring.
From Verif Require Import Scalar Tensor TensorLemmas TensorLemmas2 Base Spec Chain BaseLemmas Ops
  FullProofs ResultLemmas Dense AddProofs MulProofs MatmulProofs DenseMatmul Sweep FlatProofs.
Import ListNotations.

Definition pick (p q : nat) (J : list nat) : list nat := [nth p J 0; nth q J 0].

Section WithK.
Variable K : cring.
Add Ring Kring : (cth K).
Implicit Types t : tt K.

(** A TT-matrix as a train over longer physical indices, using positions [p] and [q]. *)
Definition tr (t : tt K) (pre : list nat) (p q : nat) : train K :=
  (fun m x J y => coreG t pre m x (pick p q J) y, rk t).

Lemma lv_tr t pre p q J : wf t -> length J = ndims t ->
  lv (fst (tr t pre p q)) (snd (tr t pre p q)) J 0 = tt_entry t pre (map (pick p q) J).
Proof.
  intros Hw HL. cbn [tr fst snd]. rewrite lv_last.
  - unfold tt_entry. symmetry. apply chain_map; auto. rewrite (wf_first Hw). lia.
  - rewrite HL. apply (wf_last Hw).
  - rewrite (wf_first Hw). lia.
Qed.

Lemma map_pick d p q (Is : list (list nat)) : p < length Is -> q < length Is ->
  map (pick p q) (tcols d Is) = tcols d [nth p Is []; nth q Is []].
Proof.
  intros Hp Hq. unfold tcols. rewrite map_map. apply map_ext. intros m. unfold pick.
  rewrite !(nth_map_default (fun I => nth m I 0) Is _ []) by auto. reflexivity.
Qed.

Lemma tcols_pairs d I J : length I = d -> length J = d -> tcols d [I; J] = pairs I J.
Proof.
  intros H1 H2. unfold tcols. apply (nth_ext _ _ [] []).
  - rewrite map_length, seq_length, pairs_length; congruence.
  - intros n Hn. rewrite map_length, seq_length in Hn.
    rewrite pairs_nth by lia. rewrite (nth_map_default _ _ _ 0) by (now rewrite seq_length).
    now rewrite seq_nth by auto.
Qed.

Section Bil.
Variables A b c : tt K.
Hypothesis HA : wf A. Hypothesis Hb : wf b. Hypothesis Hc : wf c.
Variables rows cols ks : list nat.
Hypothesis RA : rshape A = [rows; cols].
Hypothesis Rb : rshape b = [rows; ks].
Hypothesis Rc : rshape c = [cols; ks].
Hypothesis BA : bsz A = None.
Variable bs : option nat.
Hypothesis Bb : bsz b = bs.
Hypothesis Bc : bsz c = bs.

Definition bl_p : string := if is_batch b then "p" else "".
Definition bl_init : string := (bl_p ++ "aikb,cijd," ++ bl_p ++ "ejkf->" ++ bl_p ++ "bdf")%string.
Definition bl_eq : string := (bl_p ++ "ace," ++ bl_init)%string.

Definition bl_ms (m : nat) : list nat := [mode b 0 m; mode b 1 m; mode A 1 m].
Definition bl_Gs (o : nat) : list (train K) := [tr b (bo bs o) 0 1; tr A [] 0 2; tr c (bo bs o) 2 1].

Lemma bl_dims : ndims b = ndims A /\ ndims c = ndims A /\ length rows = ndims A /\ length cols = ndims A /\ length ks = ndims A.
Proof.
  pose proof (wf_rlen HA) as L1. pose proof (wf_rlen Hb) as L2. pose proof (wf_rlen Hc) as L3.
  rewrite RA in L1. rewrite Rb in L2. rewrite Rc in L3.
  repeat match goal with H : Forall _ (_ :: _) |- _ => apply Forall_cons_iff in H as [? ?] end. lia.
Qed.

Lemma bl_core_A i : i < ndims A -> shape (core A i) = [rk A i; mode b 0 i; mode A 1 i; rk A (S i)].
Proof.
  intros Hi. rewrite core_shape by auto. unfold bpre, modes, mode. rewrite BA, RA, Rb. reflexivity.
Qed.
Lemma bl_core_b i : i < ndims A -> shape (core b i) = pre_of bs ++ [rk b i; mode b 0 i; mode b 1 i; rk b (S i)].
Proof.
  intros Hi. destruct bl_dims as (D & _). rewrite core_shape by (auto; lia). unfold bpre, modes, mode. rewrite Bb, Rb. reflexivity.
Qed.
Lemma bl_core_c i : i < ndims A -> shape (core c i) = pre_of bs ++ [rk c i; mode A 1 i; mode b 1 i; rk c (S i)].
Proof.
  intros Hi. destruct bl_dims as (_ & D & _). rewrite core_shape by (auto; lia). unfold bpre, modes, mode. rewrite Bc, Rc, RA, Rb. reflexivity.
Qed.

Lemma bl_step i (r : tensor K) : i < ndims A ->
  shape r = pre_of bs ++ rks_at (bl_Gs 0) i ->
  exists r', einsum bl_eq [r; core b i; core A i; core c i] = Ok r' /\ wft r' /\
    shape r' = pre_of bs ++ rks_at (bl_Gs 0) (S i) /\
    forall o xs, inrange bs o -> vidx (rks_at (bl_Gs o) (S i)) xs ->
      get r' (bo bs o ++ xs) =
      isum (rks_at (bl_Gs o) i) (fun ys => isum (bl_ms i) (fun j =>
        get r (bo bs o ++ ys) * gsp (bl_Gs o) i ys j xs))%K.
Proof.
  intros Hi Sr. pose proof (bl_core_A i Hi) as SA. pose proof (bl_core_b i Hi) as Sb. pose proof (bl_core_c i Hi) as Sc.
  unfold bl_eq, bl_init, bl_p, is_batch. rewrite Bb. unfold bl_Gs, tr, pick, bo, inrange in *. cbn [rks_at map snd] in *.
  destruct bs as [B|]; cbn [pre_of app] in *; einsum_step; eexists; (split; [reflexivity|]); (split; [apply wft_mk|]);
    (split; [reflexivity|]); intros o xs Ho Hx;
    apply vidx_cons_inv' in Hx as (u & ? & -> & Hu & Hx); apply vidx_2_inv in Hx as (v & w & -> & Hv & Hw);
    cbn [app isum bl_ms]; rewrite get_mk by vsolve; ecbv; cbn [gsp fst snd nth]; unfold coreG; cbn [app];
    repeat (apply sumn_ext; intros ? _); ring.
Qed.

Lemma bl_init_ok :
  exists r', einsum bl_init [core b 0; core A 0; core c 0] = Ok r' /\ wft r' /\
    shape r' = pre_of bs ++ rks_at (bl_Gs 0) 1 /\
    forall o xs, inrange bs o -> vidx (rks_at (bl_Gs o) 1) xs ->
      get r' (bo bs o ++ xs) = isum (bl_ms 0) (fun j => gsp (bl_Gs o) 0 [0; 0; 0] j xs).
Proof.
  pose proof (wf_d HA) as Hi.
  pose proof (bl_core_A 0 Hi) as SA. pose proof (bl_core_b 0 Hi) as Sb. pose proof (bl_core_c 0 Hi) as Sc.
  rewrite (wf_first HA) in SA. rewrite (wf_first Hb) in Sb. rewrite (wf_first Hc) in Sc.
  unfold bl_init, bl_p, is_batch. rewrite Bb. unfold bl_Gs, tr, pick, bo, inrange in *. cbn [rks_at map snd] in *.
  destruct bs as [B|]; cbn [pre_of app] in *; einsum_step; eexists; (split; [reflexivity|]); (split; [apply wft_mk|]);
    (split; [reflexivity|]); intros o xs Ho Hx;
    apply vidx_cons_inv' in Hx as (u & ? & -> & Hu & Hx); apply vidx_2_inv in Hx as (v & w & -> & Hv & Hw);
    cbn [app isum bl_ms]; rewrite get_mk by vsolve; ecbv; cbn [gsp fst snd nth]; unfold coreG; cbn [app];
    rewrite sumn_1; repeat (apply sumn_ext; intros ? _); rewrite sumn_1; repeat (apply sumn_ext; intros ? _);
    rewrite sumn_1; ring.
Qed.

Lemma nthr_core t i : i < ndims t -> nthr (cores t) i = Ok (core t i).
Proof. intros H. apply nthr_nth. exact H. Qed.

Lemma bl_ok : exists r, bilinear_form A b c = Ok r /\ wft r /\ shape r = pre_of (sqb bs) /\
  forall o, inrange bs o ->
    get r (bo (sqb bs) o) =
    sumn (prodn rows) (fun i => sumn (prodn ks) (fun k => sumn (prodn cols) (fun j =>
      tt_entry b (bo bs o) (pairs (unravel rows i) (unravel ks k)) *
      (tt_entry A [] (pairs (unravel rows i) (unravel cols j)) *
       tt_entry c (bo bs o) (pairs (unravel cols j) (unravel ks k))))))%K.
Proof.
  destruct bl_dims as (Db & Dc & L1 & L2 & L3). pose proof (wf_d HA) as Hd0.
  assert (M1 : is_tt_matrix A = true) by (unfold is_tt_matrix; now rewrite RA).
  assert (M2 : is_tt_matrix b = true) by (unfold is_tt_matrix; now rewrite Rb).
  assert (M3 : is_tt_matrix c = true) by (unfold is_tt_matrix; now rewrite Rc).
  unfold bilinear_form. rewrite M1, M2, M3, orb_diag. cbn [negb]. fold bl_p. fold bl_init. fold bl_eq.
  assert (P0 : forall o, Forall (fun n => 0 < n) (rks_at (bl_Gs o) 0)).
  { intros o. cbn [rks_at bl_Gs map tr snd]. rewrite (wf_first HA), (wf_first Hb), (wf_first Hc). repeat constructor. }
  destruct bl_init_ok as (r0 & E0 & W0 & S0 & G0). rewrite E0. cbn [bind].
  match goal with |- context [foldM ?f _ _] => destruct (foldM_seq f
    (fun i r => wft r /\ shape r = pre_of bs ++ rks_at (bl_Gs 0) i /\
       forall o xs, inrange bs o -> vidx (rks_at (bl_Gs o) i) xs -> get r (bo bs o ++ xs) = env bl_ms (bl_Gs o) i xs)
    (ndims A - 1) 1 r0) as (r & Er & Wr & Sr & Gr) end.
  - split; [exact W0|]. split; [exact S0|]. intros o xs Ho Hx. rewrite G0 by auto. rewrite env_S by auto.
    cbn [rks_at bl_Gs map tr snd]. rewrite (wf_first HA), (wf_first Hb), (wf_first Hc). cbn [isum]. rewrite !sumn_1.
    pose proof (env_0 K bl_ms (bl_Gs o)) as H1. cbn [map bl_Gs] in H1.
    repeat (apply sumn_ext; intros ? _). unfold bl_Gs in *. rewrite H1. ring.
  - intros i r Hi (Wr & Sr & Gr).
    rewrite !nthr_core by lia. cbn [bind].
    destruct (bl_step i r ltac:(lia) Sr) as (r' & E1 & W1 & S1 & G1).
    exists r'. split; [exact E1|]. split; [exact W1|]. split; [exact S1|].
    intros o xs Ho Hx. rewrite G1, env_S by auto.
    apply isum_ext. intros ys Hy. apply isum_ext. intros j _. now rewrite Gr.
  - rewrite Er. cbn [bind]. replace (1 + (ndims A - 1)) with (ndims A) in * by lia.
    assert (RR : forall o, rks_at (bl_Gs o) (ndims A) = [1; 1; 1]).
    { intros o. cbn [rks_at bl_Gs map tr snd]. rewrite (wf_last HA). rewrite <- Db at 1. rewrite (wf_last Hb).
      rewrite <- Dc at 1. now rewrite (wf_last Hc). }
    rewrite RR in Sr.
    assert (Hbp : match bs with Some B => 0 < B | None => True end).
    { pose proof (wf_bpos Hb) as P. unfold bpre in P. rewrite Bb in P. destruct bs; auto. now inversion P. }
    assert (Ss : shape (squeeze r) = pre_of (sqb bs)).
    { unfold squeeze. cbn [shape]. rewrite Sr. destruct bs as [[|[|B]]|]; reflexivity. }
    exists (squeeze r). split; [reflexivity|]. split; [|split; [exact Ss|]].
    { unfold wft in *. rewrite Ss. unfold squeeze. cbn [data]. rewrite Wr, Sr. destruct bs as [[|[|B]]|]; cbn [sqb pre_of app]; pns; lia. }
    intros o Ho.
    transitivity (get r (bo bs o ++ [0; 0; 0])).
    { unfold get. rewrite Ss, Sr. unfold squeeze. cbn [data]. f_equal. unfold inrange in Ho.
      destruct bs as [[|[|B]]|]; cbn [bo sqb pre_of app ravel]; pns; lia. }
    rewrite Gr; auto. 2:{ rewrite RR. vsolve. }
    unfold env.
    assert (EM : map bl_ms (seq 0 (ndims A)) = tcols (ndims A) [rows; ks; cols]).
    { unfold tcols, bl_ms, mode. rewrite Rb, RA. reflexivity. }
    rewrite EM, <- jsum_transpose by (repeat constructor; auto).
    cbn [jsum]. rewrite isum_unravel. apply sumn_ext. intros i Hi.
    rewrite isum_unravel. apply sumn_ext. intros k Hk. rewrite isum_unravel. apply sumn_ext. intros j Hj.
    pose proof (vidx_length _ _ (unravel_valid _ _ Hi)) as U1.
    pose proof (vidx_length _ _ (unravel_valid _ _ Hj)) as U2.
    pose proof (vidx_length _ _ (unravel_valid _ _ Hk)) as U3.
    assert (TL : forall Is, length (tcols (ndims A) Is) = ndims A) by (intros; unfold tcols; now rewrite map_length, seq_length).
    cbn [lvs bl_Gs]. rewrite !lv_tr by (rewrite ?TL; auto; lia).
    rewrite !map_pick by (cbn; lia). cbn [nth]. rewrite !tcols_pairs by lia. ring.
Qed.

End Bil.

(** The value of the form on dense matrices: the sum of the entries [b^T A c] on the diagonal
    (for N x 1 matrices b and c: the number b^T A c). *)
Lemma bilinear_full (A b c : tt K) rows cols ks : wf A -> wf b -> wf c ->
  rshape A = [rows; cols] -> rshape b = [rows; ks] -> rshape c = [cols; ks] -> bsz A = None -> bsz b = bsz c ->
  exists dA db dc r, full A = Ok dA /\ full b = Ok db /\ full c = Ok dc /\ bilinear_form A b c = Ok r /\ wft r /\
    shape r = pre_of (sqb (bsz b)) /\
    forall o, inrange (bsz b) o -> get r (bo (sqb (bsz b)) o) =
      sumn (prodn rows) (fun i => sumn (prodn ks) (fun k => sumn (prodn cols) (fun j =>
        get db (bo (bsz b) o ++ [i; k]) * (get dA [i; j] * get dc (bo (bsz b) o ++ [j; k])))))%K.
Proof.
  intros HA Hb Hc RA Rb Rc BA Bbc.
  destruct (bl_ok A b c HA Hb Hc rows cols ks RA Rb Rc BA (bsz b) eq_refl (eq_sym Bbc)) as (r & Er & Wr & Sr & Gr).
  assert (M1 : is_tt_matrix A = true) by (unfold is_tt_matrix; now rewrite RA).
  assert (M2 : is_tt_matrix b = true) by (unfold is_tt_matrix; now rewrite Rb).
  assert (M3 : is_tt_matrix c = true) by (unfold is_tt_matrix; now rewrite Rc).
  destruct (full_matrix K A HA M1) as (dA & FA & _ & _ & EA).
  destruct (full_matrix K b Hb M2) as (db & Fb & _ & _ & Eb).
  destruct (full_matrix K c Hc M3) as (dc & Fc & _ & _ & Ec).
  rewrite RA in EA. rewrite Rb in Eb. rewrite Rc in Ec. cbn [nth] in *.
  exists dA, db, dc, r. repeat (split; [assumption|]).
  intros o Ho. rewrite Gr by auto.
  assert (V : vidx (bpre b) (bo (bsz b) o) /\ vidx (bpre c) (bo (bsz b) o)).
  { unfold bpre, bo, inrange in *. rewrite <- Bbc. destruct (bsz b); split; try apply vidx_nil; vsolve. }
  destruct V as [V1 V2].
  apply sumn_ext. intros i Hi. apply sumn_ext. intros k Hk. apply sumn_ext. intros j Hj.
  rewrite Eb, Ec by auto. specialize (EA [] i j). cbn [app] in EA. rewrite EA; auto.
  unfold bpre. rewrite BA. apply vidx_nil.
Qed.

Lemma bilinear_kind_err (A b c : tt K) :
  is_tt_matrix A = false \/ is_tt_matrix b = false \/ is_tt_matrix c = false -> bilinear_form A b c = Err ValueError.
Proof.
  intros H. unfold bilinear_form. destruct (is_tt_matrix A); cbn [negb]; auto. destruct (is_tt_matrix b); cbn [negb]; auto.
  destruct (is_tt_matrix c); cbn [negb]; auto. destruct H as [|[|]]; discriminate.
Qed.

(** What operand shapes the first einsum accepts. *)
Lemma bilinear_ok_inv (A b c : tt K) r : wf A -> wf b -> wf c -> bilinear_form A b c = Ok r ->
  bsz A = None /\ bsz b = bsz c /\ mode A 0 0 = mode b 0 0 /\ mode A 1 0 = mode c 0 0 /\ mode b 1 0 = mode c 1 0.
Proof.
  intros HA Hb Hc H. unfold bilinear_form in H.
  destruct (is_tt_matrix A) eqn:M1; [|discriminate]. destruct (is_tt_matrix b) eqn:M2; [|discriminate].
  destruct (is_tt_matrix c) eqn:M3; [|discriminate]. cbn [negb] in H. rewrite orb_diag in H.
  match type of H with context [einsum ?e ?l] => destruct (einsum e l) as [r0|] eqn:E0; [|discriminate] end. clear H.
  pose proof (core_shape _ A _ HA (wf_d HA)) as SA. pose proof (core_shape _ b _ Hb (wf_d Hb)) as Sb.
  pose proof (core_shape _ c _ Hc (wf_d Hc)) as Sc.
  destruct (wf_kind_cases _ A HA) as [(E & _)|(_ & _ & MA)]; [congruence|].
  destruct (wf_kind_cases _ b Hb) as [(E & _)|(_ & _ & Mb)]; [congruence|].
  destruct (wf_kind_cases _ c Hc) as [(E & _)|(_ & _ & Mc)]; [congruence|].
  rewrite MA in SA. rewrite Mb in Sb. rewrite Mc in Sc. unfold is_batch, bpre in *.
  destruct (bsz A) as [z|], (bsz b) as [x|], (bsz c) as [y|];
    (eapply einsum_ok_inv in E0 as [env H]; [|reflexivity]; cbn [app] in H;
     repeat match goal with H : Forall2 _ (_ :: _) (_ :: _) |- _ => inversion H; clear H; subst end;
     rewrite ?SA, ?Sb, ?Sc in *; cbn [app] in *;
     repeat match goal with
       | H : Forall2 _ (_ :: _) (_ :: _) |- _ => inversion H; clear H; subst
       | H : Forall2 _ [] (_ :: _) |- _ => inversion H
       | H : Forall2 _ (_ :: _) [] |- _ => inversion H
     end; repeat split; congruence).
Qed.


Section Bil2.
Variables x A B y : tt K.
Hypothesis Hx : wf x. Hypothesis HA : wf A. Hypothesis HB : wf B. Hypothesis Hy : wf y.
Variables ls ns ps os ms : list nat.
Hypothesis Rx : rshape x = [ls; ns].
Hypothesis RA : rshape A = [ls; ps].
Hypothesis RB : rshape B = [ps; os].
Hypothesis Ry : rshape y = [os; ms].
Hypothesis Bx : bsz x = None. Hypothesis BA : bsz A = None. Hypothesis BB : bsz B = None. Hypothesis By : bsz y = None.

Definition b2_ms (i : nat) : list nat := [nth i ls 0; nth i ns 0; nth i ps 0; nth i os 0; nth i ms 0].
Definition b2_Gs : list (train K) := [tr x [] 0 1; tr A [] 0 2; tr B [] 2 3; tr y [] 3 4].

Lemma b2_dims : ndims x = ndims A /\ ndims B = ndims A /\ ndims y = ndims A /\ length ls = ndims A /\ length ns = ndims A /\
  length ps = ndims A /\ length os = ndims A /\ length ms = ndims A.
Proof.
  pose proof (wf_rlen HA) as L1. pose proof (wf_rlen Hx) as L2. pose proof (wf_rlen HB) as L3. pose proof (wf_rlen Hy) as L4.
  rewrite RA in L1. rewrite Rx in L2. rewrite RB in L3. rewrite Ry in L4.
  repeat match goal with H : Forall _ (_ :: _) |- _ => apply Forall_cons_iff in H as [? ?] end. lia.
Qed.

Lemma b2_core t i p q : wf t -> bsz t = None -> rshape t = [p; q] -> i < ndims t ->
  shape (core t i) = [rk t i; nth i p 0; nth i q 0; rk t (S i)].
Proof. intros Hw Hb Hr Hi. rewrite core_shape by auto. unfold bpre, modes. rewrite Hb, Hr. reflexivity. Qed.

Lemma b2_step i (r : tensor K) : i < ndims A ->
  shape r = rks_at b2_Gs i ->
  exists r', einsum "egia,elnf,glph,ipoj,aomb->fhjb" [r; core x i; core A i; core B i; core y i] = Ok r' /\ wft r' /\
    shape r' = rks_at b2_Gs (S i) /\
    forall xs, vidx (rks_at b2_Gs (S i)) xs ->
      get r' xs = isum (rks_at b2_Gs i) (fun ys => isum (b2_ms i) (fun j => get r ys * gsp b2_Gs i ys j xs))%K.
Proof.
  intros Hi Sr. destruct b2_dims as (D1 & D2 & D3 & _).
  pose proof (b2_core A i ls ps HA BA RA ltac:(lia)) as SA. pose proof (b2_core x i ls ns Hx Bx Rx ltac:(lia)) as Sx.
  pose proof (b2_core B i ps os HB BB RB ltac:(lia)) as SB. pose proof (b2_core y i os ms Hy By Ry ltac:(lia)) as Sy.
  unfold b2_Gs, tr, pick in *. cbn [rks_at map snd] in *.
  einsum_step; eexists; (split; [reflexivity|]); (split; [apply wft_mk|]);
    (split; [reflexivity|]). intros xs Hxs.
    apply vidx_cons_inv' in Hxs as (u & ? & -> & Hu & Hxs). apply vidx_cons_inv' in Hxs as (u' & ? & -> & Hu' & Hxs).
    apply vidx_2_inv in Hxs as (v & w & -> & Hv & Hw).
    cbn [app isum b2_ms]; rewrite get_mk by vsolve; ecbv; cbn [gsp fst snd nth]; unfold coreG; cbn [app];
    repeat (apply sumn_ext; intros ? _); ring.
Qed.

Lemma b2_init_ok :
  exists r', einsum "elnf,glph,ipoj,aomb->fhjb" [core x 0; core A 0; core B 0; core y 0] = Ok r' /\ wft r' /\
    shape r' = rks_at b2_Gs 1 /\
    forall xs, vidx (rks_at b2_Gs 1) xs -> get r' xs = isum (b2_ms 0) (fun j => gsp b2_Gs 0 [0; 0; 0; 0] j xs).
Proof.
  pose proof (wf_d HA) as Hi. destruct b2_dims as (D1 & D2 & D3 & _).
  pose proof (b2_core A 0 ls ps HA BA RA ltac:(lia)) as SA. pose proof (b2_core x 0 ls ns Hx Bx Rx ltac:(lia)) as Sx.
  pose proof (b2_core B 0 ps os HB BB RB ltac:(lia)) as SB. pose proof (b2_core y 0 os ms Hy By Ry ltac:(lia)) as Sy.
  rewrite (wf_first HA) in SA. rewrite (wf_first Hx) in Sx. rewrite (wf_first HB) in SB. rewrite (wf_first Hy) in Sy.
  unfold b2_Gs, tr, pick in *. cbn [rks_at map snd] in *.
  einsum_step; eexists; (split; [reflexivity|]); (split; [apply wft_mk|]);
    (split; [reflexivity|]). intros xs Hxs.
    apply vidx_cons_inv' in Hxs as (u & ? & -> & Hu & Hxs). apply vidx_cons_inv' in Hxs as (u' & ? & -> & Hu' & Hxs).
    apply vidx_2_inv in Hxs as (v & w & -> & Hv & Hw).
    cbn [app isum b2_ms]; rewrite get_mk by vsolve; ecbv; cbn [gsp fst snd nth]; unfold coreG; cbn [app].
    rewrite sumn_1. do 2 (apply sumn_ext; intros ? _). rewrite sumn_1. apply sumn_ext; intros ? _.
    rewrite sumn_1. apply sumn_ext; intros ? _. rewrite sumn_1. apply sumn_ext; intros ? _. ring.
Qed.

Lemma b2_ok : exists r, bilinear_form_two_mat x A B y = Ok r /\ wft r /\ shape r = [] /\
    get r [] =
    sumn (prodn ls) (fun l => sumn (prodn ns) (fun n => sumn (prodn ps) (fun p => sumn (prodn os) (fun o => sumn (prodn ms) (fun m =>
      tt_entry x [] (pairs (unravel ls l) (unravel ns n)) *
      (tt_entry A [] (pairs (unravel ls l) (unravel ps p)) *
      (tt_entry B [] (pairs (unravel ps p) (unravel os o)) *
       tt_entry y [] (pairs (unravel os o) (unravel ms m)))))))))%K.
Proof.
  destruct b2_dims as (D1 & D2 & D3 & L1 & L2 & L3 & L4 & L5). pose proof (wf_d HA) as Hd0.
  assert (M1 : is_tt_matrix A = true) by (unfold is_tt_matrix; now rewrite RA).
  assert (M2 : is_tt_matrix x = true) by (unfold is_tt_matrix; now rewrite Rx).
  assert (M3 : is_tt_matrix B = true) by (unfold is_tt_matrix; now rewrite RB).
  assert (M4 : is_tt_matrix y = true) by (unfold is_tt_matrix; now rewrite Ry).
  unfold bilinear_form_two_mat, is_batch. rewrite M1, M2, M3, M4, Bx. cbn [negb orb String.append].
  assert (P0 : Forall (fun n => 0 < n) (rks_at b2_Gs 0)).
  { cbn [rks_at b2_Gs map tr snd]. rewrite (wf_first HA), (wf_first Hx), (wf_first HB), (wf_first Hy). repeat constructor. }
  destruct b2_init_ok as (r0 & E0 & W0 & S0 & G0). rewrite E0. cbn [bind].
  match goal with |- context [foldM ?f _ _] => destruct (foldM_seq f
    (fun i r => wft r /\ shape r = rks_at b2_Gs i /\
       forall xs, vidx (rks_at b2_Gs i) xs -> get r xs = env b2_ms b2_Gs i xs)
    (ndims A - 1) 1 r0) as (r & Er & Wr & Sr & Gr) end.
  - split; [exact W0|]. split; [exact S0|]. intros xs Hxs. rewrite G0 by auto. rewrite env_S by auto.
    cbn [rks_at b2_Gs map tr snd]. rewrite (wf_first HA), (wf_first Hx), (wf_first HB), (wf_first Hy). cbn [isum]. rewrite !sumn_1.
    pose proof (env_0 K b2_ms b2_Gs) as H1. cbn [map b2_Gs] in H1.
    repeat (apply sumn_ext; intros ? _). unfold b2_Gs in *. rewrite H1. ring.
  - intros i r Hi (Wr & Sr & Gr).
    rewrite !nthr_core by lia. cbn [bind].
    destruct (b2_step i r ltac:(lia) Sr) as (r' & E1 & W1 & S1 & G1).
    exists r'. split; [exact E1|]. split; [exact W1|]. split; [exact S1|].
    intros xs Hxs. rewrite G1, env_S by auto.
    apply isum_ext. intros ys Hys. apply isum_ext. intros j _. now rewrite Gr.
  - rewrite Er. cbn [bind]. replace (1 + (ndims A - 1)) with (ndims A) in * by lia.
    assert (RR : rks_at b2_Gs (ndims A) = [1; 1; 1; 1]).
    { cbn [rks_at b2_Gs map tr snd]. rewrite (wf_last HA). rewrite <- D1 at 1. rewrite (wf_last Hx).
      rewrite <- D2 at 1. rewrite (wf_last HB). rewrite <- D3 at 1. now rewrite (wf_last Hy). }
    rewrite RR in Sr.
    assert (Ss : shape (squeeze r) = []) by (unfold squeeze; cbn [shape]; now rewrite Sr).
    exists (squeeze r). split; [reflexivity|]. split; [|split; [exact Ss|]].
    { unfold wft in *. rewrite Ss. unfold squeeze. cbn [data]. now rewrite Wr, Sr. }
    transitivity (get r [0; 0; 0; 0]).
    { unfold get. rewrite Ss, Sr. reflexivity. }
    rewrite Gr; auto. 2:{ rewrite RR. vsolve. }
    unfold env.
    assert (EM : map b2_ms (seq 0 (ndims A)) = tcols (ndims A) [ls; ns; ps; os; ms]) by reflexivity.
    rewrite EM, <- jsum_transpose by (repeat constructor; auto).
    cbn [jsum]. rewrite isum_unravel. apply sumn_ext. intros i1 H1.
    rewrite isum_unravel. apply sumn_ext. intros i2 H2. rewrite isum_unravel. apply sumn_ext. intros i3 H3.
    rewrite isum_unravel. apply sumn_ext. intros i4 H4. rewrite isum_unravel. apply sumn_ext. intros i5 H5.
    pose proof (vidx_length _ _ (unravel_valid _ _ H1)) as U1. pose proof (vidx_length _ _ (unravel_valid _ _ H2)) as U2.
    pose proof (vidx_length _ _ (unravel_valid _ _ H3)) as U3. pose proof (vidx_length _ _ (unravel_valid _ _ H4)) as U4.
    pose proof (vidx_length _ _ (unravel_valid _ _ H5)) as U5.
    assert (TL : forall Is, length (tcols (ndims A) Is) = ndims A) by (intros; unfold tcols; now rewrite map_length, seq_length).
    cbn [lvs b2_Gs]. rewrite !lv_tr by (rewrite ?TL; auto; lia).
    rewrite !map_pick by (cbn; lia). cbn [nth]. rewrite !tcols_pairs by lia. ring.
Qed.
End Bil2.

(** Dense level: [x^T A B y] summed over the columns of x and y (one each for vectors). *)
Lemma two_mat_full (x A B y : tt K) ls ns ps os ms : wf x -> wf A -> wf B -> wf y ->
  rshape x = [ls; ns] -> rshape A = [ls; ps] -> rshape B = [ps; os] -> rshape y = [os; ms] ->
  bsz x = None -> bsz A = None -> bsz B = None -> bsz y = None ->
  exists dx dA dB dy r, full x = Ok dx /\ full A = Ok dA /\ full B = Ok dB /\ full y = Ok dy /\
    bilinear_form_two_mat x A B y = Ok r /\ wft r /\ shape r = [] /\
    get r [] =
    sumn (prodn ls) (fun l => sumn (prodn ns) (fun n => sumn (prodn ps) (fun p => sumn (prodn os) (fun o => sumn (prodn ms) (fun m =>
      get dx [l; n] * (get dA [l; p] * (get dB [p; o] * get dy [o; m])))))))%K.
Proof.
  intros Hx HA HB Hy Rx RA RB Ry Bx BA BB By.
  destruct (b2_ok x A B y Hx HA HB Hy ls ns ps os ms Rx RA RB Ry Bx BA BB By) as (r & Er & Wr & Sr & Gr).
  destruct (full_matrix K x Hx) as (dx & Fx & _ & _ & Ex); [unfold is_tt_matrix; now rewrite Rx|].
  destruct (full_matrix K A HA) as (dA & FA & _ & _ & EA); [unfold is_tt_matrix; now rewrite RA|].
  destruct (full_matrix K B HB) as (dB & FB & _ & _ & EB); [unfold is_tt_matrix; now rewrite RB|].
  destruct (full_matrix K y Hy) as (dy & Fy & _ & _ & Ey); [unfold is_tt_matrix; now rewrite Ry|].
  rewrite Rx in Ex. rewrite RA in EA. rewrite RB in EB. rewrite Ry in Ey. cbn [nth] in *.
  unfold bpre in *. rewrite Bx in Ex. rewrite BA in EA. rewrite BB in EB. rewrite By in Ey.
  exists dx, dA, dB, dy, r. repeat (split; [assumption|]). rewrite Gr.
  repeat (apply sumn_ext; intros ? ?).
  pose proof (Ex []) as E1. pose proof (EA []) as E2. pose proof (EB []) as E3. pose proof (Ey []) as E4. cbn [app] in *.
  now rewrite E1, E2, E3, E4 by (auto; apply vidx_nil).
Qed.

Lemma two_mat_kind_err (x A B y : tt K) :
  is_tt_matrix x = false \/ is_tt_matrix A = false \/ is_tt_matrix B = false \/ is_tt_matrix y = false ->
  bilinear_form_two_mat x A B y = Err ValueError.
Proof.
  intros H. unfold bilinear_form_two_mat. destruct (is_tt_matrix A), (is_tt_matrix B); cbn [negb orb]; auto.
  destruct (is_tt_matrix x), (is_tt_matrix y); cbn [negb orb]; auto. destruct H as [|[|[|]]]; discriminate.
Qed.

(** What the first einsum accepts: the matrices are no batches, x and y are both TensorTrains
    or batches of the same size, and that size equals the first inner mode. *)
Lemma two_mat_ok_inv (x A B y : tt K) r : wf x -> wf A -> wf B -> wf y -> bilinear_form_two_mat x A B y = Ok r ->
  bsz A = None /\ bsz B = None /\ bsz x = bsz y /\ mode x 0 0 = mode A 0 0 /\ mode A 1 0 = mode B 0 0 /\ mode B 1 0 = mode y 0 0 /\
  (match bsz x with Some p => p = mode A 1 0 | None => True end).
Proof.
  intros Hx HA HB Hy H. unfold bilinear_form_two_mat in H.
  destruct (is_tt_matrix A) eqn:M1; [|discriminate]. destruct (is_tt_matrix B) eqn:M2; [|discriminate].
  cbn [negb orb] in H.
  destruct (is_tt_matrix x) eqn:M3; [|discriminate]. destruct (is_tt_matrix y) eqn:M4; [|discriminate].
  cbn [negb orb] in H. rewrite orb_diag in H.
  match type of H with context [einsum ?e ?l] => destruct (einsum e l) as [r0|] eqn:E0; [|discriminate] end. clear H.
  pose proof (core_shape _ A _ HA (wf_d HA)) as SA. pose proof (core_shape _ B _ HB (wf_d HB)) as SB.
  pose proof (core_shape _ x _ Hx (wf_d Hx)) as Sx. pose proof (core_shape _ y _ Hy (wf_d Hy)) as Sy.
  destruct (wf_kind_cases _ A HA) as [(E & _)|(_ & _ & MA)]; [congruence|].
  destruct (wf_kind_cases _ B HB) as [(E & _)|(_ & _ & MB)]; [congruence|].
  destruct (wf_kind_cases _ x Hx) as [(E & _)|(_ & _ & Mx)]; [congruence|].
  destruct (wf_kind_cases _ y Hy) as [(E & _)|(_ & _ & My)]; [congruence|].
  rewrite MA in SA. rewrite MB in SB. rewrite Mx in Sx. rewrite My in Sy. unfold is_batch, bpre in *.
  destruct (bsz A) as [z|], (bsz B) as [z'|], (bsz x) as [u|], (bsz y) as [v|];
    (eapply einsum_ok_inv in E0 as [env H]; [|reflexivity]; cbn [app] in H;
     repeat match goal with H : Forall2 _ (_ :: _) (_ :: _) |- _ => inversion H; clear H; subst end;
     rewrite ?SA, ?Sx, ?Sy, ?SB in *; cbn [app] in *;
     repeat match goal with
       | H : Forall2 _ (_ :: _) (_ :: _) |- _ => inversion H; clear H; subst
       | H : Forall2 _ [] (_ :: _) |- _ => inversion H
       | H : Forall2 _ (_ :: _) [] |- _ => inversion H
     end; repeat split; congruence).
Qed.

End WithK.
