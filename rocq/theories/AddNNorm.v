(** The norm of a sum computed by [add_n], whatever the roundings cut off. *)
From Coq Require Import String Ascii List Arith ZArith Lia Lra Bool Ring Reals.
From Verif Require Import Scalar Tensor TensorLemmas TensorLemmas2 Base Spec Chain BaseLemmas Ops
  FullProofs ResultLemmas Dense AddProofs AddFull MulProofs MatmulProofs DenseMatmul Sweep FlatProofs GatherProofs SliceProofs NormProofs OpsR BatchOps ScaleProofs
  Decomp DecompSpec GaugeProofs OrthProofs OrthNorm QRExists Trunc TruncChain RoundProofs SvdSpec RoundThms RankArgs Approx AddNProofs ReduceSumProofs ApproxThms
  TutorialSpec DescentThms RoundPyth.
Import ListNotations.
Local Open Scope nat_scope.
Local Notation get := (@get Rring).

Lemma bsel_ok B (t : rtt) o : match B with Some b => 0 < b | None => True end -> bkind B t -> bo_ok B o -> vidx (bpre t) (bsel t o).
Proof.
  intros Hp Bt Ho. unfold bpre, bsel. destruct B as [b|]; cbn [bkind bo_ok] in *.
  - destruct Bt as [E|E]; rewrite E; [apply vidx_cons; [lia|constructor]|]. destruct b as [|[|b]]; apply vidx_cons; try lia; constructor.
  - rewrite Bt. constructor.
Qed.

(** Element [o] of a batch (or a TensorTrain), and its norm. *)
Definition el (t : rtt) (o : nat) (i : list nat) : R := tt_entry t (bsel t o) (split_idx t i).
Definition elnorm (t : rtt) (o : nat) : R := sqrt (dot (ishape t) (el t o) (el t o)).

Section Thms.
Variable qr : rtensor -> rtensor * rtensor.
Variable svd : rtensor -> rtensor * rtensor * rtensor.
Hypothesis Hqr : qr_ok qr.
Hypothesis Hsvd : svd_ok svd.

Lemma round_elnorm (s : rtt) a eps mr B : wf s -> match B with Some b => 0 < b | None => True end -> bkind B s -> parse_ranks (is_batch s) a eps (ndims s) = Ok mr ->
  exists z, round qr svd s a eps = Ok z /\ wf z /\ rshape z = rshape s /\ bsz z = bsz s /\ ndims z = ndims s /\ forall o, bo_ok B o -> (elnorm z o <= elnorm s o)%R.
Proof.
  intros Ws HB Bs Hp. destruct (round_orth qr svd s a eps mr Hqr Hsvd Ws Hp) as (z & Ez & Wz & Rz & Bz & Dz & HO).
  exists z. do 5 (split; [assumption|]). intros o Ho. unfold elnorm. rewrite (ishape_ext z s) by auto.
  pose proof (HO (bsel s o) (bsel_ok B s o HB Bs Ho)) as H. unfold rj in H. rewrite <- (isum_split Rring) in H by auto.
  assert (P : dot (ishape s) (el s o) (el s o) = (dot (ishape s) (el z o) (el z o) + dot (ishape s) (fun i => el s o i - el z o i) (fun i => el s o i - el z o i))%R).
  { apply isum_pyth. rewrite <- H. apply (isum_ext Rring). intros i _. unfold el. rewrite (split_idx_same z s) by auto.
    replace (bsel z o) with (bsel s o) by (unfold bsel; now rewrite Bz). reflexivity. }
  apply sqrt_le_1_alt. rewrite P. pose proof (dot_pos (ishape s) (fun i => el s o i - el z o i)%R). lra.
Qed.

Lemma pair_norm rs d B a mr x y : 2 <= d -> match B with Some b => 0 < b | None => True end -> parse_ranks (kindb B) a None d = Ok mr ->
  okt rs d B x -> okt rs d B y ->
  exists s z, add x y = Ok s /\ round qr svd s a None = Ok z /\ okt rs d B z /\ bsz z = bc_size (bsz x) (bsz y) /\
    forall o, bo_ok B o -> (elnorm z o <= elnorm x o + elnorm y o)%R.
Proof.
  intros Hd Hpos Hp Hx Hy. destruct (pair_add rs d B a mr Hd Hpos Hp x y Hx Hy) as (s & Es & Ws & Rs & Ds & Bs & Zs & Is & Ks & Ent).
  destruct Hx as (Wx & Rx & Dx & Bx). destruct Hy as (Wy & Ry & Dy & By).
  destruct (round_elnorm s a None mr B Ws Hpos Bs) as (z & Ez & Wz & Rz & Bz & Dz & N).
  { rewrite Is, Ds. exact Hp. }
  exists s, z. split; [exact Es|]. split; [exact Ez|]. split.
  { split; [exact Wz|]. split; [congruence|]. split; [congruence|]. unfold bkind in *. destruct B; rewrite Bz; auto. }
  split; [congruence|]. intros o Ho. eapply Rle_trans; [now apply N|]. unfold elnorm.
  rewrite (ishape_ext x s), (ishape_ext y s) by congruence.
  eapply Rle_trans; [|apply dot_triangle]. apply sqrt_le_1_alt. apply Req_le. apply dot_ext. intros i Hi.
  enough (el s o i = (el x o i + el y o i)%R) by auto. unfold el. rewrite (split_idx_same x s), (split_idx_same y s) by congruence.
  destruct (split_idx_valid _ s i Ws Hi) as [V1 V2]. apply Ent; auto; try congruence.
  replace (modes x) with (modes s); [exact V1|]. unfold modes. now rewrite Rs, Rx.
Qed.

Lemma add_n_norm rs d B a m l : 2 <= d -> match B with Some b => 0 < b | None => True end -> rank_limits (kindb B) a None d m ->
  l <> [] -> Forall (okt rs d B) l ->
  exists z, add_n qr svd l a = Ok z /\ okt rs d B z /\ bsz z = gsize l /\
    forall o, bo_ok B o -> (elnorm z o <= rsuml (map (fun t => elnorm t o) l))%R.
Proof.
  intros Hd Hpos Hm Hne Hl. destruct (limits_parse _ _ _ _ _ Hm ltac:(lia)) as (mr & Hp & Hn).
  assert (HLev : forall n l, length l <= n -> Forall (okt rs d B) l -> exists l', add_level qr svd a l = Ok l' /\ Forall (okt rs d B) l' /\ gsize l' = gsize l /\
     2 * length l' <= S (length l) /\ length l <= 2 * length l' /\
     forall o, bo_ok B o -> (rsuml (map (fun t => elnorm t o) l') <= rsuml (map (fun t => elnorm t o) l))%R).
  { clear l Hne Hl. induction n as [|n IH]; intros l Hl HF.
    - destruct l; [|cbn in Hl; lia]. exists []. split; [reflexivity|]. split; [constructor|]. split; [reflexivity|]. cbn. repeat split; auto. intros. apply Rle_refl.
    - destruct HF as [|x l Hx HF]; [exists []; split; [reflexivity|]; split; [constructor|]; split; [reflexivity|]; cbn; repeat split; auto; intros; apply Rle_refl|].
      destruct HF as [|y l Hy HF]; [exists [x]; split; [reflexivity|]; split; [constructor; [exact Hx|constructor]|]; split; [reflexivity|]; cbn; repeat split; try lia; intros; apply Rle_refl|].
      destruct (pair_norm rs d B a mr x y Hd Hpos Hp Hx Hy) as (s & z & Es & Ez & Oz & Bz & Nz).
      destruct (IH l ltac:(cbn in Hl; lia) HF) as (l' & El & HF' & G' & L1 & L2 & N').
      exists (z :: l'). cbn [add_level]. rewrite Es. cbn [bind]. rewrite Ez. cbn [bind]. rewrite El. cbn [bind].
      split; [reflexivity|]. split; [constructor; auto|].
      split. { cbn [gsize fold_right]. fold (gsize l') (gsize l). rewrite G', Bz. destruct (bsz x), (bsz y), (gsize l); cbn; auto. now rewrite Nat.max_assoc. }
      cbn [length] in *. split; [lia|]. split; [lia|]. intros o Ho. specialize (Nz o Ho). specialize (N' o Ho). unfold rsuml in *. cbn [map fold_right]. lra. }
  assert (HLs : forall fuel l, length l <= fuel -> l <> [] -> Forall (okt rs d B) l ->
     exists z, add_levels qr svd fuel a l = Ok [z] /\ okt rs d B z /\ bsz z = gsize l /\
       forall o, bo_ok B o -> (elnorm z o <= rsuml (map (fun t => elnorm t o) l))%R).
  { clear l Hne Hl. induction fuel as [|f IH]; intros l Hl Hne HF; [destruct l; [congruence|cbn in Hl; lia]|].
    cbn [add_levels]. destruct (Nat.ltb_spec 1 (length l)) as [L|L].
    - destruct (HLev (length l) l ltac:(lia) HF) as (l' & El & HF' & G' & L1 & L2 & N'). rewrite El. cbn [bind].
      destruct (IH l' ltac:(lia)) as (z & Ez & Oz & Bz & Nz); auto.
      { intros E. subst l'. cbn in L2. lia. }
      exists z. split; [exact Ez|]. split; [exact Oz|]. split; [congruence|]. intros o Ho. eapply Rle_trans; [now apply Nz|now apply N'].
    - destruct l as [|x [|]]; [congruence| |cbn in L; lia]. exists x. split; [reflexivity|]. inversion HF; subst. split; [assumption|].
      split; [cbn; destruct (bsz x); reflexivity|]. intros o _. unfold rsuml. cbn. lra. }
  destruct (HLs (length l) l ltac:(lia)) as (z & Ez & Oz & Bz & Nz); auto.
  exists z. unfold add_n. rewrite Ez. auto.
Qed.

(** For the dense arrays. *)
Lemma elnorm_dense rs d B (t : rtt) dt o sh : match B with Some b => 0 < b | None => True end -> okt rs d B t -> full t = Ok dt -> bo_ok B o -> sh = ishape t ->
  elnorm t o = sqrt (isum (K := Rring) sh (fun i => (get dt (opidx (bsz t) o i) * get dt (opidx (bsz t) o i))%R)).
Proof.
  intros Hpos (W & _ & _ & Bt) F Ho ->. destruct (dense_of t W) as (dt' & F' & _ & _ & G). rewrite F in F'. injection F' as <-.
  unfold elnorm. f_equal. apply (isum_ext Rring). intros i Hi. destruct (G (bsel t o) i (bsel_ok B t o Hpos Bt Ho) Hi) as [E _].
  rewrite opidx_bsel, E. reflexivity.
Qed.

Lemma add_n_norm_dense rs d B a m l : 2 <= d -> match B with Some b => 0 < b | None => True end -> rank_limits (kindb B) a None d m ->
  l <> [] -> Forall (okt rs d B) l ->
  exists z dz ds, add_n qr svd l a = Ok z /\ bsz z = gsize l /\ full z = Ok dz /\ Forall2 (fun t dt => full t = Ok dt) l ds /\ shape dz = bpre z ++ ishape z /\ bkind B z /\
    forall o, bo_ok B o ->
      (sqrt (isum (K := Rring) (ishape z) (fun i => get dz (opidx (bsz z) o i) * get dz (opidx (bsz z) o i))) <=
       rsuml (map2 (fun t dt => sqrt (isum (K := Rring) (ishape z) (fun i => get dt (opidx (bsz t) o i) * get dt (opidx (bsz t) o i)))) l ds))%R.
Proof.
  intros Hd Hpos Hm Hne Hl. destruct (add_n_norm rs d B a m l Hd Hpos Hm Hne Hl) as (z & Ez & Oz & Bz & N).
  pose proof Oz as (Wz & Rz & Dz & Kz). destruct (dense_of z Wz) as (dz & Fz & _ & Sz & _).
  assert (HD : exists ds, Forall2 (fun t dt => full t = Ok dt) l ds).
  { clear - Hl. induction Hl as [|t l (Wt & _) Hl (ds & IH)]; [exists []; constructor|]. destruct (dense_of t Wt) as (dt & Ft & _). exists (dt :: ds). now constructor. }
  destruct HD as (ds & HF). exists z, dz, ds. do 6 (split; [assumption|]). intros o Ho.
  rewrite <- (elnorm_dense rs d B z dz o (ishape z)) by auto. eapply Rle_trans; [now apply N|]. apply Req_le. f_equal.
  clear - HF Hl Ho Hpos Rz. induction HF as [|t dt l ds F HF IH]; cbn [map map2]; auto. inversion Hl as [|? ? Ht Hl']; subst.
  rewrite IH by auto. f_equal. apply (elnorm_dense (rshape z) d B t dt o); auto. destruct Ht as (_ & Rt & _). now apply ishape_ext.
Qed.
End Thms.
