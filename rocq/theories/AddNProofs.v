(** Exactness of rounding at low rank, and [approximate.add_n]. *)
From Coq Require Import String Ascii List Arith ZArith Lia Lra Bool Ring Reals.
From Verif Require Import Scalar Tensor TensorLemmas TensorLemmas2 Base Spec Chain BaseLemmas Ops
  FullProofs ResultLemmas Dense AddProofs AddFull MulProofs MatmulProofs DenseMatmul Sweep FlatProofs NormProofs OpsR ScaleProofs
  Decomp DecompSpec GaugeProofs OrthProofs OrthNorm QRExists Trunc TruncChain RoundProofs SvdSpec RoundThms RankArgs Approx.
Import ListNotations.
Local Open Scope nat_scope.
Local Notation get := (@get Rring).

(** [f] is a sum of [q] products at cut [k]. *)
Definition cutrank (ms : nat -> list nat) (d : nat) (f : list (list nat) -> R) (k q : nat) : Prop :=
  exists P Z : list (list nat) -> nat -> R, forall J1 J2,
    vjdx (map ms (seq 0 k)) J1 -> vjdx (map ms (seq k (d - k))) J2 -> f (J1 ++ J2) = rsum q (fun c => P J1 c * Z J2 c)%R.

Lemma cutrank_ext ms d f g k q : k <= d -> (forall J, vjdx (map ms (seq 0 d)) J -> f J = g J) -> cutrank ms d g k q -> cutrank ms d f k q.
Proof.
  intros Hk E (P & Z & H). exists P, Z. intros J1 J2 H1 H2. rewrite E; [now apply H|].
  rewrite (seq_cut k d) by auto. rewrite map_app. unfold vjdx in *. now apply Forall2_app.
Qed.

Lemma cutrank_add ms d f g k q r : cutrank ms d f k q -> cutrank ms d g k r -> cutrank ms d (fun J => f J + g J)%R k (q + r).
Proof.
  intros (P & Z & H) (P' & Z' & H').
  exists (fun J c => if Nat.ltb c q then P J c else P' J (c - q)), (fun J c => if Nat.ltb c q then Z J c else Z' J (c - q)).
  intros J1 J2 H1 H2. rewrite rsum_app_range, H, H' by auto. f_equal; apply rsum_ext; intros i Hi.
  - apply Nat.ltb_lt in Hi. now rewrite Hi.
  - assert (E : Nat.ltb (q + i) q = false) by (apply Nat.ltb_ge; lia). rewrite E. now replace (q + i - q) with i by lia.
Qed.

Lemma cutrank_0 ms d k : cutrank ms d (fun _ => 0%R) k 0.
Proof. exists (fun _ _ => 0%R), (fun _ _ => 0%R). intros. reflexivity. Qed.

Lemma cutrank_entry (t : rtt) p k : wf t -> k <= ndims t -> cutrank (modes t) (ndims t) (tt_entry t p) k (rk t k).
Proof.
  intros Hw Hk. eexists _, _. intros J1 J2 H1 H2. apply entry_cut; auto. apply vjdx_length in H1. now rewrite map_length, seq_length in H1.
Qed.

Lemma cutrank_modes (t u : rtt) f k q d : rshape t = rshape u -> cutrank (modes t) d f k q -> cutrank (modes u) d f k q.
Proof.
  intros R (P & Z & H). exists P, Z. intros J1 J2 H1 H2. apply H.
  - erewrite map_ext; [exact H1|]. intros. now apply modes_ext.
  - erewrite map_ext; [exact H2|]. intros. now apply modes_ext.
Qed.

Section Round.
Variable qr : rtensor -> rtensor * rtensor.
Variable svd : rtensor -> rtensor * rtensor * rtensor.
Hypothesis Hqr : qr_ok qr.
Hypothesis Hsvd : svd_ok svd.

Lemma round_low (t : rtt) a eps mr : wf t -> parse_ranks (is_batch t) a eps (ndims t) = Ok mr ->
  (forall p k, vidx (bpre t) p -> 0 < k < ndims t -> exists q, q <= nth k mr 0 /\ cutrank (modes t) (ndims t) (tt_entry t p) k q) ->
  exists z, round qr svd t a eps = Ok z /\ wf z /\ rshape z = rshape t /\ bsz z = bsz t /\ ndims z = ndims t /\
    (forall k, 0 < k < ndims t -> rk z k <= nth k mr 0 /\ rk z k <= rk t k) /\
    forall p J, vidx (bpre t) p -> vchain (modes t) 0 J -> length J = ndims t -> tt_entry z p J = tt_entry t p J.
Proof.
  intros Hw Hp Hlow. destruct (round_ok qr svd t a eps mr Hqr Hsvd Hw Hp) as (z & Ez & Wz & Rz & Bz & Dz & Kz & H).
  exists z. do 6 (split; [assumption|]). intros p J Vp VJ LJ. destruct (H p Vp) as (e & HE & HB).
  assert (E0 : rsum (ndims t - 1) (fun x => e (S x)) = 0%R).
  { transitivity (rsum (ndims t - 1) (fun _ => 0%R)); [|now apply rsum_0]. apply rsum_ext. intros i Hi. destruct (HB (S i) ltac:(lia)) as [B1 B2].
    destruct (Hlow p (S i) Vp ltac:(lia)) as (q & Hq & P & Z & HPZ). specialize (B2 q P Z Hq).
    enough (X : cut_dist t (tt_entry t p) (S i) q P Z = 0%R) by lra.
    unfold cut_dist. apply rj_zero. intros J1 H1. apply rj_zero. intros J2 H2. rewrite (HPZ J1 J2 H1 H2). ring. }
  rewrite E0 in HE. pose proof (rj_zero_each _ _ (fun J _ => Rle_0_sqr _) HE J (vjdx_chain _ _ _ VJ LJ)) as Z. cbv beta in Z.
  apply Rmult_integral in Z. destruct Z; lra.
Qed.

(** *** add_n *)
Definition rsuml (l : list R) : R := fold_right Rplus 0%R l.
Definition nsuml (l : list nat) : nat := fold_right Nat.add 0 l.
Lemma rsuml_app a b : rsuml (a ++ b) = (rsuml a + rsuml b)%R.
Proof. induction a; cbn; [unfold rsuml; cbn; lra|]. unfold rsuml in *. cbn. rewrite IHa. lra. Qed.
Lemma nsuml_app a b : nsuml (a ++ b) = nsuml a + nsuml b.
Proof. induction a; cbn; auto. unfold nsuml in *. cbn. rewrite IHa. lia. Qed.

Definition gsize (g : list rtt) : option nat := fold_right (fun t acc => bc_size (bsz t) acc) None g.
Lemma gsize_app g h : gsize (g ++ h) = bc_size (gsize g) (gsize h).
Proof.
  induction g as [|x g IH]; cbn [app gsize fold_right]; [reflexivity|]. fold (gsize (g ++ h)) (gsize g). rewrite IH.
  destruct (bsz x) as [a|], (gsize g) as [b|], (gsize h) as [c|]; cbn; auto. now rewrite Nat.max_assoc.
Qed.

(** Sizes of the batches: all TensorTrains, or batches of 1 or [b] elements. *)
Definition bkind (B : option nat) (t : rtt) : Prop :=
  match B with None => bsz t = None | Some b => bsz t = Some 1 \/ bsz t = Some b end.
Definition bo_ok (B : option nat) (o : nat) : Prop := match B with None => True | Some b => o < b end.

Section AddN.
Variable rs : list (list nat).
Variable d : nat.
Variable B : option nat.
Variable a : rank_arg.
Variable mr : list nat.
Hypothesis Hd : 2 <= d.
Hypothesis Hpos : match B with Some b => 0 < b | None => True end.
Hypothesis Hp : parse_ranks (match B with Some _ => true | None => false end) a None d = Ok mr.

Definition okt (t : rtt) : Prop := wf t /\ rshape t = rs /\ ndims t = d /\ bkind B t.

(** [x] is the sum of the group [g]. *)
Definition rep (x : rtt) (g : list rtt) : Prop :=
  g <> [] /\ Forall okt g /\ okt x /\ bsz x = gsize g /\
  (forall k, 0 < k < d -> rk x k <= nsuml (map (fun t => rk t k) g)) /\
  forall o J, bo_ok B o -> vchain (modes x) 0 J -> length J = d ->
    tt_entry x (bsel x o) J = rsuml (map (fun t => tt_entry t (bsel t o) J) g).

Lemma bkind_bsel (t : rtt) o o' : bsz t = Some 1 -> bsel t o = bsel t o'.
Proof. intros E. unfold bsel. now rewrite E. Qed.

Lemma pair_add (x y : rtt) : okt x -> okt y ->
  exists s, add x y = Ok s /\ wf s /\ rshape s = rs /\ ndims s = d /\ bkind B s /\ bsz s = bc_size (bsz x) (bsz y) /\
     is_batch s = match B with Some _ => true | None => false end /\
     (forall k, 0 < k < d -> rk s k = rk x k + rk y k) /\
     forall o J, bo_ok B o -> vchain (modes x) 0 J -> length J = d ->
       tt_entry s (bsel s o) J = (tt_entry x (bsel x o) J + tt_entry y (bsel y o) J)%R.
Proof.
  intros (Wx & Rx & Dx & Bx) (Wy & Ry & Dy & By).
  assert (KK : forall s : rtt, rks s = add_ranks Rring x y -> forall k, 0 < k < d -> rk s k = rk x k + rk y k).
    { intros s E k Hk'. unfold rk at 1. rewrite E. rewrite add_ranks_nth by lia. unfold add_rc.
      destruct (Nat.eqb_spec k 0); [lia|]. destruct (Nat.eqb_spec k (ndims x)); [lia|]. reflexivity. }
    destruct B as [b|] eqn:EB; cbn [bkind] in *.
    - assert (HX : exists bx by' bs, bsz x = Some bx /\ bsz y = Some by' /\ add_batch_size x y = Ok bs /\ bs = Nat.max bx by' /\
        (bx = 1 \/ bx = b) /\ (by' = 1 \/ by' = b)).
      { unfold add_batch_size, lazy_batch_size. destruct Bx as [E|E], By as [E'|E']; rewrite E, ?E'; do 3 eexists; (split; [reflexivity|]); (split; [reflexivity|]).
        - split; [reflexivity|]. auto.
        - split; [reflexivity|]. split; [lia|auto].
        - split; [destruct b as [|[|b]]; reflexivity|]. split; [lia|auto].
        - split; [destruct b as [|[|b]]; reflexivity|]. split; [lia|auto]. }
      destruct HX as (bx & by' & bs & E1 & E2 & E3 & E4 & H1 & H2).
      destruct (add_batch Rring x y bs Wx Wy ltac:(congruence) ltac:(lia)) as (s & Es & Ws & Rs & Ks & Bs & Ds & C1 & C2 & Ent); auto.
      + unfold is_batch_broadcasting_possible. rewrite E1, E2. destruct H1, H2; subst; rewrite ?Nat.eqb_refl, ?orb_true_r; auto.
      + unfold is_batch. now rewrite E1.
      + exists s. split; [exact Es|]. split; [exact Ws|]. split; [congruence|]. split; [congruence|].
        split; [cbn [bkind]; rewrite Bs; destruct H1, H2; subst; rewrite ?Nat.max_idempotent; auto; right; f_equal; lia|].
        split; [rewrite Bs, E1, E2; cbn; now rewrite E4|].
        split; [unfold is_batch; now rewrite Bs|]. split; [now apply KK|].
        intros o J Ho HJ LJ. cbn [bo_ok] in Ho.
        destruct (Nat.eq_dec bs 1) as [->|Hb1].
        * assert (bx = 1) by lia. assert (by' = 1) by lia. subst.
          rewrite (bkind_bsel s o 0), (bkind_bsel x o 0), (bkind_bsel y o 0) by auto.
          rewrite (bsel_some _ s 1 0 Bs) by lia. apply Ent; auto; lia.
        * assert (bs = b) by (destruct H1, H2; subst; lia). subst bs.
          rewrite (bsel_some _ s _ o Bs) by lia. apply Ent; auto; lia.
    - destruct (add_nonbatch Rring x y Wx Wy ltac:(congruence) ltac:(lia) Bx By) as (s & Es & Ws & Rs & Ks & Bs & Ds & Ent).
      exists s. split; [exact Es|]. split; [exact Ws|]. split; [congruence|]. split; [congruence|]. split; [exact Bs|].
      split; [rewrite Bs, Bx, By; reflexivity|]. split; [unfold is_batch; now rewrite Bs|]. split; [now apply KK|].
      intros o J _ HJ LJ. unfold bsel. rewrite Bs, Bx, By. apply Ent; auto. lia.
Qed.

Lemma pair_step (x y : rtt) g h : rep x g -> rep y h -> (forall k, 0 < k < d -> nsuml (map (fun t => rk t k) (g ++ h)) <= nth k mr 0) ->
  exists s z, add x y = Ok s /\ round qr svd s a None = Ok z /\ rep z (g ++ h).
Proof.
  intros (Gn & Gg & Hx & Zx & Kx & Ex) (Hn & Hh & Hy & Zy & Ky & Ey) Hk.
  destruct (pair_add x y Hx Hy) as (s & Es & Ws & Rs & Ds & Bs & Zs & Is & Ks & Ent).
  rewrite Zx, Zy, <- gsize_app in Zs. destruct Hx as (Wx & Rx & Dx & Bx), Hy as (Wy & Ry & Dy & By).
  assert (Mx : forall m, modes x m = modes s m) by (intros; apply modes_ext; congruence).
  assert (SumE : forall o J, bo_ok B o -> vchain (modes s) 0 J -> length J = d ->
     tt_entry s (bsel s o) J = rsuml (map (fun t => tt_entry t (bsel t o) J) (g ++ h))).
  { intros o J Ho HJ LJ.
    assert (HJx : vchain (modes x) 0 J) by (eapply vchain_ext; [|exact HJ]; auto).
    assert (HJy : vchain (modes y) 0 J) by (eapply vchain_ext; [|exact HJ]; intros; apply modes_ext; congruence).
    rewrite Ent by auto. rewrite Ex, Ey by auto. now rewrite map_app, rsuml_app. }
  destruct (round_low s a None mr Ws ltac:(now rewrite Is, Ds)) as (z & Ez & Wz & Rz & Bz & Dz & Kz & Entz).
  - intros p k Vp Hk'. rewrite Ds in Hk'. exists (nsuml (map (fun t => rk t k) (g ++ h))). split; [now apply Hk|].
    assert (Ho : exists o, p = bsel s o /\ bo_ok B o).
    { unfold bpre in Vp. destruct B as [b|]; cbn [bkind bo_ok] in *.
      - destruct Bs as [E|E]; rewrite E in Vp; apply vidx_1_inv in Vp as (o & -> & Ho).
        + exists 0. split; [rewrite (bsel_some _ s 1 0 E) by lia; f_equal; lia|lia].
        + exists o. split; [now rewrite (bsel_some _ s b o E)|exact Ho].
      - rewrite Bs in Vp. inversion Vp. exists 0. unfold bsel. now rewrite Bs. }
    destruct Ho as (o & -> & Ho). rewrite Ds.
    apply (cutrank_ext _ _ _ (fun J => rsuml (map (fun t => tt_entry t (bsel t o) J) (g ++ h)))); [lia| |].
    { intros J HJ. apply SumE; auto; [|apply vjdx_length in HJ; now rewrite map_length, seq_length in HJ].
      apply vjdx_seq in HJ. exact (proj1 HJ). }
    assert (Hall : Forall okt (g ++ h)) by (apply Forall_app; auto). clear - Hall Hk' Rs.
    induction Hall as [|t l (Wt & Rt & Dt & _) Hl IH]; [apply cutrank_0|]. cbn [map]. apply cutrank_add; [|exact IH].
    apply (cutrank_modes t); [congruence|]. rewrite <- Dt. apply cutrank_entry; auto. lia.
  - exists s, z. split; [exact Es|]. split; [exact Ez|].
    split; [destruct g; [congruence|discriminate]|]. split; [apply Forall_app; auto|].
    split. { split; [exact Wz|]. split; [congruence|]. split; [congruence|]. unfold bkind in *. destruct B; rewrite Bz; auto. }
    split; [congruence|]. split.
    + intros k Hk'. rewrite map_app, nsuml_app. rewrite <- Ds in Hk'. destruct (Kz k Hk') as [_ K2]. rewrite Ds in Hk'.
      rewrite Ks in K2 by auto. specialize (Kx k Hk'). specialize (Ky k Hk'). lia.
    + intros o J Ho HJ LJ.
      assert (HJs : vchain (modes s) 0 J) by (eapply vchain_ext; [|exact HJ]; intros; apply modes_ext; congruence).
      assert (Eb : bsel z o = bsel s o) by (unfold bsel; now rewrite Bz). rewrite Eb.
      rewrite Entz; auto; [|lia]. unfold bpre, bsel. destruct B as [b|]; cbn [bkind bo_ok] in *.
      * destruct Bs as [E|E]; rewrite E; [apply vidx_cons; [lia|constructor]|].
        destruct b as [|[|b]]; apply vidx_cons; try lia; constructor.
      * rewrite Bs. constructor.
Qed.

Definition total (gs : list (list rtt)) k := nsuml (map (fun t => rk t k) (List.concat gs)).

Lemma level_step n : forall l gs, length l <= n -> Forall2 rep l gs -> (forall k, 0 < k < d -> total gs k <= nth k mr 0) ->
  exists l' gs', add_level qr svd a l = Ok l' /\ Forall2 rep l' gs' /\ List.concat gs' = List.concat gs /\
    2 * length l' <= S (length l) /\ (l <> [] -> l' <> []).
Proof.
  induction n as [|n IH]; intros l gs Hn HF Ht.
  - destruct l; [|cbn in Hn; lia]. inversion HF. subst. exists [], []. split; [reflexivity|]. split; [constructor|]. split; [reflexivity|]. split; [cbn; lia|auto].
  - destruct HF as [|x g l gs Hx HF].
    { exists [], []. split; [reflexivity|]. split; [constructor|]. split; [reflexivity|]. split; [cbn; lia|auto]. }
    destruct HF as [|y h l gs Hy HF].
    { exists [x], [g]. split; [reflexivity|]. split; [constructor; [exact Hx|constructor]|]. split; [reflexivity|]. split; [cbn; lia|auto]. }
    destruct (pair_step x y g h Hx Hy) as (s & z & Es & Ez & Hz).
    { intros k Hk. etransitivity; [|apply (Ht k Hk)]. unfold total. cbn [List.concat]. rewrite app_assoc, (map_app _ (g ++ h)), nsuml_app. lia. }
    destruct (IH l gs ltac:(cbn in Hn; lia) HF) as (l' & gs' & El & HF' & Ec & Hl & Hne).
    { intros k Hk. etransitivity; [|apply (Ht k Hk)]. unfold total. cbn [List.concat]. rewrite app_assoc, (map_app _ (g ++ h)), nsuml_app. lia. }
    exists (z :: l'), ((g ++ h) :: gs'). cbn [add_level]. rewrite Es. cbn [bind]. rewrite Ez. cbn [bind]. rewrite El. cbn [bind].
    split; [reflexivity|]. split; [constructor; auto|]. split; [cbn [List.concat]; rewrite Ec; now rewrite app_assoc|].
    split; [cbn [length] in *; lia|discriminate].
Qed.

Lemma levels_ok fuel : forall l gs, length l <= fuel -> l <> [] -> Forall2 rep l gs -> (forall k, 0 < k < d -> total gs k <= nth k mr 0) ->
  exists z, add_levels qr svd fuel a l = Ok [z] /\ rep z (List.concat gs).
Proof.
  induction fuel as [|f IH]; intros l gs Hl Hne HF Ht; [destruct l; [congruence|cbn in Hl; lia]|].
  cbn [add_levels]. destruct (Nat.ltb_spec 1 (length l)) as [H1|H1].
  - destruct (level_step (length l) l gs ltac:(lia) HF Ht) as (l' & gs' & El & HF' & Ec & Hl' & Hne'). rewrite El. cbn [bind].
    destruct (IH l' gs' ltac:(lia) ltac:(auto) HF') as (z & Ez & Hz).
    { intros k Hk. unfold total. rewrite Ec. now apply Ht. }
    exists z. split; [exact Ez|]. now rewrite <- Ec.
  - destruct HF as [|x g l gs Hx HF]; [congruence|]. destruct HF; [|cbn in H1; lia].
    exists x. split; [reflexivity|]. cbn [List.concat]. now rewrite app_nil_r.
Qed.

Lemma rep_single t : okt t -> rep t [t].
Proof.
  intros Ht. split; [discriminate|]. split; [constructor; [exact Ht|constructor]|]. split; [exact Ht|].
  split; [cbn; destruct (bsz t); reflexivity|]. split; [intros; cbn; lia|]. intros. unfold rsuml. cbn. lra.
Qed.

Lemma add_n_ok l : l <> [] -> Forall okt l -> (forall k, 0 < k < d -> nsuml (map (fun t => rk t k) l) <= nth k mr 0) ->
  exists z, add_n qr svd l a = Ok z /\ rep z l.
Proof.
  intros Hne Hl Hk. destruct (levels_ok (length l) l (map (fun t => [t]) l)) as (z & Ez & Hz); auto.
  - clear Hk Hne. induction Hl as [|x l Hx Hl IH]; cbn [map]; constructor; auto. now apply rep_single.
  - intros k Hk'. unfold total. replace (List.concat (map (fun t => [t]) l)) with l; [now apply Hk|].
    clear. induction l; cbn; congruence.
  - exists z. unfold add_n. rewrite Ez. cbn [bind]. split; [reflexivity|].
    replace (List.concat (map (fun t => [t]) l)) with l in Hz; auto. clear. induction l; cbn; congruence.
Qed.
End AddN.
End Round.
