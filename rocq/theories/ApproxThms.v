(** [add_n] and [reduce_sum_batch] in terms of dense tensors; results under truncation; errors. *)
From Coq Require Import String Ascii List Arith ZArith Lia Lra Bool Ring Reals.
From Verif Require Import Scalar Tensor TensorLemmas TensorLemmas2 Base Spec Chain BaseLemmas Ops
  FullProofs ResultLemmas Dense AddProofs AddFull MulProofs MatmulProofs DenseMatmul Sweep FlatProofs GatherProofs SliceProofs NormProofs OpsR BatchOps ScaleProofs
  Decomp DecompSpec GaugeProofs OrthProofs OrthNorm QRExists Trunc TruncChain RoundProofs SvdSpec RoundThms RankArgs Approx AddNProofs ReduceSumProofs.
Import ListNotations.
Local Open Scope nat_scope.
Local Notation get := (@get Rring).

(** The elements of [full t]. *)
Lemma dense_of (t : rtt) : wf t -> exists dt, full t = Ok dt /\ wft dt /\ shape dt = bpre t ++ ishape t /\
  forall p i, vidx (bpre t) p -> vidx (ishape t) i ->
    get dt (p ++ i) = tt_entry t p (split_idx t i) /\ vchain (modes t) 0 (split_idx t i) /\ length (split_idx t i) = ndims t.
Proof.
  intros Hw. destruct (full_correct Rring t Hw) as (dt & F & W & S & E). exists dt. split; [exact F|]. split; [exact W|].
  rewrite get_shape_ishape in *. split; [exact S|]. intros p i Hp Hi. rewrite E by now apply vidx_app. rewrite tt_at_entry by auto.
  destruct (split_idx_valid _ t i Hw Hi) as [V1 V2]. auto.
Qed.

Lemma ishape_ext (s t : rtt) : rshape s = rshape t -> ishape s = ishape t.
Proof. intros R. unfold ishape, is_tt_matrix. now rewrite R. Qed.
Lemma split_idx_same (s t : rtt) i : rshape s = rshape t -> split_idx s i = split_idx t i.
Proof. intros R. unfold split_idx, is_tt_matrix. now rewrite R. Qed.

Section Thms.
Variable qr : rtensor -> rtensor * rtensor.
Variable svd : rtensor -> rtensor * rtensor * rtensor.
Hypothesis Hqr : qr_ok qr.
Hypothesis Hsvd : svd_ok svd.

(** *** add_n *)
Definition kindb (B : option nat) : bool := match B with Some _ => true | None => false end.

Lemma add_n_dense rs d B a m l : 2 <= d -> match B with Some b => 0 < b | None => True end -> rank_limits (kindb B) a None d m ->
  l <> [] -> Forall (okt rs d B) l -> (forall k, 0 < k < d -> nsuml (map (fun t => rk t k) l) <= m k) ->
  exists z dz ds, add_n qr svd l a = Ok z /\ wf z /\ rshape z = rs /\ bsz z = gsize l /\ (forall k, 0 < k < d -> rk z k <= m k) /\
    full z = Ok dz /\ Forall2 (fun t dt => full t = Ok dt) l ds /\
    match bsz z with
    | None => forall i, vidx (shape dz) i -> get dz i = rsuml (map (fun dt => get dt i) ds)
    | Some _ => forall o i, vidx (shape dz) (o :: i) -> get dz (o :: i) = rsuml (map2 (fun t dt => get dt (opidx (bsz t) o i)) l ds)
    end.
Proof.
  intros Hd Hpos Hm Hne Hl Hk. destruct (limits_parse _ _ _ _ _ Hm ltac:(lia)) as (mr & Hp & Hn).
  destruct (add_n_ok qr svd Hqr Hsvd rs d B a mr Hd Hpos Hp l Hne Hl) as (z & Ez & _ & _ & (Wz & Rz & Dz & Bz) & Zz & Kz & Entz).
  { intros k Hk'. rewrite Hn by lia. now apply Hk. }
  destruct (dense_of z Wz) as (dz & Fz & _ & Sz & Gz).
  assert (HD : exists ds, Forall2 (fun t dt => full t = Ok dt) l ds /\
     forall o i, bo_ok B o -> vidx (ishape z) i ->
       map2 (fun t dt => get dt (opidx (bsz t) o i)) l ds = map (fun t => tt_entry t (bsel t o) (split_idx z i)) l).
  { clear Hne Hk Ez Zz Kz Entz. induction Hl as [|t l (Wt & Rt & Dt & Bt) Hl IH].
    - exists []. split; [constructor|reflexivity].
    - destruct IH as (ds & HF & HE). destruct (dense_of t Wt) as (dt & Ft & _ & _ & Gt).
      exists (dt :: ds). split; [now constructor|]. intros o i Ho Hi. cbn [map2 map]. rewrite HE by auto. f_equal.
      rewrite opidx_bsel. rewrite <- (split_idx_same t z) by congruence. apply Gt; [|rewrite (ishape_ext t z) by congruence; exact Hi].
      unfold bpre, bsel. destruct B as [b|]; cbn [bkind bo_ok] in *.
      + destruct Bt as [E|E]; rewrite E; [apply vidx_cons; [lia|constructor]|].
        destruct b as [|[|b]]; apply vidx_cons; try lia; constructor.
      + rewrite Bt. constructor. }
  destruct HD as (ds & HF & HE). exists z, dz, ds. do 4 (split; [assumption|]).
  split. { intros k Hk'. etransitivity; [now apply Kz|now apply Hk]. }
  split; [exact Fz|]. split; [exact HF|]. rewrite Sz. unfold bpre in *. destruct (bsz z) as [b|] eqn:EB.
  - intros o i V. inversion V as [|? ? ? ? Ho Hi]; subst. cbn [app] in *.
    destruct (Gz [o] i ltac:(vsolve) Hi) as (G1 & G2 & G3). cbn [app] in G1.
    destruct B as [b'|]; cbn [bkind] in Bz; [|congruence].
    assert (Hob : o < b') by (rewrite EB in Bz; destruct Bz as [E|E]; injection E as ->; lia).
    rewrite G1. rewrite HE by auto. rewrite <- Entz by (auto; congruence). f_equal. unfold bsel. rewrite EB. destruct b as [|[|b]]; auto. f_equal. lia.
  - intros i Hi. cbn [app] in *. destruct (Gz [] i ltac:(constructor) Hi) as (G1 & G2 & G3). cbn [app] in G1. rewrite G1.
    destruct B as [b'|]; cbn [bkind] in Bz; [destruct Bz; congruence|].
    specialize (HE 0 i I Hi). specialize (Entz 0 (split_idx z i) I G2 ltac:(congruence)). rewrite <- HE in Entz.
    unfold bsel in Entz at 1. rewrite EB in Entz. rewrite Entz. f_equal. clear - HF Hl.
    induction HF as [|t dt l ds F HF IH]; cbn [map map2]; auto. inversion Hl as [|? ? (_ & _ & _ & B1) Hl']; subst. cbn [bkind] in B1.
    rewrite IH by auto. rewrite B1. reflexivity.
Qed.

(** Whatever is cut off, the result is well-formed and within the bounds. *)
Lemma pair_total rs d B a mr x y : 2 <= d -> match B with Some b => 0 < b | None => True end -> parse_ranks (kindb B) a None d = Ok mr ->
  okt rs d B x -> okt rs d B y ->
  exists s z, add x y = Ok s /\ round qr svd s a None = Ok z /\ okt rs d B z /\ bsz z = bc_size (bsz x) (bsz y) /\ forall k, 0 < k < d -> rk z k <= nth k mr 0.
Proof.
  intros Hd Hpos Hp Hx Hy. destruct (pair_add rs d B a mr Hd Hpos Hp x y Hx Hy) as (s & Es & Ws & Rs & Ds & Bs & Zs & Is & Ks & Ent).
  destruct (round_ok qr svd s a None mr Hqr Hsvd Ws) as (z & Ez & Wz & Rz & Bz & Dz & Kz & _).
  { rewrite Is, Ds. exact Hp. }
  exists s, z. split; [exact Es|]. split; [exact Ez|]. split.
  { split; [exact Wz|]. split; [congruence|]. split; [congruence|]. unfold bkind in *. destruct B; rewrite Bz; auto. }
  split; [congruence|]. intros k Hk. apply Kz. lia.
Qed.

Lemma add_n_total rs d B a m l : 2 <= d -> match B with Some b => 0 < b | None => True end -> rank_limits (kindb B) a None d m ->
  2 <= length l -> Forall (okt rs d B) l ->
  exists z, add_n qr svd l a = Ok z /\ wf z /\ rshape z = rs /\ bsz z = gsize l /\ forall k, 0 < k < d -> rk z k <= m k.
Proof.
  intros Hd Hpos Hm H2 Hl. destruct (limits_parse _ _ _ _ _ Hm ltac:(lia)) as (mr & Hp & Hn).
  set (low := fun t : rtt => forall k, 0 < k < d -> rk t k <= nth k mr 0).
  assert (HLev : forall n l, length l <= n -> Forall (okt rs d B) l -> exists l', add_level qr svd a l = Ok l' /\ Forall (okt rs d B) l' /\ gsize l' = gsize l /\
     2 * length l' <= S (length l) /\ length l <= 2 * length l' /\ (length l <> 1 -> match l' with z :: _ => low z | [] => True end)).
  { clear l H2 Hl. induction n as [|n IH]; intros l Hl HF.
    - destruct l; [|cbn in Hl; lia]. exists []. split; [reflexivity|]. split; [constructor|]. split; [reflexivity|]. cbn. auto.
    - destruct HF as [|x l Hx HF]; [exists []; split; [reflexivity|]; split; [constructor|]; split; [reflexivity|]; cbn; auto|].
      destruct HF as [|y l Hy HF]; [exists [x]; split; [reflexivity|]; split; [constructor; [exact Hx|constructor]|]; split; [reflexivity|]; cbn; lia|].
      destruct (pair_total rs d B a mr x y Hd Hpos Hp Hx Hy) as (s & z & Es & Ez & Oz & Bz & Kz).
      destruct (IH l ltac:(cbn in Hl; lia) HF) as (l' & El & HF' & G' & L1 & L2 & _).
      exists (z :: l'). cbn [add_level]. rewrite Es. cbn [bind]. rewrite Ez. cbn [bind]. rewrite El. cbn [bind].
      split; [reflexivity|]. split; [constructor; auto|].
      split. { cbn [gsize fold_right]. fold (gsize l') (gsize l). rewrite G', Bz. destruct (bsz x), (bsz y), (gsize l); cbn; auto. now rewrite Nat.max_assoc. }
      cbn [length] in *. split; [lia|]. split; [lia|]. intros _. exact Kz. }
  assert (HLs : forall fuel l, length l <= fuel -> l <> [] -> Forall (okt rs d B) l -> (length l = 1 -> match l with z :: _ => low z | [] => True end) ->
     exists z, add_levels qr svd fuel a l = Ok [z] /\ okt rs d B z /\ bsz z = gsize l /\ low z).
  { clear l H2 Hl. induction fuel as [|f IH]; intros l Hl Hne HF H1; [destruct l; [congruence|cbn in Hl; lia]|].
    cbn [add_levels]. destruct (Nat.ltb_spec 1 (length l)) as [L|L].
    - destruct (HLev (length l) l ltac:(lia) HF) as (l' & El & HF' & G' & L1 & L2 & HL). rewrite El. cbn [bind].
      destruct (IH l' ltac:(lia)) as (z & Ez & Oz & Bz & Kz); auto.
      { intros E. subst l'. cbn in L2. lia. }
      { intros _. apply HL. lia. }
      exists z. split; [exact Ez|]. split; [exact Oz|]. split; [congruence|exact Kz].
    - destruct l as [|x [|]]; [congruence| |cbn in L; lia]. exists x. split; [reflexivity|]. inversion HF; subst. split; [assumption|].
      split; [cbn; destruct (bsz x); reflexivity|]. apply (H1 eq_refl). }
  destruct (HLs (length l) l ltac:(lia)) as (z & Ez & (Wz & Rz & _) & Bz & Kz); auto.
  - intros E. rewrite E in H2. cbn in H2. lia.
  - intros E. lia.
  - exists z. unfold add_n. rewrite Ez. split; [reflexivity|]. do 3 (split; [assumption|]). intros k Hk. rewrite <- Hn by lia. now apply Kz.
Qed.

(** Objects of different shapes. *)
Lemma add_n_shape_err B a l z : match B with Some b => 0 < b | None => True end -> a = RkNum z -> (1 <= z)%Z ->
  Forall (fun t => wf t /\ 2 <= ndims t /\ bkind B t) l ->
  (exists t u, In t l /\ In u l /\ rshape t <> rshape u) -> add_n qr svd l a = Err ValueError.
Proof.
  intros Hpos Ea Hz Hl HX. set (P := fun t : rtt => wf t /\ 2 <= ndims t /\ bkind B t) in *.
  assert (Hstep : forall x y, P x -> P y -> rshape x <> rshape y \/ exists s z, add x y = Ok s /\ round qr svd s a None = Ok z /\ P z /\ rshape z = rshape x /\ rshape z = rshape y).
  { intros x y (Wx & Dx & Bx) (Wy & Dy & By). destruct (list_eq_dec (list_eq_dec Nat.eq_dec) (rshape x) (rshape y)) as [E|E]; [right|now left].
    assert (Hm : rank_limits (kindb B) a None (ndims x) (fun _ => Z.to_nat z)) by (split; [exact I|]; rewrite Ea; split; [exact Hz|reflexivity]).
    destruct (limits_parse _ _ _ _ _ Hm ltac:(lia)) as (mr & Hp & _).
    destruct (pair_total (rshape x) (ndims x) B a mr x y Dx Hpos Hp) as (s & t & Es & Et & (Wt & Rt & Dt & Bt) & _).
    - split; [exact Wx|]. auto.
    - split; [exact Wy|]. split; [auto|]. split; [|exact By]. symmetry. now apply (same_ndims Rring).
    - exists s, t. split; [exact Es|]. split; [exact Et|]. split; [|split; congruence]. split; [exact Wt|]. split; [lia|exact Bt]. }
  assert (HLev : forall n l, length l <= n -> Forall P l -> add_level qr svd a l = Err ValueError \/
     exists l', add_level qr svd a l = Ok l' /\ Forall P l' /\ 2 * length l' <= S (length l) /\
       forall t, In t l -> exists t', In t' l' /\ rshape t' = rshape t).
  { clear l Hl HX. induction n as [|n IH]; intros l Hl HF.
    - destruct l; [|cbn in Hl; lia]. right. exists []. split; [reflexivity|]. split; [constructor|]. split; [cbn; lia|]. intros t [].
    - destruct HF as [|x l Hx HF]; [right; exists []; split; [reflexivity|]; split; [constructor|]; split; [cbn; lia|]; intros t []|].
      destruct HF as [|y l Hy HF]; [right; exists [x]; split; [reflexivity|]; split; [constructor; [exact Hx|constructor]|]; split; [cbn; lia|]; intros t Ht; now exists t|].
      cbn [add_level]. destruct (Hstep x y Hx Hy) as [Hne|(s & t & Es & Et & Pt & R1 & R2)].
      + left. now rewrite add_shape_err.
      + rewrite Es. cbn [bind]. rewrite Et. cbn [bind]. destruct (IH l ltac:(cbn in Hl; lia) HF) as [Er|(l' & El & HF' & L & HI)].
        * left. now rewrite Er.
        * right. exists (t :: l'). rewrite El. split; [reflexivity|]. split; [constructor; [exact Pt|exact HF']|]. split; [cbn [length] in *; lia|].
          intros u [<-|[<-|Hu]]; [exists t; split; [now left|exact R1]|exists t; split; [now left|exact R2]|].
          destruct (HI u Hu) as (u' & Hu' & Ru'). exists u'. split; [now right|exact Ru']. }
  assert (HLs : forall fuel l, length l <= fuel -> Forall P l -> (exists t u, In t l /\ In u l /\ rshape t <> rshape u) -> add_levels qr svd fuel a l = Err ValueError).
  { clear l Hl HX. induction fuel as [|f IH]; intros l Hl HF (t & u & Ht & Hu & Hne).
    - destruct l; [destruct Ht|cbn in Hl; lia].
    - cbn [add_levels]. destruct (Nat.ltb_spec 1 (length l)) as [L|L].
      + destruct (HLev (length l) l ltac:(lia) HF) as [E|(l' & E & HF' & L1 & HI)]; rewrite E; cbn [bind]; [reflexivity|].
        destruct (HI t Ht) as (t' & Ht' & Rt'), (HI u Hu) as (u' & Hu' & Ru'). apply IH; [lia|exact HF'|].
        exists t', u'. split; [exact Ht'|]. split; [exact Hu'|]. congruence.
      + destruct l as [|x [|]]; [destruct Ht| |cbn in L; lia]. destruct Ht as [<-|[]], Hu as [<-|[]]. congruence. }
  unfold add_n. now rewrite HLs.
Qed.

(** *** reduce_sum_batch *)
Lemma sum_levels_dense nout N h a m (t : rtt) fuel : nout_ok nout N -> wf t -> 2 <= ndims t -> bsz t = Some (h * N) -> 1 <= h -> h <= fuel ->
  rank_limits true a None (ndims t) m -> (forall k, 0 < k < ndims t -> h * rk t k <= m k) ->
  exists z dt dz, sum_levels qr svd fuel nout a t = Ok z /\ wf z /\ rshape z = rshape t /\ bsz z = Some N /\ ndims z = ndims t /\
    full t = Ok dt /\ full z = Ok dz /\ shape dt = h * N :: ishape t /\ shape dz = N :: ishape t /\
    forall j i, j < N -> vidx (ishape t) i -> get dz (j :: i) = sumn (K := Rring) h (fun o => get dt (o * N + j :: i)).
Proof.
  intros Hn Hw Hd HB Hh Hf Hm Hk. destruct (limits_parse _ _ _ _ _ Hm ltac:(lia)) as (mr & Hp & Hmr).
  destruct (sum_levels_ok qr svd Hqr Hsvd (ndims t) nout N a mr Hd Hn Hp fuel h t (fun _ => 1) (rk t) Hf Hh Hw eq_refl HB) as (z & Ez & Wz & Rz & Dz & Bz & Entz).
  - intros k Hk'. rewrite Hmr by lia. etransitivity; [|now apply Hk]. apply Nat.mul_le_mono_r.
    assert (X : forall n s, fold_right Nat.add 0 (map (fun _ => 1) (seq s n)) = n) by (clear; induction n; intros s; cbn; [|rewrite IHn]; reflexivity).
    now rewrite X.
  - intros o j k Ho Hj Hk'. rewrite Nat.mul_1_l. apply cutrank_entry; auto. lia.
  - destruct (dense_of t Hw) as (dt & Ft & _ & St & Gt), (dense_of z Wz) as (dz & Fz & _ & Sz & Gz).
    unfold bpre in *. rewrite HB in *. rewrite Bz in *. rewrite (ishape_ext z t) in * by auto. cbn [app] in *.
    exists z, dt, dz. do 9 (split; [assumption|]). intros j i Hj Hi. destruct (Gz [j] i ltac:(vsolve) Hi) as (G1 & G2 & G3). cbn [app] in G1.
    rewrite G1. rewrite (split_idx_same z t) in * by auto.
    destruct (split_idx_valid _ t i Hw Hi) as [V1 V2]. rewrite Entz by auto. apply (sumn_ext Rring). intros o Ho.
    assert (Vo : vidx [h * N] [o * N + j]) by (apply vidx_cons; [now apply mul_lt_lt|constructor]).
    destruct (Gt [o * N + j] i Vo Hi) as (G4 & _). cbn [app] in G4. symmetry. exact G4.
Qed.

Lemma first_dense (z : rtt) N dz : wf z -> bsz z = Some N -> full z = Ok dz ->
  exists e de, batch_dim_getitem z (IInt 0) = Ok e /\ wf e /\ rshape e = rshape z /\ bsz e = None /\ rks e = rks z /\ full e = Ok de /\ shape de = ishape z /\
    forall i, vidx (ishape z) i -> get de i = get dz (0 :: i).
Proof.
  intros Wz Bz Fz. assert (HN : 0 < N). { pose proof (wf_bpos Wz) as P. unfold bpre in P. rewrite Bz in P. inversion P; auto. }
  destruct (batch_getitem_int Rring z N 0 Wz Bz ltac:(lia)) as (e & Ee & We & Re & Ke & Be & De & G).
  destruct (dense_of e We) as (de & Fe & _ & Se & Ge), (dense_of z Wz) as (dz' & Fz' & _ & Sz & Gz). assert (dz' = dz) by congruence. subst dz'.
  unfold bpre in *. rewrite Be in *. rewrite Bz in *. cbn [app] in *. rewrite (ishape_ext e z) in * by auto.
  exists e, de. do 7 (split; [assumption|]). intros i Hi. destruct (Ge [] i ltac:(constructor) Hi) as (G1 & V1 & V2). cbn [app] in G1. rewrite G1.
  destruct (Gz [0] i ltac:(vsolve) Hi) as (G2 & _). cbn [app] in G2. rewrite G2. rewrite (split_idx_same e z) in * by auto.
  unfold tt_entry at 2. rewrite <- (chain_ext_r Rring (coreG z [0]) (rk e) (rk z)) by (intros; unfold rk; now rewrite Ke).
  apply (tt_entry_cores Rring e [] (split_idx z i) (coreG z [0])); auto; try lia.
  intros k x j y Hk Hx Hj Hy. unfold rk in Hx, Hy. rewrite Ke in Hx, Hy. rewrite (modes_ext _ e z) in Hj by auto. apply G; auto. lia.
Qed.

Lemma reduce_sum_dense (t : rtt) b a m : wf t -> bsz t = Some b -> 2 <= ndims t -> rank_limits true a None (ndims t) m ->
  (forall k, 0 < k < ndims t -> b * rk t k <= m k) ->
  exists z dt dz, reduce_sum_batch qr svd t a None = Ok z /\ wf z /\ rshape z = rshape t /\ bsz z = None /\
    full t = Ok dt /\ full z = Ok dz /\ shape dt = b :: shape dz /\
    forall i, vidx (shape dz) i -> get dz i = sumn (K := Rring) b (fun o => get dt (o :: i)).
Proof.
  intros Hw HB Hd Hm Hk. assert (Hb : 0 < b). { pose proof (wf_bpos Hw) as P. unfold bpre in P. rewrite HB in P. inversion P; auto. }
  destruct (sum_levels_dense None 1 b a m t b eq_refl Hw Hd ltac:(rewrite HB; f_equal; lia) Hb (le_n b) Hm Hk) as (z & dt & dz & Ez & Wz & Rz & Bz & Dz & Ft & Fz & St & Sz & G).
  destruct (first_dense z 1 dz Wz Bz Fz) as (e & de & Ee & We & Re & Be & Ke & Fe & Se & Ge). rewrite (ishape_ext z t) in * by auto.
  exists e, dt, de. unfold reduce_sum_batch. rewrite HB, Ez. cbn [bind]. split; [exact Ee|]. split; [exact We|]. split; [congruence|].
  split; [exact Be|]. split; [exact Ft|]. split; [exact Fe|]. split; [rewrite St, Se; f_equal; lia|]. intros i Hi. rewrite Se in Hi. rewrite Ge, G by auto.
  apply (sumn_ext Rring). intros o Ho. do 2 f_equal. lia.
Qed.

Lemma reduce_sum_vec_dense (t : rtt) b w a m : wf t -> bsz t = Some b -> wft w -> shape w = [b] -> 2 <= ndims t -> rank_limits true a None (ndims t) m ->
  (forall k, 0 < k < ndims t -> b * rk t k <= m k) ->
  exists z dt dz, reduce_sum_batch qr svd t a (Some w) = Ok z /\ wf z /\ rshape z = rshape t /\ bsz z = None /\
    full t = Ok dt /\ full z = Ok dz /\ shape dt = b :: shape dz /\
    forall i, vidx (shape dz) i -> get dz i = sumn (K := Rring) b (fun o => (get w [o] * get dt (o :: i))%R).
Proof.
  intros Hw HB Ww Sw Hd Hm Hk.
  destruct (multiply_along_full Rring t b w Hw HB Ww Sw) as (c & Ec & Wc & Rc & Kc & Bc & d & dc & Fd & Fc & Sd & G).
  rewrite HB in Bc. pose proof (same_ndims Rring c t Wc Hw Rc) as Dc.
  destruct (reduce_sum_dense c b a m Wc Bc ltac:(lia) ltac:(now rewrite Dc)) as (z & dt & dz & Ez & Wz & Rz & Bz & Ft & Fz & St & Gz).
  { intros k Hk'. unfold rk. rewrite Kc. apply Hk. lia. }
  assert (dt = dc) by congruence. subst dt. exists z, d, dz. unfold reduce_sum_batch in *. rewrite Sw, Ec. cbn [bind].
  split; [exact Ez|]. split; [exact Wz|]. split; [congruence|]. split; [exact Bz|]. split; [exact Fd|]. split; [exact Fz|].
  split; [congruence|]. intros i Hi. rewrite Gz by auto. apply (sumn_ext Rring). intros o Ho. apply G. rewrite <- Sd, St. now apply vidx_cons.
Qed.

Lemma reduce_sum_mat_dense (t : rtt) b N w a m : wf t -> bsz t = Some b -> wft w -> shape w = [b; N] -> 0 < N -> 2 <= ndims t -> rank_limits true a None (ndims t) m ->
  (forall k, 0 < k < ndims t -> b * rk t k <= m k) ->
  exists z dt dz sh, reduce_sum_batch qr svd t a (Some w) = Ok z /\ wf z /\ rshape z = rshape t /\ bsz z = Some N /\
    full t = Ok dt /\ full z = Ok dz /\ shape dt = b :: sh /\ shape dz = N :: sh /\
    forall j i, j < N -> vidx sh i -> get dz (j :: i) = sumn (K := Rring) b (fun o => (get w [o; j] * get dt (o :: i))%R).
Proof.
  intros Hw HB Ww Sw HN Hd Hm Hk. assert (Hb : 0 < b). { pose proof (wf_bpos Hw) as P. unfold bpre in P. rewrite HB in P. inversion P; auto. }
  destruct (spread_ok t w b N Hw HB Ww Sw HN) as (c & Ec & Wc & Rc & Kc & Bc & Dc & Entc).
  destruct (sum_levels_dense (Some N) N b a m c b ltac:(split; auto) Wc ltac:(lia) Bc Hb (le_n b) ltac:(now rewrite Dc)) as (z & dc & dz & Ez & Wz & Rz & Bz & Dz & Fc & Fz & Sc & Sz & G).
  { intros k Hk'. unfold rk. rewrite Kc. apply Hk. lia. }
  rewrite (ishape_ext c t) in * by auto.
  destruct (dense_of t Hw) as (dt & Ft & _ & St & Gt), (dense_of c Wc) as (dc' & Fc' & _ & _ & Gc). assert (dc' = dc) by congruence. subst dc'.
  unfold bpre in *. rewrite HB in *. rewrite Bc in *. rewrite (ishape_ext c t) in * by auto. cbn [app] in *.
  exists z, dt, dz, (ishape t). unfold reduce_sum_batch. rewrite Sw, HB, Nat.eqb_refl, Ec. cbn [negb bind].
  split; [exact Ez|]. split; [exact Wz|]. split; [congruence|]. do 5 (split; [assumption|]). intros j i Hj Hi. rewrite G by auto.
  apply (sumn_ext Rring). intros o Ho.
  assert (Vo : vidx [b * N] [o * N + j]) by (apply vidx_cons; [now apply mul_lt_lt|constructor]).
  destruct (Gc [o * N + j] i Vo Hi) as (G1 & _). cbn [app] in G1. rewrite G1.
  destruct (Gt [o] i ltac:(vsolve) Hi) as (G2 & V1 & V2). cbn [app] in G2. rewrite G2. rewrite (split_idx_same c t) by auto. now apply Entc.
Qed.

(** With truncation. *)
Lemma sum_levels_total nout N a mr d fuel : nout_ok nout N -> 2 <= d -> parse_ranks true a None d = Ok mr ->
  forall h (t : rtt), h <= fuel -> 1 <= h -> wf t -> ndims t = d -> bsz t = Some (h * N) -> (h = 1 -> forall k, 0 < k < d -> rk t k <= nth k mr 0) ->
  exists z, sum_levels qr svd fuel nout a t = Ok z /\ wf z /\ rshape z = rshape t /\ bsz z = Some N /\ ndims z = d /\ forall k, 0 < k < d -> rk z k <= nth k mr 0.
Proof.
  intros Hn Hd Hp. assert (HN : 0 < N) by (destruct nout; cbn in Hn; lia).
  assert (EN : (match nout with Some n => n | None => 1 end) = N) by (destruct nout; cbn in Hn; lia).
  induction fuel as [|f IH]; intros h t Hf Hh Hw Dt Bt H1; [lia|].
  cbn [sum_levels]. rewrite Bt, EN. destruct (Nat.ltb_spec N (h * N)) as [Hlt|Hlt].
  2:{ assert (h = 1) by nia. subst h. rewrite Nat.mul_1_l in *. exists t. do 4 (split; [assumption || reflexivity|]). split; [exact Dt|]. now apply H1. }
  assert (H2 : 2 <= h) by nia. set (H := (h + 1) / 2).
  assert (HH : H < h /\ 1 <= H). { unfold H. destruct (half_cases h) as [(m & E & E1 & _)|(m & E & E1 & _)]; rewrite E1; lia. }
  destruct (sum_level_ok nout N h t Hn Hw ltac:(lia) Bt Hh) as (s & Es & Ws & Rs & Bs & Ds & _). fold H in Bs. rewrite Es. cbn [bind].
  destruct (round_ok qr svd s a None mr Hqr Hsvd Ws) as (z & Ez & Wz & Rz & Bz & Dz & Kz & _).
  { unfold is_batch. rewrite Bs, Ds, Dt. exact Hp. }
  rewrite Ez. cbn [bind]. destruct (IH H z ltac:(lia) ltac:(lia) Wz ltac:(lia) ltac:(congruence)) as (y & Ey & Wy & Ry & By & Dy & Ky).
  { intros _ k Hk. apply Kz. lia. }
  exists y. split; [exact Ey|]. split; [exact Wy|]. split; [congruence|]. auto.
Qed.

Lemma reduce_sum_total (t : rtt) b a m : wf t -> bsz t = Some b -> 2 <= b -> 2 <= ndims t -> rank_limits true a None (ndims t) m ->
  (exists z, reduce_sum_batch qr svd t a None = Ok z /\ wf z /\ rshape z = rshape t /\ bsz z = None /\ forall k, 0 < k < ndims t -> rk z k <= m k) /\
  (forall w, wft w -> shape w = [b] ->
    exists z, reduce_sum_batch qr svd t a (Some w) = Ok z /\ wf z /\ rshape z = rshape t /\ bsz z = None /\ forall k, 0 < k < ndims t -> rk z k <= m k) /\
  (forall w N, wft w -> shape w = [b; N] -> 0 < N ->
    exists z, reduce_sum_batch qr svd t a (Some w) = Ok z /\ wf z /\ rshape z = rshape t /\ bsz z = Some N /\ forall k, 0 < k < ndims t -> rk z k <= m k).
Proof.
  intros Hw HB Hb Hd Hm. destruct (limits_parse _ _ _ _ _ Hm ltac:(lia)) as (mr & Hp & Hmr).
  assert (HA : forall c : rtt, wf c -> bsz c = Some b -> ndims c = ndims t -> rshape c = rshape t ->
    exists z, (do r <- sum_levels qr svd b None a c; batch_dim_getitem r (IInt 0)) = Ok z /\ wf z /\ rshape z = rshape t /\ bsz z = None /\ forall k, 0 < k < ndims t -> rk z k <= m k).
  { intros c Wc Bc Dc Rc.
    destruct (sum_levels_total None 1 a mr (ndims t) b eq_refl Hd Hp b c (le_n b) ltac:(lia) Wc Dc ltac:(rewrite Bc; f_equal; lia) ltac:(lia)) as (z & Ez & Wz & Rz & Bz & Dz & Kz).
    destruct (dense_of z Wz) as (dz & Fz & _). destruct (first_dense z 1 dz Wz Bz Fz) as (e & de & Ee & We & Re & Be & Ke & _).
    exists e. rewrite Ez. cbn [bind]. split; [exact Ee|]. split; [exact We|]. split; [congruence|]. split; [exact Be|]. intros k Hk. unfold rk. rewrite Ke. fold (rk z k).
    rewrite <- Hmr by lia. now apply Kz. }
  split; [|split].
  - unfold reduce_sum_batch. rewrite HB. now apply HA.
  - intros w Ww Sw. destruct (multiply_along_full Rring t b w Hw HB Ww Sw) as (c & Ec & Wc & Rc & Kc & Bc & _).
    unfold reduce_sum_batch. rewrite Sw, Ec. cbn [bind]. rewrite Bc, HB. apply HA; auto; [congruence|]. now apply (same_ndims Rring).
  - intros w N Ww Sw HN. destruct (spread_ok t w b N Hw HB Ww Sw HN) as (c & Ec & Wc & Rc & Kc & Bc & Dc & _).
    destruct (sum_levels_total (Some N) N a mr (ndims t) b ltac:(split; auto) Hd Hp b c (le_n b) ltac:(lia) Wc Dc Bc ltac:(lia)) as (z & Ez & Wz & Rz & Bz & Dz & Kz).
    exists z. unfold reduce_sum_batch. rewrite Sw, HB, Nat.eqb_refl, Ec. cbn [negb bind]. split; [exact Ez|]. split; [exact Wz|]. split; [congruence|]. split; [exact Bz|].
    intros k Hk. rewrite <- Hmr by lia. now apply Kz.
Qed.
End Thms.
