(** project_matmul: the projection of the products of a matrix and the elements of a batch. *)
From Coq Require Import String Ascii List Arith ZArith Lia Bool Ring Reals.
From Verif Require Import Scalar Tensor TensorLemmas TensorLemmas2 Base Spec Chain BaseLemmas Ops
  FullProofs ResultLemmas Dense AddProofs MulProofs MatmulProofs Sweep FlatProofs GatherProofs OpsR ScaleProofs Decomp DecompSpec GaugeProofs OrthProofs OrthNorm
  ReduceSumProofs InitProofs TangentProofs Riem RiemBlock RiemProofs RiemThms.
Import ListNotations.
Local Open Scope nat_scope.
Local Notation get := (@get Rring).
Local Notation core0 := (core0 Rring).
Local Notation train := (nat -> nat -> list nat -> nat -> Rring).
Local Notation fn := (list (list nat) -> Rring).
Add Ring Rring'' : (cth Rring).

Section Gen.
Variables (w l r : rtt).
Hypothesis Hw : wf w.
Hypothesis HF : is_frame w l r.
Hypothesis Hd : 2 <= ndims w.
Local Notation d := (ndims w).
Local Notation ms := (modes w).
Local Notation U := (coreG l []).
Local Notation V := (coreG r []).
Local Notation lk := (rk l).
Local Notation qk := (rk r).
Variables (G : train) (rg : nat -> nat).
Hypothesis R0 : 0 < rg 0.
Hypothesis Rd : rg d = 1.
Definition Fg (J : list (list nat)) : Rring := chain G rg 0 J (fun _ => 1%K) 0.

Lemma fdelta_mid m a j c : m < d - 1 ->
  fdelta w l r Fg m a j c = sumn (rg (S m)) (fun e => (sumn (rg m) (fun b => penv ms U lk G rg m a b * G m b j e) -
      sumn (lk (S m)) (fun b => U m a j b * penv ms U lk G rg (S m) b e)) * senv Rring ms d G rg V qk (S m) e c)%K.
Proof.
  intros Hm. unfold fdelta, delta_of, last0. destruct (Nat.eqb_spec (S m) d); [lia|]. unfold Fg.
  rewrite (cf_train Rring ms d U V lk qk (fr_d0 w Hd) (fr_l0 w l r HF) (fr_ld w l r HF) (fr_qd w l r HF) G rg m a c j) by (auto; lia).
  rewrite (sumn_ext Rring (lk (S m)) _ (fun b => sumn (rg (S m)) (fun e => U m a j b * penv ms U lk G rg (S m) b e * senv Rring ms d G rg V qk (S m) e c))%K).
  2:{ intros b Hb. rewrite (cf_train0 Rring ms d U V lk qk (fr_d0 w Hd) (fr_l0 w l r HF) (fr_ld w l r HF) (fr_qd w l r HF) G rg) by (auto; lia). rewrite <- sumn_mul_l. apply sumn_ext. intros. ring. }
  rewrite sumn_swap, (sumn_swap Rring (lk (S m))), <- sumn_sub. apply sumn_ext. intros e He.
  rewrite sumn_mul_r, sumn_mul_r. ring.
Qed.
Lemma fdelta_last a j c : c < 1 ->
  fdelta w l r Fg (d - 1) a j c = sumn (rg (d - 1)) (fun b => penv ms U lk G rg (d - 1) a b * G (d - 1) b j c)%K.
Proof.
  intros Hc. unfold fdelta, delta_of, last0. destruct (Nat.eqb_spec (S (d - 1)) d); [|lia]. unfold Fg.
  rewrite (cf_train Rring ms d U V lk qk (fr_d0 w Hd) (fr_l0 w l r HF) (fr_ld w l r HF) (fr_qd w l r HF) G rg (d - 1) a c j) by (auto; lia).
  replace (S (d - 1)) with d by lia. rewrite Rd.
  match goal with |- (?x - _)%K = ?y => transitivity x; [ring|] end.
  apply sumn_ext. intros b Hb. rewrite sumn_1, senv_d. replace c with 0 by lia. ring.
Qed.
End Gen.

Lemma perm5 nt ne nk ng nf (X : nat -> nat -> nat -> nat -> nat -> Rring) :
  sumn nt (fun t => sumn ne (fun e => sumn nk (fun k => sumn ng (fun g => sumn nf (fun f => X t e k g f))))) =
  sumn nk (fun k => sumn ne (fun e => sumn nf (fun f => sumn ng (fun g => sumn nt (fun t => X t e k g f))))).
Proof.
  transitivity (sumn nt (fun t => sumn nk (fun k => sumn ne (fun e => sumn nf (fun f => sumn ng (fun g => X t e k g f)))))).
  { apply sumn_ext. intros t _. rewrite sumn_swap. apply sumn_ext. intros k _. apply sumn_ext. intros e _. apply sumn_swap. }
  rewrite sumn_swap. apply sumn_ext. intros k _. rewrite sumn_swap. apply sumn_ext. intros e _. rewrite sumn_swap. apply sumn_ext. intros f _. apply sumn_swap.
Qed.

Lemma perm6 nb ni nt na nk nc (X : nat -> nat -> nat -> nat -> nat -> nat -> Rring) :
  sumn nb (fun b => sumn ni (fun i => sumn nt (fun t => sumn na (fun a => sumn nk (fun k => sumn nc (fun c => X b i t a k c)))))) =
  sumn na (fun a => sumn nb (fun b => sumn nc (fun c => sumn ni (fun i => sumn nk (fun k => sumn nt (fun t => X b i t a k c)))))).
Proof.
  transitivity (sumn nb (fun b => sumn na (fun a => sumn nc (fun c => sumn ni (fun i => sumn nk (fun k => sumn nt (fun t => X b i t a k c))))))); [|apply sumn_swap].
  apply sumn_ext. intros b _.
  transitivity (sumn ni (fun i => sumn na (fun a => sumn nc (fun c => sumn nk (fun k => sumn nt (fun t => X b i t a k c)))))).
  - apply sumn_ext. intros i _. rewrite sumn_swap. apply sumn_ext. intros a _.
    transitivity (sumn nt (fun t => sumn nc (fun c => sumn nk (fun k => X b i t a k c)))); [apply sumn_ext; intros; apply sumn_swap|].
    rewrite sumn_swap. apply sumn_ext. intros c _. apply sumn_swap.
  - rewrite sumn_swap. apply sumn_ext. intros a _. apply sumn_swap.
Qed.

Section MM.
Variables (w l r z m : rtt) (B : nat).
Hypothesis Hw : wf w.
Hypothesis HF : is_frame w l r.
Hypothesis Hd : 2 <= ndims w.
Hypothesis Kw : is_tt_matrix w = true.
Hypothesis Hz : wf z.
Hypothesis Rz : rshape z = rshape w.
Hypothesis Bz : bsz z = Some B.
Hypothesis Hm : wf m.
Hypothesis Bm : bsz m = None.
Hypothesis Km : is_tt_matrix m = true.
Hypothesis Rm0 : nth 0 (rshape m) [] = nth 0 (rshape w) [].
Hypothesis Rm1 : nth 1 (rshape m) [] = nth 0 (rshape w) [].
Local Notation d := (ndims w).
Local Notation ms := (modes w).
Local Notation U := (coreG l []).
Local Notation V := (coreG r []).
Local Notation lk := (rk l).
Local Notation qk := (rk r).
Local Notation Z s := (coreG z [s]).
Local Notation M := (coreG m []).
Local Notation n1 i := (mode w 0 i).
Local Notation n2 i := (mode w 1 i).

Definition P (s k x : nat) (j : list nat) (y : nat) : Rring :=
  sumn (n1 k) (fun t => M k (x / rk z k)%nat [nth 0 j 0; t]%nat (y / rk z (S k))%nat * Z s k (x mod rk z k)%nat [t; nth 1 j 0]%nat (y mod rk z (S k))%nat)%K.
Definition rp (k : nat) : nat := rk m k * rk z k.

Lemma mw i : ms i = [n1 i; n2 i].
Proof. destruct (wf_kind_cases _ w Hw) as [(X & _ & HM)|(? & _ & HM)]; [rewrite X in Kw; discriminate Kw|apply HM]. Qed.
Lemma mnd : ndims m = d.
Proof.
  destruct (matrix_rows_len Rring m Hm Km) as [L _]. destruct (matrix_rows_len Rring w Hw Kw) as [L' _]. rewrite Rm0 in L. congruence.
Qed.
Lemma m_shape i : i < d -> shape (core m i) = [rk m i; n1 i; n1 i; rk m (S i)].
Proof.
  intros Hi. rewrite (core_shape _ m i Hm) by (rewrite mnd; auto). unfold bpre. rewrite Bm.
  destruct (wf_kind_cases _ m Hm) as [(? & _ & HM)|(? & _ & HM)]; [congruence|]. rewrite HM. unfold mode. now rewrite Rm0, Rm1.
Qed.
Lemma zsh i : i < d -> shape (core z i) = [B; rk z i; n1 i; n2 i; rk z (S i)].
Proof. intros Hi. rewrite (z_shape w Hw z B Hz Rz Bz i Hi), mw. reflexivity. Qed.
Lemma lsh i : i < d -> shape (core l i) = [lk i; n1 i; n2 i; lk (S i)].
Proof. intros Hi. rewrite (l_shape w l r HF i Hi), mw. reflexivity. Qed.
Lemma rsh i : i < d -> shape (core r i) = [qk i; n1 i; n2 i; qk (S i)].
Proof. intros Hi. rewrite (r_shape w l r HF i Hi), mw. reflexivity. Qed.

Lemma P_at s k b c i q b' c' : c < rk z k -> c' < rk z (S k) ->
  P s k (b * rk z k + c) [i; q] (b' * rk z (S k) + c') = sumn (n1 k) (fun t => M k b [i; t] b' * Z s k c [t; q] c')%K.
Proof.
  intros Hc Hc'. unfold P. cbn [nth]. rewrite !Nat.div_add_l, !Nat.div_small, !Nat.add_0_r by lia.
  rewrite !(Nat.add_comm (_ * _)), !Nat.mod_add, !Nat.mod_small by lia. reflexivity.
Qed.

Lemma rhs_step i (x : rtensor) : i < d -> shape x = [B; rk z (S i); rk m (S i); qk (S i)] ->
  exists y, einsum "bije,cikf,sdef,sajkd->sabc" [core m i; core r i; x; core z i] = Ok y /\ wft y /\
    shape y = [B; rk z i; rk m i; qk i] /\
    forall s a b c, s < B -> a < rk z i -> b < rk m i -> c < qk i ->
      get y [s; a; b; c] = isum (ms i) (fun j => sumn (rk m (S i)) (fun e => sumn (rk z (S i)) (fun f => sumn (qk (S i)) (fun g =>
        P s i (b * rk z i + a)%nat j (e * rk z (S i) + f)%nat * V i c j g * get x [s; f; e; g]))))%K.
Proof.
  intros Hi Sx. pose proof (m_shape i Hi) as Sm. pose proof (zsh i Hi) as Sz. pose proof (rsh i Hi) as Sr.
  rewrite mw. einsum_step. eexists. split; [reflexivity|]. split; [apply wft_mk|]. split; [reflexivity|].
  intros s a b c Hs Ha Hb Hc. rewrite get_mk by vsolve. ecbv. cbn [isum].
  apply sumn_ext. intros i0 Hi0.
  rewrite (perm5 (n1 i) (rk m (S i)) (n2 i) (qk (S i)) (rk z (S i)) (fun i1 i2 i3 i4 i5 => get (core m i) [b; i0; i1; i2] * (get (core r i) [c; i0; i3; i4] * (get x [s; i5; i2; i4] * get (core z i) [s; a; i1; i3; i5])))%K).
  apply sumn_ext. intros k Hk. apply sumn_ext. intros e He. apply sumn_ext. intros f Hf. apply sumn_ext. intros g Hg.
  rewrite P_at by auto. rewrite <- !sumn_mul_r. apply sumn_ext. intros t Ht. unfold coreG. cbn [app]. ring.
Qed.

Lemma lhs_step i (x : rtensor) : i < d -> shape x = [B; lk i; rk m i; rk z i] ->
  exists y, einsum "bije,aikd,sabc,scjkf->sdef" [core m i; core l i; x; core z i] = Ok y /\ wft y /\
    shape y = [B; lk (S i); rk m (S i); rk z (S i)] /\
    forall s e f g, s < B -> e < lk (S i) -> f < rk m (S i) -> g < rk z (S i) ->
      get y [s; e; f; g] = sumn (lk i) (fun a => sumn (rk m i) (fun b => sumn (rk z i) (fun c => isum (ms i) (fun j =>
        get x [s; a; b; c] * (U i a j e * P s i (b * rk z i + c)%nat j (f * rk z (S i) + g)%nat)))))%K.
Proof.
  intros Hi Sx. pose proof (m_shape i Hi) as Sm. pose proof (zsh i Hi) as Sz. pose proof (lsh i Hi) as Sl.
  rewrite mw. einsum_step. eexists. split; [reflexivity|]. split; [apply wft_mk|]. split; [reflexivity|].
  intros s e f g Hs He Hf Hg. rewrite get_mk by vsolve. ecbv. cbn [isum].
  rewrite (perm6 (rk m i) (n1 i) (n1 i) (lk i) (n2 i) (rk z i) (fun i0 i1 i2 i3 i4 i5 => get (core m i) [i0; i1; i2; f] * (get (core l i) [i3; i1; i4; e] * (get x [s; i3; i0; i5] * get (core z i) [s; i5; i2; i4; g])))%K).
  apply sumn_ext. intros a Ha. apply sumn_ext. intros b Hb. apply sumn_ext. intros c Hc. apply sumn_ext. intros i0 Hi0. apply sumn_ext. intros k Hk.
  rewrite P_at by auto. rewrite <- !sumn_mul_l. apply sumn_ext. intros t Ht. unfold coreG. cbn [app]. ring.
Qed.

Lemma pmid_step i (x : rtensor) : i < d -> shape x = [B; lk i; rk m i; rk z i] ->
  exists y, einsum "scjke,sabc,bijd->saikde" [core z i; x; core m i] = Ok y /\ wft y /\
    shape y = [B; lk i; n1 i; n2 i; rk m (S i); rk z (S i)] /\
    forall s a j k f g, s < B -> a < lk i -> j < n1 i -> k < n2 i -> f < rk m (S i) -> g < rk z (S i) ->
      get y [s; a; j; k; f; g] = sumn (rk m i) (fun b => sumn (rk z i) (fun c => 
        get x [s; a; b; c] * P s i (b * rk z i + c)%nat [j; k] (f * rk z (S i) + g)%nat))%K.
Proof.
  intros Hi Sx. pose proof (m_shape i Hi) as Sm. pose proof (zsh i Hi) as Sz. 
  einsum_step. eexists. split; [reflexivity|]. split; [apply wft_mk|]. split; [reflexivity|].
  intros. rewrite get_mk by vsolve. ecbv. cbn [isum].
  rewrite (sumn_ext Rring (rk z i) _ (fun i0 => sumn (rk m i) (fun i2 => sumn (n1 i) (fun i1 => get (core z i) [s; i0; i1; k; g] * (get x [s; a; i2; i0] * get (core m i) [i2; j; i1; f]))))%K) by (intros; apply sumn_swap).
  rewrite sumn_swap. apply sumn_ext. intros b Hb. apply sumn_ext. intros c Hc.
  rewrite P_at by auto. rewrite <- !sumn_mul_l. apply sumn_ext. intros t Ht. unfold coreG. cbn [app]. ring.
Qed.
Lemma plast_step i (x : rtensor) : i < d -> shape x = [B; lk i; rk m i; rk z i] -> rk m (S i) = 1 ->
  exists y, einsum "sabc,bijd,scjke->saike" [x; core m i; core z i] = Ok y /\ wft y /\
    shape y = [B; lk i; n1 i; n2 i; rk z (S i)] /\
    forall s a j k g, s < B -> a < lk i -> j < n1 i -> k < n2 i -> g < rk z (S i) ->
      get y [s; a; j; k; g] = sumn (rk m i) (fun b => sumn (rk z i) (fun c => 
        get x [s; a; b; c] * P s i (b * rk z i + c)%nat [j; k] (0 * rk z (S i) + g)%nat))%K.
Proof.
  intros Hi Sx E1. pose proof (m_shape i Hi) as Sm. pose proof (zsh i Hi) as Sz. 
  einsum_step. eexists. split; [reflexivity|]. split; [apply wft_mk|]. split; [reflexivity|].
  intros. rewrite get_mk by vsolve. ecbv. cbn [isum].
  apply sumn_ext. intros b Hb. apply sumn_ext. intros c Hc.
  rewrite P_at by auto. rewrite <- !sumn_mul_l. apply sumn_ext. intros t Ht. rewrite E1, sumn_1. unfold coreG. cbn [app]. ring.
Qed.

Lemma qmid_step i (x : rtensor) : i < d -> shape x = [B; lk (S i); rk m (S i); rk z (S i)] ->
  exists y, einsum "aikb,sbcd->saikcd" [core l i; x] = Ok y /\ wft y /\
    shape y = [B; lk i; n1 i; n2 i; rk m (S i); rk z (S i)] /\
    forall s a j k f g, s < B -> a < lk i -> j < n1 i -> k < n2 i -> f < rk m (S i) -> g < rk z (S i) ->
      get y [s; a; j; k; f; g] = sumn (lk (S i)) (fun b => U i a [j; k] b * get x [s; b; f; g])%K.
Proof.
  intros Hi Sx. pose proof (lsh i Hi) as Sl. 
  einsum_step. eexists. split; [reflexivity|]. split; [apply wft_mk|]. split; [reflexivity|].
  intros. rewrite get_mk by vsolve. ecbv. reflexivity.
Qed.
Lemma omid_step i (p x : rtensor) : i < d -> shape p = [B; lk i; n1 i; n2 i; rk m (S i); rk z (S i)] -> shape x = [B; rk z (S i); rk m (S i); qk (S i)] ->
  exists y, einsum "saikcb,sbcd->saikd" [p; x] = Ok y /\ wft y /\
    shape y = [B; lk i; n1 i; n2 i; qk (S i)] /\
    forall s a j k e, s < B -> a < lk i -> j < n1 i -> k < n2 i -> e < qk (S i) ->
      get y [s; a; j; k; e] = sumn (rk m (S i)) (fun f => sumn (rk z (S i)) (fun g => get p [s; a; j; k; f; g] * get x [s; g; f; e]))%K.
Proof.
  intros Hi Sp Sx. 
  einsum_step. eexists. split; [reflexivity|]. split; [apply wft_mk|]. split; [reflexivity|].
  intros. rewrite get_mk by vsolve. ecbv. reflexivity.
Qed.

(** ** The sweeps *)
Definition rhs_gd (rhs : list rtensor) (k : nat) : Prop := forall i, k <= i <= d ->
  shape (nth i rhs rzero) = [B; rk z i; rk m i; qk i] /\
  forall s a b c, s < B -> a < rk z i -> b < rk m i -> c < qk i -> get (nth i rhs rzero) [s; a; b; c] = senv Rring ms d (P s) rp V qk i (b * rk z i + a) c.
Definition lhs_gd (lhs : list rtensor) (k : nat) : Prop := forall i, i <= k ->
  shape (nth i lhs rzero) = [B; lk i; rk m i; rk z i] /\
  forall s a b c, s < B -> a < lk i -> b < rk m i -> c < rk z i -> get (nth i lhs rzero) [s; a; b; c] = penv ms U lk (P s) rp i a (b * rk z i + c).

Lemma zd : rk z d = 1. Proof. rewrite <- (z_nd w Hw z Hz Rz). apply (wf_last Hz). Qed.
Lemma md : rk m d = 1. Proof. rewrite <- mnd. apply (wf_last Hm). Qed.
Lemma rp0 : 0 < rp 0. Proof. unfold rp. rewrite (wf_first Hz), (wf_first Hm). lia. Qed.
Lemma rpd : rp d = 1. Proof. unfold rp. now rewrite zd, md. Qed.

Lemma mrhs_ok : exists rhs, foldM (fun i rhs =>
      do x <- nthr rhs (S i);
      do c <- nthr (cores z) i;
      do rc <- nthr (cores r) i;
      do mc <- nthr (cores m) i;
      do y <- einsum "bije,cikf,sdef,sajkd->sabc" [mc; rc; x; c];
      Ok (upd i y rhs))
    (rev (seq 1 (ndims w - 1)))
    (upd (ndims w) (ones [B; 1; 1; 1]) (repeat rzero (S (ndims w)))) = Ok rhs /\ length rhs = S d /\ rhs_gd rhs 1.
Proof.
  destruct (foldM_rev_seq1 (fun i rhs =>
      do x <- nthr rhs (S i); do c <- nthr (cores z) i; do rc <- nthr (cores r) i; do mc <- nthr (cores m) i;
      do y <- einsum "bije,cikf,sdef,sajkd->sabc" [mc; rc; x; c]; Ok (upd i y rhs))
    (fun k rhs => length rhs = S d /\ rhs_gd rhs (S k)) (d - 1) (upd d (ones [B; 1; 1; 1]) (repeat rzero (S d)))) as (rhs & E & L & G).
  - split; [now rewrite length_upd, repeat_length|]. intros i Hi. assert (i = d) by lia. subst i.
    rewrite nth_upd_same by (rewrite repeat_length; lia). rewrite zd, md, (fr_qd w l r HF).
    split; [reflexivity|]. intros s a b c Hs Ha Hb Hc. rewrite senv_d.
    apply get_ones. vsolve.
  - intros k rhs Hk [L G]. destruct (G (S k) ltac:(lia)) as (Sx & Gx).
    rewrite (nthr_n rhs (S k) rzero) by lia. cbn [bind].
    rewrite (nthr_core z), (nthr_core r), (nthr_core m) by (rewrite ?(z_nd w Hw z Hz Rz), ?(fr_nr _ _ _ HF), ?mnd; lia). cbn [bind].
    destruct (rhs_step k _ ltac:(lia) Sx) as (y & Ey & Wy & Sy & Gy). rewrite Ey. cbn [bind]. eexists. split; [reflexivity|].
    split; [now rewrite length_upd|]. intros i Hi. destruct (Nat.eq_dec i k) as [->|Hne].
    + rewrite nth_upd_same by lia. split; [exact Sy|]. intros s a b c Hs Ha Hb Hc. rewrite Gy by auto.
      rewrite senv_S by lia. apply isum_ext. intros j Hj. unfold rp at 1. rewrite sumn_prod. apply sumn_ext. intros e He.
      apply sumn_ext. intros f Hf. apply sumn_ext. intros g Hg. now rewrite Gx.
    + rewrite nth_upd_other by lia. apply G. lia.
  - exists rhs. split; [exact E|]. split; [exact L|]. exact G.
Qed.

Lemma mlhs_ok : exists lhs, foldM (fun i lhs =>
      do x <- nthr lhs i;
      do c <- nthr (cores z) i;
      do lc <- nthr (cores l) i;
      do mc <- nthr (cores m) i;
      do y <- einsum "bije,aikd,sabc,scjkf->sdef" [mc; lc; x; c];
      Ok (upd (S i) y lhs))
    (seq 0 (ndims w - 1))
    (upd 0 (ones [B; 1; 1; 1]) (repeat rzero (S (ndims w)))) = Ok lhs /\ length lhs = S d /\ lhs_gd lhs (d - 1).
Proof.
  assert (R0 : 0 < lk 0) by (rewrite (fr_l0 w l r HF); lia).
  destruct (foldM_seq (fun i lhs =>
      do x <- nthr lhs i; do c <- nthr (cores z) i; do lc <- nthr (cores l) i; do mc <- nthr (cores m) i;
      do y <- einsum "bije,aikd,sabc,scjkf->sdef" [mc; lc; x; c]; Ok (upd (S i) y lhs))
    (fun k lhs => length lhs = S d /\ lhs_gd lhs k) (d - 1) 0 (upd 0 (ones [B; 1; 1; 1]) (repeat rzero (S d)))) as (lhs & E & L & G).
  - split; [now rewrite length_upd, repeat_length|]. intros i Hi. assert (i = 0) by lia. subst i.
    rewrite nth_upd_same by (rewrite repeat_length; lia). rewrite (wf_first Hz), (wf_first Hm), (fr_l0 w l r HF).
    split; [reflexivity|]. intros s a b c Hs Ha Hb Hc. replace a with 0 by lia. replace b with 0 by lia. replace c with 0 by lia.
    cbn [Nat.mul Nat.add]. rewrite penv_0 by (auto using rp0). apply get_ones. vsolve.
  - intros k lhs Hk [L G]. destruct (G k ltac:(lia)) as (Sx & Gx).
    rewrite (nthr_n lhs k rzero) by lia. cbn [bind].
    rewrite (nthr_core z), (nthr_core l), (nthr_core m) by (rewrite ?(z_nd w Hw z Hz Rz), ?(fr_nl _ _ _ HF), ?mnd; lia). cbn [bind].
    destruct (lhs_step k _ ltac:(lia) Sx) as (y & Ey & Wy & Sy & Gy). rewrite Ey. cbn [bind]. eexists. split; [reflexivity|].
    split; [now rewrite length_upd|]. intros i Hi. destruct (Nat.eq_dec i (S k)) as [->|Hne].
    + rewrite nth_upd_same by lia. split; [exact Sy|]. intros s a b c Hs Ha Hb Hc. rewrite Gy by auto.
      rewrite penv_S by (auto using rp0; unfold rp; nia). apply sumn_ext. intros e He. unfold rp at 1. rewrite sumn_prod. apply sumn_ext. intros f Hf.
      apply sumn_ext. intros g Hg. apply isum_ext. intros j Hj. now rewrite Gx.
    + rewrite nth_upd_other by lia. apply G. lia.
  - exists lhs. split; [exact E|]. split; [exact L|]. exact G.
Qed.

(** ** The delta cores *)
Definition mproj (lhs rhs : list rtensor) (i : nat) : res rtensor :=
    do c <- nthr (cores z) i;
    do lc <- nthr (cores l) i;
    do mc <- nthr (cores m) i;
    do x <- nthr lhs i;
    if Nat.ltb i (ndims w - 1) then
      do x' <- nthr lhs (S i);
      do y <- nthr rhs (S i);
      do p <- einsum "scjke,sabc,bijd->saikde" [c; x; mc];
      do q <- einsum "aikb,sbcd->saikcd" [lc; x'];
      do p <- ewise (K := Rring) Rminus p q;
      einsum "saikcb,sbcd->saikd" [p; y]
    else einsum "sabc,bijd,scjke->saike" [x; mc; c].

Lemma mproj_ok lhs rhs i : length lhs = S d -> lhs_gd lhs (d - 1) -> length rhs = S d -> rhs_gd rhs 1 -> i < d ->
  exists p, mproj lhs rhs i = Ok p /\ wft p /\ shape p = B :: lk i :: ms i ++ [qk (S i)] /\
    forall s a j c, s < B -> a < lk i -> vidx (ms i) j -> c < qk (S i) -> get p (s :: a :: j ++ [c]) = fdelta w l r (Fg (P s) rp) i a j c.
Proof.
  intros L1 G1 L2 G2 Hi. unfold mproj.
  rewrite (nthr_core z), (nthr_core l), (nthr_core m) by (rewrite ?(z_nd w Hw z Hz Rz), ?(fr_nl _ _ _ HF), ?mnd; lia). cbn [bind].
  destruct (G1 i ltac:(lia)) as (Sx & Gx). rewrite (nthr_n lhs i rzero) by lia. cbn [bind]. rewrite mw. cbn [app]. destruct (Nat.ltb_spec i (d - 1)) as [Hl|Hl].
  - destruct (G1 (S i) ltac:(lia)) as (Sx' & Gx'). destruct (G2 (S i) ltac:(lia)) as (Sy & Gy).
    rewrite (nthr_n lhs (S i) rzero), (nthr_n rhs (S i) rzero) by lia. cbn [bind].
    destruct (pmid_step i _ Hi Sx) as (p & Ep & Wp & Sp & Gp). rewrite Ep. cbn [bind].
    destruct (qmid_step i _ Hi Sx') as (q & Eq & Wq & Sq & Gq). rewrite Eq. cbn [bind].
    destruct (ewise_same Rminus p q _ Sp Sq) as (v & Ev & Wv & Sv & Gv). rewrite Ev. cbn [bind].
    destruct (omid_step i v _ Hi Sv Sy) as (u & Eu & Wu & Su & Gu). exists u. split; [exact Eu|]. split; [exact Wu|]. split; [exact Su|].
    intros s a j c Hs Ha Hj Hc. apply vidx_2_inv in Hj as (j1 & j2 & -> & H1 & H2). cbn [app]. rewrite Gu by auto.
    rewrite (fdelta_mid w l r HF Hd (P s) rp rp0 rpd) by (exact Hl). unfold rp at 1. rewrite sumn_prod. apply sumn_ext. intros f Hf. apply sumn_ext. intros g Hg.
    rewrite Gv by vsolve. rewrite Gp, Gq, Gy by auto. change Rminus with (@csub Rring). f_equal. f_equal.
    + change (rp i) with (rk m i * rk z i)%nat at 1; rewrite sumn_prod. apply sumn_ext. intros b Hb. apply sumn_ext. intros e He. now rewrite Gx.
    + apply sumn_ext. intros b Hb. now rewrite Gx'.
  - assert (i = d - 1) by lia. subst i.
    assert (E1 : rk m (S (d - 1)) = 1) by (replace (S (d - 1)) with d by lia; apply md).
    assert (E2 : rk z (S (d - 1)) = 1) by (replace (S (d - 1)) with d by lia; apply zd).
    assert (E3 : qk (S (d - 1)) = 1) by (replace (S (d - 1)) with d by lia; apply (fr_qd w l r HF)).
    destruct (plast_step (d - 1) _ Hi Sx E1) as (u & Eu & Wu & Su & Gu). exists u. split; [exact Eu|]. split; [exact Wu|].
    split; [rewrite Su, E2, E3; reflexivity|].
    intros s a j c Hs Ha Hj Hc. apply vidx_2_inv in Hj as (j1 & j2 & -> & H1 & H2). cbn [app]. rewrite Gu by (auto; lia).
    rewrite (fdelta_last w l r HF Hd (P s) rp rp0 rpd) by lia. unfold rp at 1. rewrite sumn_prod. apply sumn_ext. intros b Hb. apply sumn_ext. intros e He.
    rewrite Gx by auto. reflexivity.
Qed.
End MM.


(** Entry of the product of the matrix [m] and element [o] of [what]; [J] lists pairs (row, column). *)
Definition mm_entry (m what : rtt) (o : list nat) (J : list (list nat)) : Rring :=
  isum (nth 1 (rshape m) []) (fun T =>
    tt_entry m [] (pairs (map (fun j => nth 0 j 0%nat) J) T) * tt_entry what o (pairs T (map (fun j => nth 1 j 0%nat) J)))%K.

Lemma pairs_split (ms : nat -> list nat) k J : (forall i, length (ms i) = 2) -> vchain ms k J -> J = pairs (map (fun j => nth 0 j 0) J) (map (fun j => nth 1 j 0) J).
Proof.
  intros H. revert k. induction J as [|j J IH]; intros k HJ; [reflexivity|]. destruct HJ as [Hj HJ]. cbn [map pairs map2].
  f_equal; [|now apply (IH (S k))]. apply vidx_length in Hj. rewrite H in Hj. destruct j as [|x [|y [|]]]; cbn in Hj; try lia. reflexivity.
Qed.

Theorem project_matmul_ok qr (what w m : rtt) addr B : qr_ok qr -> wf w -> bsz w = None -> 2 <= ndims w -> is_tt_matrix w = true ->
  wf what -> bsz what = Some B -> rshape what = rshape w -> wf m -> bsz m = None ->
  rshape m = [nth 0 (rshape w) []; nth 0 (rshape w) []] ->
  exists l r t, frame qr w = Ok (l, r) /\ is_frame w l r /\ project_matmul qr what addr w m = Ok (Proj t (Some addr)) /\
    projection_of w l r (Some B) (mm_entry m what) t.
Proof.
  intros Hq Hw Hb Hd Kw Ht Bt Rt Hm Bm Rm. destruct (frame_ok qr w Hq Hw Hb) as (l & r & EF & HF). exists l, r.
  assert (Km : is_tt_matrix m = true) by (unfold is_tt_matrix; rewrite Rm; reflexivity).
  assert (Kt : is_tt_matrix what = true) by (unfold is_tt_matrix; rewrite Rt; exact Kw).
  assert (Rm0 : nth 0 (rshape m) [] = nth 0 (rshape w) []) by (rewrite Rm; reflexivity).
  assert (Rm1 : nth 1 (rshape m) [] = nth 0 (rshape w) []) by (rewrite Rm; reflexivity).
  destruct (mrhs_ok w l r what m B Hw HF Hd Kw Ht Rt Bt Hm Bm Km Rm0 Rm1) as (rhs & Er & Lr & Gr).
  destruct (mlhs_ok w l r what m B Hw HF Hd Kw Ht Rt Bt Hm Bm Km Rm0 Rm1) as (lhs & El & Ll & Gl).
  set (F := fun (o : list nat) => Fg (P w what m (nth 0 o 0)) (rp what m)).
  destruct (assemble_frame w l r Hw HF Hd (Some B) F (mproj w l what m lhs rhs) addr) as (t & Et & Bks).
  - pose proof (wf_bpos Ht) as X. unfold bpre in X. now rewrite Bt in X.
  - intros i Hi. destruct (mproj_ok w l r what m B Hw HF Hd Kw Ht Rt Bt Hm Bm Km Rm0 Rm1 lhs rhs i Ll Gl Lr Gr Hi) as (p & Ep & Wp & Sp & Gp).
    exists p. split; [exact Ep|]. split; [exact Sp|]. intros o a j b Ho Ha Hj Hb'. cbn in Ho. apply vidx_1_inv in Ho as (s & -> & Hs). cbn [app]. apply Gp; auto.
  - exists t. split; [exact EF|]. split; [exact HF|]. split.
    + unfold project_matmul. unfold is_batch at 1. rewrite Hb, Rt, llist_eqb_refl. cbn [negb]. rewrite EF. cbn [bind].
      unfold lazy_batch_size, expand_batch_dim. rewrite Bt. cbn [bind]. rewrite Er. cbn [bind]. rewrite El. cbn [bind]. exact Et.
    + exists F. split; [exact Bks|]. intros o J Ho HJ. cbn in Ho. apply vidx_1_inv in Ho as (s & -> & Hs).
      destruct HJ as [HJ LJ]. rewrite Nat.sub_0_r in LJ. unfold F, mm_entry. cbn [nth].
      assert (EJ := pairs_split (modes w) 0 J ltac:(intros i; rewrite (mw w Hw Kw); reflexivity) HJ).
      set (I := map (fun j => nth 0 j 0) J) in *. set (Q := map (fun j => nth 1 j 0) J) in *.
      assert (LI : length I = ndims w) by (unfold I; now rewrite map_length).
      assert (LQ : length Q = ndims w) by (unfold Q; now rewrite map_length).
      unfold Fg. rewrite EJ at 1.
      pose proof (chain_matmul Rring (coreG m []) (coreG what [s]) (P w what m s) (rk m) (rk what) (rp what m) (fun k => mode w 0 k) (fun k => mode w 0 k) (fun k => mode w 1 k) 0 I Q (fun _ => 1%K) (fun _ => 1%K) (fun _ => 1%K) 0 0) as X.
      cbn [Nat.mul Nat.add] in X. rewrite X; clear X.
      * replace (map (fun k => mode w 0 k) (seq 0 (length I))) with (nth 1 (rshape m) []); [reflexivity|].
        rewrite Rm1, LI. destruct (matrix_rows_len Rring w Hw Kw) as [L0 _]. rewrite <- L0 at 1. unfold mode. symmetry. apply map_nth_seq.
      * congruence.
      * rewrite <- EJ. eapply OrthNorm.vchain_ext; [|exact HJ]. intros i. apply (mw w Hw Kw).
      * rewrite (wf_first Hm); lia.
      * rewrite (wf_first Ht); lia.
      * reflexivity.
      * intros. apply P_at; auto.
      * intros. ring.
Qed.
