(** [to_tt_tensor]: the TT-SVD loop. *)
From Coq Require Import String Ascii List Arith ZArith Lia Lra Bool Ring Reals.
From Verif Require Import Scalar Tensor TensorLemmas TensorLemmas2 Base Spec Chain BaseLemmas Ops
  FullProofs ResultLemmas Dense AddProofs MulProofs MatmulProofs DenseMatmul Sweep FlatProofs GatherProofs SliceProofs NormProofs OpsR ScaleProofs
  Decomp DecompSpec GaugeProofs OrthProofs OrthNorm QRExists Trunc TruncChain RoundProofs SvdSpec RoundThms TTSvdStep.
Import ListNotations.
Local Open Scope nat_scope.
Local Notation get := (@get Rring).
Local Notation RT := (@Tensor Rring).
Local Notation core0 := (core0 Rring).
Add Ring Rring' : (cth Rring).

Definition smodes (sh : list nat) (k : nat) : list nat := [nth k sh 0].

Lemma skipn_nth (sh : list nat) k : k < length sh -> skipn k sh = nth k sh 0 :: skipn (S k) sh.
Proof. revert k; induction sh as [|n sh IH]; intros [|k] H; cbn in *; try lia; auto. apply IH. lia. Qed.

Lemma smodes_skipn sh k : k <= length sh -> map (smodes sh) (seq k (length sh - k)) = map (fun n => [n]) (skipn k sh).
Proof.
  intros H. remember (length sh - k) as n eqn:E. revert k H E; induction n as [|n IH]; intros k H E.
  - rewrite skipn_all2 by lia. reflexivity.
  - rewrite (skipn_nth sh k) by lia. cbn [seq map]. rewrite IH by lia. reflexivity.
Qed.

Lemma smodes_firstn sh k : k <= length sh -> map (smodes sh) (seq 0 k) = map (fun n => [n]) (firstn k sh).
Proof.
  revert sh; induction k as [|k IH]; intros sh H; [reflexivity|]. destruct sh as [|n sh]; cbn in H; [lia|].
  cbn [seq map firstn]. rewrite <- IH by lia. f_equal. rewrite <- seq_shift, map_map. reflexivity.
Qed.

Lemma vjdx_sing ns J : vjdx (map (fun n => [n]) ns) J -> vidx ns (List.concat J).
Proof.
  revert J; induction ns as [|n ns IH]; intros J H; inversion H as [|? j ? J' H1 H2]; subst; cbn [List.concat]; [constructor|].
  inversion H1 as [|x ? ? ? Hx H3]; subst. inversion H3; subst. constructor; [auto|exact (IH _ H2)].
Qed.

Lemma concat_sing I : List.concat (map (fun i : nat => [i]) I) = I.
Proof. induction I; cbn; congruence. Qed.

Lemma rj_sing ns (F : list nat -> R) : rj (map (fun n => [n]) ns) (fun J => F (List.concat J)) = rsum (prodn ns) (fun y => F (unravel ns y)).
Proof.
  unfold rj. rewrite <- (isum_sing Rring ns (fun J => F (List.concat J))).
  rewrite (isum_ext Rring ns _ F) by (intros; now rewrite concat_sing). apply (isum_unravel Rring).
Qed.

Lemma flat2 (D : list R) a b i j : get (RT [a; b] D) [i; j] = nth (i * b + j) D 0%R.
Proof. unfold Tensor.get. cbn [shape data ravel]. f_equal. unfold prodn. cbn. lia. Qed.

Lemma getx_flat (x : rtensor) I : get x I = nth (ravel (shape x) I) (data x) 0%R.
Proof. reflexivity. Qed.

Section TTSvd.
Variable svd : rtensor -> rtensor * rtensor * rtensor.
Hypothesis Hsvd : svd_ok svd.
Variable x : rtensor.
Hypothesis Wx : wft x.
Let sh := shape x.
Let d := length sh.
Hypothesis Hd : 0 < d.
Hypothesis Hpos : Forall (fun n => 0 < n) sh.
Variable mr : list nat.
Hypothesis Hmr : length mr = S d.
Hypothesis Hmp : Forall (fun n => 0 < n) mr.
Let ms := smodes sh.

Definition xA (J : list (list nat)) : R := get x (List.concat J).
Definition cG (cs : list rtensor) : mtrain := fun k a j b => get (nth k cs core0) (a :: j ++ [b]).
Definition tL (cs : list rtensor) (ranks : list nat) (J : list (list nat)) (a : nat) : R := lvec (cG cs) (fun k => nth k ranks 0) J a.
Definition tT (i : nat) (tens : rtensor) (r : nat) (a : nat) (J : list (list nat)) : R :=
  get (RT [r; prodn (skipn i (shape x))] (data tens)) [a; ravel (skipn i (shape x)) (List.concat J)].
Definition tA i tens cs ranks (J1 J2 : list (list nat)) : R :=
  rsum (nth i ranks 0) (fun a => tL cs ranks J1 a * tT i tens (nth i ranks 0%nat) a J2)%R.

(** Squared distance to a tensor of rank [q] at cut [k]. *)
Definition xcut_dist k q (P Z : list (list nat) -> nat -> R) : R :=
  rj (map (smodes (shape x)) (seq 0 k)) (fun J1 => rj (map (smodes (shape x)) (seq k (length (shape x) - k))) (fun J2 =>
    ((xA (J1 ++ J2) - rsum q (fun c => P J1 c * Z J2 c)) * (xA (J1 ++ J2) - rsum q (fun c => P J1 c * Z J2 c)))%R)).

Definition sv_inv (i : nat) (st : rtensor * list rtensor * list nat) : Prop :=
  let '(tens, cs, ranks) := st in
  wft tens /\ prodn (shape tens) = nth i ranks 0 * prodn (skipn i sh) /\
  length cs = i /\ (forall k, k < i -> wft (nth k cs core0) /\ shape (nth k cs core0) = [nth k ranks 0; nth k sh 0; nth (S k) ranks 0]) /\
  length ranks = S d /\ nth 0 ranks 0 = 1 /\ (forall k, k <= d -> 0 < nth k ranks 0) /\ (forall k, i < k <= d -> nth k ranks 0 = 1) /\
  (forall k, 0 < k <= i -> nth k ranks 0 = Nat.min (nth k mr 0) (Nat.min (nth (k - 1) ranks 0 * nth (k - 1) sh 0) (prodn (skipn k sh)))) /\
  (forall a a', a < nth i ranks 0 -> a' < nth i ranks 0 -> rj (map ms (seq 0 i)) (fun J => tL cs ranks J a * tL cs ranks J a')%R = kron a a') /\
  (forall J2 a, vjdx (map ms (seq i (d - i))) J2 -> a < nth i ranks 0 ->
     rj (map ms (seq 0 i)) (fun J1 => (xA (J1 ++ J2) - tA i tens cs ranks J1 J2) * tL cs ranks J1 a)%R = 0%R) /\
  exists e : nat -> R,
    rj (map ms (seq 0 i)) (fun J1 => rj (map ms (seq i (d - i))) (fun J2 =>
      (xA (J1 ++ J2) - tA i tens cs ranks J1 J2) * (xA (J1 ++ J2) - tA i tens cs ranks J1 J2)))%R = rsum i (fun y => e (S y)) /\
    forall k, 0 < k <= i -> (0 <= e k)%R /\ forall q P Z, q <= nth k mr 0 -> (e k <= xcut_dist k q P Z)%R.

Lemma sh_pos k : k < d -> 0 < nth k sh 0.
Proof. intros. now apply Forall_nth'. Qed.
Lemma prod_skipn_pos k : 0 < prodn (skipn k sh).
Proof. apply prodn_pos. rewrite <- (firstn_skipn k sh) in Hpos. now apply Forall_app in Hpos. Qed.

Lemma transpose_rev2 (y : rtensor) m n : wft y -> shape y = [m; n] ->
  exists z, transpose_rev y = Ok z /\ wft z /\ shape z = [n; m] /\ forall i j, i < m -> j < n -> get z [j; i] = get y [i; j].
Proof.
  intros W S. destruct (swap_last_ok [] y m n ltac:(cbn; lia) W S) as (z & E & W' & S' & G).
  exists z. unfold swap_last in E. unfold transpose_rev, rank. rewrite S. cbn [length seq rev app] in *. split; [exact E|].
  split; [exact W'|]. split; [exact S'|]. intros i j Hi Hj. apply (G [] i j); auto. constructor.
Qed.

Lemma sv_step i st : S i < d -> sv_inv i st -> exists st', tt_svd_step svd sh mr i st = Ok st' /\ sv_inv (S i) st'.
Proof.
  intros Hi. destruct st as [[tens cs] ranks].
  intros (Wt & St & Lc & Hc & Lr & R0 & Rp & R1 & Rm & HL & HO & (e & HE & HB)).
  unfold tt_svd_step. rewrite (nthr_nth sh i 0) by (fold d; lia). cbn [bind].
  rewrite (nthr_nth ranks i 0) by lia. cbn [bind]. cbv zeta.
  set (n := nth i sh 0) in *. set (ra := nth i ranks 0) in *. set (N := prodn (skipn (S i) sh)) in *.
  pose proof (sh_pos i ltac:(lia)) as Pn. pose proof (prod_skipn_pos (S i)) as PN. fold n in Pn. fold N in PN.
  pose proof (Rp i ltac:(lia)) as Pra. fold ra in Pra.
  assert (ES : prodn (skipn i sh) = n * N) by (rewrite (skipn_nth sh i) by (fold d; lia); pns; reflexivity).
  rewrite ES in St.
  change [Some (ra * n); None] with (map Some [ra * n] ++ None :: map Some []).
  rewrite (reshape_infer _ tens [ra * n] [] N). 2:{ pns. nia. } 2:{ pns. lia. } 2:{ unfold size. rewrite St. pns. lia. }
  cbn [bind app]. set (m := RT [ra * n; N] (data tens)).
  assert (Wm : wft m). { apply (wft_reshaped Rring tens); auto. rewrite St. pns. lia. }
  change (nthr (shape m) 1) with (Ok (A := nat) N). cbn [bind].
  set (K := Nat.min (ra * n) N).
  assert (Fp : Forall (fun k => 0 < k) ([] ++ [ra * n; N])) by (cbn [app]; repeat constructor; nia).
  pose proof (Hsvd [] (ra * n) N m Wm eq_refl Fp) as HS. fold K in HS. cbn [app] in HS.
  destruct (svd m) as [[s u] v]. cbv zeta in HS. destruct HS as (Ws & Ss & Wu & Su & Wv & Sv & HS).
  specialize (HS [] ltac:(constructor)). cbn [app] in HS. destruct HS as (HX & HU & HV & Hs0 & Hs1).
  rewrite (nthr_nth mr (S i) 0) by (rewrite Hmr; lia). cbn [bind].
  rewrite new_rank_eq by nia. fold K. set (rr := Nat.min (nth (S i) mr 0) K).
  assert (Pk : 0 < K) by (unfold K; nia).
  assert (Pmr : 0 < nth (S i) mr 0) by (apply Forall_nth'; [exact Hmp|rewrite Hmr; lia]).
  assert (Pr : 0 < rr) by (unfold rr; lia). assert (HrK : rr <= K) by (unfold rr; lia).
  destruct (first_cols_ok u [ra * n] K rr Su HrK) as (u' & Eu & Wu' & Su' & Gu). rewrite Eu. cbn [bind].
  destruct (first_cols_ok s [] K rr Ss HrK) as (s' & Es & Ws' & Ss' & Gs). rewrite Es. cbn [bind].
  destruct (first_cols_ok v [N] K rr Sv HrK) as (v' & Ev & Wv' & Sv' & Gv). rewrite Ev. cbn [bind].
  cbn [app] in Su', Ss', Sv'.
  rewrite reshape_exact by (unfold size; rewrite Su'; pns; lia). cbn [bind].
  set (c := RT [ra; n; rr] (data u')).
  destruct (transpose_rev2 v' N rr Wv' Sv') as (vt & Evt & Wvt & Svt & Gvt). rewrite Evt. cbn [bind].
  destruct (tdiag_ok s' [] rr Ss') as (Wd & Sd & Gd). cbn [app] in Sd.
  destruct (matmul_ok2 Rring (tdiag s') vt rr rr N Sd Svt) as (y & Ey & Wy & Sy & Gy). rewrite Ey. cbn [bind].
  eexists. split; [reflexivity|].
  set (ranks' := upd (S i) rr ranks). set (cs' := cs ++ [c]).
  assert (Ni : nth (S i) ranks' 0 = rr) by (unfold ranks'; apply nth_upd_same; lia).
  assert (No : forall k, k <> S i -> nth k ranks' 0 = nth k ranks 0) by (intros; unfold ranks'; now apply nth_upd_other).
  assert (Ci : nth i cs' core0 = c) by (unfold cs'; rewrite <- Lc; apply nth_middle).
  assert (Co : forall k, k < i -> nth k cs' core0 = nth k cs core0) by (intros; unfold cs'; apply app_nth1; lia).
  assert (Ec : wft c) by (apply (wft_reshaped Rring u'); auto; rewrite Su'; pns; lia).
  (* the functions of the abstract step *)
  set (sf := fun l => get s [l]).
  set (vf := fun (J : list (list nat)) l => get v [ravel (skipn (S i) sh) (List.concat J); l]).
  set (uf := fun a (j : list nat) l => get u [a * n + nth 0 j 0; l]).
  set (X := map ms (seq 0 i)). set (Y := map ms (seq (S i) (d - S i))).
  assert (EY : Y = map (fun n => [n]) (skipn (S i) sh)) by (unfold Y; apply smodes_skipn; fold d; lia).
  assert (EYi : map ms (seq i (d - i)) = [n] :: Y) by (unfold Y; replace (d - i) with (S (d - S i)) by lia; reflexivity).
  assert (EX : map ms (seq 0 (S i)) = X ++ [[n]]) by (rewrite seq_S, map_app; reflexivity).
  rewrite EYi in HO, HE. fold X in HL, HO, HE.
  assert (VN : forall J, vjdx Y J -> ravel (skipn (S i) sh) (List.concat J) < N).
  { intros J HJ. rewrite EY in HJ. apply ravel_lt. now apply vjdx_sing. }
  assert (V1 : forall j, vidx [n] j -> exists z, j = [z] /\ z < n).
  { intros j Hj. inversion Hj as [|z ? ? ? Hz H3]; subst. inversion H3; subst. eauto. }
  assert (Q1 : forall a j J, a < ra -> vidx [n] j -> vjdx Y J -> tT i tens ra a (j :: J) = rsum K (fun l => uf a j l * sf l * vf J l)%R).
  { intros a j J Ha Hj HJ. destruct (V1 j Hj) as (z & -> & Hz). unfold tT. cbn [List.concat app].
    unfold sh in *. rewrite (skipn_nth (shape x) i) by (fold d; lia). cbn [ravel]. rewrite prodn_cons. fold N n.
    pose proof (VN J HJ) as HJ'. set (w := ravel (skipn (S i) (shape x)) (List.concat J)) in *.
    rewrite flat2. transitivity (get m [a * n + z; w]).
    - unfold m. rewrite flat2. f_equal. lia.
    - rewrite HX; [reflexivity|nia|exact HJ']. }
  assert (Q2 : forall l J, l < rr -> vjdx Y J -> tT (S i) y rr l J = (sf l * vf J l)%R).
  { intros l J Hl HJ. unfold tT. fold sh. fold N. pose proof (VN J HJ) as HJ'. unfold vf. set (w := ravel (skipn (S i) sh) (List.concat J)) in *.
    replace (RT [rr; N] (data y)) with y by (rewrite <- Sy; now destruct y).
    rewrite Gy by auto.
    transitivity (rsum rr (fun k => (get s' [l] * get vt [k; w]) * kron l k)%R).
    { apply rsum_ext. intros k Hk. pose proof (Gd [] l k ltac:(constructor) Hl Hk) as E. cbn [app] in E. rewrite E. rchange. ring. }
    rewrite rsum_kron_r by auto. rewrite Gvt by auto. pose proof (Gs [] l ltac:(constructor) Hl) as E1. cbn [app] in E1. rewrite E1.
    pose proof (Gv [w] l ltac:(vsolve) Hl) as E2. cbn [app] in E2. rewrite E2. reflexivity. }
  assert (EL : forall J a, vjdx X J -> a < ra -> tL cs' ranks' J a = tL cs ranks J a).
  { intros J a HJ Ha. unfold X in HJ. apply vjdx_seq in HJ as [V L]. unfold tL, lvec, lv. apply (chain_ext2 Rring ms); auto.
    - cbv beta. rewrite No by lia. rewrite R0. lia.
    - intros k Hk. rewrite No by lia. reflexivity.
    - intros k a0 j b Hk _ _ _. unfold cG. now rewrite Co by lia. }
  assert (Q3 : forall J j l, vjdx X J -> vidx [n] j -> l < rr -> tL cs' ranks' (J ++ [j]) l = rsum ra (fun a => tL cs ranks J a * uf a j l)%R).
  { intros J j l HJ Hj Hl. pose proof HJ as HJ2. unfold X in HJ2. apply vjdx_seq in HJ2 as [V L]. unfold tL at 1. rewrite lvec_snoc.
    2:{ rewrite No by lia. lia. } 2:{ rewrite L, Ni. exact Hl. }
    rewrite L. rewrite No by lia. fold ra. apply rsum_ext. intros a Ha. fold (tL cs' ranks' J a). rewrite EL by auto. f_equal.
    destruct (V1 j Hj) as (z & -> & Hz). unfold cG. rewrite Ci. unfold c, uf. cbn [nth].
    pose proof (lview [] [] ra [n] rr (data u') a [z] l eq_refl eq_refl) as E. cbn [app] in E. cbn [app]. rewrite E.
    assert (Pn1 : prodn [n] = n) by (pns; lia).
    assert (Rn1 : ravel [n] [z] = z) by (cbn [ravel]; pns; lia). rewrite Pn1, Rn1.
    replace (RT [ra * n; rr] (data u')) with u' by (rewrite <- Su'; now destruct u').
    apply (Gu [a * n + z] l); auto. constructor; [nia|constructor]. }
  assert (Q4 : forall l l', l < K -> l' < K -> rsum ra (fun a => ri [n] (fun j => uf a j l * uf a j l'))%R = kron l l').
  { intros l l' Hl Hl'. rewrite <- HU by auto. rewrite sumn_prod. reflexivity. }
  assert (Q5 : forall l l', l < K -> l' < K -> rj Y (fun J => vf J l * vf J l')%R = kron l l').
  { intros l l' Hl Hl'. rewrite <- HV by auto. rewrite EY. unfold vf.
    rewrite (rj_sing (skipn (S i) sh) (fun I => get v [ravel (skipn (S i) sh) I; l] * get v [ravel (skipn (S i) sh) I; l'])%R).
    fold N. apply rsum_ext. intros w Hw. now rewrite ravel_unravel. }
  assert (Q6 : forall a b, a <= b -> b < K -> (0 <= sf b <= sf a)%R) by (intros; split; [now apply Hs0|now apply Hs1]).
  pose proof (tstep_error X Y [n] ra K rr xA (tL cs ranks) (tL cs' ranks') (tT i tens ra) (tT (S i) y rr) uf sf vf HrK Q1 Q2 Q3 Q4 Q5 HL HO) as SE.
  pose proof (tstep_left X Y [n] ra K rr (tL cs ranks) (tL cs' ranks') uf HrK Q3 Q4 HL) as SL.
  pose proof (tstep_orth X Y [n] ra K rr xA (tL cs ranks) (tL cs' ranks') (tT i tens ra) (tT (S i) y rr) uf sf vf HrK Q1 Q2 Q3 Q4 HL HO) as SO.
  pose proof (tstep_best X Y [n] ra K rr xA (tL cs ranks) (tT i tens ra) uf sf vf HrK Q1 Q4 Q5 Q6 HL HO (nth (S i) mr 0)) as SB.
  unfold sv_inv. fold ranks' cs'. rewrite Ni.
  split; [exact Wy|]. split; [rewrite Sy; pns; lia|].
  split; [unfold cs'; rewrite app_length; cbn; lia|]. split.
  { intros k Hk. destruct (Nat.eq_dec k i) as [->|]; [rewrite Ci, Ni, No by lia; auto|]. rewrite Co, !No by lia. apply Hc. lia. }
  split; [unfold ranks'; now rewrite length_upd|]. split; [rewrite No by lia; exact R0|]. split.
  { intros k Hk. destruct (Nat.eq_dec k (S i)) as [->|]; [now rewrite Ni|]. rewrite No by auto. now apply Rp. }
  split; [intros k Hk; rewrite No by lia; apply R1; lia|]. split.
  { intros k Hk. destruct (Nat.eq_dec k (S i)) as [->|].
    - rewrite Ni. cbn [Nat.sub]. rewrite Nat.sub_0_r, No by lia. reflexivity.
    - rewrite !No by lia. apply Rm. lia. }
  split; [rewrite EX; exact SL|]. split.
  { intros J2 a HJ Ha. rewrite EX. fold Y in HJ. rewrite <- (SO J2 a HJ Ha). apply rj_ext. intros J1 _. unfold tA. now rewrite Ni. }
  exists (fun k => if Nat.eqb k (S i) then tail K rr sf else e k). split.
  - rewrite EX. fold Y. rewrite rsum_S, Nat.eqb_refl.
    rewrite (rsum_ext i _ (fun y => e (S y))).
    2:{ intros k Hk. destruct (Nat.eqb_spec (S k) (S i)); [lia|reflexivity]. }
    rewrite <- HE. etransitivity; [|exact SE]. apply rj_ext. intros J1 _. apply rj_ext. intros J2 _. unfold tA. now rewrite Ni.
  - intros k Hk. destruct (Nat.eqb_spec k (S i)) as [->|].
    + split; [apply tail_nonneg|]. intros q P Z Hq. unfold xcut_dist. fold sh. fold ms. fold d. fold Y. rewrite EX. apply SB; auto.
    + apply HB. lia.
Qed.
End TTSvd.

Section Whole.
Variable svd : rtensor -> rtensor * rtensor * rtensor.
Hypothesis Hsvd : svd_ok svd.

Lemma modes_single (z : rtt) sh k : rshape z = [sh] -> modes z k = smodes sh k.
Proof. intros E. unfold modes. now rewrite E. Qed.

Lemma rank_left_bound ranks mr sh d : length sh = d -> nth 0 ranks 0 = 1 ->
  (forall k, 0 < k < d -> nth k ranks 0 = Nat.min (nth k mr 0) (Nat.min (nth (k - 1) ranks 0 * nth (k - 1) sh 0) (prodn (skipn k sh)))) ->
  forall k, k < d -> nth k ranks 0 <= prodn (firstn k sh).
Proof.
  intros Hd R0 H. induction k as [|k IH]; intros Hk; [rewrite R0; unfold prodn; cbn; lia|].
  rewrite H by lia. cbn [Nat.sub]. rewrite Nat.sub_0_r. specialize (IH ltac:(lia)).
  assert (E : prodn (firstn (S k) sh) = prodn (firstn k sh) * nth k sh 0).
  { clear - Hk Hd. subst d. revert k Hk; induction sh as [|n sh IH]; intros k Hk; cbn in Hk; [lia|].
    destruct k; cbn [firstn nth]; [unfold prodn; cbn; lia|]. rewrite !prodn_cons. specialize (IH k ltac:(lia)). cbn [firstn] in IH. rewrite IH. lia. }
  rewrite E. nia.
Qed.

Lemma rj_swap a b (f : list (list nat) -> list (list nat) -> R) : rj a (fun J1 => rj b (fun J2 => f J1 J2)) = rj b (fun J2 => rj a (fun J1 => f J1 J2)).
Proof.
  rewrite (rj_rsum_all b). rewrite <- rj_rsum. apply rj_ext. intros J1 _. apply rj_rsum_all.
Qed.

(** Also: the error is orthogonal to the result. *)
Lemma to_tt_tensor_orth (x : rtensor) a eps mr : wft x -> 2 <= length (shape x) -> Forall (fun n => 0 < n) (shape x) ->
  parse_ranks false a eps (length (shape x)) = Ok mr ->
  exists z, to_tt_tensor svd x a eps = Ok z /\ wf z /\ rshape z = [shape x] /\ bsz z = None /\ ndims z = length (shape x) /\
    (forall k, 0 < k < ndims z -> rk z k <= nth k mr 0 /\ rk z k <= prodn (firstn k (shape x)) /\ rk z k <= prodn (skipn k (shape x)) /\
      rk z k = Nat.min (nth k mr 0) (Nat.min (rk z (k - 1) * nth (k - 1) (shape x) 0) (prodn (skipn k (shape x))))) /\
    rj (map (smodes (shape x)) (seq 0 (length (shape x)))) (fun J => (xA x J - tt_entry z [] J) * tt_entry z [] J)%R = 0%R /\
    exists e,
      rj (map (smodes (shape x)) (seq 0 (length (shape x)))) (fun J => (xA x J - tt_entry z [] J) * (xA x J - tt_entry z [] J))%R =
        rsum (length (shape x) - 1) (fun y => e (S y)) /\
      forall k, 0 < k < length (shape x) -> (0 <= e k)%R /\ forall q P Z, q <= nth k mr 0 -> (e k <= xcut_dist x k q P Z)%R.
Proof.
  intros Wx Hd2 Hpos Hp. destruct (parse_ranks_ok _ _ _ _ _ Hp) as [Hmr Hmp].
  set (sh := shape x) in *.
  assert (Hne : forall ch n0, TensorTrain (K := Rring) ch (SList sh) n0 = TensorTrain ch (STuple [sh]) n0).
  { intros. unfold TensorTrain. f_equal. clear - Hd2. destruct sh as [|? [|? ?]]; cbn in Hd2; try lia. reflexivity. }
  assert (Hne2 : sh <> []) by (intros E; rewrite E in Hd2; cbn in Hd2; lia).
  set (d := length sh) in *.
  unfold to_tt_tensor. fold sh. fold d. rewrite Hp. cbn [bind].
  destruct (foldM_seq (tt_svd_step svd sh mr) (sv_inv x mr) (d - 1) 0 (x, [], repeat 1 (S d))) as (st & Est & Hst).
  - unfold sv_inv. fold sh. fold d. split; [exact Wx|]. split; [cbn [nth repeat skipn]; fold sh; lia|]. split; [reflexivity|].
    split; [intros; lia|]. split; [now rewrite repeat_length|]. split; [reflexivity|].
    assert (R1 : forall k, k <= d -> nth k (repeat 1 (S d)) 0 = 1) by (intros; apply nth_repeat_lt; lia).
    split; [intros; rewrite R1 by auto; lia|]. split; [intros; apply R1; lia|]. split; [intros; lia|].
    assert (EL : forall a, a < 1 -> tL [] (repeat 1 (S d)) [] a = 1%R).
    { intros b Hb. assert (b = 0) by lia. subst. unfold tL, lvec, lv. cbn. reflexivity. }
    assert (ET : forall J2, vjdx (map (smodes sh) (seq 0 (d - 0))) J2 -> tA x 0 x [] (repeat 1 (S d)) [] J2 = xA x J2).
    { intros J2 HJ. unfold tA. rewrite R1 by lia. change 1 with (S O) at 1. rewrite rsum_S. change (rsum 0 _) with 0%R.
      rewrite EL by lia. unfold tT, xA. rewrite flat2. fold sh. rewrite getx_flat. cbn [skipn]. fold sh. rewrite Nat.mul_0_l, Nat.add_0_l.
      etransitivity; [apply Rplus_0_l|]. etransitivity; [apply Rmult_1_l|]. reflexivity. }
    cbn [seq map nth repeat]. split.
    { intros b b' Hb Hb'. unfold rj. cbn [jsum]. rewrite !EL by auto. assert (b = 0) by lia. assert (b' = 0) by lia. subst. unfold kron. cbn. lra. }
    split.
    { intros J2 b HJ Hb. unfold rj. cbn [jsum app]. rewrite ET by exact HJ. lra. }
    exists (fun _ => 0%R). split; [|intros; lia]. change (rsum 0 _) with 0%R. unfold rj at 1. cbn [jsum]. apply rj_zero.
    intros J2 HJ. cbn [app]. rewrite ET by exact HJ. lra.
  - intros i s Hi Hs. apply sv_step; auto; fold sh; fold d; lia.
  - rewrite Est. cbn [bind]. rewrite Nat.add_0_l in Hst. destruct st as [[tens cs] ranks].
    destruct Hst as (Wt & St & Lc & Hc & Lr & R0 & Rp & R1 & Rm & _ & HO & (e & HE & HB)). fold sh in St, Hc, Rm, HE, HO, Lr, Rp, R1. fold d in Lr, Rp, R1, HE, HO.
    rewrite lastr_last with (d := 0) by exact Hne2. cbn [bind].
    rewrite (nthr_nth ranks (d - 1) 0), (nthr_nth ranks d 0) by lia. cbn [bind].
    assert (Rd : nth d ranks 0 = 1) by (apply R1; lia). rewrite Rd.
    assert (Esk : skipn (d - 1) sh = [nth (d - 1) sh 0]).
    { rewrite (skipn_nth sh (d - 1)) by (fold d; lia). replace (S (d - 1)) with d by lia. unfold d. now rewrite skipn_all. }
    assert (Ela : last sh 0 = nth (d - 1) sh 0) by (unfold d; now rewrite last_nth).
    rewrite Esk in St. set (rl := nth (d - 1) ranks 0) in *. rewrite Ela. set (n := nth (d - 1) sh 0) in *.
    rewrite reshape_exact by (unfold size; rewrite St; pns; lia). cbn [bind].
    set (c := RT [rl; n; 1] (data tens)).
    set (z := TT (K := Rring) (cs ++ [c]) [sh] ranks None).
    assert (Nd : ndims z = d) by (unfold z, ndims; cbn [cores]; rewrite app_length; cbn; lia).
    assert (Ez : TensorTrain (cs ++ [c]) (SList sh) (Some ranks) = TensorTrain (cs ++ [c]) (STuple [sh]) (Some ranks)) by apply Hne.
    assert (Wz : wf z).
    { constructor; cbn [rshape rks bsz]; try rewrite Nd; auto.
      - lia.
      - repeat constructor.
      - repeat constructor. exact Hpos.
      - apply Forall_forall. intros w Hin. destruct (In_nth ranks w 0 Hin) as (k & Hk & <-). apply Rp. lia.
      - constructor.
      - intros k Hk. unfold core, rk, modes, bpre, z. cbn [cores rks rshape bsz app map].
        destruct (Nat.eq_dec k (d - 1)) as [->|].
        + rewrite <- Lc at 1 2. rewrite nth_middle. split; [apply (wft_reshaped Rring tens); auto; rewrite St; pns; lia|].
          replace (S (d - 1)) with d by lia. rewrite Rd. reflexivity.
        + rewrite app_nth1 by lia. apply (Hc k). lia. }
    exists z. rewrite Ez. pose proof (construct_ranks z Wz) as HT. cbn [bsz cores rshape rks z] in HT. rewrite HT.
    split; [reflexivity|]. split; [exact Wz|]. split; [reflexivity|]. split; [reflexivity|]. split; [exact Nd|]. split.
    { intros k Hk. rewrite Nd in Hk. change (rk z k) with (nth k ranks 0).
      assert (Rm' : forall k, 0 < k < d -> nth k ranks 0 = Nat.min (nth k mr 0) (Nat.min (nth (k - 1) ranks 0 * nth (k - 1) sh 0) (prodn (skipn k sh)))).
      { intros k' Hk'. apply Rm. lia. }
      split; [rewrite Rm' by auto; lia|]. split; [|split; [rewrite Rm' by auto; lia|now apply Rm']].
      eapply (rank_left_bound ranks mr sh d); auto. lia. }
    assert (EA : forall J1 J2, vjdx (map (smodes sh) (seq 0 (d - 1))) J1 -> vjdx (map (smodes sh) (seq (d - 1) (d - (d - 1)))) J2 -> tt_entry z [] (J1 ++ J2) = tA x (d - 1) tens cs ranks J1 J2).
    { intros J1 J2 H1 H2. pose proof (vjdx_length _ _ H1) as L1. rewrite map_length, seq_length in L1.
      rewrite (entry_cut z [] (d - 1)) by auto. unfold tA. change (rk z (d - 1)) with rl. fold rl. apply rsum_ext. intros b Hb. f_equal.
      - unfold tL, lvec, lv. apply vjdx_seq in H1 as [V1 _]. apply (chain_ext2 Rring (smodes sh)); auto.
        + rewrite (wf_first Wz). lia.
        + intros k a0 j b0 Hk _ _ _. unfold coreG, cG, core, z. cbn [cores app]. now rewrite app_nth1 by lia.
      - replace (d - (d - 1)) with 1 in H2 by lia. cbn [seq map] in H2. inversion H2 as [|? j ? ? Hj H3]; subst. inversion H3; subst.
        unfold rvec. rewrite rchain_cons. replace (S (d - 1)) with d by lia. change (rk z d) with (nth d ranks 0). rewrite Rd.
        change 1 with (S O) at 1. rewrite rsum_S. change (rsum 0 _) with 0%R. change (rchain _ _ d [] _ 0) with 1%R.
        inversion Hj as [|w ? ? ? Hw H4]; subst. inversion H4; subst. unfold coreG, core, z. cbn [cores app].
        rewrite <- Lc at 1. rewrite nth_middle. unfold tT. fold sh. rewrite Esk. cbn [List.concat app].
        pose proof (rview [] [] rl [n] 1 (data tens) b [w] 0 eq_refl eq_refl) as E. cbn [app] in E. unfold c.
        etransitivity; [apply Rplus_0_l|]. etransitivity; [apply Rmult_1_r|]. etransitivity; [exact E|]. rewrite !Nat.mul_1_r, Nat.add_0_r. reflexivity. }
    assert (Cut : forall f, rj (map (smodes sh) (seq 0 d)) f =
      rj (map (smodes sh) (seq 0 (d - 1))) (fun J1 => rj (map (smodes sh) (seq (d - 1) (d - (d - 1)))) (fun J2 => f (J1 ++ J2)))).
    { intros f. rewrite (seq_cut (d - 1) d) by lia. now rewrite map_app, rj_app. }
    split.
    + rewrite Cut. etransitivity; [apply rj_swap|]. apply rj_zero. intros J2 H2.
      etransitivity; [apply rj_ext; intros J1 H1; rewrite EA by auto; unfold tA at 2; rewrite <- rsum_mul_l; reflexivity|].
      cbv beta. rewrite rj_rsum. apply rsum_0. intros b Hb.
      etransitivity; [|exact (Rmult_0_r (tT x (d - 1) tens (nth (d - 1) ranks 0) b J2))].
      rewrite <- (HO J2 b H2 Hb). rewrite <- rj_mul_l. apply rj_ext. intros J1 H1. ring.
    + exists e. split; [|intros k Hk; apply HB; lia].
      rewrite <- HE. rewrite Cut. apply rj_ext. intros J1 H1. apply rj_ext. intros J2 H2. rewrite EA by auto. reflexivity.
Qed.

Lemma to_tt_tensor_ok (x : rtensor) a eps mr : wft x -> 2 <= length (shape x) -> Forall (fun n => 0 < n) (shape x) ->
  parse_ranks false a eps (length (shape x)) = Ok mr ->
  exists z, to_tt_tensor svd x a eps = Ok z /\ wf z /\ rshape z = [shape x] /\ bsz z = None /\ ndims z = length (shape x) /\
    (forall k, 0 < k < ndims z -> rk z k <= nth k mr 0 /\ rk z k <= prodn (firstn k (shape x)) /\ rk z k <= prodn (skipn k (shape x)) /\
      rk z k = Nat.min (nth k mr 0) (Nat.min (rk z (k - 1) * nth (k - 1) (shape x) 0) (prodn (skipn k (shape x))))) /\
    exists e,
      rj (map (smodes (shape x)) (seq 0 (length (shape x)))) (fun J => (xA x J - tt_entry z [] J) * (xA x J - tt_entry z [] J))%R =
        rsum (length (shape x) - 1) (fun y => e (S y)) /\
      forall k, 0 < k < length (shape x) -> (0 <= e k)%R /\ forall q P Z, q <= nth k mr 0 -> (e k <= xcut_dist x k q P Z)%R.
Proof.
  intros Wx Hd Hpos Hp. destruct (to_tt_tensor_orth x a eps mr Wx Hd Hpos Hp) as (z & E & W & R & B & D & K & _ & H). exists z. auto 8.
Qed.
End Whole.
