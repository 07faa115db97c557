(** [to_tt_tensor] with an inexact singular value decomposition. *)
From Coq Require Import String Ascii List Arith ZArith Lia Lra Bool Ring Reals.
From Verif Require Import Scalar Tensor TensorLemmas TensorLemmas2 Base Spec Chain BaseLemmas Ops
  FullProofs ResultLemmas Dense AddProofs MulProofs MatmulProofs DenseMatmul Sweep FlatProofs GatherProofs SliceProofs NormProofs OpsR ScaleProofs
  Decomp DecompSpec GaugeProofs OrthProofs OrthNorm QRExists Trunc TruncChain RoundProofs SvdSpec RoundThms TTSvdStep TTSvdProofs TTSvdThms FMat NearStep NearChain NearSpec.
Import ListNotations.
Local Open Scope nat_scope.
Local Notation get := (@get Rring).
Local Notation RT := (@Tensor Rring).
Local Notation core0 := (core0 Rring).
Add Ring Rring'' : (cth Rring).

Lemma sum_cols sk (h : nat -> R) : lsum (RJ (map (fun n => [n]) sk)) (fun J => h (ravel sk (List.concat J))) = rsum (prodn sk) h.
Proof.
  rewrite lsum_RJ, (rj_sing sk (fun I => h (ravel sk I))). apply rsum_ext. intros w Hw. now rewrite ravel_unravel.
Qed.
Lemma sum_rows ra n (h : nat -> R) : lsum (list_prod (seq 0 ra) (RI [n])) (fun p => h (fst p * n + nth 0 (snd p) 0)%nat) = rsum (ra * n) h.
Proof.
  rewrite lsum_prod, lsum_seq. unfold rsum at 2. rewrite (sumn_prod Rring). apply rsum_ext. intros a _. rewrite lsum_RI. reflexivity.
Qed.
Lemma mnorm_frob ra n sk (f : nat -> nat -> R) :
  frob (list_prod (seq 0 ra) (RI [n])) (RJ (map (fun n => [n]) sk)) (fun p J => f (fst p * n + nth 0 (snd p) 0)%nat (ravel sk (List.concat J))) = mnorm (ra * n) (prodn sk) f.
Proof.
  rewrite frob_sqrt. unfold mnorm. f_equal. unfold frob2.
  rewrite (lsum_ext _ _ (fun p => rsum (prodn sk) (fun w => f (fst p * n + nth 0 (snd p) 0)%nat w * f (fst p * n + nth 0 (snd p) 0)%nat w)%R)).
  2:{ intros p _. apply (sum_cols sk (fun w => f (fst p * n + nth 0 (snd p) 0)%nat w * f (fst p * n + nth 0 (snd p) 0)%nat w)%R). }
  rewrite (sum_rows ra n (fun q => rsum (prodn sk) (fun w => f q w * f q w)%R)). reflexivity.
Qed.
Lemma mnorm_rows ra n K (f : nat -> nat -> R) :
  frob (list_prod (seq 0 ra) (RI [n])) (seq 0 K) (fun p l => f (fst p * n + nth 0 (snd p) 0)%nat l) = mnorm (ra * n) K f.
Proof.
  rewrite frob_sqrt. unfold mnorm. f_equal. unfold frob2.
  rewrite (lsum_ext _ _ (fun p => rsum K (fun w => f (fst p * n + nth 0 (snd p) 0)%nat w * f (fst p * n + nth 0 (snd p) 0)%nat w)%R)) by (intros; now rewrite lsum_seq).
  rewrite (sum_rows ra n (fun q => rsum K (fun w => f q w * f q w)%R)). reflexivity.
Qed.
Lemma mnorm_cols sk K (f : nat -> nat -> R) :
  frob (RJ (map (fun n => [n]) sk)) (seq 0 K) (fun J l => f (ravel sk (List.concat J)) l) = mnorm (prodn sk) K f.
Proof.
  rewrite frob_sqrt. unfold mnorm. f_equal. unfold frob2.
  rewrite (lsum_ext _ _ (fun J => rsum K (fun w => f (ravel sk (List.concat J)) w * f (ravel sk (List.concat J)) w)%R)) by (intros; now rewrite lsum_seq).
  apply (sum_cols sk (fun q => rsum K (fun w => f q w * f q w)%R)).
Qed.

Section TTSvd.
Variable de : R.
Hypothesis Hde : (0 <= de)%R.
Variable svd : rtensor -> rtensor * rtensor * rtensor.
Hypothesis Hsvd : svd_near de svd.
Variable x : rtensor.
Hypothesis Wx : wft x.
Let sh := shape x.
Let d := length sh.
Hypothesis Hd : 0 < d.
Hypothesis Hpos : Forall (fun n => 0 < n) sh.
Variable mr : list nat.
Hypothesis Hmr : length mr = S d.
Hypothesis Hmp : Forall (fun n => 0 < n) mr.
Let ms := smodes sh.

Definition xF (J1 J2 : list (list nat)) : R := xA x (J1 ++ J2).
Definition xN : R := sqrt (rj (map (smodes (shape x)) (seq 0 (length (shape x)))) (fun J => xA x J * xA x J)%R).
Lemma xF_norm k : k <= d -> frob (RJ (map ms (seq 0 k))) (RJ (map ms (seq k (d - k)))) xF = xN.
Proof.
  intros Hk. rewrite frob_sqrt. unfold xN. f_equal. fold sh. fold d. fold ms. rewrite (seq_cut k d) by auto. rewrite map_app, rj_app. unfold frob2.
  rewrite lsum_RJ. apply rj_ext. intros J1 _. rewrite lsum_RJ. reflexivity.
Qed.
Lemma xcut_frob k q P Z : sqrt (xcut_dist x k q P Z) = frob (RJ (map ms (seq 0 k))) (RJ (map ms (seq k (d - k)))) (fun J1 J2 => xF J1 J2 - rsum q (fun c => P J1 c * Z J2 c))%R.
Proof.
  rewrite frob_sqrt. unfold xcut_dist. f_equal. fold sh. fold d. fold ms. unfold frob2. rewrite lsum_RJ. apply rj_ext. intros J1 _. rewrite lsum_RJ. reflexivity.
Qed.

Definition nv_inv (i : nat) (st : rtensor * list rtensor * list nat) : Prop :=
  let '(tens, cs, ranks) := st in
  wft tens /\ prodn (shape tens) = nth i ranks 0 * prodn (skipn i sh) /\
  length cs = i /\ (forall k, k < i -> wft (nth k cs core0) /\ shape (nth k cs core0) = [nth k ranks 0; nth k sh 0; nth (S k) ranks 0]) /\
  length ranks = S d /\ nth 0 ranks 0 = 1 /\ (forall k, k <= d -> 0 < nth k ranks 0) /\ (forall k, i < k <= d -> nth k ranks 0 = 1) /\
  (forall k, 0 < k <= i -> nth k ranks 0 = Nat.min (nth k mr 0) (Nat.min (nth (k - 1) ranks 0 * nth (k - 1) sh 0) (prodn (skipn k sh)))) /\
  exists Lx : list (list nat) -> nat -> R,
  orth (RJ (map ms (seq 0 i))) (nth i ranks 0) Lx /\
  (frob (seq 0 (nth i ranks 0%nat)) (RJ (map ms (seq i (d - i)))) (fun c J => tT x i tens (nth i ranks 0%nat) c J - pr (RJ (map ms (seq 0 i))) Lx xF c J) <= ((1 + de) ^ (2 * i) - 1) * xN)%R /\
  (forall y : nat -> R, nrm (RJ (map ms (seq 0 i))) (fun J => rsum (nth i ranks 0%nat) (fun c => (Lx J c - tL cs ranks J c) * y c)) <= ((1 + de) ^ i - 1) * nrm (seq 0 (nth i ranks 0%nat)) y)%R /\
  exists e : nat -> R,
    frob2 (RJ (map ms (seq 0 i))) (RJ (map ms (seq i (d - i)))) (fun J1 J2 => xF J1 J2 - mm (nth i ranks 0%nat) Lx (pr (RJ (map ms (seq 0 i))) Lx xF) J1 J2)%R = rsum i (fun y => e (S y)) /\
    forall k, 0 < k <= i -> (0 <= e k)%R /\ forall q P Z, q <= nth k mr 0 -> (sqrt (e k) <= sqrt (xcut_dist x k q P Z) + 2 * (((1 + de) ^ (2 * k - 1) - 1) * xN))%R.

Lemma nv_step i st : S i < d -> nv_inv i st -> exists st', tt_svd_step svd sh mr i st = Ok st' /\ nv_inv (S i) st'.
Proof.
  intros Hi. destruct st as [[tens cs] ranks].
  intros (Wt & St & Lc & Hc & Lr & R0 & Rp & R1 & Rm & (Lx & HL & HG & HD & (e & HE & HB))).
  unfold tt_svd_step. rewrite (nthr_nth sh i 0) by (fold d; lia). cbn [bind].
  rewrite (nthr_nth ranks i 0) by lia. cbn [bind]. cbv zeta.
  set (n := nth i sh 0) in *. set (ra := nth i ranks 0) in *. set (N := prodn (skipn (S i) sh)) in *.
  pose proof (sh_pos x Hpos i ltac:(fold sh; fold d; lia)) as Pn. pose proof (prod_skipn_pos x Hpos (S i)) as PN. fold sh in Pn, PN. fold n in Pn. fold N in PN.
  pose proof (Rp i ltac:(lia)) as Pra. fold ra in Pra.
  assert (ES : prodn (skipn i sh) = n * N) by (rewrite (skipn_nth sh i) by (fold d; lia); pns; reflexivity).
  rewrite ES in St.
  change [Some (ra * n); None] with (map Some [ra * n] ++ None :: map Some []).
  rewrite (reshape_infer _ tens [ra * n] [] N). 2:{ pns. nia. } 2:{ pns. lia. } 2:{ unfold size. rewrite St. pns. lia. }
  cbn [bind app]. set (m := RT [ra * n; N] (data tens)).
  assert (Wm : wft m). { apply (wft_reshaped Rring tens); auto. rewrite St. pns. lia. }
  change (nthr (shape m) 1) with (Ok (A := nat) N). cbn [bind].
  set (K := Nat.min (ra * n) N).
  assert (Fp : Forall (fun k => 0 < k) ([] ++ [ra * n; N])) by (cbn [app]; repeat constructor; nia).
  pose proof (Hsvd [] (ra * n) N m Wm eq_refl Fp) as HS. fold K in HS. cbn [app] in HS.
  destruct (svd m) as [[s u] v]. cbv zeta in HS. destruct HS as (Ws & Ss & Wu & Su & Wv & Sv & HS).
  specialize (HS [] ltac:(constructor)). cbn [app] in HS. destruct HS as (x' & u2 & v2 & HX & HU & HV & Hs0 & Hs1 & NX & NU & NV).
  rewrite (nthr_nth mr (S i) 0) by (rewrite Hmr; lia). cbn [bind].
  rewrite new_rank_eq by nia. fold K. set (rr := Nat.min (nth (S i) mr 0) K).
  assert (Pk : 0 < K) by (unfold K; nia).
  assert (Pmr : 0 < nth (S i) mr 0) by (apply Forall_nth'; [exact Hmp|rewrite Hmr; lia]).
  assert (Pr : 0 < rr) by (unfold rr; lia). assert (HrK : rr <= K) by (unfold rr; lia).
  destruct (first_cols_ok u [ra * n] K rr Su HrK) as (u' & Eu & Wu' & Su' & Gu). rewrite Eu. cbn [bind].
  destruct (first_cols_ok s [] K rr Ss HrK) as (s' & Es & Ws' & Ss' & Gs). rewrite Es. cbn [bind].
  destruct (first_cols_ok v [N] K rr Sv HrK) as (v' & Ev & Wv' & Sv' & Gv). rewrite Ev. cbn [bind].
  cbn [app] in Su', Ss', Sv'.
  rewrite reshape_exact by (unfold size; rewrite Su'; pns; lia). cbn [bind].
  set (c := RT [ra; n; rr] (data u')).
  destruct (transpose_rev2 x Hd mr Hmr v' N rr Wv' Sv') as (vt & Evt & Wvt & Svt & Gvt). rewrite Evt. cbn [bind].
  destruct (tdiag_ok s' [] rr Ss') as (Wd & Sd & Gd). cbn [app] in Sd.
  destruct (matmul_ok2 Rring (tdiag s') vt rr rr N Sd Svt) as (y & Ey & Wy & Sy & Gy). rewrite Ey. cbn [bind].
  eexists. split; [reflexivity|].
  set (ranks' := upd (S i) rr ranks). set (cs' := cs ++ [c]).
  assert (Ni : nth (S i) ranks' 0 = rr) by (unfold ranks'; apply nth_upd_same; lia).
  assert (No : forall k, k <> S i -> nth k ranks' 0 = nth k ranks 0) by (intros; unfold ranks'; now apply nth_upd_other).
  assert (Ci : nth i cs' core0 = c) by (unfold cs'; rewrite <- Lc; apply nth_middle).
  assert (Co : forall k, k < i -> nth k cs' core0 = nth k cs core0) by (intros; unfold cs'; apply app_nth1; lia).
  assert (Ec : wft c) by (apply (wft_reshaped Rring u'); auto; rewrite Su'; pns; lia).
  (* the functions of the abstract step *)
  set (sk := skipn (S i) sh) in *.
  set (sf := fun l => get s [l]).
  set (vf := fun (J : list (list nat)) l => get v [ravel sk (List.concat J); l]).
  set (vf' := fun (J : list (list nat)) l => v2 (ravel sk (List.concat J)) l).
  set (uf := fun a (j : list nat) l => get u [a * n + nth 0 j 0; l]).
  set (uf' := fun a (j : list nat) l => u2 (a * n + nth 0 j 0) l).
  set (xf' := fun a (j : list nat) (J : list (list nat)) => x' (a * n + nth 0 j 0) (ravel sk (List.concat J))).
  set (X := map ms (seq 0 i)) in *. set (Y := map ms (seq (S i) (d - S i))).
  assert (EY : Y = map (fun n => [n]) sk) by (unfold Y; apply smodes_skipn; fold d; lia).
  assert (EYi : map ms (seq i (d - i)) = [n] :: Y) by (unfold Y; replace (d - i) with (S (d - S i)) by lia; reflexivity).
  assert (EX : map ms (seq 0 (S i)) = X ++ [[n]]) by (rewrite seq_S, map_app; reflexivity).
  rewrite EYi in HG, HE.
  assert (VN : forall J, vjdx Y J -> ravel sk (List.concat J) < N).
  { intros J HJ. rewrite EY in HJ. apply ravel_lt. now apply vjdx_sing. }
  assert (V1 : forall j, vidx [n] j -> exists z, j = [z] /\ z < n).
  { intros j Hj. inversion Hj as [|z ? ? ? Hz H3]; subst. inversion H3; subst. eauto. }
  set (tf := fun a w => get m [a; w]) in *.
  assert (Q1 : forall a j J, a < ra -> vidx [n] j -> vjdx Y J -> tT x i tens ra a (j :: J) = tf (a * n + nth 0 j 0) (ravel sk (List.concat J))).
  { intros a j J Ha Hj HJ. destruct (V1 j Hj) as (z & -> & Hz). unfold tT. cbn [List.concat app nth].
    fold sh. rewrite (skipn_nth sh i) by (fold d; lia). fold sk. cbn [ravel]. rewrite prodn_cons. fold N n.
    pose proof (VN J HJ) as HJ'. set (w := ravel sk (List.concat J)) in *.
    rewrite flat2. unfold tf, m. rewrite flat2. f_equal. lia. }
  assert (Q2 : forall l J, l < rr -> vjdx Y J -> tT x (S i) y rr l J = (sf l * vf J l)%R).
  { intros l J Hl HJ. unfold tT. fold sh. fold sk. fold N. pose proof (VN J HJ) as HJ'. unfold vf. set (w := ravel sk (List.concat J)) in *.
    replace (RT [rr; N] (data y)) with y by (rewrite <- Sy; now destruct y).
    rewrite Gy by auto.
    transitivity (rsum rr (fun k => (get s' [l] * get vt [k; w]) * kron l k)%R).
    { apply rsum_ext. intros k Hk. pose proof (Gd [] l k ltac:(constructor) Hl Hk) as E. cbn [app] in E. rewrite E. rchange. ring. }
    rewrite rsum_kron_r by auto. rewrite Gvt by auto. pose proof (Gs [] l ltac:(constructor) Hl) as E1. cbn [app] in E1. rewrite E1.
    pose proof (Gv [w] l ltac:(vsolve) Hl) as E2. cbn [app] in E2. rewrite E2. reflexivity. }
  assert (EL : forall J a, vjdx X J -> a < ra -> tL cs' ranks' J a = tL cs ranks J a).
  { intros J a HJ Ha. unfold X in HJ. apply vjdx_seq in HJ as [V L]. unfold tL, lvec, lv. apply (chain_ext2 Rring ms); auto.
    - cbv beta. rewrite No by lia. rewrite R0. lia.
    - intros k Hk. rewrite No by lia. reflexivity.
    - intros k a0 j b Hk _ _ _. unfold cG. now rewrite Co by lia. }
  assert (Q3 : forall J j l, vjdx X J -> vidx [n] j -> l < rr -> tL cs' ranks' (J ++ [j]) l = rsum ra (fun a => tL cs ranks J a * uf a j l)%R).
  { intros J j l HJ Hj Hl. pose proof HJ as HJ2. unfold X in HJ2. apply vjdx_seq in HJ2 as [V L]. unfold tL at 1. rewrite lvec_snoc.
    2:{ rewrite No by lia. lia. } 2:{ rewrite L, Ni. exact Hl. }
    rewrite L. rewrite No by lia. fold ra. apply rsum_ext. intros a Ha. fold (tL cs' ranks' J a). rewrite EL by auto. f_equal.
    destruct (V1 j Hj) as (z & -> & Hz). unfold cG. rewrite Ci. unfold c, uf. cbn [nth].
    pose proof (lview [] [] ra [n] rr (data u') a [z] l eq_refl eq_refl) as E. cbn [app] in E. cbn [app]. rewrite E.
    assert (Pn1 : prodn [n] = n) by (pns; lia).
    assert (Rn1 : ravel [n] [z] = z) by (cbn [ravel]; pns; lia). rewrite Pn1, Rn1.
    replace (RT [ra * n; rr] (data u')) with u' by (rewrite <- Su'; now destruct u').
    apply (Gu [a * n + z] l); auto. constructor; [nia|constructor]. }
  assert (Q4 : orth (list_prod (seq 0 ra) (RI [n])) K (fun p => uf' (fst p) (snd p))).
  { intros l l' Hl Hl'. rewrite <- HU by auto. apply (sum_rows ra n (fun q => u2 q l * u2 q l')%R). }
  assert (Q5 : orth (RJ Y) K vf').
  { intros l l' Hl Hl'. rewrite <- HV by auto. rewrite EY. apply (sum_cols sk (fun q => v2 q l * v2 q l')%R). }
  assert (Q6 : forall a b, a <= b -> b < K -> (0 <= sf b <= sf a)%R) by (intros; split; [now apply Hs0|now apply Hs1]).
  assert (Q7 : forall a j J, a < ra -> vidx [n] j -> vjdx Y J -> xf' a j J = rsum K (fun l => uf' a j l * sf l * vf' J l)%R).
  { intros a j J Ha Hj HJ. destruct (V1 j Hj) as (z & -> & Hz). unfold xf', uf', vf'. cbn [nth]. apply HX; [nia|now apply VN]. }
  assert (IN : forall p J, In p (list_prod (seq 0 ra) (RI [n])) -> In J (RJ Y) -> tT x i tens ra (fst p) (snd p :: J) = tf (fst p * n + nth 0 (snd p) 0)%nat (ravel sk (List.concat J))).
  { intros [a j] J Hp HJ. apply in_prod_iff in Hp as [H1 H2]. apply in_seq in H1. apply Q1; [cbn; lia|now apply in_RI|now apply in_RJ]. }
  assert (Q8 : (frob (list_prod (seq 0 ra) (RI [n])) (RJ Y) (fun p J => xf' (fst p) (snd p) J - tT x i tens ra (fst p) (snd p :: J)) <=
      de * frob (list_prod (seq 0 ra) (RI [n])) (RJ Y) (fun p J => tT x i tens ra (fst p) (snd p :: J)))%R).
  { rewrite (frob_ext _ _ (fun p J => tT x i tens ra (fst p) (snd p :: J)) (fun p J => tf (fst p * n + nth 0 (snd p) 0)%nat (ravel sk (List.concat J)))) by auto.
    rewrite (frob_ext _ _ (fun p J => xf' (fst p) (snd p) J - tT x i tens ra (fst p) (snd p :: J))%R
      (fun p J => (fun q w => x' q w - tf q w)%R (fst p * n + nth 0 (snd p) 0)%nat (ravel sk (List.concat J)))) by (intros; rewrite IN by auto; reflexivity).
    rewrite EY. rewrite (mnorm_frob ra n sk tf), (mnorm_frob ra n sk (fun q w => x' q w - tf q w)%R). exact NX. }
  assert (Q9 : (frob (list_prod (seq 0 ra) (RI [n])) (seq 0 K) (fun p l => uf (fst p) (snd p) l - uf' (fst p) (snd p) l) <= de)%R).
  { eapply Rle_trans; [|exact NU]. apply Req_le. apply (mnorm_rows ra n K (fun q l => get u [q; l] - u2 q l)%R). }
  assert (Q10 : (frob (RJ Y) (seq 0 K) (fun b l => vf b l - vf' b l) <= de)%R).
  { eapply Rle_trans; [|exact NV]. apply Req_le. rewrite EY. apply (mnorm_cols sk K (fun q l => get v [q; l] - v2 q l)%R). }
  pose proof (xF_norm i ltac:(lia)) as NXN. rewrite EYi in NXN. fold X in NXN.
  assert (P1 : (1 <= (1 + de) ^ i)%R) by (apply pow_R1_Rle; lra).
  pose proof (c_orth X [n] ra K rr Lx uf' HrK HL Q4) as SL.
  pose proof (c_rest X Y [n] ra K rr (xA x) Lx (tT x i tens ra) (tT x (S i) y rr) uf' sf vf vf' xf' de _ Hde HrK Q2 HL HG Q4 Q5 Q7 Q8 Q10) as SR.
  pose proof (c_error X Y [n] ra K rr (xA x) Lx uf' HrK HL Q4) as SE.
  pose proof (c_added_le X Y [n] ra K rr (xA x) Lx (tT x i tens ra) uf' sf vf' xf' de _ Hde HrK HL HG Q4 Q5 Q6 Q7 Q8 (nth (S i) mr 0)) as SB.
  pose proof (c_left X [n] ra K rr Lx (tL cs ranks) (tL cs' ranks') uf uf' de ((1 + de) ^ i - 1)%R ltac:(lra) HrK Q3 HL HD Q4 Q9) as SD.
  change (frob (RJ X) (RJ ([n] :: Y)) (fun J1 J2 => xA x (J1 ++ J2))) with (frob (RJ X) (RJ ([n] :: Y)) xF) in SR, SB. rewrite NXN in SR, SB.
  set (Lx' := nx2 ra Lx uf') in *.
  change (fun J1 J2 : list (list nat) => xA x (J1 ++ J2)) with xF in SR, SE.
  unfold nv_inv. fold ranks' cs'. rewrite Ni.
  split; [exact Wy|]. split; [rewrite Sy; fold sk; fold N; pns; lia|].
  split; [unfold cs'; rewrite app_length; cbn; lia|]. split.
  { intros k Hk. destruct (Nat.eq_dec k i) as [->|]; [rewrite Ci, Ni, No by lia; auto|]. rewrite Co, !No by lia. apply Hc. lia. }
  split; [unfold ranks'; now rewrite length_upd|]. split; [rewrite No by lia; exact R0|]. split.
  { intros k Hk. destruct (Nat.eq_dec k (S i)) as [->|]; [now rewrite Ni|]. rewrite No by auto. now apply Rp. }
  split; [intros k Hk; rewrite No by lia; apply R1; lia|]. split.
  { intros k Hk. destruct (Nat.eq_dec k (S i)) as [->|].
    - rewrite Ni. cbn [Nat.sub]. rewrite Nat.sub_0_r, No by lia. reflexivity.
    - rewrite !No by lia. apply Rm. lia. }
  rewrite EX. fold Y. exists Lx'. split; [exact SL|]. split.
  { eapply Rle_trans; [exact SR|]. apply Req_le. replace (2 * S i) with (2 * i + 2) by lia. rewrite pow_add. cbn [pow]. ring. }
  split.
  { intros w. eapply Rle_trans; [apply SD|]. apply Req_le. cbn [pow]. ring. }
  exists (fun k => if Nat.eqb k (S i) then c_added X Y [n] ra rr (xA x) Lx uf' else e k). split.
  - rewrite rsum_S, Nat.eqb_refl.
    rewrite (rsum_ext i _ (fun y => e (S y))).
    2:{ intros k Hk. destruct (Nat.eqb_spec (S k) (S i)); [lia|reflexivity]. }
    rewrite <- HE. exact SE.
  - intros k Hk. destruct (Nat.eqb_spec k (S i)) as [->|].
    + split; [apply c_added_nonneg|]. intros q P Z Hq. rewrite xcut_frob. fold Y. rewrite EX.
      eapply Rle_trans; [apply (SB q P Z eq_refl Hq)|]. apply Req_le. f_equal. replace (2 * S i - 1) with (2 * i + 1) by lia. rewrite pow_add. cbn [pow]. ring.
    + apply HB. lia.
Qed.
End TTSvd.

Section Whole.
Variable de : R.
Hypothesis Hde : (0 <= de)%R.
Variable svd : rtensor -> rtensor * rtensor * rtensor.
Hypothesis Hsvd : svd_near de svd.

Lemma to_tt_tensor_near (x : rtensor) a eps mr : wft x -> 2 <= length (shape x) -> Forall (fun n => 0 < n) (shape x) ->
  parse_ranks false a eps (length (shape x)) = Ok mr ->
  exists z, to_tt_tensor svd x a eps = Ok z /\ wf z /\ rshape z = [shape x] /\ bsz z = None /\ ndims z = length (shape x) /\
    (forall k, 0 < k < ndims z -> rk z k <= nth k mr 0 /\ rk z k <= prodn (firstn k (shape x)) /\ rk z k <= prodn (skipn k (shape x)) /\
      rk z k = Nat.min (nth k mr 0) (Nat.min (rk z (k - 1) * nth (k - 1) (shape x) 0) (prodn (skipn k (shape x))))) /\
    exists e,
      (sqrt (rj (map (smodes (shape x)) (seq 0 (length (shape x)))) (fun J => (xA x J - tt_entry z [] J) * (xA x J - tt_entry z [] J))) <=
        sqrt (rsum (length (shape x) - 1) (fun y => e (S y))) + ((1 + de) ^ (3 * (length (shape x) - 1)) - 1) * xN x)%R /\
      forall k, 0 < k < length (shape x) -> (0 <= e k)%R /\ forall q P Z, q <= nth k mr 0 ->
        (sqrt (e k) <= sqrt (xcut_dist x k q P Z) + 2 * (((1 + de) ^ (2 * k - 1) - 1) * xN x))%R.
Proof.
  intros Wx Hd2 Hpos Hp. destruct (parse_ranks_ok _ _ _ _ _ Hp) as [Hmr Hmp].
  set (sh := shape x) in *.
  assert (Hne : forall ch n0, TensorTrain (K := Rring) ch (SList sh) n0 = TensorTrain ch (STuple [sh]) n0).
  { intros. unfold TensorTrain. f_equal. clear - Hd2. destruct sh as [|? [|? ?]]; cbn in Hd2; try lia. reflexivity. }
  assert (Hne2 : sh <> []) by (intros E; rewrite E in Hd2; cbn in Hd2; lia).
  set (d := length sh) in *.
  unfold to_tt_tensor. fold sh. fold d. rewrite Hp. cbn [bind].
  destruct (foldM_seq (tt_svd_step svd sh mr) (nv_inv de x mr) (d - 1) 0 (x, [], repeat 1 (S d))) as (st & Est & Hst).
  - unfold nv_inv. fold sh. fold d. split; [exact Wx|]. split; [cbn [nth repeat skipn]; fold sh; lia|]. split; [reflexivity|].
    split; [intros; lia|]. split; [now rewrite repeat_length|]. split; [reflexivity|].
    assert (R1 : forall k, k <= d -> nth k (repeat 1 (S d)) 0 = 1) by (intros; apply nth_repeat_lt; lia).
    split; [intros; rewrite R1 by auto; lia|]. split; [intros; apply R1; lia|]. split; [intros; lia|].
    assert (EL : forall a, a < 1 -> tL [] (repeat 1 (S d)) [] a = 1%R).
    { intros b Hb. assert (b = 0) by lia. subst. unfold tL, lvec, lv. cbn. reflexivity. }
    assert (ET : forall J2, tT x 0 x 1 0 J2 = xA x J2).
    { intros J2. unfold tT, xA. rewrite flat2. fold sh. rewrite getx_flat. cbn [skipn]. fold sh. rewrite Nat.mul_0_l, Nat.add_0_l. reflexivity. }
    assert (EJ : RJ [] = [[]]) by reflexivity.
    exists (fun _ _ => 1%R). cbn [seq map]. rewrite EJ. rewrite R1 by lia.
    assert (EP : forall J, pr [[]] (fun _ _ => 1%R) (xF x) 0 J = xA x J).
    { intros J. unfold pr. rewrite lsum_cons, lsum_nil. unfold xF. cbn [app]. ring. }
    split.
    { intros b b' Hb Hb'. rewrite lsum_cons, lsum_nil. assert (b = 0) by lia. assert (b' = 0) by lia. subst. unfold kron. cbn. lra. }
    split.
    { apply Req_le. rewrite Nat.mul_0_r. cbn [pow]. rewrite frob_sqrt. unfold frob2. rewrite lsum_0; [rewrite sqrt_0; ring|].
      intros b Hb. apply in_seq in Hb. assert (b = 0) by lia. subst. apply lsum_0. intros J _. rewrite ET, EP. ring. }
    split.
    { intros w. apply Req_le. cbn [pow]. unfold nrm at 1. rewrite lsum_cons, lsum_nil. change 1 with (S O) at 1 2. rewrite !rsum_S. change (rsum 0 _) with 0%R. rewrite EL by lia.
      match goal with |- sqrt ?t = _ => replace t with 0%R by ring end. rewrite sqrt_0. ring. }
    exists (fun _ => 0%R). split; [|intros; lia]. change (rsum 0 _) with 0%R. unfold frob2. rewrite lsum_cons, lsum_nil, lsum_0; [ring|].
    intros J _. unfold mm. change 1 with (S O) at 1. rewrite rsum_S. change (rsum 0 _) with 0%R. rewrite EP. unfold xF. cbn [app]. ring.
  - intros i s Hi Hs. apply nv_step; auto; fold sh; fold d; lia.
  - rewrite Est. cbn [bind]. rewrite Nat.add_0_l in Hst. destruct st as [[tens cs] ranks].
    destruct Hst as (Wt & St & Lc & Hc & Lr & R0 & Rp & R1 & Rm & (Lx & HL & HG & HD & (e & HE & HB))). fold sh in St, Hc, Rm, HE, Lr, Rp, R1, HL, HG, HD. fold d in Lr, Rp, R1, HE, HG.
    rewrite lastr_last with (d := 0) by exact Hne2. cbn [bind].
    rewrite (nthr_nth ranks (d - 1) 0), (nthr_nth ranks d 0) by lia. cbn [bind].
    assert (Rd : nth d ranks 0 = 1) by (apply R1; lia). rewrite Rd.
    assert (Esk : skipn (d - 1) sh = [nth (d - 1) sh 0]).
    { rewrite (skipn_nth sh (d - 1)) by (fold d; lia). replace (S (d - 1)) with d by lia. unfold d. now rewrite skipn_all. }
    assert (Ela : last sh 0 = nth (d - 1) sh 0) by (unfold d; now rewrite last_nth).
    rewrite Esk in St. set (rl := nth (d - 1) ranks 0) in *. rewrite Ela. set (n := nth (d - 1) sh 0) in *.
    rewrite reshape_exact by (unfold size; rewrite St; pns; lia). cbn [bind].
    set (c := RT [rl; n; 1] (data tens)).
    set (z := TT (K := Rring) (cs ++ [c]) [sh] ranks None).
    assert (Nd : ndims z = d) by (unfold z, ndims; cbn [cores]; rewrite app_length; cbn; lia).
    assert (Ez : TensorTrain (cs ++ [c]) (SList sh) (Some ranks) = TensorTrain (cs ++ [c]) (STuple [sh]) (Some ranks)) by apply Hne.
    assert (Wz : wf z).
    { constructor; cbn [rshape rks bsz]; try rewrite Nd; auto.
      - lia.
      - repeat constructor.
      - repeat constructor. exact Hpos.
      - apply Forall_forall. intros w Hin. destruct (In_nth ranks w 0 Hin) as (k & Hk & <-). apply Rp. lia.
      - constructor.
      - intros k Hk. unfold core, rk, modes, bpre, z. cbn [cores rks rshape bsz app map].
        destruct (Nat.eq_dec k (d - 1)) as [->|].
        + rewrite <- Lc at 1 2. rewrite nth_middle. split; [apply (wft_reshaped Rring tens); auto; rewrite St; pns; lia|].
          replace (S (d - 1)) with d by lia. rewrite Rd. reflexivity.
        + rewrite app_nth1 by lia. apply (Hc k). lia. }
    exists z. rewrite Ez. pose proof (construct_ranks z Wz) as HT. cbn [bsz cores rshape rks z] in HT. rewrite HT.
    split; [reflexivity|]. split; [exact Wz|]. split; [reflexivity|]. split; [reflexivity|]. split; [exact Nd|]. split.
    { intros k Hk. rewrite Nd in Hk. change (rk z k) with (nth k ranks 0).
      assert (Rm' : forall k, 0 < k < d -> nth k ranks 0 = Nat.min (nth k mr 0) (Nat.min (nth (k - 1) ranks 0 * nth (k - 1) sh 0) (prodn (skipn k sh)))).
      { intros k' Hk'. apply Rm. lia. }
      split; [rewrite Rm' by auto; lia|]. split; [|split; [rewrite Rm' by auto; lia|now apply Rm']].
      eapply (rank_left_bound ranks mr sh d); auto. lia. }
    exists e. split; [|intros k Hk; apply HB; lia].
    assert (P1 : (1 <= (1 + de) ^ (d - 1))%R) by (apply pow_R1_Rle; lra).
    pose proof (near_final _ _ rl (xF x) Lx (tL cs ranks) (tT x (d - 1) tens rl) _ ((1 + de) ^ (d - 1) - 1)%R ltac:(lra) HL HG HD) as NF.
    pose proof (xF_norm x (d - 1) ltac:(fold sh; fold d; lia)) as NX. fold sh in NX. fold d in NX. rewrite NX in NF.
    rewrite (frob_sqrt _ _ (fun J1 J2 => xF x J1 J2 - mm rl Lx _ J1 J2)%R) in NF. rewrite HE in NF.
    replace ((1 + ((1 + de) ^ (d - 1) - 1)) * (xN x + ((1 + de) ^ (2 * (d - 1)) - 1) * xN x) - xN x)%R with (((1 + de) ^ (3 * (d - 1)) - 1) * xN x)%R in NF.
    2:{ replace (3 * (d - 1)) with ((d - 1) + 2 * (d - 1)) by lia. rewrite pow_add. ring. }
    eapply Rle_trans; [|exact NF]. apply Req_le. rewrite frob_sqrt. f_equal. unfold frob2. rewrite lsum_RJ.
    rewrite (seq_cut (d - 1) d) by lia. rewrite map_app, rj_app. apply rj_ext. intros J1 H1. rewrite lsum_RJ. apply rj_ext. intros J2 H2.
    assert (EA : tt_entry z [] (J1 ++ J2) = mm rl (tL cs ranks) (tT x (d - 1) tens rl) J1 J2).
    { pose proof (vjdx_length _ _ H1) as L1. rewrite map_length, seq_length in L1.
      rewrite (entry_cut z [] (d - 1)) by auto. unfold mm. change (rk z (d - 1)) with rl. apply rsum_ext. intros b Hb. f_equal.
      - unfold tL, lvec, lv. apply vjdx_seq in H1 as [V1 _]. apply (chain_ext2 Rring (smodes sh)); auto.
        + rewrite (wf_first Wz). lia.
        + intros k a0 j b0 Hk _ _ _. unfold coreG, cG, core, z. cbn [cores app]. now rewrite app_nth1 by lia.
      - replace (d - (d - 1)) with 1 in H2 by lia. cbn [seq map] in H2. inversion H2 as [|? j ? ? Hj H3]; subst. inversion H3; subst.
        unfold rvec. rewrite rchain_cons. replace (S (d - 1)) with d by lia. change (rk z d) with (nth d ranks 0). rewrite Rd.
        change 1 with (S O) at 1. rewrite rsum_S. change (rsum 0 _) with 0%R. change (rchain _ _ d [] _ 0) with 1%R.
        inversion Hj as [|w ? ? ? Hw H4]; subst. inversion H4; subst. unfold coreG, core, z. cbn [cores app].
        rewrite <- Lc at 1. rewrite nth_middle. unfold tT. fold sh. rewrite Esk. cbn [List.concat app].
        pose proof (rview [] [] rl [n] 1 (data tens) b [w] 0 eq_refl eq_refl) as E. cbn [app] in E. unfold c.
        etransitivity; [apply Rplus_0_l|]. etransitivity; [apply Rmult_1_r|]. etransitivity; [exact E|]. rewrite !Nat.mul_1_r, Nat.add_0_r. reflexivity. }
    rewrite EA. reflexivity.
Qed.
End Whole.

Lemma cut_sum de (Hde : (0 <= de)%R) d (e c : nat -> R) (N : R) : (0 <= N)%R ->
  (forall k, 0 < k < d -> (0 <= e k)%R /\ (0 <= c k)%R /\ (sqrt (e k) <= sqrt (c k) + 2 * (((1 + de) ^ (2 * k - 1) - 1) * N))%R) ->
  (sqrt (rsum (d - 1) (fun y => e (S y))) + ((1 + de) ^ (3 * (d - 1)) - 1) * N <= sqrt (sum_cuts d c) + near_loss de d * N)%R.
Proof.
  intros NN HB. unfold near_loss. set (f := ((1 + de) ^ (2 * d - 3) - 1)%R).
  assert (Pf : (0 <= f)%R) by (unfold f; assert (1 <= (1 + de) ^ (2 * d - 3))%R by (apply pow_R1_Rle; lra); lra).
  assert (S1 : (sqrt (rsum (d - 1) (fun y => e (S y))) <= sqrt (sum_cuts d c) + 2 * sqrt (INR (d - 1)) * f * N)%R); [|lra].
  set (c1 := fun y => sqrt (c (S y))). set (c2 := fun y : nat => (2 * (f * N))%R).
  pose proof (nrm_tri (seq 0 (d - 1)) c1 c2) as NT.
  assert (E1 : nrm (seq 0 (d - 1)) c1 = sqrt (sum_cuts d c)).
  { unfold nrm, sum_cuts. f_equal. rewrite lsum_seq. apply rsum_ext. intros i Hi. apply sqrt_sqrt. now apply (HB (S i)); lia. }
  assert (E2 : nrm (seq 0 (d - 1)) c2 = (2 * sqrt (INR (d - 1)) * f * N)%R).
  { unfold nrm. rewrite lsum_seq. unfold c2. rewrite (rsum_ext (d - 1) _ (fun _ => (2 * (f * N) * (2 * (f * N))) * 1)%R) by (intros; ring).
    rewrite rsum_mul_l, rsum_1s. rewrite sqrt_mult_alt by (apply Rle_0_sqr). rewrite sqrt_square; [ring|]. nra. }
  rewrite E1, E2 in NT. eapply Rle_trans; [|exact NT]. unfold nrm. rewrite lsum_seq. apply sqrt_le_1_alt. apply rsum_le. intros i Hi.
  destruct (HB (S i) ltac:(lia)) as (B1 & _ & B2).
  assert (B3 : (sqrt (e (S i)) <= c1 i + c2 i)%R).
  { eapply Rle_trans; [exact B2|]. unfold c1, c2. apply Rplus_le_compat_l. apply Rmult_le_compat_l; [lra|]. apply Rmult_le_compat_r; [auto|].
    unfold f. assert ((1 + de) ^ (2 * S i - 1) <= (1 + de) ^ (2 * d - 3))%R by (apply Rle_pow; [lra|lia]). lra. }
  rewrite <- (sqrt_sqrt (e (S i))) by auto. pose proof (sqrt_pos (e (S i))). apply Rmult_le_compat; auto.
Qed.

Section Thms.
Variable de : R.
Hypothesis Hde : (0 <= de)%R.
Variable svd : rtensor -> rtensor * rtensor * rtensor.
Hypothesis Hsvd : svd_near de svd.
Variables (x : rtensor) (a : rank_arg) (eps : option R) (mr : list nat).
Hypothesis Wx : wft x.
Hypothesis Hd : 2 <= length (shape x).
Hypothesis Hpos : Forall (fun n => 0 < n) (shape x).
Hypothesis Hp : parse_ranks false a eps (length (shape x)) = Ok mr.
Let d := length (shape x).

Lemma dnorm_xN : dnorm x = xN x.
Proof.
  unfold dnorm, xN. f_equal. rewrite smodes_all. symmetry. unfold xA. rewrite (rj_sing (shape x) (fun I => get x I * get x I)%R). symmetry. apply (isum_unravel Rring).
Qed.

(** Any factorizations with few enough terms at every cut. *)
Lemma near_cuts (q : nat -> nat) P Z : (forall k, 0 < k < d -> q k <= nth k mr 0) ->
  exists z dz, to_tt_tensor svd x a eps = Ok z /\ wf z /\ rshape z = [shape x] /\ bsz z = None /\ full z = Ok dz /\
    (ddist x dz <= sqrt (sum_cuts d (fun k => xcut_dist x k (q k) (P k) (Z k))) + near_loss de d * dnorm x)%R.
Proof.
  intros Hq. destruct (to_tt_tensor_near de Hde svd Hsvd x a eps mr Wx Hd Hpos Hp) as (z & Ez & Wz & Rz & Bz & Dz & Kz & (e & HE & HB)).
  destruct (full_correct Rring z Wz) as (dz & Fz & _). exists z, dz. do 5 (split; [assumption|]).
  unfold ddist. rewrite (sq_dist_single x z dz (shape x)) by auto. rewrite smodes_all in HE. fold d in HE, HB, Hd. rewrite dnorm_xN.
  eapply Rle_trans; [exact HE|]. apply (cut_sum de Hde d e (fun k => xcut_dist x k (q k) (P k) (Z k)) (xN x)); [apply sqrt_pos|].
  intros k Hk. destruct (HB k Hk) as [B1 B2]. split; [exact B1|]. split; [|now apply B2, Hq].
  apply rj_nonneg; intros; apply rj_nonneg; intros; apply Rle_0_sqr.
Qed.

Lemma near_best (b : rtt) db : wf b -> rshape b = [shape x] -> bsz b = None -> full b = Ok db ->
  (forall k, 0 < k < d -> rk b k <= nth k mr 0) ->
  exists z dz, to_tt_tensor svd x a eps = Ok z /\ wf z /\ rshape z = [shape x] /\ bsz z = None /\ full z = Ok dz /\
    (ddist x dz <= sqrt (INR (d - 1)) * ddist x db + near_loss de d * dnorm x)%R.
Proof.
  intros Wb Rb Bb Fb Kb.
  destruct (near_cuts (rk b) (fun _ => lvec (coreG b []) (rk b)) (fun k => rvec (coreG b []) (rk b) k) Kb) as (z & dz & H1 & H2 & H3 & H4 & H5 & H6).
  exists z, dz. do 5 (split; [assumption|]). eapply Rle_trans; [exact H6|]. apply Rplus_le_compat_r, Req_le.
  unfold sum_cuts. etransitivity; [|unfold ddist; apply sqrt_mult_alt; apply pos_INR]. f_equal.
  rewrite (sq_dist_single x b db (shape x)) by auto.
  etransitivity; [apply (rsum_ext (d - 1) _ (fun _ => rj (map (fun n => [n]) (shape x)) (fun J => (xA x J - tt_entry b [] J) * (xA x J - tt_entry b [] J)) * 1)%R)|].
  - intros i Hi. rewrite (xcut_dist_best x b (S i)) by (auto; fold d; lia). ring.
  - rewrite rsum_mul_l, rsum_1s. apply Rmult_comm.
Qed.

Lemma near_bound (n : nat -> nat) U s V :
  (forall k, 0 < k < d -> unfolding_svd [shape x] (smodes (shape x)) d x [] k (n k) (U k) (s k) (V k)) ->
  exists z dz, to_tt_tensor svd x a eps = Ok z /\ wf z /\ rshape z = [shape x] /\ bsz z = None /\ full z = Ok dz /\
    (ddist x dz <= sqrt (sum_cuts d (fun k => discarded (n k) (nth k mr 0%nat) (s k))) + near_loss de d * dnorm x)%R.
Proof.
  intros HU. destruct (near_cuts (fun k => Nat.min (nth k mr 0) (n k)) (fun k J l => U k J l * s k l)%R V ltac:(intros; cbv beta; lia)) as (z & dz & H1 & H2 & H3 & H4 & H5 & H6).
  exists z, dz. do 5 (split; [assumption|]). eapply Rle_trans; [exact H6|]. apply Rplus_le_compat_r, Req_le. f_equal.
  apply rsum_ext. intros i Hi. rewrite <- discarded_min.
  change (discarded (n (S i)) (Nat.min (nth (S i) mr 0) (n (S i))) (s (S i))) with (tail (n (S i)) (Nat.min (nth (S i) mr 0) (n (S i))) (s (S i))).
  apply xcut_svd; [fold d; lia|apply HU; lia|lia].
Qed.

Lemma near_exact : (forall k, 0 < k < d -> exists q P Z, q <= nth k mr 0 /\ xcut_dist x k q P Z = 0%R) ->
  exists z dz, to_tt_tensor svd x a eps = Ok z /\ wf z /\ rshape z = [shape x] /\ bsz z = None /\ full z = Ok dz /\
    (ddist x dz <= near_loss de d * dnorm x)%R.
Proof.
  intros H.
  assert (C : exists q P Z, forall k, 0 < k < d -> q k <= nth k mr 0 /\ xcut_dist x k (q k) (P k) (Z k) = 0%R).
  { clear - H. revert H. generalize d at 1 2. intros D. induction D as [|D IH]; intros H; [exists (fun _ => 0), (fun _ _ _ => 0%R), (fun _ _ _ => 0%R); intros; lia|].
    destruct IH as (q & P & Z & E); [intros; apply H; lia|].
    destruct (Nat.eq_dec D 0) as [->|ND]; [exists q, P, Z; intros; lia|].
    destruct (H D ltac:(lia)) as (q0 & P0 & Z0 & E1 & E2).
    exists (fun k => if Nat.eqb k D then q0 else q k), (fun k => if Nat.eqb k D then P0 else P k), (fun k => if Nat.eqb k D then Z0 else Z k).
    intros k Hk. destruct (Nat.eqb_spec k D) as [->|]; auto. apply E. lia. }
  destruct C as (q & P & Z & E). destruct (near_cuts q P Z) as (z & dz & H1 & H2 & H3 & H4 & H5 & H6); [intros; now apply E|].
  exists z, dz. do 5 (split; [assumption|]). eapply Rle_trans; [exact H6|]. apply Req_le.
  assert (sum_cuts d (fun k => xcut_dist x k (q k) (P k) (Z k)) = 0%R) as ->; [|rewrite sqrt_0; ring].
  apply rsum_0. intros i Hi. apply E. lia.
Qed.
End Thms.
