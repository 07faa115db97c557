(** [approximate.reduce_sum_batch]. *)
From Coq Require Import String Ascii List Arith ZArith Lia Lra Bool Ring Reals.
From Verif Require Import Scalar Tensor TensorLemmas TensorLemmas2 Base Spec Chain BaseLemmas Ops
  FullProofs ResultLemmas Dense AddProofs AddFull MulProofs MatmulProofs DenseMatmul Sweep FlatProofs GatherProofs SliceProofs NormProofs OpsR BatchOps ScaleProofs
  Decomp DecompSpec GaugeProofs OrthProofs OrthNorm QRExists Trunc TruncChain RoundProofs SvdSpec RoundThms RankArgs Approx AddNProofs.
Import ListNotations.
Local Open Scope nat_scope.

Section WithK.
Variable K : cring.
Add Ring Kring : (cth K).

Lemma batch_construct (o : tt K) B r b : wf o -> bsz o = Some B -> r = None \/ r = Some (rks o) -> b = None \/ b = Some B ->
  TensorTrainBatch (cores o) (STuple (rshape o)) r b = Ok o.
Proof.
  intros Wv EB Hr Hb. pose proof (wf_shaped _ _ Wv) as HS.
  assert (Hne : rshape o <> []). { intros E. pose proof (wf_kind Wv) as [H|H]; rewrite E in H; discriminate. }
  assert (HC : clean_raw_shape (STuple (rshape o)) = Ok (Some (rshape o))) by (destruct (rshape o); [congruence|reflexivity]).
  unfold bpre in *. rewrite EB in *. unfold TensorTrainBatch. rewrite HC. cbn [bind].
  pose proof (cores_valid_ok K [B] (rshape o) (rks o) (cores o) (Some (rshape o)) r b) as HV.
  cbn [length] in HV. rewrite HV; try apply Wv; auto.
  - cbn [bind negb]. pose proof (infer_tt_ranks_ok K [B] (rshape o) (rks o) (cores o)) as HI. cbn [length] in HI.
    assert (E0 : (match b with Some b0 => Ok b0 | None => do c <- nthr (cores o) 0; nthr (shape c) 0 end) = Ok B).
    { destruct Hb as [-> | ->]; [|reflexivity]. pose proof (wf_d Wv) as Hd. rewrite (nthr_nth (cores o) 0 (core0 K)) by exact Hd. cbn [bind].
      destruct (wf_core Wv 0 Hd) as [_ S0]. unfold bpre in S0. rewrite EB in S0. unfold core in S0. change (core0 K) with (@Tensor K [] []). rewrite S0. reflexivity. }
    rewrite E0. cbn [bind]. destruct o as [cs rs ks bs]. cbn [cores rshape rks bsz] in *. subst bs. f_equal. f_equal.
    destruct Hr as [-> | ->]; [|reflexivity]. apply HI; auto; apply Wv.
  - destruct Hb as [-> | ->]; [now left|right; eauto].
Qed.

(** Slices of the first axis. *)
Lemma getitem_axis0 (c : tensor K) n s ix l : shape c = n :: s -> resolve1 ix n = Ok (l, true) ->
  exists r, getitem c (ix :: repeat full_slice (rank c - 1)) = Ok r /\ wft r /\ shape r = length l :: s /\
    forall o I, o < length l -> vidx s I -> get r (o :: I) = get c (nth o l 0 :: I).
Proof.
  intros Sc R.
  assert (E : resolve (ix :: repeat full_slice (rank c - 1)) (shape c) = Ok ((l, true) :: map (fun n => (seq 0 n, true)) s)).
  { unfold rank. rewrite Sc. cbn [resolve length]. rewrite R. cbn [bind]. rewrite Nat.sub_succ, Nat.sub_0_r. now rewrite resolve_fulls. }
  destruct (getitem_sel K c _ _ E) as (r & Er & Wr & Sr & Gr). cbn [sel_shape] in *. rewrite sel_shape_fulls in *.
  exists r. split; [exact Er|]. split; [exact Wr|]. split; [exact Sr|]. intros o I Ho HI.
  rewrite Gr by (apply vidx_cons; auto). cbn [sel_idx]. now rewrite sel_idx_fulls.
Qed.

Lemma evens n : resolve1 (ISlice None None (Some 2%Z)) n = Ok (map (fun k => 2 * k) (seq 0 ((n + 1) / 2)), true).
Proof.
  cbn [resolve1]. unfold slice_positions. cbn [Z.eqb Z.ltb Z.compare]. do 2 f_equal.
  replace (Z.to_nat (Z.max 0 ((Z.of_nat n - 0 + 2 - 1) / 2))) with ((n + 1) / 2).
  - apply map_ext. intros k. lia.
  - assert (E : ((Z.of_nat n - 0 + 2 - 1) / 2 = Z.of_nat ((n + 1) / 2))%Z).
    { rewrite Nat2Z.inj_div. f_equal. lia. }
    rewrite E. lia.
Qed.

Lemma odds n : 1 <= n -> resolve1 (ISlice (Some 1%Z) None (Some 2%Z)) n = Ok (map (fun k => 2 * k + 1) (seq 0 (n / 2)), true).
Proof.
  intros Hn. cbn [resolve1]. unfold slice_positions. cbn [Z.eqb Z.ltb Z.compare]. do 2 f_equal. unfold clampZ.
  replace (Z.max 0 (Z.min (Z.of_nat n) 1)) with 1%Z by lia.
  replace (Z.to_nat (Z.max 0 ((Z.of_nat n - 1 + 2 - 1) / 2))) with (n / 2).
  - apply map_ext. intros k. lia.
  - assert (E : ((Z.of_nat n - 1 + 2 - 1) / 2 = Z.of_nat (n / 2))%Z).
    { rewrite Nat2Z.inj_div. f_equal. lia. }
    rewrite E. lia.
Qed.

Lemma half_cases n : (exists m, n = 2 * m /\ (n + 1) / 2 = m /\ n / 2 = m) \/ (exists m, n = 2 * m + 1 /\ (n + 1) / 2 = S m /\ n / 2 = m).
Proof.
  destruct (Nat.Even_or_Odd n) as [[m E]|[m E]].
  - left. exists m. split; [exact E|]. split.
    + symmetry. apply (Nat.div_unique (n + 1) 2 m 1); lia.
    + symmetry. apply (Nat.div_unique n 2 m 0); lia.
  - right. exists m. split; [exact E|]. split.
    + symmetry. apply (Nat.div_unique (n + 1) 2 (S m) 0); lia.
    + symmetry. apply (Nat.div_unique n 2 m 1); lia.
Qed.

Lemma half_bounds n o : o < (n + 1) / 2 -> 2 * o < n.
Proof. destruct (half_cases n) as [(m & E & H & _)|(m & E & H & _)]; rewrite H; lia. Qed.

Lemma sumn_pairs n (f : nat -> K) :
  sumn ((n + 1) / 2) (fun o => f (2 * o)%nat + (if Nat.ltb (2 * o + 1)%nat n then f (2 * o + 1)%nat else c0))%K = sumn n f.
Proof.
  assert (E2 : forall m, sumn m (fun o => f (2 * o)%nat + f (2 * o + 1)%nat)%K = sumn (2 * m) f).
  { induction m; [reflexivity|]. cbn [sumn]. rewrite IHm. replace (2 * S m) with (S (S (2 * m))) by lia. cbn [sumn].
    replace (2 * m + 1) with (S (2 * m)) by lia. ring. }
  destruct (half_cases n) as [(m & E & H & _)|(m & E & H & _)]; rewrite H.
  - rewrite E, <- E2. apply sumn_ext. intros o Ho. assert (X : Nat.ltb (2 * o + 1) (2 * m) = true) by (apply Nat.ltb_lt; lia). now rewrite X.
  - rewrite E. rewrite Nat.add_1_r. cbn [sumn]. assert (X : Nat.ltb (2 * m + 1) (S (2 * m)) = false) by (apply Nat.ltb_ge; lia).
    rewrite X. rewrite <- E2. rewrite (sumn_ext K m _ (fun o => f (2 * o)%nat + f (2 * o + 1)%nat)%K); [ring|].
    intros o Ho. assert (Y : Nat.ltb (2 * o + 1) (S (2 * m)) = true) by (apply Nat.ltb_lt; lia). now rewrite Y.
Qed.

(** Broadcasting over trailing axes of size one. *)
Lemma bcast_rev_same x : bcast_rev x x = Some x.
Proof. induction x; cbn; auto. now rewrite IHx, Nat.eqb_refl. Qed.

Lemma bcast_tails (p s : list nat) : bcast (p ++ s) (p ++ repeat 1 (length s)) = Some (p ++ s).
Proof.
  unfold bcast. rewrite !rev_app_distr, rev_repeat, <- (rev_length s).
  destruct (bcast_rev_ones (length (rev s)) (rev s) (rev p) (rev p) (rev p) eq_refl (bcast_rev_same _)) as [[H1 H2]|H].
  - rewrite H2. now rewrite rev_app_distr, !rev_involutive.
  - exfalso. apply H. apply bcast_rev_same.
Qed.

Lemma bidx_tail (p s i I : list nat) : vidx p i -> length I = length s -> bidx (p ++ repeat 1 (length s)) (i ++ I) = i ++ repeat 0 (length s).
Proof.
  intros Hi HI. unfold bidx. rewrite !app_length, repeat_length, HI, (vidx_length _ _ Hi), Nat.sub_diag. cbn [skipn].
  induction Hi as [|x n i p Hx Hi IH]; cbn [app map2].
  - rewrite <- HI. clear. induction I; cbn; auto. now f_equal.
  - rewrite IH. f_equal. destruct (Nat.eqb_spec n 1); lia.
Qed.

Lemma ewise_tails (F : K -> K -> K) (w x : tensor K) p s : shape w = p ++ repeat 1 (length s) -> shape x = p ++ s ->
  exists r, ewise F x w = Ok r /\ wft r /\ shape r = p ++ s /\
    forall i I, vidx p i -> vidx s I -> get r (i ++ I) = F (get x (i ++ I)) (get w (i ++ repeat 0 (length s))).
Proof.
  intros Sw Sx. unfold ewise. rewrite Sw, Sx, bcast_tails. eexists. split; [reflexivity|]. split; [apply wft_mk|]. split; [reflexivity|].
  intros i I Hi HI. rewrite get_mk by now apply vidx_app. rewrite bidx_self by now apply vidx_app.
  now rewrite bidx_tail by (auto; now apply vidx_length).
Qed.

Lemma ravel_ones_tail p n i : length i = length p -> ravel (p ++ repeat 1 n) (i ++ repeat 0 n) = ravel p i.
Proof. intros H. rewrite ravel_app by auto. rewrite prodn_ones, ravel_zeros1. lia. Qed.

Lemma mul_lt_lt a b n N : a < n -> b < N -> a * N + b < n * N.
Proof. nia. Qed.
End WithK.

Local Notation get := (@get Rring).
Local Notation Rt := rtensor.

(** Splitting and merging the batch axis. *)
Lemma get_split (x : Rt) h N s o j I : shape x = h * N :: s -> get (Tensor (h :: N :: s) (data x)) (o :: j :: I) = get x (o * N + j :: I).
Proof.
  intros S. apply (get_reshaped Rring). reflexivity. rewrite S. cbn [ravel]. rewrite prodn_cons. ring.
Qed.

(** *** even_odd *)
Lemma eo_slices (x : Rt) h s : wft x -> shape x = h :: s -> 1 <= h ->
  exists a b b', getitem x (ISlice None None (Some 2%Z) :: repeat full_slice (rank x - 1)) = Ok a /\
    getitem x (ISlice (Some 1%Z) None (Some 2%Z) :: repeat full_slice (rank x - 1)) = Ok b /\
    (if Nat.ltb (nth 0 (shape b) 0) (nth 0 (shape a) 0) then concat [b; zeros (upd 0 1 (shape b))] 0 else Ok b) = Ok b' /\
    wft a /\ wft b' /\ shape a = (h + 1) / 2 :: s /\ shape b' = (h + 1) / 2 :: s /\
    forall o I, o < (h + 1) / 2 -> vidx s I ->
      get a (o :: I) = get x (2 * o :: I) /\ get b' (o :: I) = if Nat.ltb (2 * o + 1) h then get x (2 * o + 1 :: I) else 0%R.
Proof.
  intros Wx Sx Hh.
  destruct (getitem_axis0 Rring x h s _ _ Sx (evens h)) as (a & Ea & Wa & Sa & Ga).
  destruct (getitem_axis0 Rring x h s _ _ Sx (odds h Hh)) as (b & Eb & Wb & Sb & Gb).
  rewrite map_length, seq_length in *.
  assert (GA : forall o I, o < (h + 1) / 2 -> vidx s I -> get a (o :: I) = get x (2 * o :: I)).
  { intros o I Ho HI. rewrite Ga by auto. rewrite (nth_map_default _ _ o 0) by (rewrite seq_length; lia). now rewrite seq_nth. }
  assert (GB : forall o I, o < h / 2 -> vidx s I -> get b (o :: I) = get x (2 * o + 1 :: I)).
  { intros o I Ho HI. rewrite Gb by auto. rewrite (nth_map_default _ _ o 0) by (rewrite seq_length; lia). now rewrite seq_nth. }
  destruct (half_cases h) as [(m & E & H1 & H2)|(m & E & H1 & H2)]; rewrite ?H1, ?H2 in *.
  - exists a, b, b. rewrite Sa, Sb. cbn [nth]. rewrite Nat.ltb_irrefl. do 7 (split; [assumption || reflexivity|]).
    intros o I Ho HI. split; [now apply GA|]. assert (X : Nat.ltb (2 * o + 1) h = true) by (apply Nat.ltb_lt; lia). rewrite X. now apply GB.
  - destruct (concat2_ok Rring b (zeros (1 :: s)) 0) as (b' & Eb' & Wb' & Sb' & Gb').
    + unfold rank. rewrite Sb. cbn. lia.
    + rewrite Sb. reflexivity.
    + exists a, b, b'. rewrite Sa, Sb. cbn [nth upd]. assert (X : Nat.ltb m (S m) = true) by (apply Nat.ltb_lt; lia). rewrite X.
      rewrite Sb in Sb'. cbn [nth upd shape zeros mk] in Sb'. rewrite Nat.add_1_r in Sb'.
      do 7 (split; [assumption || reflexivity|]). intros o I Ho HI. split; [now apply GA|].
      rewrite Gb' by (rewrite Sb'; apply vidx_cons; auto). rewrite Sb. cbn [nth upd].
      destruct (Nat.ltb_spec o m) as [Hm|Hm].
      * assert (Y : Nat.ltb (2 * o + 1) h = true) by (apply Nat.ltb_lt; lia). rewrite Y. now apply GB.
      * assert (Y : Nat.ltb (2 * o + 1) h = false) by (apply Nat.ltb_ge; lia). rewrite Y. apply (get_zeros Rring). apply vidx_cons; auto. lia.
Qed.

(** [nout = Some N]: sums over [h] for each of the [N] columns; [None]: one sum, [N = 1]. *)
Definition nout_ok (nout : option nat) (N : nat) : Prop := match nout with Some n => n = N /\ 0 < N | None => N = 1 end.

Lemma even_odd_ok nout N h s (c : Rt) : nout_ok nout N -> wft c -> shape c = h * N :: s -> 1 <= h ->
  exists a b, even_odd nout c = Ok (a, b) /\ wft a /\ wft b /\ shape a = (h + 1) / 2 * N :: s /\ shape b = (h + 1) / 2 * N :: s /\
    forall o j I, o < (h + 1) / 2 -> j < N -> vidx s I ->
      get a (o * N + j :: I) = get c (2 * o * N + j :: I) /\
      get b (o * N + j :: I) = if Nat.ltb (2 * o + 1) h then get c ((2 * o + 1) * N + j :: I) else 0%R.
Proof.
  intros Hn Wc Sc Hh. unfold even_odd. destruct nout as [n|]; cbn [nout_ok] in Hn.
  - destruct Hn as [-> HN]. rewrite Sc. rewrite Nat.div_mul by lia.
    rewrite reshape_exact by (unfold size; rewrite Sc; pns; lia). cbn [bind].
    set (x := Tensor (K := Rring) (h :: N :: s) (data c)).
    assert (Wx : wft x). { unfold x. apply (wft_reshaped Rring); auto. rewrite Sc. pns. lia. }
    destruct (eo_slices x h (N :: s) Wx eq_refl Hh) as (a & b & b' & E1 & E2 & E3 & Wa & Wb & Sa & Sb & G).
    rewrite E1. cbn [bind]. rewrite E2. cbn [bind]. rewrite E3. cbn [bind]. unfold merge2. rewrite Sa.
    rewrite reshape_exact by (unfold size; rewrite Sa; pns; lia). cbn [bind]. rewrite Sb.
    rewrite reshape_exact by (unfold size; rewrite Sb; pns; lia). cbn [bind]. eexists _, _. split; [reflexivity|].
    split; [apply (wft_reshaped Rring); auto; rewrite Sa; pns; lia|].
    split; [apply (wft_reshaped Rring); auto; rewrite Sb; pns; lia|]. do 2 (split; [reflexivity|]).
    assert (GM : forall (y : Rt) o j I, shape y = (h + 1) / 2 :: N :: s ->
       get (Tensor (K := Rring) ((h + 1) / 2 * N :: s) (data y)) (o * N + j :: I) = get y (o :: j :: I)).
    { intros y o j I Sy. apply (get_reshaped Rring); [reflexivity|]. rewrite Sy. cbn [ravel]. rewrite prodn_cons. ring. }
    intros o j I Ho Hj HI. rewrite !GM by auto. destruct (G o (j :: I) Ho ltac:(apply vidx_cons; auto)) as [G1 G2]. rewrite G1, G2.
    unfold x. rewrite !(get_split c h N s) by auto. split; reflexivity.
  - subst N. cbn [bind]. rewrite Nat.mul_1_r in Sc.
    destruct (eo_slices c h s Wc Sc Hh) as (a & b & b' & E1 & E2 & E3 & Wa & Wb & Sa & Sb & G).
    rewrite E1. cbn [bind]. rewrite E2. cbn [bind]. rewrite E3. cbn [bind]. exists a, b'. split; [reflexivity|].
    rewrite Nat.mul_1_r. do 4 (split; [assumption|]). intros o j I Ho Hj HI. destruct (G o I Ho HI) as [G1 G2].
    rewrite !Nat.mul_1_r. replace j with 0 by lia. rewrite !Nat.add_0_r. now split.
Qed.

Lemma chain_zero r k J v a : J <> [] -> chain (K := Rring) (fun _ _ _ _ => 0%R : Rring) r k J v a = 0%R.
Proof.
  destruct J as [|j J]; [congruence|]. intros _. cbn [chain]. apply (sumn_zero Rring). intros. apply Rmult_0_l.
Qed.

Lemma sum_level_ok nout N h (t : rtt) : nout_ok nout N -> wf t -> 2 <= ndims t -> bsz t = Some (h * N) -> 1 <= h ->
  exists s, sum_level nout t = Ok s /\ wf s /\ rshape s = rshape t /\ bsz s = Some ((h + 1) / 2 * N) /\ ndims s = ndims t /\
    forall o j J, o < (h + 1) / 2 -> j < N -> vchain (modes t) 0 J -> length J = ndims t ->
      tt_entry s [o * N + j] J = (tt_entry t [2 * o * N + j]%nat J + (if Nat.ltb (2 * o + 1) h then tt_entry t [(2 * o + 1) * N + j]%nat J else 0))%R.
Proof.
  intros Hn Hw Hd HB Hh. set (H := (h + 1) / 2) in *.
  assert (HN : 0 < N) by (destruct nout; cbn in Hn; lia).
  assert (HH : 0 < H). { unfold H. destruct (half_cases h) as [(m & E & E1 & _)|(m & E & E1 & _)]; rewrite E1; lia. }
  set (Ga := fun (p : list nat) => coreG t [2 * (nth 0 p 0 / N) * N + nth 0 p 0 mod N]).
  set (Gb := fun (p : list nat) i x j y => if Nat.ltb (2 * (nth 0 p 0 / N) + 1) h
     then coreG t [(2 * (nth 0 p 0 / N) + 1) * N + nth 0 p 0 mod N] i x j y else 0%R : Rring).
  assert (Sc : forall i, i < ndims t -> shape (core t i) = h * N :: (rk t i :: modes t i ++ [rk t (S i)])).
  { intros i Hi. pose proof (core_shape _ t i Hw Hi) as S. unfold bpre in S. now rewrite HB in S. }
  assert (HEO : forall i, i < ndims t -> exists a b, even_odd nout (core t i) = Ok (a, b) /\ wft a /\ wft b /\
     shape a = [H * N] ++ rk t i :: modes t i ++ [rk t (S i)] /\ shape b = [H * N] ++ rk t i :: modes t i ++ [rk t (S i)] /\
     forall p x j y, vidx [H * N] p -> x < rk t i -> vidx (modes t i) j -> y < rk t (S i) ->
       get a (p ++ x :: j ++ [y]) = Ga p i x j y /\ get b (p ++ x :: j ++ [y]) = Gb p i x j y).
  { intros i Hi. destruct (even_odd_ok nout N h _ (core t i) Hn (core_wft _ t i Hw Hi) (Sc i Hi) Hh) as (a & b & E & Wa & Wb & Sa & Sb & G).
    exists a, b. split; [exact E|]. split; [exact Wa|]. split; [exact Wb|]. split; [exact Sa|]. split; [exact Sb|].
    intros p x j y Hp Hx Hj Hy. apply vidx_1_inv in Hp as (q & -> & Hq). cbn [app nth]. unfold Ga, Gb, coreG. cbn [nth app].
    pose proof (Nat.div_mod q N ltac:(lia)) as Eq. assert (Ho : q / N < H) by (apply Nat.div_lt_upper_bound; lia).
    pose proof (Nat.mod_upper_bound q N ltac:(lia)) as Hr.
    assert (HI : vidx (rk t i :: modes t i ++ [rk t (S i)]) (x :: j ++ [y])) by (apply vidx_cons; auto; apply vidx_app; auto; vsolve).
    specialize (G (q / N) (q mod N) (x :: j ++ [y]) Ho Hr HI). replace (q / N * N + q mod N) with q in G by lia. exact G. }
  set (f := fun i => do (a, b) <- even_odd nout (core t i);
      if Nat.eqb i 0 then concat [a; b] (if is_tt_matrix t then 4 else 3)
      else if Nat.eqb i (ndims t - 1) then concat [a; b] 1
      else
        let z := zeros (shape b) in
        do upper <- concat [a; z] (if is_tt_matrix t then 4 else 3);
        do lower <- concat [z; b] (if is_tt_matrix t then 4 else 3);
        concat [upper; lower] 1).
  destruct (add_assemble Rring t t (Some (H * N)) Ga Gb f
     (fun i => do (a, b) <- even_odd nout (core t i); Ok a) (fun i => do (a, b) <- even_odd nout (core t i); Ok b)) as (cs & Ecs & Hcon & Wc & Nc & Ent); auto.
  - cbn [pre_of]. constructor; [nia|constructor].
  - intros i Hi. destruct (HEO i Hi) as (a & b & E & Wa & Wb & Sa & Sb & G). exists a. rewrite E. split; [reflexivity|]. split; [exact Wa|]. split; [exact Sa|].
    intros. now apply G.
  - intros i Hi. destruct (HEO i Hi) as (a & b & E & Wa & Wb & Sa & Sb & G). exists b. rewrite E. split; [reflexivity|]. split; [exact Wb|]. split; [exact Sb|].
    intros. now apply G.
  - intros i Hi. destruct (HEO i Hi) as (a & b & E & Wa & Wb & Sa & Sb & G). unfold f. rewrite E. cbn [bind]. unfold add_core. cbn [pre_of length Nat.add].
    rewrite Sb. cbn [app]. destruct (wf_kind_cases _ t Hw) as [(Em & Hl & _)|(Em & Hl & _)]; rewrite Em, Hl; reflexivity.
  - set (c := TT cs (rshape t) (add_ranks Rring t t) (Some (H * N))) in *. exists c.
    split. { unfold sum_level. fold f. rewrite Ecs. cbn [bind]. apply (batch_construct Rring c (H * N)); auto. }
    split; [exact Wc|]. split; [reflexivity|]. split; [reflexivity|]. split; [exact Nc|].
    intros o j J Ho Hj HJ LJ. rewrite Ent; auto.
    2:{ cbn [pre_of]. apply vidx_cons; [|constructor]. now apply mul_lt_lt. }
    assert (E1 : (o * N + j) / N = o) by (rewrite Nat.div_add_l by lia; rewrite Nat.div_small by auto; lia).
    assert (E2 : (o * N + j) mod N = j) by (rewrite Nat.add_comm, Nat.mod_add by lia; now apply Nat.mod_small).
    unfold Ga, Gb. cbn [nth]. rewrite E1, E2. unfold tt_entry. cbn [cadd Rring]. f_equal.
    destruct (Nat.ltb (2 * o + 1) h); [reflexivity|]. apply chain_zero. destruct J; [cbn in LJ; lia|discriminate].
Qed.

Section Loop.
Variable qr : rtensor -> rtensor * rtensor.
Variable svd : rtensor -> rtensor * rtensor * rtensor.
Hypothesis Hqr : qr_ok qr.
Hypothesis Hsvd : svd_ok svd.

(** The entries of the level are sums of entries of the original batch [t0] of [h0] rows, each a
    sum of at most [q k] products at cut [k] per row. *)
Variable rs : list (list nat).
Variable d : nat.
Variable nout : option nat.
Variable N : nat.
Variable a : rank_arg.
Variable mr : list nat.
Hypothesis Hd : 2 <= d.
Hypothesis Hn : nout_ok nout N.
Hypothesis Hp : parse_ranks true a None d = Ok mr.

Lemma sum_levels_ok fuel : forall h (t : rtt) (w : nat -> nat) (q : nat -> nat), h <= fuel -> 1 <= h -> wf t -> ndims t = d -> bsz t = Some (h * N) ->
  (forall k, 0 < k < d -> fold_right Nat.add 0 (map w (seq 0 h)) * q k <= nth k mr 0) ->
  (forall o j k, o < h -> j < N -> 0 < k < d -> cutrank (modes t) d (tt_entry t [o * N + j]) k (w o * q k)) ->
  exists z, sum_levels qr svd fuel nout a t = Ok z /\ wf z /\ rshape z = rshape t /\ ndims z = d /\ bsz z = Some N /\
    forall j J, j < N -> vchain (modes t) 0 J -> length J = d -> tt_entry z [j] J = sumn (K := Rring) h (fun o => tt_entry t [o * N + j] J).
Proof.
  assert (HN : 0 < N) by (destruct nout; cbn in Hn; lia).
  assert (EN : (match nout with Some n => n | None => 1 end) = N) by (destruct nout; cbn in Hn; lia).
  induction fuel as [|f IH]; intros h t w q Hf Hh Hw Dt Bt Hq Hc; [lia|].
  cbn [sum_levels]. rewrite Bt, EN. destruct (Nat.ltb_spec N (h * N)) as [Hlt|Hlt].
  2:{ assert (h = 1) by nia. subst h. rewrite Nat.mul_1_l in *. exists t. do 5 (split; [assumption || reflexivity|]).
      intros j J Hj HJ LJ. cbn [sumn]. rewrite Nat.mul_0_l, Nat.add_0_l. cbn [cadd c0 Rring]. lra. }
  assert (H2 : 2 <= h) by nia. set (H := (h + 1) / 2).
  assert (HH : H < h /\ 1 <= H). { unfold H. destruct (half_cases h) as [(m & E & E1 & _)|(m & E & E1 & _)]; rewrite E1; lia. }
  destruct (sum_level_ok nout N h t Hn Hw ltac:(lia) Bt Hh) as (s & Es & Ws & Rs & Bs & Ds & Ent). fold H in Bs, Ent.
  rewrite Es. cbn [bind].
  set (w' := fun o => w (2 * o) + if Nat.ltb (2 * o + 1) h then w (2 * o + 1) else 0).
  assert (Ew : fold_right Nat.add 0 (map w' (seq 0 H)) = fold_right Nat.add 0 (map w (seq 0 h))).
  { assert (G : forall (g : nat -> nat) n, Z.of_nat (fold_right Nat.add 0 (map g (seq 0 n))) = sumn (K := Zring) n (fun i => Z.of_nat (g i))).
    { intros g n. induction n; [reflexivity|]. rewrite seq_S, map_app, fold_right_app. cbn [sumn map fold_right Nat.add]. rewrite <- IHn.
      assert (X : forall l x, fold_right Nat.add x l = fold_right Nat.add 0 l + x) by (clear; induction l; cbn; intros; [lia|rewrite IHl; lia]).
      rewrite X, Nat.add_0_r. cbn [cadd Zring]. lia. }
    apply Nat2Z.inj. rewrite !G. rewrite <- (sumn_pairs Zring h). apply (sumn_ext Zring). intros o Ho. unfold w'.
    destruct (Nat.ltb (2 * o + 1) h); cbn [cadd c0 Zring]; lia. }
  assert (Ms : forall m, modes s m = modes t m) by (intros; now apply modes_ext).
  assert (Hc' : forall o j k, o < H -> j < N -> 0 < k < d -> cutrank (modes s) d (tt_entry s [o * N + j]) k (w' o * q k)).
  { intros o j k Ho Hj Hk. apply (cutrank_modes t s); [now symmetry|].
    pose proof (half_bounds h o Ho) as H2o.
    apply (cutrank_ext _ _ _ (fun J => tt_entry t [2 * o * N + j]%nat J + (if Nat.ltb (2 * o + 1) h then tt_entry t [(2 * o + 1) * N + j]%nat J else 0))%R); [lia| |].
    { intros J HJ. apply vjdx_seq in HJ as [HJ LJ]. apply Ent; auto. lia. }
    unfold w'. destruct (Nat.ltb_spec (2 * o + 1) h) as [L|L].
    - rewrite (Nat.mul_add_distr_r (w (2 * o))). apply cutrank_add; now apply Hc.
    - rewrite Nat.add_0_r. apply (cutrank_ext _ _ _ (tt_entry t [2 * o * N + j])); [lia| |now apply Hc]. intros. apply Rplus_0_r. }
  assert (Hle : forall (g : nat -> nat) n o, o < n -> g o <= fold_right Nat.add 0 (map g (seq 0 n))).
  { clear. intros g n o Ho. assert (Hin : In o (seq 0 n)) by (apply in_seq; lia). revert Hin. generalize (seq 0 n). induction l as [|x l IH]; cbn; [tauto|].
    intros [->|Hin]; [lia|]. specialize (IH Hin). lia. }
  destruct (round_low qr svd Hqr Hsvd s a None mr Ws) as (z & Ez & Wz & Rz & Bz & Dz & Kz & Entz).
  - unfold is_batch. rewrite Bs, Ds, Dt. exact Hp.
  - intros p k Vp Hk. rewrite Ds, Dt in Hk. unfold bpre in Vp. rewrite Bs in Vp. apply vidx_1_inv in Vp as (i & -> & Hi).
    pose proof (Nat.div_mod i N ltac:(lia)) as Eq. assert (Ho : i / N < H) by (apply Nat.div_lt_upper_bound; lia).
    pose proof (Nat.mod_upper_bound i N ltac:(lia)) as Hr.
    exists (w' (i / N) * q k). split.
    + etransitivity; [|apply (Hq k Hk)]. apply Nat.mul_le_mono_r. rewrite <- Ew. now apply Hle.
    + rewrite Ds, Dt. specialize (Hc' (i / N) (i mod N) k Ho Hr Hk). now replace (i / N * N + i mod N) with i in Hc' by lia.
  - rewrite Ez. cbn [bind].
    assert (Ezs : forall o j J, o < H -> j < N -> vchain (modes t) 0 J -> length J = d -> tt_entry z [o * N + j] J = tt_entry s [o * N + j] J).
    { intros o j J Ho Hj HJ LJ. apply Entz; [|eapply vchain_ext; [|exact HJ]; auto|lia]. unfold bpre. rewrite Bs. apply vidx_cons; [now apply mul_lt_lt|constructor]. }
    destruct (IH H z w' q ltac:(lia) ltac:(lia) Wz ltac:(lia) ltac:(congruence)) as (y & Ey & Wy & Ry & Dy & By & Enty).
    + intros k Hk. rewrite Ew. now apply Hq.
    + intros o j k Ho Hj Hk. apply (cutrank_modes s z); [now symmetry|].
      apply (cutrank_ext _ _ _ (tt_entry s [o * N + j])); [lia| |now apply Hc'].
      intros J HJ. apply vjdx_seq in HJ as [HJ LJ]. apply Ezs; auto. eapply vchain_ext; [|exact HJ]; auto.
    + exists y. split; [exact Ey|]. split; [exact Wy|]. split; [congruence|]. split; [exact Dy|]. split; [exact By|].
      intros j J Hj HJ LJ. rewrite Enty; auto; [|eapply vchain_ext; [|exact HJ]; intros; apply modes_ext; congruence].
      rewrite <- (sumn_pairs Rring h). apply (sumn_ext Rring). intros o Ho. rewrite Ezs, Ent by (auto; lia). reflexivity.
Qed.
End Loop.

(** *** spread *)
Lemma spread_core_ok (w c : Rt) b N i s : wft c -> shape c = b :: s -> wft w -> shape w = [b; N] -> 0 < N ->
  exists r, spread_core w N i c = Ok r /\ wft r /\ shape r = b * N :: s /\
    forall o j I, o < b -> j < N -> vidx s I -> get r (o * N + j :: I) = ((if Nat.eqb i 0 then get w [o; j] else 1) * get c (o :: I))%R.
Proof.
  intros Wc Sc Ww Sw HN. unfold spread_core. rewrite Sc.
  rewrite reshape_exact by (unfold size; rewrite Sc; pns; lia). cbn [bind].
  unfold tile at 1, rank. cbn [shape length]. rewrite repeat_length, Nat.eqb_refl. cbn [bind].
  assert (E : map2 Nat.mul (b :: 1 :: s) (1 :: N :: repeat 1 (length s)) = b :: N :: s).
  { cbn [map2]. rewrite Nat.mul_1_r, Nat.mul_1_l. do 2 f_equal. clear. induction s; cbn; auto. rewrite Nat.mul_1_r. now f_equal. }
  rewrite E. set (x := mk _ _). assert (Wx : wft x) by apply (wft_mk Rring).
  assert (Gx : forall o j I, o < b -> j < N -> vidx s I -> get x (o :: j :: I) = get c (o :: I)).
  { intros o j I Ho Hj HI. unfold x. rewrite (get_mk Rring) by (do 2 (apply vidx_cons; auto)). apply (get_reshaped Rring); [reflexivity|].
    rewrite Sc. cbn [map2 ravel]. rewrite Nat.mod_1_r, (Nat.mod_small o b) by auto.
    assert (X : map2 Nat.modulo I s = I). { clear - HI. induction HI; cbn; auto. rewrite Nat.mod_small by auto. now f_equal. }
    rewrite X. pns. lia. }
  assert (HX : exists y, (if Nat.eqb i 0 then ewise (K := Rring) Rmult x (expand_to w (length (shape x))) else Ok x) = Ok y /\ wft y /\ shape y = b :: N :: s /\
    forall o j I, o < b -> j < N -> vidx s I -> get y (o :: j :: I) = ((if Nat.eqb i 0 then get w [o; j] else 1) * get c (o :: I))%R).
  { destruct (Nat.eqb i 0).
    - assert (Se : shape (expand_to w (length (shape x))) = [b; N] ++ repeat 1 (length s)).
      { unfold expand_to, rank. cbn [shape]. rewrite Sw. unfold x. rewrite shape_mk. cbn [length Nat.sub]. now rewrite Nat.sub_0_r. }
      destruct (ewise_tails Rring Rmult (expand_to w (length (shape x))) x [b; N] s Se eq_refl) as (y & Ey & Wy & Sy & Gy).
      exists y. split; [exact Ey|]. split; [exact Wy|]. split; [exact Sy|]. intros o j I Ho Hj HI.
      specialize (Gy [o; j] I ltac:(vsolve) HI). cbn [app] in Gy. rewrite Gy, Gx by auto. rewrite Rmult_comm. f_equal.
      assert (Ex : expand_to w (length (shape x)) = Tensor (K := Rring) ([b; N] ++ repeat 1 (length s)) (data w)) by (rewrite <- Se; reflexivity).
      rewrite Ex. apply (get_reshaped Rring); [reflexivity|]. rewrite Sw.
      change (o :: j :: repeat 0 (length s)) with ([o; j] ++ repeat 0 (length s)). now apply ravel_ones_tail.
    - exists x. split; [reflexivity|]. split; [exact Wx|]. split; [reflexivity|]. intros. rewrite Gx by auto. lra. }
  destruct HX as (y & Ey & Wy & Sy & Gy). unfold rank. rewrite Ey. cbn [bind].
  rewrite reshape_exact by (unfold size; rewrite Sy; pns; lia). eexists. split; [reflexivity|].
  split; [apply (wft_reshaped Rring); auto; rewrite Sy; pns; lia|]. split; [reflexivity|].
  intros o j I Ho Hj HI. rewrite <- Gy by auto. apply (get_reshaped Rring); [reflexivity|]. rewrite Sy. cbn [ravel]. rewrite prodn_cons. ring.
Qed.

Lemma spread_ok (t : rtt) (w : Rt) b N : wf t -> bsz t = Some b -> wft w -> shape w = [b; N] -> 0 < N ->
  exists c, spread t w N = Ok c /\ wf c /\ rshape c = rshape t /\ rks c = rks t /\ bsz c = Some (b * N) /\ ndims c = ndims t /\
    forall o j J, o < b -> j < N -> vchain (modes t) 0 J -> length J = ndims t -> tt_entry c [o * N + j] J = (get w [o; j] * tt_entry t [o] J)%R.
Proof.
  intros Hw HB Ww Sw HN.
  assert (Hb : 0 < b). { pose proof (wf_bpos Hw) as P. unfold bpre in P. rewrite HB in P. inversion P; auto. }
  destruct (build_ok Rring (fun i => spread_core w N i (core t i))
    (fun i c => forall o j a I b', o < b -> j < N -> a < rk t i -> vidx (modes t i) I -> b' < rk t (S i) ->
      get c (o * N + j :: a :: I ++ [b']) = ((if Nat.eqb i 0 then get w [o; j] else 1) * coreG t [o] i a I b')%R)
    (ndims t) (Some (b * N)) (rshape t) (rks t)) as (cs & Hcs & Hl & Hcon & Hwc & HG); try apply Hw.
  - cbn [pre_of]. constructor; [nia|constructor].
  - intros i Hi. pose proof (core_shape _ t i Hw Hi) as Hs. unfold bpre in Hs. rewrite HB in Hs. cbn [app] in Hs.
    destruct (spread_core_ok w (core t i) b N i _ (core_wft _ t i Hw Hi) Hs Ww Sw HN) as (r & Er & Wr & Sr & Gr).
    exists r. split; [exact Er|]. split; [exact Wr|]. split; [exact Sr|]. intros o j x I y Ho Hj Hx HI Hy.
    apply Gr; auto. apply vidx_cons; auto. apply vidx_app; auto. vsolve.
  - set (c := TT cs (rshape t) (rks t) (Some (b * N))) in *. exists c.
    split. { unfold spread. rewrite Hcs. cbn [bind]. apply (batch_construct Rring c (b * N)); auto. }
    split; [exact Hwc|]. do 3 (split; [reflexivity|]). split; [exact Hl|]. intros o j J Ho Hj HJ LJ.
    transitivity (prodK (K := Rring) (map (fun k => if Nat.eqb k 0 then get w [o; j] else 1%R : Rring) (seq 0 (ndims t))) * tt_entry t [o] J)%R.
    2:{ pose proof (wf_d Hw). destruct (ndims t) as [|n]; [lia|]. f_equal. exact (prodK_first Rring (get w [o; j]) n). }
    unfold tt_entry. rewrite (chain_ext_r Rring (coreG c [o * N + j]) (rk c) (rk t)) by reflexivity. rewrite <- LJ.
    refine (chain_scale Rring (modes t) (coreG t [o]) (coreG c [o * N + j]) (rk t) (fun k => if Nat.eqb k 0 then get w [o; j] else 1%R : Rring) 0 J _ 0 _ _ _); auto; [rewrite (wf_first Hw); lia|].
    intros m x I y Hm Hx Hy HI. unfold coreG at 1. cbn [app]. unfold core, c. cbn [cores]. apply HG; auto. lia.
Qed.
