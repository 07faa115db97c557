(** Weighted sums in one tangent space, [add_n_projected]. *)
From Coq Require Import String Ascii List Arith ZArith Lia Lra Bool Ring Reals.
From Verif Require Import Scalar Tensor TensorLemmas TensorLemmas2 Base Spec Chain BaseLemmas Ops
  FullProofs ResultLemmas Dense AddProofs DenseMatmul Sweep FlatProofs GatherProofs RoundProofs ScaleProofs ReduceSumProofs OpsR InitProofs Decomp DecompSpec GaugeProofs OrthProofs OrthNorm
  TangentProofs Riem RiemBlock RiemProofs RiemThms RiemSpec TangentSpace RiemFull RiemDelta RiemInner.
Import ListNotations.
Local Open Scope nat_scope.
Local Notation train := (nat -> nat -> list nat -> nat -> Rring).
Local Notation fn := (list (list nat) -> Rring).
Local Notation get := (@get Rring).
Add Ring Rring7 : (cth Rring).

(** ** tf.add_n *)
Lemma tf_add_n_ok s (xs : list rtensor) : xs <> [] -> (forall k, k < length xs -> wft (nth k xs rzero) /\ shape (nth k xs rzero) = s) ->
  exists y, tf_add_n xs = Ok y /\ wft y /\ shape y = s /\ forall i, vidx s i -> get y i = sumn (K := Rring) (length xs) (fun k => get (nth k xs rzero) i).
Proof.
  intros Hn H. destruct xs as [|x xs]; [congruence|]. unfold tf_add_n.
  assert (G : forall ys (z : rtensor), (forall k, k < length ys -> shape (nth k ys rzero) = s) -> wft z -> shape z = s ->
     exists y, foldM (fun y s => if list_eqb (shape y) (shape s) then ewise (K := Rring) Rplus s y else Err TFError) ys z = Ok y /\ wft y /\ shape y = s /\
       forall i, vidx s i -> get y i = (get z i + sumn (K := Rring) (length ys) (fun k => get (nth k ys rzero) i))%K).
  { induction ys as [|y ys IH]; intros z Hys Wz Sz; cbn [foldM].
    - exists z. do 3 (split; [assumption || reflexivity|]). intros i _. cbn [length sumn]. ring.
    - pose proof (Hys 0 ltac:(cbn; lia)) as Sy. cbn [nth] in Sy. rewrite Sy, Sz, list_eqb_refl.
      destruct (ewise_same Rplus z y s Sz Sy) as (w & Ew & Ww & Sw & Gw). rewrite Ew. cbn [bind].
      destruct (IH w) as (v & Ev & Wv & Sv & Gv); auto.
      { intros k Hk. apply (Hys (S k)). cbn. lia. }
      exists v. do 3 (split; [assumption|]). intros i Hi. rewrite Gv, Gw by auto. cbn [length]. rewrite sumn_S_l. cbn [nth].
      change (get z i + get y i)%R with (get z i + get y i)%K. ring. }
  destruct (G xs x) as (y & Ey & Wy & Sy & Gy).
  - intros k Hk. apply (H (S k)). cbn. lia.
  - apply (H 0). cbn. lia.
  - apply (H 0). cbn. lia.
  - exists y. do 3 (split; [assumption|]). intros i Hi. rewrite Gy by auto. cbn [length]. rewrite sumn_S_l. reflexivity.
Qed.

(** The weight of object [k] in element [o] of the batch. *)
Definition acoef (coef : option rtensor) (k : nat) (o : list nat) : R :=
  match coef with
  | None => 1%R
  | Some w => if Nat.eqb (rank w) 1 then get w [k] else get w (k :: o)
  end.
Definition good_coef (n : nat) (ob : option nat) (coef : option rtensor) : Prop :=
  match coef with Some w => shape w = [n] \/ exists b, ob = Some b /\ shape w = [n; b] | None => True end.

Lemma ewise_scalar (f : R -> R -> R) (a b : rtensor) : shape b = [] ->
  exists c, ewise (K := Rring) f a b = Ok c /\ wft c /\ shape c = shape a /\ forall i, vidx (shape a) i -> get c i = f (get a i) (get b []).
Proof.
  intros Sb. unfold ewise. rewrite Sb. unfold bcast. cbn [rev].
  replace (bcast_rev (rev (shape a)) []) with (Some (rev (shape a))) by (destruct (rev (shape a)); reflexivity).
  rewrite rev_involutive. eexists. split; [reflexivity|]. split; [apply wft_mk|]. split; [reflexivity|].
  intros i Hi. rewrite get_mk by auto. rewrite bidx_self by auto. do 2 f_equal. unfold bidx. cbn [length]. rewrite Nat.sub_0_r, skipn_all. reflexivity.
Qed.

Section AddN.
Variables (x l r : rtt).
Hypothesis Hx : wf x.
Hypothesis HF : is_frame x l r.
Hypothesis Hd : 2 <= ndims x.
Hypothesis Heq : forall k, 0 < k < ndims x -> rk l k = rk r k.
Local Notation d := (ndims x).
Local Notation ms := (modes x).
Local Notation U := (coreG l []).
Local Notation V := (coreG r []).

Variables (ob : option nat) (ts : list rtt) (Ds : nat -> list nat -> train) (t0 : rtt).
Local Notation n := (length ts).
Hypothesis Hn : 0 < n.
Hypothesis Ht : forall k, k < n -> blocks x l r ob (Ds k) (nth k ts t0).
Hypothesis H0 : nth 0 ts t0 = t0.
Variable coef : option rtensor.
Hypothesis Hc : good_coef n ob coef.

Lemma rk_all k i : k < n -> i <= d -> rk (nth k ts t0) i = rk t0 i.
Proof.
  intros Hk Hi. destruct (Ht k Hk) as (_ & _ & _ & _ & K1 & _). destruct (Ht 0 Hn) as (_ & _ & _ & _ & K2 & _). rewrite H0 in K2. now rewrite K1, K2.
Qed.
Lemma Ht0 : blocks x l r ob (Ds 0) t0. Proof. rewrite <- H0. now apply Ht. Qed.

(** The reshaped coefficients. *)
Definition coefr : option rtensor :=
  match coef with
  | None => None
  | Some w => match shape w with
              | n :: b :: _ => Some (Tensor (n :: b :: repeat 1 (rank (core t0 0) - 1)) (data w))
              | _ => Some w
              end
  end.
Lemma coefr_ok : match coef with
             | None => Ok None
             | Some x => match shape x with
                         | n :: b :: _ => do y <- reshape x (map Some (n :: b :: repeat 1 (rank (core t0 0) - 1))); Ok (Some y)
                         | _ => Ok (Some x)
                         end
             end = Ok coefr.
Proof.
  unfold coefr. destruct coef as [w|]; [|reflexivity]. destruct Hc as [S|(b & _ & S)]; rewrite S; [reflexivity|].
  rewrite reshape_exact; [reflexivity|]. unfold size. rewrite S. pn. rewrite ?prodn_ones; lia.
Qed.
Lemma rank_core : rank (core t0 0) = length (pre_of ob) + S (length (ms 0) + 1).
Proof. unfold rank. rewrite (bl_core x l r ob (Ds 0) t0 Ht0) by lia. rewrite app_length. cbn [length]. rewrite app_length. reflexivity. Qed.

Definition chunk i li ri k (p : projected) :=
    do c <- nthr (cores (p_tt p)) i;
    do x <- slice_core t0 c li ri;
    match coefr with
    | None => Ok x
    | Some w => do wk <- getitem w (IInt (Z.of_nat k) :: repeat full_slice (rank w - 1)); ewise (K := Rring) Rmult x wk
    end.
Lemma chunk_ok i li ri k on la na ra nb : k < n -> i < d -> resolve1 li (rk t0 i) = Ok (seq la na, true) -> resolve1 ri (rk t0 (S i)) = Ok (seq ra nb, true) ->
  exists y, chunk i li ri k (Proj (nth k ts t0) on) = Ok y /\ wft y /\ shape y = pre_of ob ++ na :: ms i ++ [nb] /\
    forall o a j b, vidx (pre_of ob) o -> a < na -> vidx (ms i) j -> b < nb ->
      get y (o ++ a :: j ++ [b]) = (acoef coef k o * get (core (nth k ts t0) i) (o ++ (la + a)%nat :: j ++ [(ra + b)%nat]))%R.
Proof.
  intros Hk Hi El Er. unfold chunk. cbn [p_tt]. pose proof (Ht k Hk) as Bk. rewrite nthr_core by (rewrite (bl_nd x l r ob _ _ Bk); lia). cbn [bind].
  pose proof (bl_core x l r ob (Ds k) _ Bk i Hi) as Sk.
  rewrite (slice_core_cut x l r Hx ob (Ds 0) t0 Ht0 t0 (core (nth k ts t0) i) li ri i _ _ (bl_rs x l r ob _ _ Ht0) (bl_bs x l r ob _ _ Ht0) Sk).
  pose proof El as El'. rewrite <- (rk_all k i Hk) in El' by lia. pose proof Er as Er'. rewrite <- (rk_all k (S i) Hk) in Er' by lia.
  assert (PL : length (pre_of ob) <= 1) by (destruct ob; cbn; lia).
  destruct (cut_ok _ _ _ _ _ _ _ _ _ _ _ PL (ms_len x Hx i) Sk El' Er') as (y & Ey & Wy & Sy & Gy). rewrite Ey. cbn [bind].
  unfold coefr, acoef. destruct coef as [w|].
  2:{ exists y. do 3 (split; [assumption || reflexivity|]). intros o a j b Ho Ha Hj Hb. rewrite Gy by auto. symmetry. apply Rmult_1_l. }
  assert (R1 : resolve1 (IInt (Z.of_nat k)) n = Ok ([k], false)) by (rewrite resolve1_nat by lia; now rewrite Nat2Z.id).
  destruct Hc as [S|(b0 & Eb & S)]; rewrite S; unfold rank.
  - (* one coefficient per object *)
    rewrite S. cbn [length Nat.sub repeat Nat.eqb].
    destruct (getitem_sel Rring w [IInt (Z.of_nat k)] [([k], false)]) as (wk & Ewk & Wwk & Swk & Gwk).
    { rewrite S. cbn [resolve]. rewrite R1. reflexivity. }
    rewrite Ewk. cbn [bind]. destruct (ewise_scalar Rmult y wk Swk) as (z & Ez & Wz & Sz & Gz). exists z. split; [exact Ez|]. split; [exact Wz|]. rewrite Sz. split; [exact Sy|].
    intros o a j b Ho Ha Hj Hb. rewrite Gz by (rewrite Sy; apply vidx_app; auto; apply vidx_cons; auto; apply vidx_app; auto; vsolve).
    rewrite Gy by auto. rewrite Gwk by constructor. cbn [sel_idx nth]. apply Rmult_comm.
  - (* one coefficient per object and element of the batch *)
    cbn [shape]. rewrite S. cbn [length Nat.eqb]. rewrite repeat_length. pose proof rank_core as RC. unfold rank in RC. rewrite RC, Eb. cbn [pre_of length].
    set (m := length (ms 0) + 1). replace (1 + (Datatypes.S m) - 1) with (Datatypes.S m) by lia.
    replace (Datatypes.S (Datatypes.S (Datatypes.S m)) - 1) with (Datatypes.S (Datatypes.S m)) by lia.
    destruct (getitem_sel Rring (Tensor (n :: b0 :: repeat 1 (Datatypes.S m)) (data w)) (IInt (Z.of_nat k) :: repeat full_slice (Datatypes.S (Datatypes.S m)))
       (([k], false) :: (seq 0 b0, true) :: map (fun n => (seq 0 n, true)) (repeat 1 (Datatypes.S m)))) as (wk & Ewk & Wwk & Swk & Gwk).
    { cbn [shape resolve]. rewrite R1. cbn [bind].
      assert (Hres : forall s, resolve (repeat full_slice (length s)) s = Ok (map (fun n => (seq 0 n, true)) s)).
      { induction s as [|q s IH]; [reflexivity|]. cbn [length repeat resolve]. now rewrite resolve1_full, IH. }
      specialize (Hres (b0 :: repeat 1 (Datatypes.S m))). cbn [length] in Hres. rewrite repeat_length in Hres. rewrite Hres. reflexivity. }
    rewrite Ewk. cbn [bind].
    assert (SS : forall s, sel_shape (map (fun n => (seq 0 n, true)) s) = s) by (induction s as [|q s IH]; cbn [map sel_shape]; [reflexivity|now rewrite seq_length, IH]).
    cbn [sel_shape] in Swk, Gwk. rewrite SS, seq_length in Swk, Gwk.
    assert (Lm : Datatypes.S m = length (na :: ms i ++ [nb])).
    { cbn [length]. rewrite app_length, !modes_length. unfold m. rewrite modes_length. reflexivity. }
    rewrite Eb in Sy. cbn [pre_of app] in Sy. rewrite Lm in Swk.
    destruct (ewise_tails Rring Rmult wk y [b0] (na :: ms i ++ [nb]) Swk Sy) as (z & Ez & Wz & Sz & Gz).
    exists z. split; [exact Ez|]. split; [exact Wz|]. split; [exact Sz|].
    intros o a j b Ho Ha Hj Hb. cbn [app] in *. rewrite Eb in Gy. cbn [pre_of] in Gy.
    rewrite Gz; [|auto|apply vidx_cons; auto; apply vidx_app; auto; vsolve]. rewrite Gy by auto.
    apply vidx_1_inv in Ho as (o1 & -> & Ho). cbn [app]. rewrite <- Lm. rewrite Gwk.
    2:{ apply vidx_cons; auto. clear. induction (Datatypes.S m); cbn [repeat]; [constructor|]. apply vidx_cons; auto. }
    cbn [sel_idx nth]. rewrite seq_nth by auto.
    assert (SI : forall q, sel_idx (map (fun n => (seq 0 n, true)) (repeat 1 q)) (repeat 0 q) = repeat 0 q) by (induction q; cbn; auto; now f_equal).
    rewrite SI. rewrite Rmult_comm. f_equal. unfold Tensor.get. cbn [data shape]. f_equal. rewrite S.
    change (n :: b0 :: repeat 1 (Datatypes.S m)) with ([n; b0] ++ repeat 1 (Datatypes.S m)). change (k :: (0 + o1) :: repeat 0 (Datatypes.S m)) with ([k; o1] ++ repeat 0 (Datatypes.S m)).
    now apply ravel_ones_tail.
Qed.

Lemma chunks_ok (ps : list projected) on i li ri la na ra nb : ps = map (fun t => Proj t on) ts -> i < d ->
  resolve1 li (rk t0 i) = Ok (seq la na, true) -> resolve1 ri (rk t0 (S i)) = Ok (seq ra nb, true) ->
  exists xs y, mapM (fun k => do p <- nthr ps k; chunk i li ri k p) (seq 0 (length ps)) = Ok xs /\ tf_add_n xs = Ok y /\ wft y /\ shape y = pre_of ob ++ na :: ms i ++ [nb] /\
    forall o a j b, vidx (pre_of ob) o -> a < na -> vidx (ms i) j -> b < nb ->
      get y (o ++ a :: j ++ [b]) = sumn (K := Rring) n (fun k => acoef coef k o * coreG (nth k ts t0) o i (la + a)%nat j (ra + b)%nat)%R.
Proof.
  intros -> Hi El Er. rewrite map_length.
  match goal with |- context [mapM ?f (seq 0 n)] => destruct (mapM_P f 0 n (fun k y => wft y /\ shape y = pre_of ob ++ na :: ms i ++ [nb] /\
    forall o a j b, vidx (pre_of ob) o -> a < na -> vidx (ms i) j -> b < nb ->
      get y (o ++ a :: j ++ [b]) = (acoef coef k o * get (core (nth k ts t0) i) (o ++ (la + a)%nat :: j ++ [(ra + b)%nat]))%R) rzero) as (xs & Exs & Lxs & Pxs) end.
  { intros k Hk. cbn [Nat.add]. destruct (chunk_ok i li ri k on la na ra nb Hk Hi El Er) as (y & Ey & Wy & Sy & Gy). exists y.
    rewrite (nthr_nth _ k (Proj t0 on)) by (now rewrite map_length). cbn [bind]. rewrite (map_nth (fun t => Proj t on)). split; [exact Ey|]. split; [exact Wy|]. split; [exact Sy|exact Gy]. }
  destruct (tf_add_n_ok (pre_of ob ++ na :: ms i ++ [nb]) xs) as (y & Ey & Wy & Sy & Gy).
  { intros E. rewrite E in Lxs. cbn in Lxs. lia. }
  { intros k Hk. rewrite Lxs in Hk. split; apply (Pxs k Hk). }
  exists xs, y. do 4 (split; [assumption|]). intros o a j b Ho Ha Hj Hb. rewrite Gy by (apply vidx_app; auto; apply vidx_cons; auto; apply vidx_app; auto; vsolve).
  rewrite Lxs. apply (sumn_ext Rring). intros k Hk. destruct (Pxs k Hk) as (_ & _ & G). now rewrite G.
Qed.

(** The deltas of the sum. *)
Definition Dsum (o : list nat) : train := fun m a j c => sumn (K := Rring) n (fun k => (acoef coef k o : Rring) * Ds k o m a j c)%K.

Definition good_core (i : nat) (c : rtensor) : Prop := wft c /\ shape c = pre_of ob ++ rk t0 i :: ms i ++ [rk t0 (S i)] /\
  forall o a j b, vidx (pre_of ob) o -> a < rk t0 i -> vidx (ms i) j -> b < rk t0 (S i) -> get c (o ++ a :: j ++ [b]) = blockG (Dsum o) U V (rk r) d i a j b.

Lemma good_cores cs : length cs = d -> (forall i, i < d -> good_core i (nth i cs rzero)) ->
  (match ob with
   | None => TensorTrain cs (STuple (rshape t0)) (Some (rks t0))
   | Some b => TensorTrainBatch cs (STuple (rshape t0)) (Some (rks t0)) (Some b)
   end) = Ok (TT cs (rshape t0) (rks t0) ob) /\ blocks x l r ob Dsum (TT cs (rshape t0) (rks t0) ob).
Proof.
  intros Lc Hcs. pose proof Ht0 as B0. pose proof (bl_wf x l r ob _ _ B0) as W0. pose proof (bl_nd x l r ob _ _ B0) as N0. pose proof (bl_rs x l r ob _ _ B0) as R0.
  pose proof (bl_bs x l r ob _ _ B0) as BB.
  destruct (build_ok Rring (fun i => nthr cs i) good_core d ob (rshape t0) (rks t0)) as (cs' & Ecs & Lcs & Ec & Wt & HP).
  - lia.
  - apply W0.
  - rewrite <- N0. apply (wf_rlen W0).
  - rewrite <- N0. apply (wf_klen W0).
  - apply (wf_first W0).
  - rewrite <- N0. apply (wf_last W0).
  - apply (wf_rpos W0).
  - apply (wf_kpos W0).
  - pose proof (wf_bpos W0) as HB. unfold bpre in HB. now rewrite BB in HB.
  - intros i Hi. exists (nth i cs rzero). split; [apply nthr_nth; lia|]. pose proof (Hcs i Hi) as (H1 & H2 & H3). split; [exact H1|].
    split; [|now apply Hcs]. rewrite H2. rewrite R0. reflexivity.
  - assert (cs' = cs) as ->.
    { apply (nth_ext _ _ rzero rzero); [lia|]. intros i Hi. rewrite Lcs in Hi.
      pose proof (mapM_nth (fun i => nthr cs i) (seq 0 d) cs' Ecs i 0 rzero ltac:(rewrite seq_length; lia)) as E. rewrite seq_nth in E by lia. cbn [Nat.add] in E.
      rewrite (nthr_nth cs i rzero) in E by lia. congruence. }
    split.
    + unfold construct in Ec. exact Ec.
    + split; [exact Wt|]. split; [exact R0|]. split; [reflexivity|]. split; [exact Lcs|]. destruct B0 as (_ & _ & _ & _ & Kk & _). split; [exact Kk|].
      intros o k a j b Ho Hk Ha Hj Hb. destruct (HP k Hk) as (_ & _ & G). apply G; auto.
Qed.

(** Slices of one object. *)
Lemma part_ok k i li ri la na ra nb : k < n -> i < d -> resolve1 li (rk t0 i) = Ok (seq la na, true) -> resolve1 ri (rk t0 (S i)) = Ok (seq ra nb, true) ->
  exists y, slice_core t0 (core (nth k ts t0) i) li ri = Ok y /\ wft y /\ shape y = pre_of ob ++ na :: ms i ++ [nb] /\
    forall o a j b, vidx (pre_of ob) o -> a < na -> vidx (ms i) j -> b < nb -> get y (o ++ a :: j ++ [b]) = coreG (nth k ts t0) o i (la + a) j (ra + b).
Proof.
  intros Hk Hi El Er. pose proof (Ht k Hk) as Bk. pose proof (bl_core x l r ob (Ds k) _ Bk i Hi) as Sk.
  rewrite (slice_core_cut x l r Hx ob (Ds 0) t0 Ht0 t0 (core (nth k ts t0) i) li ri i _ _ (bl_rs x l r ob _ _ Ht0) (bl_bs x l r ob _ _ Ht0) Sk).
  rewrite <- (rk_all k i Hk) in El by lia. rewrite <- (rk_all k (S i) Hk) in Er by lia.
  assert (PL : length (pre_of ob) <= 1) by (destruct ob; cbn; lia).
  destruct (cut_ok _ _ _ _ _ _ _ _ _ _ _ PL (ms_len x Hx i) Sk El Er) as (y & Ey & Wy & Sy & Gy). exists y. do 3 (split; [assumption|]). exact Gy.
Qed.

Lemma rk0 i : 0 < i < d -> rk t0 i = rk r i + rk r i. Proof. apply (bl_rk x l r Hd Heq ob _ _ Ht0). Qed.
Lemma half0 i : 0 < i < d -> rk t0 i / 2 = rk r i. Proof. apply (bl_half x l r Hd Heq ob _ _ Ht0). Qed.
Lemma low i : 0 < i < d -> resolve1 (zslice (Some (rk t0 i / 2)) None) (rk t0 i) = Ok (seq (rk r i) (rk r i), true).
Proof. intros Hi. rewrite half0 by auto. rewrite rs_from; rewrite rk0 by auto; [|lia]. do 3 f_equal. lia. Qed.
Lemma upp i : 0 < i < d -> resolve1 (zslice (Some 0) (Some (rk t0 i / 2))) (rk t0 i) = Ok (seq 0 (rk r i), true).
Proof. intros Hi. rewrite half0 by auto. apply rs_to. rewrite rk0 by auto. lia. Qed.
Lemma all i : resolve1 full_slice (rk t0 i) = Ok (seq 0 (rk t0 i), true). Proof. apply resolve1_full. Qed.

Lemma core_k k o i a j b : k < n -> vidx (pre_of ob) o -> i < d -> a < rk t0 i -> vidx (ms i) j -> b < rk t0 (S i) ->
  coreG (nth k ts t0) o i a j b = blockG (Ds k o) U V (rk r) d i a j b.
Proof.
  intros Hk Ho Hi Ha Hj Hb. destruct (Ht k Hk) as (_ & _ & _ & _ & _ & G). apply G; auto; rewrite rk_all; auto; lia.
Qed.

Lemma add_n_ok addr : exists t, add_n_projected (map (fun t => Proj t (Some addr)) ts) coef = Ok (Proj t (Some addr)) /\ blocks x l r ob Dsum t.
Proof.
  pose proof Ht0 as B0. pose proof (bl_wf x l r ob _ _ B0) as W0. pose proof (bl_nd x l r ob _ _ B0) as N0. pose proof (bl_bs x l r ob _ _ B0) as BB.
  pose proof (bl_rs x l r ob _ _ B0) as R0.
  set (ps := map (fun t => Proj t (Some addr)) ts). unfold add_n_projected.
  assert (P0 : nthr ps 0 = Ok (Proj t0 (Some addr))).
  { unfold ps. rewrite (nthr_nth _ 0 (Proj t0 (Some addr))) by (now rewrite map_length). rewrite (map_nth (fun t => Proj t (Some addr))). now rewrite H0. }
  assert (F1 : forallb (fun p => match p_on p with Some _ => true | None => false end) ps = true).
  { apply forallb_forall. intros p Hp. unfold ps in Hp. apply in_map_iff in Hp as (t & <- & _). reflexivity. }
  rewrite F1. cbn [negb]. rewrite P0. cbn [bind p_on p_tt].
  assert (F2 : forallb (fun p => match p_on p with Some a => a =? addr | None => true end) (tl ps) = true).
  { apply forallb_forall. intros p Hp. assert (In p ps) as Hp' by (destruct ps; [destruct Hp|right; exact Hp]). unfold ps in Hp'.
    apply in_map_iff in Hp' as (t & <- & _). cbn. apply Nat.eqb_refl. }
  match goal with |- context [forallb ?f (tl ps)] => replace (forallb f (tl ps)) with true end. cbn [negb].
  rewrite nthr_core by lia. cbn [bind]. rewrite coefr_ok. cbn [bind]. rewrite N0, BB.
  destruct (dims_of t0 ob W0) as [LD RD]. rewrite R0 in RD. rewrite <- (modes_length _ x 0) in RD.
  assert (EL : p_tt (last ps (Proj t0 (Some addr))) = nth (n - 1) ts t0).
  { assert (LP : forall (A : Type) (q : list A) d0, last q d0 = nth (length q - 1) q d0).
    { intros A q d0. induction q as [|u q IH]; [reflexivity|]. destruct q as [|v q]; [reflexivity|]. change (last (u :: v :: q) d0) with (last (v :: q) d0). rewrite IH.
      cbn [length]. rewrite !Nat.sub_succ, !Nat.sub_0_r. reflexivity. }
    rewrite LP. unfold ps. rewrite map_length, (map_nth (fun t => Proj t (Some addr))). reflexivity. }
  rewrite EL. cbv zeta.
  assert (KR : forall k, k <= d -> nthr (lazy_tt_ranks t0) k = Ok (rk t0 k)) by (intros; apply nthr_ranks; auto; lia).
  assert (CH : forall i li ri, (do xs <- mapM (fun k => do p <- nthr ps k;
       do c <- nthr (cores (p_tt p)) i; do x <- slice_core t0 c li ri;
       match coefr with
       | None => Ok x
       | Some w => do wk <- getitem w (IInt (Z.of_nat k) :: repeat full_slice (rank w - 1)); ewise (K := Rring) Rmult x wk
       end) (seq 0 (length ps)); tf_add_n xs) = (do xs <- mapM (fun k => do p <- nthr ps k; chunk i li ri k p) (seq 0 (length ps)); tf_add_n xs)) by reflexivity.
  assert (RN : forall i, length (ms i) = length (ms 0)) by (intros; now rewrite !modes_length).
  rewrite KR by lia. cbn [bind]. rewrite CH.
  (* first core *)
  assert (F0 : resolve1 full_slice (rk t0 0) = Ok (seq 0 1, true)) by (rewrite all, (wf_first W0); reflexivity).
  assert (Fd : resolve1 full_slice (rk t0 d) = Ok (seq 0 1, true)) by (rewrite all, <- N0, (wf_last W0); reflexivity).
  assert (K0 : rk t0 0 = 1) by apply (wf_first W0). assert (Kd : rk t0 d = 1) by (rewrite <- N0; apply (wf_last W0)).
  destruct (chunks_ok ps (Some addr) 0 _ _ _ _ _ _ eq_refl ltac:(lia) F0 (upp 1 ltac:(lia))) as (xs0 & a0 & Exs0 & Ea0 & Wa0 & Sa0 & Ga0).
  rewrite Exs0. cbn [bind]. rewrite Ea0. cbn [bind].
  destruct (part_ok 0 0 _ _ _ _ _ _ Hn ltac:(lia) F0 (low 1 ltac:(lia))) as (b0 & Eb0 & Wb0 & Sb0 & Gb0). rewrite H0 in Eb0. rewrite Eb0. cbn [bind]. rewrite LD, RD.
  destruct (concat_right Rring a0 b0 (pre_of ob) 1 (ms 0) (rk r 1) (rk r 1) Sa0 Sb0) as (c0 & Ec0 & Wc0 & Sc0 & Gc0). rewrite Ec0. cbn [bind].
  assert (Good0 : good_core 0 c0).
  { split; [exact Wc0|]. rewrite K0, rk0 by lia. split; [exact Sc0|]. intros o a j b Ho Ha Hj Hb. rewrite Gc0 by auto. unfold blockG. cbn [Nat.eqb].
    destruct (Nat.ltb_spec b (rk r 1)).
    - rewrite Ga0 by auto. unfold Dsum. apply (sumn_ext Rring). intros k Hk. cbn [Nat.add]. rewrite core_k by (auto; rewrite ?K0, ?rk0; lia).
      unfold blockG. cbn [Nat.eqb]. destruct (Nat.ltb_spec b (rk r 1)); [reflexivity|lia].
    - rewrite Gb0 by (auto; lia). cbn [Nat.add]. replace (rk r 1 + (b - rk r 1)) with b by lia. rewrite core_k by (auto; rewrite ?K0, ?rk0; lia).
      unfold blockG. cbn [Nat.eqb]. destruct (Nat.ltb_spec b (rk r 1)); [lia|reflexivity]. }
  (* the cores in between *)
  match goal with |- context [mapM ?f (seq 1 (d - 2))] => destruct (mapM_P f 1 (d - 2) (fun i c => good_core (S i) c) rzero) as (mid & Emid & Lmid & Pmid) end.
  { intros i' Hi'. cbn [Nat.add]. set (i := S i'). assert (Hi : 0 < i < d - 1) by (unfold i; lia). rewrite !KR by lia. cbn [bind].
    rewrite nthr_core by (rewrite (bl_nd x l r ob _ _ (Ht (n - 1) ltac:(lia))); lia). cbn [bind].
    destruct (part_ok (n - 1) i _ _ _ _ _ _ ltac:(lia) ltac:(lia) (upp i ltac:(lia)) (all (S i))) as (u & Eu & Wu & Su & Gu). rewrite Eu. cbn [bind].
    rewrite nthr_core by lia. cbn [bind].
    destruct (part_ok 0 i _ _ _ _ _ _ Hn ltac:(lia) (low i ltac:(lia)) (low (S i) ltac:(lia))) as (v & Ev & Wv & Sv & Gv). rewrite H0 in Ev, Gv. rewrite Ev. cbn [bind].
    rewrite CH.
    destruct (chunks_ok ps (Some addr) i _ _ _ _ _ _ eq_refl ltac:(lia) (low i ltac:(lia)) (upp (S i) ltac:(lia))) as (xs & w & Exs & Ew & Ww & Sw & Gw).
    rewrite Exs. cbn [bind]. rewrite Ew. cbn [bind]. rewrite <- (RN i).
    destruct (concat_right Rring w v (pre_of ob) _ (ms i) (rk r (S i)) (rk r (S i)) Sw Sv) as (z & Ez & Wz & Sz & Gz). rewrite Ez. cbn [bind].
    rewrite (rk0 (S i)) in Su by lia.
    destruct (concat_left Rring u z (pre_of ob) (ms i ++ [rk r (S i) + rk r (S i)]) (rk r i) (rk r i) Su Sz) as (c & Ec & Wc & Sc & Gc).
    exists c. split; [exact Ec|]. split; [exact Wc|]. rewrite !rk0 by lia. split; [exact Sc|]. intros o a j b Ho Ha Hj Hb.
    rewrite Gc; auto. 2:{ apply vidx_app; auto. vsolve. }
    unfold blockG at 1. destruct (Nat.eqb_spec i 0); [lia|]. destruct (Nat.eqb_spec i (d - 1)); [lia|].
    destruct (Nat.ltb_spec a (rk r i)).
    - rewrite Gu by (auto; rewrite rk0; lia). cbn [Nat.add]. rewrite core_k by (auto; rewrite ?rk0; lia). unfold blockG.
      destruct (Nat.eqb_spec i 0); [lia|]. destruct (Nat.eqb_spec i (d - 1)); [lia|]. destruct (Nat.ltb_spec a (rk r i)); [reflexivity|lia].
    - rewrite Gz by (auto; lia). destruct (Nat.ltb_spec b (rk r (S i))).
      + rewrite Gw by (auto; lia). unfold Dsum. apply (sumn_ext Rring). intros k Hk. cbn [Nat.add]. replace (rk r i + (a - rk r i)) with a by lia.
        rewrite core_k by (auto; rewrite ?rk0; lia). unfold blockG.
        destruct (Nat.eqb_spec i 0); [lia|]. destruct (Nat.eqb_spec i (d - 1)); [lia|]. destruct (Nat.ltb_spec a (rk r i)); [lia|].
        destruct (Nat.ltb_spec b (rk r (S i))); [reflexivity|lia].
      + rewrite Gv by (auto; lia). replace (rk r i + (a - rk r i)) with a by lia. replace (rk r (S i) + (b - rk r (S i))) with b by lia.
        rewrite <- H0 at 1. rewrite core_k by (auto; rewrite ?rk0; lia). unfold blockG.
        destruct (Nat.eqb_spec i 0); [lia|]. destruct (Nat.eqb_spec i (d - 1)); [lia|]. destruct (Nat.ltb_spec a (rk r i)); [lia|].
        destruct (Nat.ltb_spec b (rk r (S i))); [lia|reflexivity]. }
  rewrite Emid. cbn [bind]. rewrite KR by lia. cbn [bind].
  (* last core *)
  set (e := d - 1). assert (He : 0 < e < d) by (unfold e; lia). assert (ES : S e = d) by (unfold e; lia).
  pose proof (Ht (n - 1) ltac:(lia)) as Bl. pose proof (bl_nd x l r ob _ _ Bl) as Nl.
  assert (EC : lastr (cores (nth (n - 1) ts t0)) = Ok (core (nth (n - 1) ts t0) e)).
  { rewrite (lastr_last _ (core0 Rring)). 2:{ intros E. unfold ndims in Nl. rewrite E in Nl. cbn in Nl. unfold ndims in *. lia. }
    f_equal. unfold core, e. rewrite <- Nl. unfold ndims. clear. generalize (cores (nth (n - 1) ts t0)). intros q.
    induction q as [|u q IH]; [reflexivity|]. destruct q as [|v q]; [reflexivity|]. change (last (u :: v :: q) (core0 Rring)) with (last (v :: q) (core0 Rring)). rewrite IH.
    cbn [length]. rewrite !Nat.sub_succ, !Nat.sub_0_r. reflexivity. }
  rewrite EC. cbn [bind].
  destruct (part_ok (n - 1) e _ _ _ _ 0 1 ltac:(lia) ltac:(lia) (upp e He) ltac:(rewrite ES; exact Fd)) as (u & Eu & Wu & Su & Gu). rewrite Eu. cbn [bind].
  assert (CL : mapM (fun k => do p <- nthr ps k; do c <- nthr (cores (p_tt p)) (length (cores (p_tt p)) - 1);
       do x <- slice_core t0 c (zslice (Some (rk t0 e / 2)) None) full_slice;
       match coefr with
       | None => Ok x
       | Some w => do wk <- getitem w (IInt (Z.of_nat k) :: repeat full_slice (rank w - 1)); ewise (K := Rring) Rmult x wk
       end) (seq 0 (length ps)) = mapM (fun k => do p <- nthr ps k; chunk e (zslice (Some (rk t0 e / 2)) None) full_slice k p) (seq 0 (length ps))).
  { apply mapM_ext. intros k Hk. apply in_seq in Hk. unfold ps in Hk. rewrite map_length in Hk.
    unfold ps. rewrite (nthr_nth _ k (Proj t0 (Some addr))) by (rewrite map_length; lia). cbn [bind]. rewrite (map_nth (fun t => Proj t (Some addr))). unfold chunk. cbn [p_tt].
    pose proof (bl_nd x l r ob _ _ (Ht k ltac:(lia))) as Nk. unfold ndims at 1 in Nk. rewrite Nk. reflexivity. }
  rewrite CL.
  destruct (chunks_ok ps (Some addr) e _ _ _ _ 0 1 eq_refl ltac:(lia) (low e He) ltac:(rewrite ES; exact Fd)) as (xs & w & Exs & Ew & Ww & Sw & Gw).
  rewrite Exs. cbn [bind]. rewrite Ew. cbn [bind].
  destruct (concat_left Rring u w (pre_of ob) (ms e ++ [1]) (rk r e) (rk r e) Su Sw) as (c & Ec & Wc & Sc & Gc). rewrite Ec. cbn [bind].
  assert (Goode : good_core e c).
  { split; [exact Wc|]. rewrite ES, Kd, rk0 by lia. split; [exact Sc|]. intros o a j b Ho Ha Hj Hb. rewrite Gc; auto. 2:{ apply vidx_app; auto. vsolve. }
    unfold blockG at 1. destruct (Nat.eqb_spec e 0); [lia|]. destruct (Nat.eqb_spec e (d - 1)); [|unfold e in *; lia].
    destruct (Nat.ltb_spec a (rk r e)).
    - rewrite Gu by auto. cbn [Nat.add]. rewrite core_k by (auto; rewrite ?ES, ?Kd, ?rk0; lia). unfold blockG.
      destruct (Nat.eqb_spec e 0); [lia|]. destruct (Nat.eqb_spec e (d - 1)); [|unfold e in *; lia]. destruct (Nat.ltb_spec a (rk r e)); [reflexivity|lia].
    - rewrite Gw by (auto; lia). unfold Dsum. apply (sumn_ext Rring). intros k Hk. cbn [Nat.add]. replace (rk r e + (a - rk r e)) with a by lia.
      rewrite core_k by (auto; rewrite ?ES, ?Kd, ?rk0; lia). unfold blockG.
      destruct (Nat.eqb_spec e 0); [lia|]. destruct (Nat.eqb_spec e (d - 1)); [|unfold e in *; lia]. destruct (Nat.ltb_spec a (rk r e)); [lia|reflexivity]. }
  destruct (good_cores (c0 :: mid ++ [c])) as [Et Bt].
  { cbn [length]. rewrite app_length, Lmid. cbn [length]. lia. }
  { intros i Hi. destruct i as [|i]; [exact Good0|]. cbn [nth]. destruct (Nat.eq_dec (S i) e) as [E|E].
    - rewrite app_nth2 by lia. replace (i - length mid) with 0 by (unfold e in E; lia). cbn [nth]. rewrite E. exact Goode.
    - rewrite app_nth1 by (unfold e in *; lia). apply Pmid. unfold e in *. lia. }
  eexists. split; [|exact Bt]. rewrite Et. reflexivity.
Qed.
End AddN.
