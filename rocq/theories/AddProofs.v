(** [add]: correctness. *)
From Coq Require Import String List Arith ZArith Lia Bool Ring.
From Verif Require Import Scalar Tensor TensorLemmas TensorLemmas2 Base Spec Chain BaseLemmas Ops
  FullProofs ResultLemmas.
Import ListNotations.

Section WithK.
Variable K : cring.
Add Ring Kring : (cth K).
Implicit Types (Ga Gb Gc : nat -> nat -> list nat -> nat -> K) (ra rb rc : nat -> nat).
Local Open Scope k_scope.

(** Middle cores are block diagonal. *)
Lemma chain_block ms Ga Gb Gc ra rb rc k J va vb vc a :
  vchain ms k J -> a < ra k + rb k ->
  (forall m, k <= m <= k + length J -> rc m = (ra m + rb m)%nat) ->
  (forall m a j b, k <= m < k + length J -> vidx (ms m) j -> a < rc m -> b < rc (S m) ->
     Gc m a j b = if Nat.ltb a (ra m)
                  then (if Nat.ltb b (ra (S m)) then Ga m a j b else 0)
                  else (if Nat.ltb b (ra (S m)) then 0 else Gb m (a - ra m)%nat j (b - ra (S m))%nat)) ->
  (forall b, b < rc (k + length J)%nat ->
     vc b = if Nat.ltb b (ra (k + length J)%nat) then va b else vb (b - ra (k + length J))%nat) ->
  chain Gc rc k J vc a =
  if Nat.ltb a (ra k) then chain Ga ra k J va a else chain Gb rb k J vb (a - ra k)%nat.
Proof.
  revert k a; induction J as [|j J IH]; intros k a HJ Ha Hr HG Hv; cbn [chain length] in *.
  - rewrite Nat.add_0_r in *. apply Hv. rewrite Hr; lia.
  - destruct HJ as [Hj HJ].
    rewrite Hr by lia. rewrite sumn_split.
    rewrite (sumn_ext _ (ra (S k)) _ (fun b =>
      if Nat.ltb a (ra k) then Ga k a j b * chain Ga ra (S k) J va b else 0)).
    2:{ intros b Hb. rewrite HG by (auto; rewrite ?Hr; lia).
        apply Nat.ltb_lt in Hb as Hb'. rewrite Hb'. 
        rewrite IH; auto; try lia.
        - rewrite Hb'. destruct (a <? ra k); ring.
        - intros. apply Hr. lia.
        - intros. apply HG; auto; lia.
        - intros. rewrite Nat.add_succ_r in Hv. now apply Hv. }
    rewrite (sumn_ext _ (rb (S k)) _ (fun b =>
      if Nat.ltb a (ra k) then 0 else Gb k (a - ra k)%nat j b * chain Gb rb (S k) J vb b)).
    2:{ intros b Hb. rewrite HG by (auto; rewrite ?Hr; lia).
        assert (Hb' : Nat.ltb (ra (S k) + b) (ra (S k)) = false) by (apply Nat.ltb_ge; lia).
        rewrite Hb'. rewrite IH; auto; try lia.
        - rewrite Hb'. replace (ra (S k) + b - ra (S k))%nat with b by lia.
          destruct (a <? ra k); ring.
        - intros. apply Hr. lia.
        - intros. apply HG; auto; lia.
        - intros. rewrite Nat.add_succ_r in Hv. now apply Hv. }
    destruct (a <? ra k); rewrite sumn_0; ring.
Qed.

(** Element of core [i] (out of [d]) of a sum. *)
Definition addG Ga Gb ra (d i a : nat) (j : list nat) (b : nat) : K :=
  if Nat.eqb i 0 then
    (if Nat.ltb b (ra 1%nat) then Ga i a j b else Gb i a j (b - ra 1%nat)%nat)
  else if Nat.eqb i (d - 1) then
    (if Nat.ltb a (ra i) then Ga i a j b else Gb i (a - ra i)%nat j b)
  else
    if Nat.ltb a (ra i)
    then (if Nat.ltb b (ra (S i)) then Ga i a j b else 0)
    else (if Nat.ltb b (ra (S i)) then 0 else Gb i (a - ra i)%nat j (b - ra (S i))%nat).

Lemma chain_add ms Ga Gb ra rb rc d J :
  2 <= d -> vchain ms 0 J -> length J = d ->
  ra 0%nat = 1%nat -> rb 0%nat = 1%nat -> ra d = 1%nat -> rb d = 1%nat -> rc d = 1%nat ->
  (forall m, 0 < m < d -> rc m = (ra m + rb m)%nat) ->
  chain (addG Ga Gb ra d) rc 0 J (fun _ => 1) 0 =
  chain Ga ra 0 J (fun _ => 1) 0 + chain Gb rb 0 J (fun _ => 1) 0.
Proof.
  intros Hd HJ HlJ Ha0 Hb0 Had Hbd Hcd Hc.
  destruct J as [|j0 J]; [cbn in HlJ; lia|].
  destruct (snoc_inv J (d - 2)) as (Jm & jl & -> & Hlm); [cbn in HlJ; lia|].
  destruct HJ as [Hj0 HJ]. apply vchain_app in HJ as [HJm [Hjl _]]. rewrite Hlm in Hjl.
  replace (1 + (d - 2))%nat with (d - 1)%nat in Hjl by lia.
  cbn [chain].
  set (vc := fun a => chain (addG Ga Gb ra d) rc (d - 1) [jl] (fun _ => 1) a).
  set (va := fun a => chain Ga ra (d - 1) [jl] (fun _ => 1) a).
  set (vb := fun a => chain Gb rb (d - 1) [jl] (fun _ => 1) a).
  assert (Hvc : forall b, vc b = if Nat.ltb b (ra (d - 1)%nat) then va b else vb (b - ra (d - 1))%nat).
  { intros b. unfold vc, va, vb. cbn [chain]. replace (S (d - 1)) with d by lia.
    rewrite Hcd, Had, Hbd, !sumn_1. unfold addG.
    destruct (Nat.eqb_spec (d - 1) 0); [lia|]. rewrite Nat.eqb_refl.
    destruct (b <? ra (d - 1)%nat); reflexivity. }
  rewrite (Hc 1%nat) by lia. rewrite sumn_split. f_equal.
  - apply sumn_ext. intros b Hb. rewrite !chain_app, Hlm.
    replace (1 + (d - 2))%nat with (d - 1)%nat by lia. fold vc va.
    rewrite (chain_block ms Ga Gb _ ra rb rc 1 Jm va vb vc b); auto; try lia.
    + apply Nat.ltb_lt in Hb. rewrite Hb. unfold addG. cbn [Nat.eqb]. now rewrite Hb.
    + intros. apply Hc. lia.
    + intros m a j b' Hm Hj Ha' Hb'. unfold addG.
      destruct (Nat.eqb_spec m 0); [lia|]. destruct (Nat.eqb_spec m (d - 1)); [lia|]. reflexivity.
    + intros b' Hb'. rewrite Hlm. replace (1 + (d - 2))%nat with (d - 1)%nat by lia. apply Hvc.
  - apply sumn_ext. intros b Hb. rewrite !chain_app, Hlm.
    replace (1 + (d - 2))%nat with (d - 1)%nat by lia. fold vc vb.
    rewrite (chain_block ms Ga Gb _ ra rb rc 1 Jm va vb vc (ra 1%nat + b)); auto; try lia.
    + assert (Hb' : Nat.ltb (ra 1%nat + b) (ra 1%nat) = false) by (apply Nat.ltb_ge; lia).
      rewrite Hb'. unfold addG. cbn [Nat.eqb]. rewrite Hb'.
      now replace (ra 1 + b - ra 1)%nat with b by lia.
    + intros. apply Hc. lia.
    + intros m a j b' Hm Hj Ha' Hb'. unfold addG.
      destruct (Nat.eqb_spec m 0); [lia|]. destruct (Nat.eqb_spec m (d - 1)); [lia|]. reflexivity.
    + intros b' Hb'. rewrite Hlm. replace (1 + (d - 2))%nat with (d - 1)%nat by lia. apply Hvc.
Qed.

Local Close Scope k_scope.

(** Concatenation along the right rank. *)
Lemma concat_right (a b : tensor K) pre l ms r1 r2 :
  shape a = pre ++ l :: ms ++ [r1] -> shape b = pre ++ l :: ms ++ [r2] ->
  exists t, concat [a; b] (length pre + S (length ms)) = Ok t /\ wft t /\
    shape t = pre ++ l :: ms ++ [r1 + r2] /\
    forall p x j y, vidx pre p -> x < l -> vidx ms j -> y < r1 + r2 ->
      get t (p ++ x :: j ++ [y]) =
      if Nat.ltb y r1 then get a (p ++ x :: j ++ [y]) else get b (p ++ x :: j ++ [y - r1]).
Proof.
  intros Ha Hb.
  destruct (concat2_ok K a b (length pre + S (length ms))) as (t & Ht & Hw & Hs & Hg).
  - unfold rank. rewrite Ha, app_length. cbn. rewrite app_length. cbn. lia.
  - rewrite Ha, Hb, !upd_right. reflexivity.
  - exists t. rewrite Ha, Hb, !nth_right, upd_right in Hs.
    split; auto. split; auto. split; auto.
    intros p x j y Hp Hx Hj Hy.
    rewrite Hg.
    2:{ rewrite Hs. apply vidx_app; auto. apply vidx_cons; auto. apply vidx_app; auto. vsolve. }
    rewrite Ha. rewrite nth_right.
    assert (E : length pre + S (length ms) = length p + S (length j)).
    { apply vidx_length in Hp, Hj. lia. }
    rewrite E, nth_right, upd_right. reflexivity.
Qed.

Lemma concat_left (a b : tensor K) pre ms r1 r2 :
  shape a = pre ++ r1 :: ms -> shape b = pre ++ r2 :: ms ->
  exists t, concat [a; b] (length pre) = Ok t /\ wft t /\
    shape t = pre ++ (r1 + r2) :: ms /\
    forall p x j, vidx pre p -> x < r1 + r2 -> vidx ms j ->
      get t (p ++ x :: j) =
      if Nat.ltb x r1 then get a (p ++ x :: j) else get b (p ++ x - r1 :: j).
Proof.
  intros Ha Hb.
  destruct (concat2_ok K a b (length pre)) as (t & Ht & Hw & Hs & Hg).
  - unfold rank. rewrite Ha, app_length. cbn. lia.
  - rewrite Ha, Hb, !upd_left. reflexivity.
  - exists t. rewrite Ha, Hb, !nth_left, upd_left in Hs.
    split; auto. split; auto. split; auto.
    intros p x j Hp Hx Hj.
    rewrite Hg.
    2:{ rewrite Hs. apply vidx_app; auto. apply vidx_cons; auto. }
    rewrite Ha. rewrite nth_left.
    assert (E : length pre = length p) by (apply vidx_length in Hp; lia).
    rewrite E, nth_left, upd_left. reflexivity.
Qed.

(** The core assembling code, uniformly in the kind of object. *)
Definition add_core (axl axr d i : nat) (ac bc uz lz : tensor K) : res (tensor K) :=
  if Nat.eqb i 0 then concat [ac; bc] axr
  else if Nat.eqb i (d - 1) then concat [ac; bc] axl
  else
    do upper <- concat [ac; uz] axr;
    do lower <- concat [lz; bc] axr;
    concat [upper; lower] axl.

Lemma add_core_ok pre ms (ra rb : nat -> nat) d i (ac bc : tensor K) (Ga Gb : list nat -> nat -> nat -> list nat -> nat -> K) :
  2 <= d -> i < d ->
  ra 0 = 1 -> rb 0 = 1 -> ra d = 1 -> rb d = 1 ->
  shape ac = pre ++ ra i :: ms ++ [ra (S i)] -> shape bc = pre ++ rb i :: ms ++ [rb (S i)] ->
  (forall p a j b, vidx pre p -> a < ra i -> vidx ms j -> b < ra (S i) ->
     get ac (p ++ a :: j ++ [b]) = Ga p i a j b) ->
  (forall p a j b, vidx pre p -> a < rb i -> vidx ms j -> b < rb (S i) ->
     get bc (p ++ a :: j ++ [b]) = Gb p i a j b) ->
  let rc m := if Nat.eqb m 0 then 1 else if Nat.eqb m d then 1 else ra m + rb m in
  exists c, add_core (length pre) (length pre + S (length ms)) d i ac bc
      (zeros (pre ++ ra i :: ms ++ [rb (S i)])) (zeros (pre ++ rb i :: ms ++ [ra (S i)])) = Ok c /\
    wft c /\ shape c = pre ++ rc i :: ms ++ [rc (S i)] /\
    forall p a j b, vidx pre p -> a < rc i -> vidx ms j -> b < rc (S i) ->
      get c (p ++ a :: j ++ [b]) = addG (Ga p) (Gb p) ra d i a j b.
Proof.
  intros Hd Hi Ha0 Hb0 Had Hbd Hsa Hsb HGa HGb rc. unfold add_core, addG.
  destruct (Nat.eqb_spec i 0) as [->|Hi0].
  - rewrite Ha0 in *. rewrite Hb0 in *.
    destruct (concat_right ac bc pre 1 ms (ra 1) (rb 1)) as (t & Ht & Hw & Hs & Hg); auto.
    assert (E0 : rc 0 = 1) by reflexivity.
    assert (E1 : rc 1 = ra 1 + rb 1).
    { unfold rc. cbn [Nat.eqb]. destruct d as [|[|d]]; try lia. }
    exists t. rewrite E0, E1. split; auto. split; auto. split; auto.
    intros p a j b Hp Ha Hj Hb. rewrite Hg by auto.
    destruct (Nat.ltb_spec b (ra 1)); [now apply HGa|]. apply HGb; auto; lia.
  - assert (Ei : rc i = ra i + rb i).
    { unfold rc. destruct (Nat.eqb_spec i 0); [lia|]. destruct (Nat.eqb_spec i d); [lia|]. auto. }
    rewrite Ei. destruct (Nat.eqb_spec i (d - 1)) as [E|E].
    + assert (ES : S i = d) by lia.
      assert (Ec : rc (S i) = 1).
      { unfold rc. rewrite ES, Nat.eqb_refl. destruct (d =? 0); auto. }
      rewrite Ec. rewrite ES in *. rewrite Had in *. rewrite Hbd in *.
      destruct (concat_left ac bc pre (ms ++ [1]) (ra i) (rb i)) as (t & Ht & Hw & Hs & Hg); auto.
      exists t. split; auto. split; auto. split; auto.
      intros p a j b Hp Ha Hj Hb. rewrite Hg; auto.
      2:{ apply vidx_app; auto. vsolve. }
      destruct (Nat.ltb_spec a (ra i)); [now apply HGa|]. apply HGb; auto; lia.
    + assert (Ec : rc (S i) = ra (S i) + rb (S i)).
      { unfold rc. destruct (Nat.eqb_spec (S i) 0); [lia|]. destruct (Nat.eqb_spec (S i) d); [lia|]. auto. }
      rewrite Ec.
      destruct (concat_right ac (zeros (pre ++ ra i :: ms ++ [rb (S i)])) pre (ra i) ms (ra (S i)) (rb (S i)))
        as (u & Hu & Hwu & Hsu & Hgu); auto.
      rewrite Hu. cbn [bind].
      destruct (concat_right (zeros (pre ++ rb i :: ms ++ [ra (S i)])) bc pre (rb i) ms (ra (S i)) (rb (S i)))
        as (l & Hl & Hwl & Hsl & Hgl); auto.
      rewrite Hl. cbn [bind].
      destruct (concat_left u l pre (ms ++ [ra (S i) + rb (S i)]) (ra i) (rb i)) as (t & Ht & Hw & Hs & Hg); auto.
      exists t. split; auto. split; auto. split; auto.
      intros p a j b Hp Ha Hj Hb. rewrite Hg; auto.
      2:{ apply vidx_app; auto. vsolve. }
      destruct (Nat.ltb_spec a (ra i)).
      * rewrite Hgu by auto. destruct (Nat.ltb_spec b (ra (S i))); [now apply HGa|].
        apply get_zeros. apply vidx_app; auto. apply vidx_cons; auto. apply vidx_app; auto. vsolve.
      * rewrite Hgl by (auto; lia). destruct (Nat.ltb_spec b (ra (S i))); [|apply HGb; auto; lia].
        apply get_zeros. apply vidx_app; auto. apply vidx_cons; [lia|]. apply vidx_app; auto. vsolve.
Qed.

End WithK.

Section Add.
Variable K : cring.
Add Ring Kring2 : (cth K).
Implicit Types a b e : tt K.

Definition add_ranks a b : list nat :=
  1 :: map (fun i => rk a i + rk b i) (seq 1 (ndims a - 1)) ++ [1].

Definition add_rc a b (m : nat) : nat :=
  if Nat.eqb m 0 then 1 else if Nat.eqb m (ndims a) then 1 else rk a m + rk b m.

Lemma add_ranks_nth a b m : 0 < ndims a -> m <= ndims a -> nth m (add_ranks a b) 0 = add_rc a b m.
Proof.
  intros Hd Hm. unfold add_ranks, add_rc. destruct m as [|m]; [reflexivity|]. cbn [nth]. destruct (Nat.eqb_spec (S m) 0); [lia|].
  destruct (Nat.eqb_spec (S m) (ndims a)) as [E|E].
  - rewrite app_nth2; rewrite map_length, seq_length; [|lia].
    replace (m - (ndims a - 1)) with 0 by lia. reflexivity.
  - rewrite app_nth1 by (rewrite map_length, seq_length; lia).
    rewrite (nth_map_default _ _ m 0) by (rewrite seq_length; lia).
    now rewrite seq_nth by lia.
Qed.

Lemma add_ranks_length a b : 0 < ndims a -> length (add_ranks a b) = S (ndims a).
Proof. intros. unfold add_ranks. cbn. rewrite app_length, map_length, seq_length. cbn. lia. Qed.

Lemma add_ranks_pos a b : wf a -> wf b -> ndims a = ndims b -> Forall (fun n => 0 < n) (add_ranks a b).
Proof.
  intros Ha Hb Hd. unfold add_ranks. constructor; [lia|]. apply Forall_app. split; [|repeat constructor].
  apply Forall_forall. intros n Hn. apply in_map_iff in Hn as (m & <- & Hm). apply in_seq in Hm.
  pose proof (rk_pos _ a m Ha ltac:(lia)). lia.
Qed.

Lemma same_ndims a b : wf a -> wf b -> rshape a = rshape b -> ndims a = ndims b.
Proof.
  intros Ha Hb H. assert (Hk := wf_kind Ha).
  rewrite <- (rshape_len _ a 0 Ha), <- (rshape_len _ b 0 Hb) by (rewrite <- ?H; lia). now rewrite H.
Qed.

(** What all variants of the core loop establish. *)
Lemma add_assemble a b (bs : option nat) (Ga Gb : list nat -> nat -> nat -> list nat -> nat -> K)
    (f : nat -> res (tensor K)) (fa fb : nat -> res (tensor K)) :
  wf a -> wf b -> rshape a = rshape b -> 2 <= ndims a ->
  Forall (fun n => 0 < n) (pre_of bs) ->
  (forall i, i < ndims a -> exists ac, fa i = Ok ac /\ wft ac /\
     shape ac = pre_of bs ++ rk a i :: modes a i ++ [rk a (S i)] /\
     forall p x j y, vidx (pre_of bs) p -> x < rk a i -> vidx (modes a i) j -> y < rk a (S i) ->
       get ac (p ++ x :: j ++ [y]) = Ga p i x j y) ->
  (forall i, i < ndims a -> exists bc, fb i = Ok bc /\ wft bc /\
     shape bc = pre_of bs ++ rk b i :: modes a i ++ [rk b (S i)] /\
     forall p x j y, vidx (pre_of bs) p -> x < rk b i -> vidx (modes a i) j -> y < rk b (S i) ->
       get bc (p ++ x :: j ++ [y]) = Gb p i x j y) ->
  (forall i, i < ndims a -> f i =
     do ac <- fa i; do bc <- fb i;
     add_core K (length (pre_of bs)) (length (pre_of bs) + S (length (rshape a))) (ndims a) i ac bc
       (zeros (pre_of bs ++ rk a i :: modes a i ++ [rk b (S i)]))
       (zeros (pre_of bs ++ rk b i :: modes a i ++ [rk a (S i)]))) ->
  exists cs, mapM f (seq 0 (ndims a)) = Ok cs /\
    let c := TT cs (rshape a) (add_ranks a b) bs in
    construct cs (rshape a) (add_ranks a b) bs = Ok c /\ wf c /\ ndims c = ndims a /\
    forall p J, vidx (pre_of bs) p -> vchain (modes a) 0 J -> length J = ndims a ->
      tt_entry c p J = (chain (Ga p) (rk a) 0 J (fun _ => c1) 0 + chain (Gb p) (rk b) 0 J (fun _ => c1) 0)%K.
Proof.
  intros Ha Hb Hr Hd Hpos Hfa Hfb Hf.
  pose proof (same_ndims a b Ha Hb Hr) as Hdd.
  destruct (build_ok K f (fun i c => forall p x j y, vidx (pre_of bs) p -> x < add_rc a b i ->
       vidx (modes a i) j -> y < add_rc a b (S i) ->
       get c (p ++ x :: j ++ [y]) = addG K (Ga p) (Gb p) (rk a) (ndims a) i x j y)
     (ndims a) bs (rshape a) (add_ranks a b)) as (cs & Hcs & Hl & Hcon & Hw & HP); try apply Ha; auto.
  - apply add_ranks_length. lia.
  - rewrite add_ranks_nth by lia. unfold add_rc. rewrite Nat.eqb_refl. now destruct (ndims a =? 0).
  - now apply add_ranks_pos.
  - intros i Hi. destruct (Hfa i Hi) as (ac & Eac & Wac & Sac & Gac).
    destruct (Hfb i Hi) as (bc & Ebc & Wbc & Sbc & Gbc).
    rewrite Hf by auto. rewrite Eac, Ebc. cbn [bind].
    destruct (add_core_ok K (pre_of bs) (modes a i) (rk a) (rk b) (ndims a) i ac bc Ga Gb Hd Hi)
      as (c & Hc & Hwc & Hsc & Hgc); auto; try apply Ha.
    + apply Hb.
    + rewrite Hdd. apply Hb.
    + rewrite modes_length in Hc. exists c. split; [exact Hc|]. split; [exact Hwc|].
      rewrite !add_ranks_nth by lia. split; [exact Hsc|]. exact Hgc.
  - exists cs. split; [exact Hcs|]. split; [exact Hcon|]. split; [exact Hw|]. split; [exact Hl|].
    intros p J Hp HJ HlJ.
    set (c := TT cs (rshape a) (add_ranks a b) bs) in *.
    assert (Hrk : forall m, m <= ndims a -> rk c m = add_rc a b m).
    { intros m Hm. unfold rk, c. cbn [rks]. apply add_ranks_nth; lia. }
    assert (Hn : ndims c = ndims a) by exact Hl.
    rewrite (tt_entry_cores K c p J (addG K (Ga p) (Gb p) (rk a) (ndims a))); auto; try congruence.
    + rewrite <- (chain_add K (modes a) (Ga p) (Gb p) (rk a) (rk b) (rk c) (ndims a) J); auto;
        try apply Ha; try apply Hb.
      * rewrite Hdd. apply Hb.
      * rewrite Hrk by lia. unfold add_rc. rewrite Nat.eqb_refl. now destruct (ndims a =? 0).
      * intros m Hm. rewrite Hrk by lia. unfold add_rc.
        destruct (Nat.eqb_spec m 0); [lia|]. destruct (Nat.eqb_spec m (ndims a)); [lia|]. auto.
    + intros i x j y Hi Hx Hj Hy. rewrite Hn in Hi. rewrite !Hrk in * by lia.
      unfold coreG, core. cbn [cores]. apply HP; auto.
Qed.

(** Batch cores after expand and tile. *)
Lemma bcast_core a e B i : wf a -> wf e -> rshape e = rshape a -> rks e = rks a -> ndims e = ndims a ->
  (exists x, bsz e = Some x /\ (x = 1 \/ x = B)) -> 0 < B -> i < ndims a ->
  exists c, (match bsz e with
             | Some 1 => tile (core e i) (B :: repeat 1 (S (S (length (rshape a)))))
             | _ => Ok (core e i) end) = Ok c /\ wft c /\
    shape c = [B] ++ rk a i :: modes a i ++ [rk a (S i)] /\
    forall o x j y, o < B -> x < rk a i -> vidx (modes a i) j -> y < rk a (S i) ->
      get c (o :: x :: j ++ [y]) = coreG e (bsel e o) i x j y.
Proof.
  intros Ha He Hr Hk Hn (x & Hx & HxB) HB Hi. rewrite Hx.
  pose proof (core_shape _ e i He ltac:(lia)) as Hs. unfold bpre in Hs. rewrite Hx in Hs. cbn [app] in Hs.
  assert (Hrk : forall m, rk e m = rk a m) by (intros; unfold rk; now rewrite Hk).
  rewrite !Hrk in Hs. rewrite (modes_ext _ e a i Hr) in Hs.
  destruct (Nat.eq_dec x 1) as [->|Hx1].
  - destruct (tile_batch K (core e i) _ B (core_wft _ e i He ltac:(lia)) Hs) as (c & Hc & Hw & Hsc & Hg).
    cbn [length] in Hc. rewrite app_length, modes_length in Hc. cbn [length] in Hc.
    rewrite Nat.add_1_r in Hc.
    exists c. repeat (split; [assumption|]). intros o y j z Ho Hy Hj Hz.
    rewrite Hg; auto. 2:{ apply vidx_cons; auto. apply vidx_app; auto. vsolve. }
    unfold coreG, bsel. now rewrite Hx.
  - assert (E : (match x with 1 => tile (core e i) (B :: repeat 1 (S (S (length (rshape a))))) | _ => Ok (core e i) end)
        = Ok (core e i)) by (destruct x as [|[|x]]; try lia; reflexivity).
    exists (core e i). split; [destruct x as [|[|x']]; try lia; reflexivity|].
    split; [apply (core_wft _ e i He); lia|]. destruct HxB as [->| ->]; [lia|].
    split; [exact Hs|].
    intros o y j z Ho Hy Hj Hz. unfold coreG. now rewrite (bsel_some _ e B o Hx Ho).
Qed.

(** Entries of an expanded object. *)
Lemma expand_entries a : wf a -> exists e, expand_batch_dim a = Ok e /\ wf e /\ rshape e = rshape a /\
  rks e = rks a /\ ndims e = ndims a /\
  bsz e = Some (match bsz a with Some x => x | None => 1 end) /\
  forall o i x j y, i < ndims a -> coreG e (bsel e o) i x j y = coreG a (bsel a o) i x j y.
Proof.
  intros Ha. destruct (bsz a) as [x|] eqn:Eb.
  - exists a. unfold expand_batch_dim. rewrite Eb. repeat (split; [first [assumption|reflexivity]|]). auto.
  - destruct (expand_ok K a Ha Eb) as (e & He & Hwe & H1 & H2 & H3 & H4 & H5).
    exists e. repeat (split; [assumption|]). intros o i y j z Hi. unfold coreG, bsel. rewrite H3, Eb.
    cbn [app]. now apply H5.
Qed.

Lemma add_nonbatch a b : wf a -> wf b -> rshape a = rshape b -> 2 <= ndims a ->
  bsz a = None -> bsz b = None ->
  exists c, add a b = Ok c /\ wf c /\ rshape c = rshape a /\ rks c = add_ranks a b /\ bsz c = None /\
    ndims c = ndims a /\
    forall J, vchain (modes a) 0 J -> length J = ndims a ->
      tt_entry c [] J = (tt_entry a [] J + tt_entry b [] J)%K.
Proof.
  intros Ha Hb Hr Hd Ba Bb. unfold add.
  assert (Em : is_tt_matrix a = is_tt_matrix b) by (unfold is_tt_matrix; now rewrite Hr).
  rewrite Em, eqb_reflx. rewrite (proj2 (llist_eqb_eq _ _) Hr). unfold is_batch_broadcasting_possible, is_batch.
  rewrite Ba, Bb. cbn [negb orb].
  fold (add_ranks a b).
  pose proof (same_ndims a b Ha Hb Hr) as Hdd.
  assert (HM : forall f : nat -> res (tensor K),
    (forall i, i < ndims a -> f i = do ac <- Ok (core a i); do bc <- Ok (core b i);
     add_core K (length (pre_of None)) (length (pre_of None) + S (length (rshape a))) (ndims a) i ac bc
       (zeros (pre_of None ++ rk a i :: modes a i ++ [rk b (S i)]))
       (zeros (pre_of None ++ rk b i :: modes a i ++ [rk a (S i)]))) ->
    exists cs, mapM f (seq 0 (ndims a)) = Ok cs /\
    let c := TT cs (rshape a) (add_ranks a b) None in
    construct cs (rshape a) (add_ranks a b) None = Ok c /\ wf c /\ ndims c = ndims a /\
    forall p J, vidx (pre_of None) p -> vchain (modes a) 0 J -> length J = ndims a ->
      tt_entry c p J = (chain (coreG a p) (rk a) 0 J (fun _ => c1) 0 +
                        chain (coreG b p) (rk b) 0 J (fun _ => c1) 0)%K).
  { intros f Hf.
    apply (add_assemble a b None (fun p => coreG a p) (fun p => coreG b p) f
             (fun i => Ok (core a i)) (fun i => Ok (core b i))); auto.
    - constructor.
    - intros i Hi. exists (core a i). split; auto. split; [apply (core_wft _ a i Ha Hi)|].
      split; [rewrite core_shape by auto; unfold bpre; now rewrite Ba|]. reflexivity.
    - intros i Hi. exists (core b i). split; auto. rewrite Hdd in Hi. split; [apply (core_wft _ b i Hb Hi)|].
      split; [rewrite core_shape by auto; unfold bpre; rewrite Bb; now rewrite (modes_ext _ a b)|]. reflexivity. }
  rewrite <- Em.
  destruct (wf_kind_cases _ a Ha) as [(E & Hl & Hm)|(E & Hl & Hm)]; rewrite E.
  - unfold add_tensor_cores.
    match goal with |- context [mapM ?f _] => destruct (HM f) as (cs & Hcs & Hcon & Hw & Hn & HJ) end.
    { intros i Hi. cbn [bind pre_of length app]. rewrite Hl, Hm. reflexivity. }
    rewrite Hcs. cbn [bind]. unfold construct in Hcon. rewrite Hcon.
    eexists. repeat (split; [first [reflexivity|eassumption]|]). intros J HvJ HlJ. apply HJ; auto. constructor.
  - unfold add_matrix_cores.
    match goal with |- context [mapM ?f _] => destruct (HM f) as (cs & Hcs & Hcon & Hw & Hn & HJ) end.
    { intros i Hi. cbn [bind pre_of length app]. rewrite Hl, Hm. reflexivity. }
    rewrite Hcs. cbn [bind]. unfold construct in Hcon. rewrite Hcon.
    eexists. repeat (split; [first [reflexivity|eassumption]|]). intros J HvJ HlJ. apply HJ; auto. constructor.
Qed.

Lemma add_batch a b B : wf a -> wf b -> rshape a = rshape b -> 2 <= ndims a ->
  is_batch_broadcasting_possible a b = true -> add_batch_size a b = Ok B -> is_batch a || is_batch b = true ->
  exists c, add a b = Ok c /\ wf c /\ rshape c = rshape a /\ rks c = add_ranks a b /\ bsz c = Some B /\
    ndims c = ndims a /\ compat a B /\ compat b B /\
    forall o J, o < B -> vchain (modes a) 0 J -> length J = ndims a ->
      tt_entry c [o] J = (tt_entry a (bsel a o) J + tt_entry b (bsel b o) J)%K.
Proof.
  intros Ha Hb Hr Hd Hbc HB Hany. unfold add.
  assert (Em : is_tt_matrix a = is_tt_matrix b) by (unfold is_tt_matrix; now rewrite Hr).
  rewrite Em, eqb_reflx. rewrite (proj2 (llist_eqb_eq _ _) Hr). rewrite Hbc, Hany.
  cbn [negb].
  fold (add_ranks a b).
  pose proof (same_ndims a b Ha Hb Hr) as Hdd.
  destruct (expand_entries a Ha) as (ea & Hea & Hwa & Ra & Ka & Na & Sa & Ca).
  destruct (expand_entries b Hb) as (eb & Heb & Hwb & Rb & Kb & Nb & Sb & Cb).
  assert (Hcomp : compat a B /\ compat b B /\ 0 < B /\
     (match bsz a with Some x => x | None => 1 end = 1 \/ match bsz a with Some x => x | None => 1 end = B) /\
     (match bsz b with Some x => x | None => 1 end = 1 \/ match bsz b with Some x => x | None => 1 end = B)).
  { clear - Ha Hb Hbc HB Hany. pose proof (wf_bpos Ha) as Pa. pose proof (wf_bpos Hb) as Pb.
    unfold add_batch_size, lazy_batch_size, is_batch_broadcasting_possible, compat, is_batch, bpre in *.
    destruct (bsz a) as [x|], (bsz b) as [y|]; try discriminate.
    - inversion Pa; inversion Pb; subst.
      destruct x as [|[|x]]; try discriminate HB; injection HB as <-; [lia|repeat split; auto|].
      apply orb_prop in Hbc as [H|H]; [apply orb_prop in H as [H|H]|]; apply Nat.eqb_eq in H; subst; try lia;
        repeat split; auto; lia.
    - inversion Pa; subst. destruct x as [|[|x]]; try discriminate HB; injection HB as <-; [lia|].
      repeat split; auto; lia. }
  destruct Hcomp as (CA & CB & HB0 & Xa & Xb).
  rewrite <- Em.
  assert (HM : forall f : nat -> res (tensor K),
    (forall i, i < ndims a -> f i =
     do ac <- (match bsz ea with
             | Some 1 => tile (core ea i) (B :: repeat 1 (S (S (length (rshape a)))))
             | _ => Ok (core ea i) end);
     do bc <- (match bsz eb with
             | Some 1 => tile (core eb i) (B :: repeat 1 (S (S (length (rshape b)))))
             | _ => Ok (core eb i) end);
     add_core K (length (pre_of (Some B))) (length (pre_of (Some B)) + S (length (rshape a))) (ndims a) i ac bc
       (zeros (pre_of (Some B) ++ rk a i :: modes a i ++ [rk b (S i)]))
       (zeros (pre_of (Some B) ++ rk b i :: modes a i ++ [rk a (S i)]))) ->
    exists cs, mapM f (seq 0 (ndims a)) = Ok cs /\
    let c := TT cs (rshape a) (add_ranks a b) (Some B) in
    construct cs (rshape a) (add_ranks a b) (Some B) = Ok c /\ wf c /\ ndims c = ndims a /\
    forall p J, vidx (pre_of (Some B)) p -> vchain (modes a) 0 J -> length J = ndims a ->
      tt_entry c p J = (chain (coreG ea (bsel ea (hd 0%nat p))) (rk a) 0 J (fun _ => c1) 0 +
                        chain (coreG eb (bsel eb (hd 0%nat p))) (rk b) 0 J (fun _ => c1) 0)%K).
  { intros f Hf.
    apply (add_assemble a b (Some B) (fun p => coreG ea (bsel ea (hd 0%nat p)))
      (fun p => coreG eb (bsel eb (hd 0%nat p))) f
      (fun i => match bsz ea with
             | Some 1 => tile (core ea i) (B :: repeat 1 (S (S (length (rshape a)))))
             | _ => Ok (core ea i) end)
      (fun i => match bsz eb with
             | Some 1 => tile (core eb i) (B :: repeat 1 (S (S (length (rshape b)))))
             | _ => Ok (core eb i) end)); auto.
    - cbn. repeat constructor; auto.
    - intros i Hi. destruct (bcast_core a ea B i) as (c & Hc & Hw & Hs & Hg); eauto.
      exists c. split; [exact Hc|]. split; auto. split; auto.
      intros p x j y Hp Hx Hj Hy. apply vidx_1_inv in Hp as (o & -> & Ho). cbn [app hd]. now apply Hg.
    - intros i Hi. rewrite Hdd in Hi. destruct (bcast_core b eb B i) as (c & Hc & Hw & Hs & Hg); eauto.
      exists c. split; [exact Hc|]. split; auto. rewrite (modes_ext _ a b i Hr). split; auto.
      intros p x j y Hp Hx Hj Hy. apply vidx_1_inv in Hp as (o & -> & Ho). cbn [app hd]. now apply Hg. }
  assert (HF : forall cs,
    let c := TT cs (rshape a) (add_ranks a b) (Some B) in
    (forall p J, vidx (pre_of (Some B)) p -> vchain (modes a) 0 J -> length J = ndims a ->
      tt_entry c p J = (chain (coreG ea (bsel ea (hd 0%nat p))) (rk a) 0 J (fun _ => c1) 0 +
                        chain (coreG eb (bsel eb (hd 0%nat p))) (rk b) 0 J (fun _ => c1) 0)%K) ->
    forall o J, o < B -> vchain (modes a) 0 J -> length J = ndims a ->
      tt_entry c [o] J = (tt_entry a (bsel a o) J + tt_entry b (bsel b o) J)%K).
  { intros cs c H o J Ho HvJ HlJ. rewrite H; auto.
    2:{ cbn. apply vidx_cons; auto. constructor. }
    cbn [hd]. unfold tt_entry. f_equal.
    - eapply chain_ext; eauto.
      + rewrite (wf_first Ha). lia.
      + intros. apply Ca. lia.
    - eapply (chain_ext _ (modes a)); eauto.
      + rewrite (wf_first Hb). lia.
      + intros. apply Cb. lia. }
  destruct (wf_kind_cases _ a Ha) as [(E & Hl & Hm)|(E & Hl & Hm)]; rewrite E.
  - unfold add_batch_tensor_cores. rewrite HB, Hea, Heb. cbn [bind].
    match goal with |- context [mapM ?f _] => destruct (HM f) as (cs & Hcs & Hcon & Hw & Hn & HJ) end.
    { intros i Hi. cbn [pre_of length app]. rewrite <- Hr, Hl, Hm. reflexivity. }
    rewrite Hcs. cbn [bind fst snd]. unfold construct in Hcon. rewrite Hcon.
    eexists. repeat (split; [first [reflexivity|eassumption]|]). apply HF. exact HJ.
  - unfold add_batch_matrix_cores. rewrite HB, Hea, Heb. cbn [bind].
    match goal with |- context [mapM ?f _] => destruct (HM f) as (cs & Hcs & Hcon & Hw & Hn & HJ) end.
    { intros i Hi. cbn [pre_of length app]. rewrite <- Hr, Hl, Hm. reflexivity. }
    rewrite Hcs. cbn [bind fst snd]. unfold construct in Hcon. rewrite Hcon.
    eexists. repeat (split; [first [reflexivity|eassumption]|]). apply HF. exact HJ.
Qed.

End Add.
