(** [multiply] of two TT objects: correctness. *)
From Coq Require Import String List Arith ZArith Lia Bool Ring.
From Verif Require Import Scalar Tensor TensorLemmas TensorLemmas2 Base Spec Chain BaseLemmas Ops
  FullProofs ResultLemmas Dense AddProofs.
Import ListNotations.

Section WithK.
Variable K : cring.
Add Ring Kring : (cth K).
Implicit Types a b : tt K.

(** Merging the two pairs of rank axes. *)
Lemma merge_ravel P p Q q l1 l2 ms j r1 r2 x y u v :
  length p = length P -> length q = length Q -> length j = length ms -> ravel Q q = ravel P p ->
  ravel (Q ++ l1 * l2 :: ms ++ [r1 * r2]) (q ++ (x * l2 + y) :: j ++ [u * r2 + v]) =
  ravel (P ++ l1 :: l2 :: ms ++ [r1; r2]) (p ++ x :: y :: j ++ [u; v]).
Proof.
  intros Hp Hq Hj E. rewrite !ravel_app by auto. cbn [ravel]. rewrite !ravel_app by auto. cbn [ravel].
  rewrite E. pns. cbn [ravel]. pns. ring.
Qed.

Lemma merge_reshape (t : tensor K) P l1 l2 ms r1 r2 :
  shape t = P ++ l1 :: l2 :: ms ++ [r1; r2] -> wft t ->
  0 < l1 -> 0 < l2 -> 0 < r1 -> 0 < r2 -> Forall (fun n => 0 < n) ms ->
  exists t', reshape t (None :: Some (l1 * l2) :: map Some ms ++ [Some (r1 * r2)]) = Ok t' /\ wft t' /\
    shape t' = prodn P :: l1 * l2 :: ms ++ [r1 * r2] /\
    forall o p x y j u v, length p = length P -> o = ravel P p -> length j = length ms ->
      get t' (o :: (x * l2 + y) :: j ++ [u * r2 + v]) = get t (p ++ x :: y :: j ++ [u; v]).
Proof.
  intros Hs Hw H1 H2 H3 H4 Hms. apply prodn_pos in Hms.
  assert (Hsz : prodn [] * prodn P * prodn (l1 * l2 :: ms ++ [r1 * r2]) = size t).
  { unfold size. rewrite Hs. pns. ring. }
  pose proof (reshape_infer K t [] (l1 * l2 :: ms ++ [r1 * r2]) (prodn P)) as HR.
  cbn [map app] in HR. rewrite map_app in HR. cbn [map] in HR.
  exists (Tensor (prodn P :: l1 * l2 :: ms ++ [r1 * r2]) (data t)). split.
  { apply HR; auto; pns; nia. }
  split. { unfold wft. cbn [data shape]. rewrite Hw, Hs. pns. ring. }
  split; [reflexivity|]. intros o p x y j u v Hp -> Hj.
  apply get_reshaped; auto. rewrite Hs.
  apply (merge_ravel P p [prodn P] [ravel P p]); auto. cbn [ravel]. pns. lia.
Qed.

Lemma merge_reshape_exact (t : tensor K) P l1 l2 ms r1 r2 :
  shape t = P ++ l1 :: l2 :: ms ++ [r1; r2] -> wft t ->
  exists t', reshape t (map Some (P ++ l1 * l2 :: ms ++ [r1 * r2])) = Ok t' /\ wft t' /\
    shape t' = P ++ l1 * l2 :: ms ++ [r1 * r2] /\
    forall p x y j u v, length p = length P -> length j = length ms ->
      get t' (p ++ (x * l2 + y) :: j ++ [u * r2 + v]) = get t (p ++ x :: y :: j ++ [u; v]).
Proof.
  intros Hs Hw. eexists. split.
  { apply reshape_exact. unfold size. rewrite Hs. pns. ring. }
  split. { unfold wft. cbn [data shape]. rewrite Hw, Hs. pns. ring. }
  split; [reflexivity|]. intros p x y j u v Hp Hj.
  apply get_reshaped; auto. rewrite Hs. apply merge_ravel; auto.
Qed.

Lemma squeeze0 (t : tensor K) s : shape t = 1 :: s -> wft t ->
  exists t', squeeze_axis t 0 = Ok t' /\ wft t' /\ shape t' = s /\
    forall idx, get t' idx = get t (0 :: idx).
Proof.
  intros Hs Hw. unfold squeeze_axis. rewrite Hs. cbn [nth_error del].
  eexists. split; [reflexivity|]. split.
  { unfold wft in *. cbn [data shape]. rewrite Hw, Hs. pns. lia. }
  split; [reflexivity|]. intros idx. unfold get. cbn [data shape]. rewrite Hs. cbn [ravel]. reflexivity.
Qed.

Lemma vidx_cons_inv' n sh I : vidx (n :: sh) I -> exists i I', I = i :: I' /\ i < n /\ vidx sh I'.
Proof. intros H. inversion H; subst. eauto. Qed.

(** Batch axes of the einsum result and the index in them of result element [o]. *)
Definition mulP a b : list nat :=
  match bsz a, bsz b with
  | Some x, Some y => if Nat.eqb x y then [x] else [x; y]
  | Some x, None => [x] | None, Some y => [y] | None, None => []
  end.
Definition mulq a b (o : nat) : list nat :=
  match bsz a, bsz b with
  | Some x, Some y => if Nat.eqb x y then [o] else if Nat.eqb x 1 then [0; o] else [o; 0]
  | Some x, None => [o] | None, Some y => [o] | None, None => []
  end.

Definition mul_strs a b : string * string * string :=
    match bsz a, bsz b with
    | Some x, Some y => if Nat.eqb x y then ("n", "n", "n")%string else ("n", "m", "nm")%string
    | Some x, None => ("n", "", "n")%string
    | None, Some y => ("", "n", "n")%string
    | None, None => ("", "", "")%string
    end.

Definition mul_bs a b : option nat :=
    match bsz a, bsz b with
    | Some x, Some y => if Nat.eqb x y then Some x else Some (if Nat.ltb 1 x then x else y)
    | Some x, None => Some x
    | None, Some y => Some y
    | None, None => None
    end.

Definition mul_B a b : nat := match mul_bs a b with Some x => x | None => 1 end.

Ltac kill_match :=
  repeat match goal with
  | |- context [match ?x with _ => _ end] => first [rewrite Nat.eqb_refl | destruct x eqn:?]
  end.

Lemma mul_einsum a b i : wf a -> wf b -> rshape a = rshape b -> i < ndims a ->
  is_batch_broadcasting_possible a b = true ->
  let '(sl, sr, so) := mul_strs a b in
  exists c, (if is_tt_matrix a
     then einsum (sl ++ "aijb," ++ sr ++ "cijd->" ++ so ++ "acijbd")%string [core a i; core b i]
     else einsum (sl ++ "aib," ++ sr ++ "cid->" ++ so ++ "acibd")%string [core a i; core b i]) = Ok c /\
    wft c /\ shape c = mulP a b ++ rk a i :: rk b i :: modes a i ++ [rk a (S i); rk b (S i)] /\
    forall o x y j u v, o < mul_B a b -> x < rk a i -> y < rk b i -> vidx (modes a i) j ->
      u < rk a (S i) -> v < rk b (S i) ->
      get c (mulq a b o ++ x :: y :: j ++ [u; v]) = (coreG a (bsel a o) i x j u * coreG b (bsel b o) i y j v)%K.
Proof.
  intros Ha Hb Hr Hi Hbc. pose proof (same_ndims K a b Ha Hb Hr) as Hd.
  pose proof (core_shape _ a i Ha Hi) as Sa. pose proof (core_shape _ b i Hb ltac:(lia)) as Sb.
  rewrite <- (modes_ext _ a b i Hr) in Sb.
  unfold mul_strs, is_batch_broadcasting_possible, mulP, mulq, mul_B, mul_bs, bpre, coreG in *.
  destruct (wf_kind_cases _ a Ha) as [(E & Hl & Hm)|(E & Hl & Hm)]; rewrite E, Hm in *; clear E Hl Hm.
  - destruct (bsz a) as [x|] eqn:Ba, (bsz b) as [y|] eqn:Bb; cbn [app] in Sa, Sb.
    + destruct (Nat.eqb_spec x y) as [->|Hxy].
      * einsum_step. eexists. split; [reflexivity|]. split; [apply wft_mk|]. split; [reflexivity|].
        intros o p q j u v Ho Hp Hq Hj Hu Hv. apply vidx_1_inv in Hj as (k & -> & Hk). cbn [app].
        rewrite get_mk by vsolve. ecbv. rewrite (bsel_some K a y o), (bsel_some K b y o); auto.
      * einsum_step. eexists. split; [reflexivity|]. split; [apply wft_mk|]. split; [reflexivity|].
        intros o p q j u v Ho Hp Hq Hj Hu Hv. apply vidx_1_inv in Hj as (k & -> & Hk).
        unfold bsel. rewrite Ba, Bb.
        assert (Hc : x = 1 \/ y = 1).
        { cbn [orb] in Hbc. apply orb_prop in Hbc as [H|H]; apply Nat.eqb_eq in H; auto. }
        destruct (Nat.eqb_spec x 1) as [->|Hx1].
        -- cbn [app]. cbn in Ho. rewrite get_mk by vsolve. ecbv. destruct y as [|[|y]]; auto; lia.
        -- destruct Hc as [->| ->]; [contradiction|].
           assert (Ho' : o < x).
           { pose proof (wf_bpos Ha) as Pa. unfold bpre in Pa. rewrite Ba in Pa. inversion Pa; subst.
             destruct (Nat.ltb_spec 1 x); lia. }
           cbn [app]. rewrite get_mk by vsolve. ecbv. destruct x as [|[|x]]; auto; lia.
    + einsum_step. eexists. split; [reflexivity|]. split; [apply wft_mk|]. split; [reflexivity|].
      intros o p q j u v Ho Hp Hq Hj Hu Hv. apply vidx_1_inv in Hj as (k & -> & Hk). cbn [app].
      rewrite get_mk by vsolve. ecbv. rewrite (bsel_some K a x o); auto. unfold bsel. now rewrite Bb.
    + einsum_step. eexists. split; [reflexivity|]. split; [apply wft_mk|]. split; [reflexivity|].
      intros o p q j u v Ho Hp Hq Hj Hu Hv. apply vidx_1_inv in Hj as (k & -> & Hk). cbn [app].
      rewrite get_mk by vsolve. ecbv. rewrite (bsel_some K b y o); auto. unfold bsel. now rewrite Ba.
    + einsum_step. eexists. split; [reflexivity|]. split; [apply wft_mk|]. split; [reflexivity|].
      intros o p q j u v Ho Hp Hq Hj Hu Hv. apply vidx_1_inv in Hj as (k & -> & Hk). cbn [app].
      rewrite get_mk by vsolve. ecbv. unfold bsel. now rewrite Ba, Bb.
  - destruct (bsz a) as [x|] eqn:Ba, (bsz b) as [y|] eqn:Bb; cbn [app] in Sa, Sb.
    + destruct (Nat.eqb_spec x y) as [->|Hxy].
      * einsum_step. eexists. split; [reflexivity|]. split; [apply wft_mk|]. split; [reflexivity|].
        intros o p q j u v Ho Hp Hq Hj Hu Hv. apply vidx_2_inv in Hj as (k & k' & -> & Hk & Hk'). cbn [app].
        rewrite get_mk by vsolve. ecbv. rewrite (bsel_some K a y o), (bsel_some K b y o); auto.
      * einsum_step. eexists. split; [reflexivity|]. split; [apply wft_mk|]. split; [reflexivity|].
        intros o p q j u v Ho Hp Hq Hj Hu Hv. apply vidx_2_inv in Hj as (k & k' & -> & Hk & Hk').
        unfold bsel. rewrite Ba, Bb.
        assert (Hc : x = 1 \/ y = 1).
        { cbn [orb] in Hbc. apply orb_prop in Hbc as [H|H]; apply Nat.eqb_eq in H; auto. }
        destruct (Nat.eqb_spec x 1) as [->|Hx1].
        -- cbn [app]. cbn in Ho. rewrite get_mk by vsolve. ecbv. destruct y as [|[|y]]; auto; lia.
        -- destruct Hc as [->| ->]; [contradiction|].
           assert (Ho' : o < x).
           { pose proof (wf_bpos Ha) as Pa. unfold bpre in Pa. rewrite Ba in Pa. inversion Pa; subst.
             destruct (Nat.ltb_spec 1 x); lia. }
           cbn [app]. rewrite get_mk by vsolve. ecbv. destruct x as [|[|x]]; auto; lia.
    + einsum_step. eexists. split; [reflexivity|]. split; [apply wft_mk|]. split; [reflexivity|].
      intros o p q j u v Ho Hp Hq Hj Hu Hv. apply vidx_2_inv in Hj as (k & k' & -> & Hk & Hk'). cbn [app].
      rewrite get_mk by vsolve. ecbv. rewrite (bsel_some K a x o); auto. unfold bsel. now rewrite Bb.
    + einsum_step. eexists. split; [reflexivity|]. split; [apply wft_mk|]. split; [reflexivity|].
      intros o p q j u v Ho Hp Hq Hj Hu Hv. apply vidx_2_inv in Hj as (k & k' & -> & Hk & Hk'). cbn [app].
      rewrite get_mk by vsolve. ecbv. rewrite (bsel_some K b y o); auto. unfold bsel. now rewrite Ba.
    + einsum_step. eexists. split; [reflexivity|]. split; [apply wft_mk|]. split; [reflexivity|].
      intros o p q j u v Ho Hp Hq Hj Hu Hv. apply vidx_2_inv in Hj as (k & k' & -> & Hk & Hk'). cbn [app].
      rewrite get_mk by vsolve. ecbv. unfold bsel. now rewrite Ba, Bb.
Qed.

Lemma mul_facts a b : wf a -> wf b -> is_batch_broadcasting_possible a b = true ->
  prodn (mulP a b) = mul_B a b /\ 0 < mul_B a b /\
  (match mul_bs a b with None => bsz a = None /\ bsz b = None | Some B => compat a B /\ compat b B end) /\
  (forall o, o < mul_B a b -> ravel (mulP a b) (mulq a b o) = o /\ length (mulq a b o) = length (mulP a b)) /\
  (is_batch a || is_batch b = match mul_bs a b with Some _ => true | None => false end).
Proof.
  intros Ha Hb Hbc. pose proof (wf_bpos Ha) as Pa. pose proof (wf_bpos Hb) as Pb.
  unfold bpre, is_batch, compat, mul_B, mul_bs, mulP, mulq, is_batch_broadcasting_possible in *.
  destruct (bsz a) as [x|], (bsz b) as [y|];
    repeat match goal with H : Forall _ (_ :: _) |- _ => apply Forall_cons_iff in H as [? ?] end.
  - destruct (Nat.eqb_spec x y) as [->|Hxy].
    + pns. repeat split; auto. cbn [ravel]. pns. lia.
    + assert (Hc : x = 1 \/ y = 1).
      { cbn [orb] in Hbc. apply orb_prop in Hbc as [H'|H']; apply Nat.eqb_eq in H'; auto. }
      destruct Hc as [->| ->].
      * pns. cbn [Nat.ltb Nat.leb Nat.eqb]. repeat split; auto; try lia. cbn [ravel]. pns. lia.
      * pns. assert (E : Nat.eqb x 1 = false) by now apply Nat.eqb_neq.
        assert (E' : Nat.ltb 1 x = true) by (apply Nat.ltb_lt; lia). rewrite E, E'.
        repeat split; auto; try lia. cbn [ravel]. pns. lia.
  - pns. repeat split; auto. cbn [ravel]. pns. lia.
  - pns. repeat split; auto. cbn [ravel]. pns. lia.
  - pns. repeat split; auto. cbn [ravel]. lia.
Qed.

Lemma map2_length_min {A B C} (f : A -> B -> C) l m : length l = length m -> length (map2 f l m) = length l.
Proof. intros H. rewrite length_map2, H. apply Nat.min_id. Qed.

Lemma nth_map2_mul l m i : length l = length m -> nth i (map2 Nat.mul l m) 0 = nth i l 0 * nth i m 0.
Proof.
  revert m i; induction l; destruct m; intros i H; cbn in H; try lia; cbn [map2].
  - destruct i; reflexivity.
  - destruct i; cbn [nth]; auto.
Qed.

Lemma Forall_map2_mul l m : Forall (fun n => 0 < n) l -> Forall (fun n => 0 < n) m ->
  Forall (fun n => 0 < n) (map2 Nat.mul l m).
Proof.
  intros H. revert m. induction H; intros [|y m] Hm; cbn; constructor.
  - apply Forall_cons_iff in Hm as [? ?]. nia.
  - apply IHForall. now apply Forall_cons_iff in Hm as [? ?].
Qed.

Lemma tt_multiply_ok a b : wf a -> wf b -> rshape a = rshape b ->
  is_batch_broadcasting_possible a b = true ->
  exists c, tt_multiply a b = Ok c /\ wf c /\ rshape c = rshape a /\ rks c = map2 Nat.mul (rks a) (rks b) /\
    bsz c = mul_bs a b /\ ndims c = ndims a /\
    forall o J, o < mul_B a b -> vchain (modes a) 0 J -> length J = ndims a ->
      tt_entry c (match mul_bs a b with Some _ => [o] | None => [] end) J =
      (tt_entry a (bsel a o) J * tt_entry b (bsel b o) J)%K.
Proof.
  intros Ha Hb Hr Hbc. pose proof (same_ndims K a b Ha Hb Hr) as Hd.
  destruct (mul_facts a b Ha Hb Hbc) as (F1 & F2 & F3 & F4 & F5).
  unfold tt_multiply.
  assert (Em : is_tt_matrix a = is_tt_matrix b) by (unfold is_tt_matrix; now rewrite Hr).
  rewrite <- Em, eqb_reflx. rewrite (proj2 (llist_eqb_eq _ _) Hr), Hbc. cbn [negb].
  assert (E4 : (match bsz a, bsz b with
    | Some x, Some y => if Nat.eqb x y then ("n", "n", "n", Some x)%string
                        else ("n", "m", "nm", Some (if Nat.ltb 1 x then x else y))%string
    | Some x, None => ("n", "", "n", Some x)%string
    | None, Some y => ("", "n", "n", Some y)%string
    | None, None => ("", "", "", None)%string
    end) = (mul_strs a b, mul_bs a b)).
  { unfold mul_strs, mul_bs. destruct (bsz a), (bsz b); auto. destruct (Nat.eqb n n0); auto. }
  rewrite E4. clear E4.
  pose proof (fun i Hi => mul_einsum a b i Ha Hb Hr Hi Hbc) as HE.
  destruct (mul_strs a b) as [[sl sr] so].
  pose proof (wf_klen Ha) as La. pose proof (wf_klen Hb) as Lb.
  assert (Hnr : forall i, nth i (map2 Nat.mul (rks a) (rks b)) 0 = rk a i * rk b i).
  { intros. apply nth_map2_mul. lia. }
  match goal with |- context [mapM ?f _] => destruct (build_ok K f
    (fun i c => forall o x y j u v, o < mul_B a b -> x < rk a i -> y < rk b i -> vidx (modes a i) j ->
      u < rk a (S i) -> v < rk b (S i) ->
      get c ((match mul_bs a b with Some _ => [o] | None => [] end) ++
         (x * rk b i + y) :: j ++ [u * rk b (S i) + v]) = (coreG a (bsel a o) i x j u * coreG b (bsel b o) i y j v)%K)
    (ndims a) (mul_bs a b) (rshape a) (map2 Nat.mul (rks a) (rks b)))
    as (cs & Hcs & Hl & Hcon & Hw & HP) end; try apply Ha; auto.
  - rewrite map2_length_min; lia.
  - rewrite Hnr, (wf_first Ha), (wf_first Hb). reflexivity.
  - rewrite Hnr, (wf_last Ha). rewrite Hd, (wf_last Hb). reflexivity.
  - apply Forall_map2_mul; [apply Ha|apply Hb].
  - unfold mul_B in F2. destruct (mul_bs a b); cbn; repeat constructor; auto.
  - intros i Hi. destruct (HE i Hi) as (c & Hc & Hwc & Hsc & Hgc).
    assert (Hmp : Forall (fun n => 0 < n) (modes a i)) by (now apply modes_pos).
    pose proof (rk_pos _ a i Ha ltac:(lia)). pose proof (rk_pos _ b i Hb ltac:(lia)).
    pose proof (rk_pos _ a (S i) Ha ltac:(lia)). pose proof (rk_pos _ b (S i) Hb ltac:(lia)).
    destruct (merge_reshape c (mulP a b) (rk a i) (rk b i) (modes a i) (rk a (S i)) (rk b (S i)) Hsc Hwc)
      as (c' & Hc' & Hwc' & Hsc' & Hgc'); auto.
    assert (Hg' : forall o x y j u v, o < mul_B a b -> x < rk a i -> y < rk b i -> vidx (modes a i) j ->
      u < rk a (S i) -> v < rk b (S i) -> get c' (o :: (x * rk b i + y) :: j ++ [u * rk b (S i) + v]) =
      (coreG a (bsel a o) i x j u * coreG b (bsel b o) i y j v)%K).
    { intros o x y j u v Ho Hx Hy Hj Hu Hv. destruct (F4 o Ho) as [G1 G2].
      rewrite (Hgc' o (mulq a b o)); auto. now apply vidx_length. }
    assert (HC : (if is_tt_matrix a then
          do c <- einsum (sl ++ "aijb," ++ sr ++ "cijd->" ++ so ++ "acijbd")%string [core a i; core b i];
          reshape c [None; Some (rk a i * rk b i); Some (mode a 0 i); Some (mode a 1 i); Some (rk a (S i) * rk b (S i))]
        else
          do c <- einsum (sl ++ "aib," ++ sr ++ "cid->" ++ so ++ "acibd")%string [core a i; core b i];
          reshape c [None; Some (rk a i * rk b i); Some (mode a 0 i); Some (rk a (S i) * rk b (S i))]) = Ok c').
    { destruct (wf_kind_cases _ a Ha) as [(E & Hl & Hm)|(E & Hl & Hm)]; rewrite E, ?Hm in *;
        rewrite Hc; cbn [bind map app] in *; exact Hc'. }
    rewrite HC. cbn [bind]. rewrite F5. rewrite F1 in Hsc'. unfold mul_B in *.
    rewrite !Hnr. fold (modes a i).
    destruct (mul_bs a b) as [B|].
    + exists c'. repeat (split; [first [reflexivity|assumption]|]). exact Hg'.
    + destruct (squeeze0 c' _ Hsc' Hwc') as (c'' & E1 & E2 & E3 & E5).
      exists c''. split; auto. split; auto. split; auto.
      intros o x y j u v Ho. replace o with 0 by lia. intros. cbn [app]. rewrite E5. apply Hg'; auto.
  - rewrite Hcs. cbn [bind]. rewrite F5.
    set (c := TT cs (rshape a) (map2 Nat.mul (rks a) (rks b)) (mul_bs a b)) in *.
    exists c. split.
    { unfold construct in Hcon. destruct (mul_bs a b); exact Hcon. }
    repeat (split; [first [reflexivity|assumption]|]).
    intros o J Ho HJ HlJ. unfold tt_entry.
    pose proof (chain_mul K (modes a) (coreG a (bsel a o)) (coreG b (bsel b o))
      (coreG c (match mul_bs a b with Some _ => [o] | None => [] end))
      (rk a) (rk b) (rk c) 0 J (fun _ => c1) (fun _ => c1) (fun _ => c1) 0 0) as HC.
    cbn [Nat.mul Nat.add] in HC. apply HC; auto.
    + rewrite (wf_first Ha). lia.
    + rewrite (wf_first Hb). lia.
    + intros m Hm. apply Hnr.
    + intros m x y j u v Hm Hx Hy Hj Hu Hv. unfold coreG at 1, core. cbn [cores c]. apply HP; auto. lia.
    + intros. ring.
Qed.

Lemma vchain_ext' ms ms' k J : (forall i, ms i = ms' i) -> vchain ms k J -> vchain ms' k J.
Proof. intros H. revert k; induction J; cbn; auto. intros k [H1 H2]. split; auto. now rewrite <- H. Qed.

Lemma multiply_full a b : wf a -> wf b -> rshape a = rshape b ->
  is_batch_broadcasting_possible a b = true ->
  exists c, tt_multiply a b = Ok c /\ wf c /\ rshape c = rshape a /\ rks c = map2 Nat.mul (rks a) (rks b) /\
    bsz c = mul_bs a b /\ elementwise2 cmul a b c.
Proof.
  intros Ha Hb Hr Hbc.
  destruct (tt_multiply_ok a b Ha Hb Hr Hbc) as (c & Hc & Hw & R & Kc & EB & N & E).
  destruct (mul_facts a b Ha Hb Hbc) as (F1 & F2 & F3 & F4 & F5).
  exists c. repeat (split; [assumption|]).
  apply elementwise2_intro; auto; try congruence.
  - now rewrite EB.
  - intros o J HJ HlJ Ho. rewrite EB in *.
    assert (HJ' : vchain (modes a) 0 J).
    { eapply vchain_ext'; [|exact HJ]. intros. now apply modes_ext. }
    unfold mul_B in E. destruct (mul_bs a b) as [B|] eqn:EBB.
    + apply E; auto. lia.
    + destruct F3 as [Ba Bb]. pose proof (E 0 J ltac:(lia) HJ' ltac:(lia)) as E0.
      unfold bsel in *. now rewrite Ba, Bb in *.
Qed.

Lemma multiply_err a b : rshape a <> rshape b \/ is_batch_broadcasting_possible a b = false ->
  tt_multiply a b = Err ValueError.
Proof.
  intros H. unfold tt_multiply. destruct (negb (Bool.eqb (is_tt_matrix a) (is_tt_matrix b))); auto.
  destruct H as [H|H].
  - destruct (llist_eqb (rshape a) (rshape b)) eqn:E; auto. apply llist_eqb_eq in E. contradiction.
  - rewrite H. destruct (negb (llist_eqb (rshape a) (rshape b))); auto.
Qed.

End WithK.
Arguments mul_bs {K} _ _.
