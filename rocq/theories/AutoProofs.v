(** Riemannian gradients: the gradients in the delta cores, gauge conditions, the result. *)
From Coq Require Import String Ascii List Arith ZArith Lia Lra Bool Ring Reals.
From Verif Require Import Scalar Tensor TensorLemmas TensorLemmas2 Base Spec Chain BaseLemmas Ops
  FullProofs ResultLemmas Dense AddProofs DenseMatmul Sweep FlatProofs MatmulProofs OpsR Decomp DecompSpec GaugeProofs OrthProofs OrthNorm
  TangentProofs Riem RiemBlock RiemProofs RiemThms RiemMatmul RiemSpec TangentSpace RiemFull RiemDelta RiemInner RiemAddN RiemMade Autodiff AutoSpec.
Import ListNotations.
Local Open Scope nat_scope.
Local Notation train := (nat -> nat -> list nat -> nat -> Rring).
Local Notation fn := (list (list nat) -> Rring).
Local Notation get := (@get Rring).
Add Ring Rring9 : (cth Rring).
Local Ltac req := match goal with |- @eq _ ?u ?v => change (@eq R u v) end.
Local Ltac kreq := match goal with |- @eq _ ?u ?v => change (@eq (car Rring) u v) end.

(** ** Dense index of the physical indices *)
Definition join_idx (x : rtt) (J : list (list nat)) : list nat :=
  if is_tt_matrix x then [ravel (nth 0 (rshape x) []) (map (fun j => nth 0 j 0) J); ravel (nth 1 (rshape x) []) (map (fun j => nth 1 j 0) J)]
  else map (fun j => nth 0 j 0) J.
Lemma join_split (x : rtt) i : wf x -> vidx (ishape x) i -> join_idx x (split_idx x i) = i.
Proof.
  intros Hx Hi. unfold join_idx. destruct (is_tt_matrix x) eqn:E.
  - unfold ishape in Hi. rewrite E in Hi. apply vidx_2_inv in Hi as (a & b & -> & Ha & Hb). rewrite split_matrix by auto.
    destruct (matrix_rows_len Rring x Hx E) as [L0 L1].
    destruct (pairs_fst (unravel (nth 0 (rshape x) []) a) (unravel (nth 1 (rshape x) []) b)) as [E0 E1].
    { rewrite (vidx_length _ _ (unravel_valid _ a Ha)), (vidx_length _ _ (unravel_valid _ b Hb)). congruence. }
    rewrite E0, E1, !ravel_unravel by auto. reflexivity.
  - unfold split_idx. rewrite E, map_map. cbn [nth]. apply map_id.
Qed.

Lemma nth_map2 {A B C} (f : A -> B -> C) l m k a b c : k < length l -> k < length m -> nth k (map2 f l m) c = f (nth k l a) (nth k m b).
Proof. revert m k. induction l as [|x l IH]; intros [|y m] k H1 H2; cbn in *; try lia. destruct k; [reflexivity|]. apply IH; lia. Qed.
Lemma length_map2 {A B C} (f : A -> B -> C) l m : length l = length m -> length (map2 f l m) = length l.
Proof. revert m. induction l as [|x l IH]; intros [|y m] H; cbn in *; try lia. now rewrite IH by lia. Qed.
Lemma inners_sum (gs hs : list rtensor) : length gs = length hs ->
  inners gs hs = sumn (K := Rring) (length gs) (fun m => inner (shape (nth m gs rzero)) (get (nth m gs rzero)) (get (nth m hs rzero))).
Proof.
  revert hs. induction gs as [|g gs IH]; intros [|h hs] H; cbn [length] in H; try lia; [reflexivity|].
  cbn [inners length]. rewrite sumn_S_l. cbn [nth]. rewrite IH by lia. reflexivity.
Qed.
Lemma same_shapes_nth ds hs m : same_shapes ds hs -> m < length ds -> wft (nth m hs rzero) /\ shape (nth m hs rzero) = shape (nth m ds rzero).
Proof.
  intros H. revert m. induction H as [|d h ds hs Hh _ IH]; intros m Hm; cbn in Hm; [lia|]. destruct m; [exact Hh|]. apply IH. lia.
Qed.
Lemma same_shapes_of (ds hs : list rtensor) : length ds = length hs -> (forall m, m < length ds -> wft (nth m hs rzero) /\ shape (nth m hs rzero) = shape (nth m ds rzero)) -> same_shapes ds hs.
Proof.
  revert hs. induction ds as [|d ds IH]; intros [|h hs] L H; cbn in L; try lia; [constructor|]. constructor; [apply (H 0); cbn; lia|].
  apply IH; [lia|]. intros m Hm. apply (H (S m)). cbn. lia.
Qed.
Lemma same_shapes_len ds hs : same_shapes ds hs -> length hs = length ds.
Proof. intros H. induction H; cbn; congruence. Qed.

Section Grad.
Variables (x l r : rtt).
Hypothesis Hx : wf x.
Hypothesis Bx : bsz x = None.
Hypothesis HF : is_frame x l r.
Hypothesis Hd : 2 <= ndims x.
Hypothesis Heq : forall k, 0 < k < ndims x -> rk l k = rk r k.
Variables (qr : rtensor -> rtensor * rtensor) (addr : nat).
Local Notation d := (ndims x).
Local Notation ms := (modes x).
Local Notation U := (coreG l []).
Local Notation V := (coreG r []).
Local Notation term := (tterm Rring U V (rk l) (rk r)).
Local Notation cfm F m a c j := (cf Rring ms d U V (rk l) (rk r) m (S m) F a c [j]).

Definition deltasD (ds : list rtensor) : train := fun m a j c => get (nth m ds rzero) (a :: j ++ [c]).
Definition Lval (D : train) (i : list nat) : R := sumn (K := Rring) d (fun m => term m (D m) (split_idx x i)).
Definition good (ds : list rtensor) : Prop := length ds = d /\ forall i, i < d -> wft (nth i ds rzero) /\ shape (nth i ds rzero) = rk l i :: ms i ++ [rk r (S i)].

Lemma good_is ds : good ds -> is_deltas x l r None (fun _ => deltasD ds) ds.
Proof.
  intros [L H]. split; [exact L|]. intros i Hi. destruct (H i Hi) as [W S]. split; [exact W|]. split; [exact S|].
  intros o a j c Ho. cbn [pre_of] in Ho. inversion Ho; subst. reflexivity.
Qed.
Lemma build_deltas (D : train) ds : is_deltas x l r None (fun _ => D) ds ->
  exists t dt, deltas_to_tangent_space qr ds addr x (Some l) (Some r) = Ok (Proj t (Some addr)) /\ wf t /\ rshape t = rshape x /\ bsz t = None /\
    full t = Ok dt /\ shape dt = ishape x /\ forall i, vidx (ishape x) i -> get dt i = Lval D i.
Proof.
  intros H. destruct (rebuild_ok x l r Hx HF Hd Heq qr None (fun _ => D) ds addr (Some l) (Some r) Bx (Forall_nil _) H eq_refl eq_refl) as (t & Et & B).
  pose proof (bl_wf x l r _ _ _ B) as Wt. pose proof (bl_bs x l r _ _ _ B) as BB. pose proof (bl_rs x l r _ _ _ B) as Rt.
  destruct (dense t Wt) as (dt & Ft & St & Vt). exists t, dt. do 5 (split; [assumption|]). rewrite BB, (same_ishape t x Rt) in *. cbn [pre_of app] in *. split; [exact St|].
  intros i Hi. pose proof (Vt [] i ltac:(constructor) Hi) as E. cbn [app] in E. rewrite E, (same_split t x i Rt).
  apply (blocks_entry x l r None _ (fr_l _ _ _ HF) (fr_r _ _ _ HF) (fr_nl _ _ _ HF) (fr_nr _ _ _ HF) Hd t [] _ B ltac:(constructor)). now apply split_vJ.
Qed.

Variables (func : rtt -> res R) (F : (list nat -> R) -> R).
Hypothesis HFun : function_of_tensor x func F.

Lemma augmented_ok ds Y : good ds -> agree (ishape x) (Lval (deltasD ds)) Y -> augmented qr func addr x l r ds = Ok (F Y).
Proof.
  intros HG HY. destruct (build_deltas _ ds (good_is ds HG)) as (t & dt & E & Wt & Rt & Bt & Ft & St & Vt). unfold augmented. rewrite E. cbn [bind p_tt].
  destruct HFun as [H1 H2]. rewrite (H1 t dt) by auto. f_equal. apply H2. intros i Hi. rewrite Vt by auto. now apply HY.
Qed.

(** The start: the deltas of [x] itself. *)
Lemma start_nth m : m < d -> nth m (start_deltas r) rzero = if Nat.eqb m 0 then core r 0 else zeros (shape (core r m)).
Proof.
  intros Hm. unfold start_deltas. pose proof (fr_nr _ _ _ HF) as N. unfold ndims in N at 1. unfold core. destruct (cores r) as [|c cs]; cbn [length] in N; [lia|].
  destruct m as [|m]; [reflexivity|]. cbn [nth Nat.eqb]. rewrite (nth_map_default _ _ _ (core0 Rring)) by lia. reflexivity.
Qed.
Lemma start_good : good (start_deltas r).
Proof.
  pose proof (fr_nr _ _ _ HF) as N. split.
  - unfold start_deltas. unfold ndims in N at 1. destruct (cores r); cbn [length] in *; [lia|]. now rewrite map_length.
  - intros i Hi. rewrite start_nth by auto. pose proof (core_shape _ r i (fr_r _ _ _ HF) ltac:(lia)) as S. unfold bpre in S. rewrite (fr_br _ _ _ HF) in S. cbn [pre_of app] in S.
    rewrite (fr_mr x l r HF) in S. pose proof (core_wft _ r i (fr_r _ _ _ HF) ltac:(lia)) as W.
    assert (E : rk r i = rk l i). { destruct (Nat.eq_dec i 0) as [->|]; [rewrite (fr_l0 x l r HF), (fr_q0 x l r HF); reflexivity|]. symmetry. apply Heq. lia. }
    rewrite E in S. destruct (Nat.eqb_spec i 0) as [->|]; [now split|]. split; [apply wft_mk|exact S].
Qed.
Lemma start_val i : vidx (ishape x) i -> Lval (deltasD (start_deltas r)) i = tt_entry x [] (split_idx x i).
Proof.
  intros Hi. pose proof (split_vJ x Hx Hd i Hi) as VJ. rewrite <- (fr_entr x l r HF) by exact VJ. unfold Lval.
  destruct (vj_first ms 0 d _ ltac:(lia) VJ) as (j & J' & EJ & Hj & HJ'). rewrite EJ.
  replace d with (S (d - 1)) at 1 by lia. rewrite sumn_S_l.
  rewrite (sumn_zero Rring).
  - unfold tterm. cbn [firstn nth skipn]. rewrite (fr_l0 x l r HF), sumn_1. unfold tt_entry. cbn [chain].
    match goal with |- (?u + 0)%K = ?v => assert (HH : u = v); [|rewrite HH; kreq; ring] end. apply (sumn_ext Rring). intros c Hc. unfold deltasD. rewrite start_nth by lia. cbn [Nat.eqb]. unfold coreG, rv. cbn [app].
    change (lv (fun (k a : nat) (j0 : list nat) (b : nat) => get (core l k) (a :: j0 ++ [b])) (rk l) [] 0) with (1%K : Rring). ring.
  - intros m Hm. unfold tterm. apply (sumn_zero Rring). intros a Ha. apply (sumn_zero Rring). intros c Hc. unfold deltasD. rewrite start_nth by lia.
    cbn [Nat.eqb]. change (zeros (shape (core r (S m)))) with (zeros (K := Rring) (shape (core r (S m)))).
    assert (E : forall idx, get (zeros (K := Rring) (shape (core r (S m)))) idx = 0%K).
    { intros idx. unfold Tensor.get, zeros, mk. cbn [data shape]. generalize (ravel (shape (core r (S m))) idx). intros k. generalize (seq 0 (prodn (shape (core r (S m))))). intros s. revert k.
      induction s as [|y s IH]; intros [|k]; cbn [map nth]; auto. }
    rewrite E. ring.
Qed.

(** Moving the deltas moves the tensor. *)
Lemma move_nth t ds hs m : same_shapes ds hs -> m < length ds ->
  nth m (move t ds hs) rzero = mk (K := Rring) (shape (nth m ds rzero)) (fun i => get (nth m ds rzero) i + t * get (nth m hs rzero) i)%R.
Proof. intros H Hm. unfold move. apply (nth_map2 (fun d h : rtensor => mk (K := Rring) (shape d) (fun i => get d i + t * get h i)%R)); auto. rewrite (same_shapes_len _ _ H). auto. Qed.
Lemma good_shapes ds hs : good ds -> same_shapes ds hs -> good hs.
Proof.
  intros [L H] HS. split; [rewrite (same_shapes_len _ _ HS); auto|]. intros i Hi. destruct (H i Hi) as [W S]. destruct (same_shapes_nth ds hs i HS ltac:(lia)) as [W' S'].
  split; [auto|congruence].
Qed.
Lemma good_same ds hs : good ds -> good hs -> same_shapes ds hs.
Proof.
  intros [L H] [L' H']. apply same_shapes_of; [congruence|]. intros m Hm. destruct (H m ltac:(lia)), (H' m ltac:(lia)). split; [auto|congruence].
Qed.
Lemma move_good t ds hs : good ds -> same_shapes ds hs -> good (move t ds hs).
Proof.
  intros HG HS. split; [unfold move; rewrite length_map2; [apply HG|]; now rewrite (same_shapes_len _ _ HS)|].
  intros i Hi. rewrite move_nth; [|auto|destruct HG; lia]. split; [apply wft_mk|]. apply HG; auto.
Qed.
Lemma Lval_ext (D D' : train) i : vidx (ishape x) i -> (forall m a j c, m < d -> a < rk l m -> vidx (ms m) j -> c < rk r (S m) -> D m a j c = D' m a j c) -> Lval D i = Lval D' i.
Proof.
  intros Hi H. apply (sumn_ext Rring). intros m Hm. apply (tterm_ext Rring ms d); auto; try lia; try apply (fr_l0 x l r HF); try apply (fr_ld x l r HF); try apply (fr_qd x l r HF).
  now apply split_vJ.
Qed.
Lemma Lval_lin (D D' : train) t i : Lval (fun m a j c => D m a j c + t * D' m a j c)%R i = (Lval D i + t * Lval D' i)%R.
Proof.
  unfold Lval. etransitivity; [|apply f_equal2; [reflexivity|apply (sumn_mul_l Rring)]]. etransitivity; [|apply (sumn_add Rring)].
  apply (sumn_ext Rring). intros m Hm. 
  change (car Rring) in t. rewrite <- (tterm_scale Rring U V (rk l) (rk r)), <- (tterm_add Rring U V (rk l) (rk r)). reflexivity.
Qed.
Lemma move_val t ds hs i : good ds -> same_shapes ds hs -> vidx (ishape x) i ->
  Lval (deltasD (move t ds hs)) i = shift (Lval (deltasD ds)) (Lval (deltasD hs)) t i.
Proof.
  intros HG HS Hi. unfold shift. rewrite <- Lval_lin. apply Lval_ext; auto. intros m a j c Hm Ha Hj Hc. unfold deltasD.
  rewrite move_nth; [|auto|destruct HG; lia]. rewrite get_mk; [reflexivity|]. destruct HG as [_ HG]. destruct (HG m Hm) as [_ S]. rewrite S.
  apply vidx_cons; auto. apply vidx_app; auto. now repeat constructor.
Qed.

(** ** The gradients in the deltas *)
Definition lift (E : list nat -> R) : fn := fun J => E (join_idx x J).
Lemma lift_split E i : vidx (ishape x) i -> lift E (split_idx x i) = E i.
Proof. intros Hi. unfold lift. now rewrite join_split. Qed.
Definition grads (E : list nat -> R) : list rtensor :=
  map (fun m => mk (K := Rring) (rk l m :: ms m ++ [rk r (S m)]) (fun idx => cfm (lift E) m (nth 0 idx 0) (nth (S (length (ms m))) idx 0) (firstn (length (ms m)) (tl idx)))) (seq 0 d).
Lemma grads_nth E m : m < d -> nth m (grads E) rzero = mk (K := Rring) (rk l m :: ms m ++ [rk r (S m)]) (fun idx => cfm (lift E) m (nth 0 idx 0) (nth (S (length (ms m))) idx 0) (firstn (length (ms m)) (tl idx))).
Proof. intros Hm. unfold grads. rewrite (nth_map_default _ _ _ 0) by (now rewrite seq_length). now rewrite seq_nth. Qed.
Lemma grads_get E m a j c : m < d -> a < rk l m -> vidx (ms m) j -> c < rk r (S m) -> get (nth m (grads E) rzero) (a :: j ++ [c]) = cfm (lift E) m a c j.
Proof.
  intros Hm Ha Hj Hc. rewrite grads_nth by auto. rewrite get_mk.
  2:{ apply vidx_cons; auto. apply vidx_app; auto. now repeat constructor. }
  cbn [nth tl]. rewrite <- (vidx_length _ _ Hj). rewrite nth_middle, firstn_app, Nat.sub_diag, firstn_all. cbn [firstn]. now rewrite app_nil_r.
Qed.
Lemma grads_good E : good (grads E).
Proof. split; [unfold grads; now rewrite map_length, seq_length|]. intros i Hi. rewrite grads_nth by auto. split; [apply wft_mk|reflexivity]. Qed.

Lemma inner_core m (a b : list nat -> R) : m < d -> inner (rk l m :: ms m ++ [rk r (S m)]) a b =
  sumn (K := Rring) (rk l m) (fun u => sumn (K := Rring) (rk r (S m)) (fun c => isum (K := Rring) (ms m) (fun j => a (u :: j ++ [c]) * b (u :: j ++ [c]))))%R.
Proof.
  intros Hm. unfold inner. cbn [isum]. apply (sumn_ext Rring). intros u _. rewrite isum_app. etransitivity; [|apply (isum_sumn_swap Rring)].
  apply (isum_ext Rring). intros j _. cbn [isum]. reflexivity.
Qed.
Lemma grads_inner E hs : good hs -> inners (grads E) hs = inner (ishape x) E (Lval (deltasD hs)).
Proof.
  intros HG. rewrite inners_sum by (rewrite (proj1 (grads_good E)), (proj1 HG); reflexivity). rewrite (proj1 (grads_good E)).
  transitivity (isum (K := Rring) (ishape x) (fun i => (fun J => lift E J * sumn d (fun m => term m (deltasD hs m) J))%K (split_idx x i))).
  - etransitivity; [|symmetry; exact (isum_js x Hx (fun J => lift E J * sumn d (fun m => term m (deltasD hs m) J))%K)]. rewrite (js_ext Rring ms 0 d _ (fun J => sumn d (fun m => lift E J * term m (deltasD hs m) J))%K) by (intros; now rewrite sumn_mul_l).
    rewrite js_sumn. apply (sumn_ext Rring). intros m Hm.
    rewrite (inner_tterm Rring ms d U V (rk l) (rk r)) by (auto; try lia; try apply (fr_l0 x l r HF); try apply (fr_ld x l r HF); try apply (fr_qd x l r HF)).
    destruct (proj2 (grads_good E) m Hm) as [_ S]. rewrite S, inner_core by auto.
    apply (sumn_ext Rring). intros a Ha. apply (sumn_ext Rring). intros c Hc. apply (isum_ext Rring). intros j Hj. rewrite grads_get by auto. reflexivity.
  - unfold inner. apply (isum_ext Rring). intros i Hi. rewrite lift_split by auto. reflexivity.
Qed.

Lemma augmented_gradient ds Y E : good ds -> agree (ishape x) (Lval (deltasD ds)) Y -> gradient_at (ishape x) F Y E ->
  is_gradient (augmented qr func addr x l r) ds (grads E).
Proof.
  intros HG HY HE. split; [apply good_same; auto; apply grads_good|]. intros hs HS.
  exists (fun t => F (shift Y (Lval (deltasD hs)) t)). split.
  - exists 1%R. split; [lra|]. intros t _. apply augmented_ok; [now apply move_good|]. intros i Hi. rewrite move_val by auto. unfold shift. now rewrite HY.
  - rewrite grads_inner by (eapply good_shapes; eauto). apply HE.
Qed.

(** ** The gauge conditions *)
Lemma enforce_ok E : exists ds, enforce_gauge_conditions (map Some (grads E)) l = Ok ds /\ is_deltas x l r None (fun _ => fdelta x l r (lift E)) ds.
Proof.
  unfold enforce_gauge_conditions. rewrite (fr_nl _ _ _ HF).
  match goal with |- context [mapM ?f _] => destruct (mapM_P f 0 d (fun i y => is_delta x l r None (fun _ => fdelta x l r (lift E) i) i y) rzero) as (ds & Eds & Lds & Pds) end.
  2:{ exists ds. split; [exact Eds|]. split; auto. }
  intros i Hi. cbn [Nat.add]. unfold lazy_tt_ranks. rewrite (nthr_nth (rks l) (S i) 0) by (rewrite (wf_klen (fr_l _ _ _ HF)), (fr_nl _ _ _ HF); lia). cbn [bind]. change (nth (S i) (rks l) 0) with (rk l (S i)).
  rewrite (nthr_nth (cores l) i (core0 Rring)) by (change (i < ndims l); rewrite (fr_nl _ _ _ HF); lia). cbn [bind]. change (nth i (cores l) (core0 Rring)) with (core l i).
  pose proof (l_shape x l r HF i Hi) as Sl.
  pose proof (rk_pos Rring l (S i) (fr_l _ _ _ HF) ltac:(rewrite (fr_nl _ _ _ HF); lia)) as Pr.
  assert (R1 : reshape (core l i) [None; Some (rk l (S i))] = Ok (Tensor (K := Rring) [rk l i * prodn (ms i); rk l (S i)] (data (core l i)))).
  { apply (reshape_infer Rring (core l i) [] [rk l (S i)] (rk l i * prodn (ms i))); [unfold prodn; cbn; lia|unfold prodn; cbn; lia|].
    unfold size. rewrite Sl. rewrite ?prodn_cons, ?prodn_app, ?prodn_cons; change (prodn []) with 1; lia. }
  rewrite R1. cbn [bind]. rewrite (nthr_nth _ i None) by (rewrite map_length, (proj1 (grads_good E)); lia). cbn [bind].
  rewrite (nth_map_default _ _ _ rzero) by (rewrite (proj1 (grads_good E)); lia).
  destruct (proj2 (grads_good E) i Hi) as [Wg Sg]. pose proof (grads_get E i) as Gg. set (g := nth i (grads E) rzero) in *.
  destruct (Nat.ltb_spec i (d - 1)) as [Hlt|Hge].
  2:{ exists g. split; [reflexivity|]. split; [exact Wg|]. split; [exact Sg|]. intros o a j c Ho Ha Hj Hc. cbn [pre_of] in Ho. inversion Ho; subst. cbn [app].
      rewrite Gg by auto. unfold fdelta, delta_of, last0. destruct (Nat.eqb_spec (S i) d); [|lia]. ring. }
  rewrite <- (Heq (S i)) in Sg, Gg by lia.
  assert (R2 : reshape g [None; Some (rk l (S i))] = Ok (Tensor (K := Rring) [rk l i * prodn (ms i); rk l (S i)] (data g))).
  { apply (reshape_infer Rring g [] [rk l (S i)] (rk l i * prodn (ms i))); [unfold prodn; cbn; lia|unfold prodn; cbn; lia|].
    unfold size. rewrite Sg. rewrite ?prodn_cons, ?prodn_app, ?prodn_cons; change (prodn []) with 1; lia. }
  rewrite R2. cbn [bind]. set (q := Tensor (K := Rring) [rk l i * prodn (ms i); rk l (S i)] (data (core l i))). set (p := Tensor (K := Rring) [rk l i * prodn (ms i); rk l (S i)] (data g)).
  destruct (transpose_ok Rring q [1; 0]) as (qt & Eqt & Wqt & Sqt & Gqt); [reflexivity|]. cbn [map nth shape q] in Sqt.
  unfold transpose_rev. change (rev (seq 0 (rank q))) with [1; 0]. rewrite Eqt. cbn [bind].
  destruct (matmul_ok2 Rring qt p (rk l (S i)) (rk l i * prodn (ms i)) (rk l (S i)) Sqt eq_refl) as (s & Es & Ws & Ss & Gs). rewrite Es. cbn [bind].
  destruct (matmul_ok2 Rring q s (rk l i * prodn (ms i)) (rk l (S i)) (rk l (S i)) eq_refl Ss) as (s2 & Es2 & Ws2 & Ss2 & Gs2). rewrite Es2. cbn [bind].
  destruct (ewise_same Rminus p s2 [rk l i * prodn (ms i); rk l (S i)] eq_refl Ss2) as (w & Ew & Ww & Sw & Gw). rewrite Ew. cbn [bind].
  rewrite Sl. rewrite (reshape_exact Rring w (rk l i :: ms i ++ [rk l (S i)])).
  2:{ unfold size. rewrite Sw. rewrite ?prodn_cons, ?prodn_app, ?prodn_cons; change (prodn []) with 1; lia. }
  eexists. split; [reflexivity|]. split; [|split].
  { unfold wft in *. cbn [shape data]. rewrite Ww, Sw. rewrite ?prodn_cons, ?prodn_app, ?prodn_cons; change (prodn []) with 1; lia. }
  { cbn [shape pre_of app]. now rewrite (Heq (S i)) by lia. }
  intros o a j c Ho Ha Hj Hc. cbn [pre_of] in Ho. inversion Ho; subst. cbn [app]. rewrite <- (Heq (S i)) in Hc by lia.
  assert (LJ : length j = length (ms i)) by now apply vidx_length.
  pose proof (lview_lt (ms i) (rk l i) a j Ha Hj) as Hrow.
  assert (Vq : forall a j b, a < rk l i -> vidx (ms i) j -> b < rk l (S i) -> get q [a * prodn (ms i) + ravel (ms i) j; b] = U i a j b).
  { intros a' j' b' Ha' Hj' Hb'. symmetry. unfold coreG. cbn [app]. etransitivity; [|apply (lview [] [] (rk l i) (ms i) (rk l (S i)) (data (core l i)) a' j' b'); [reflexivity|now apply vidx_length]].
    unfold Tensor.get. cbn [shape data app]. now rewrite Sl. }
  assert (Vp : forall a j b, a < rk l i -> vidx (ms i) j -> b < rk l (S i) -> get p [a * prodn (ms i) + ravel (ms i) j; b] = cfm (lift E) i a b j).
  { intros a' j' b' Ha' Hj' Hb'. rewrite <- Gg by auto. symmetry. etransitivity; [|apply (lview [] [] (rk l i) (ms i) (rk l (S i)) (data g) a' j' b'); [reflexivity|now apply vidx_length]].
    unfold Tensor.get. cbn [shape data app]. now rewrite Sg. }
  etransitivity; [apply (lview [] [] (rk l i) (ms i) (rk l (S i)) (data w) a j c); [reflexivity|exact LJ]|]. cbn [app].
  assert (Gw' : get (Tensor (K := Rring) [rk l i * prodn (ms i); rk l (S i)] (data w)) [a * prodn (ms i) + ravel (ms i) j; c] = get w [a * prodn (ms i) + ravel (ms i) j; c]).
  { unfold Tensor.get. cbn [shape data]. now rewrite Sw. }
  rewrite Gw'. rewrite Gw by (repeat constructor; auto). rewrite Gs2, Vp by auto.
  unfold fdelta, delta_of, last0. destruct (Nat.eqb_spec (S i) d); [lia|].
  match goal with |- (?u - ?v)%R = _ => change ((u - v)%R) with ((u - v)%K) end. f_equal. apply (sumn_ext Rring). intros b Hb. rewrite Vq by auto. f_equal.
  rewrite Gs by auto. rewrite (cf_step Rring ms d U V (rk l) (rk r)) by (auto; try lia; try apply (fr_l0 x l r HF); try apply (fr_ld x l r HF); try apply (fr_qd x l r HF)).
  rewrite sumn_lview. cbn [isum]. apply (sumn_ext Rring). intros a' Ha'. apply (isum_ext Rring). intros j' Hj'. cbn [nth tl].
  rewrite Vp by auto. f_equal. rewrite <- (Vq a' j' b) by auto.
  pose proof (lview_lt (ms i) (rk l i) a' j' Ha' Hj') as Hrow'.
  specialize (Gqt [a' * prodn (ms i) + ravel (ms i) j'; b]). cbn [map nth] in Gqt. apply Gqt. cbn [shape q]. repeat constructor; auto.
Qed.
End Grad.
