(** Changing two neighbouring cores without changing the represented tensor; lists of cores
    that still have to be reshaped. *)
From Coq Require Import String Ascii List Arith ZArith Lia Bool Ring Reals.
From Verif Require Import Scalar Tensor TensorLemmas TensorLemmas2 Base Spec Chain BaseLemmas Ops
  FullProofs ResultLemmas Dense Sweep OpsR Decomp DecompSpec.
Import ListNotations.

(** *** Chains *)
Section Gauge.
Variable K : cring.
Add Ring Kring : (cth K).
Local Open Scope k_scope.

Lemma chain_ext2 ms (G G' : nat -> nat -> list nat -> nat -> K) (r r' : nat -> nat) k J v v' a :
  vchain ms k J -> a < r k -> r k = r' k ->
  (forall m, k <= m <= k + length J -> r m = r' m) ->
  (forall m a j b, k <= m < k + length J -> a < r m -> b < r (S m) -> vidx (ms m) j ->
     G m a j b = G' m a j b) ->
  (forall b, b < r (k + length J)%nat -> v b = v' b) ->
  chain G r k J v a = chain G' r' k J v' a.
Proof.
  revert k a; induction J as [|j J IH]; intros k a HJ Ha H0 Hr HG Hv; cbn [chain length] in *.
  - apply Hv. now rewrite Nat.add_0_r.
  - destruct HJ as [Hj HJ]. rewrite <- (Hr (S k)) by lia. apply sumn_ext. intros b Hb.
    rewrite HG by (auto; lia). f_equal.
    apply IH; auto.
    + apply Hr. lia.
    + intros m Hm. apply Hr. lia.
    + intros. apply HG; auto; lia.
    + intros c Hc. apply Hv. now rewrite Nat.add_succ_r.
Qed.

(** Cores i and i+1 and the rank between them are changed, their product is not. *)
Lemma chain_gauge ms (G G' : nat -> nat -> list nat -> nat -> K) (r r' : nat -> nat) i k J v a :
  vchain ms k J -> k <= i -> S i < k + length J -> a < r k ->
  (forall m, m <> S i -> r m = r' m) ->
  (forall m a j b, k <= m < k + length J -> m <> i -> m <> S i -> a < r m -> b < r (S m) -> vidx (ms m) j ->
     G m a j b = G' m a j b) ->
  (forall a j1 j2 c, a < r i -> vidx (ms i) j1 -> vidx (ms (S i)) j2 -> c < r (S (S i)) ->
     sumn (r (S i)) (fun b => G i a j1 b * G (S i) b j2 c) =
     sumn (r' (S i)) (fun b => G' i a j1 b * G' (S i) b j2 c)) ->
  chain G r k J v a = chain G' r' k J v a.
Proof.
  revert k a; induction J as [|j J IH]; intros k a HJ Hk Hi Ha Hr HG HS; cbn [length] in *; [lia|].
  destruct HJ as [Hj HJ]. destruct (Nat.eq_dec k i) as [->|Hne].
  - destruct J as [|j2 J]; cbn [length] in *; [lia|]. destruct HJ as [Hj2 HJ]. cbn [chain].
    rewrite (sumn_ext _ _ _ (fun b => sumn (r (S (S i))) (fun c => G i a j b * G (S i) b j2 c * chain G r (S (S i)) J v c))).
    2:{ intros b _. rewrite <- sumn_mul_l. apply sumn_ext. intros; ring. }
    rewrite sumn_swap.
    rewrite (sumn_ext _ (r' (S i)) _ (fun b => sumn (r' (S (S i))) (fun c => G' i a j b * G' (S i) b j2 c * chain G' r' (S (S i)) J v c))).
    2:{ intros b _. rewrite <- sumn_mul_l. apply sumn_ext. intros; ring. }
    rewrite (sumn_swap _ (r' (S i))). rewrite <- (Hr (S (S i))) by lia. apply sumn_ext. intros c Hc.
    rewrite !sumn_mul_r. rewrite HS by auto. f_equal. apply (chain_ext2 ms); auto.
    + intros m Hm. apply Hr. lia.
    + intros. apply HG; auto; lia.
  - cbn [chain]. rewrite (Hr (S k)) by lia. apply sumn_ext. intros b Hb. rewrite <- (Hr (S k)) in Hb by lia.
    rewrite HG by (auto; lia). f_equal. apply IH; auto; try lia. intros. apply HG; auto; lia.
Qed.
End Gauge.

Section WithR.
Add Ring Rring' : (cth Rring).
Local Notation get := (@get Rring).
Local Notation RT := (@Tensor Rring).

(** *** Views of a core as a matrix *)
Lemma lview pre p r ms r' (D : list R) a j b : length p = length pre -> length j = length ms ->
  get (RT (pre ++ r :: ms ++ [r']) D) (p ++ a :: j ++ [b]) =
  get (RT (pre ++ [r * prodn ms; r']) D) (p ++ [a * prodn ms + ravel ms j; b]).
Proof.
  intros Hp Hj. unfold Tensor.get. cbn [shape data]. f_equal. rewrite !ravel_app by auto. cbn [ravel].
  rewrite ravel_app by auto. cbn [ravel]. pns. lia.
Qed.

Lemma rview pre p r ms r' (D : list R) a j b : length p = length pre -> length j = length ms ->
  get (RT (pre ++ r :: ms ++ [r']) D) (p ++ a :: j ++ [b]) =
  get (RT (pre ++ [r; prodn ms * r']) D) (p ++ [a; ravel ms j * r' + b]).
Proof.
  intros Hp Hj. unfold Tensor.get. cbn [shape data]. f_equal. rewrite !ravel_app by auto. cbn [ravel].
  rewrite ravel_app by auto. cbn [ravel]. pns. lia.
Qed.

Lemma lview_lt ms r a j : a < r -> vidx ms j -> a * prodn ms + ravel ms j < r * prodn ms.
Proof. intros Ha Hj. pose proof (ravel_lt _ _ Hj). nia. Qed.
Lemma rview_lt ms r j b : b < r -> vidx ms j -> ravel ms j * r + b < prodn ms * r.
Proof. intros Ha Hj. pose proof (ravel_lt _ _ Hj). nia. Qed.

Lemma sumn_lview r ms (F : nat -> R) : sumn (K := Rring) (r * prodn ms) F =
  isum (K := Rring) (r :: ms) (fun x => F (nth 0 x 0 * prodn ms + ravel ms (tl x))).
Proof.
  rewrite sumn_prod. cbn [isum]. apply sumn_ext. intros a _. rewrite sumn_ravel. reflexivity.
Qed.
Lemma sumn_rview r ms (F : nat -> R) : sumn (K := Rring) (prodn ms * r) F =
  isum (K := Rring) (ms ++ [r]) (fun x => F (ravel ms (firstn (length ms) x) * r + nth (length ms) x 0)).
Proof.
  rewrite sumn_prod, sumn_ravel, isum_app. apply isum_ext. intros j Hj. cbn [isum]. apply sumn_ext.
  intros b _. apply vidx_length in Hj. rewrite firstn_app, <- Hj, firstn_all, Nat.sub_diag. cbn [firstn].
  rewrite app_nil_r. now rewrite nth_middle.
Qed.

(** *** [matmul], transposition of the last axes with a batch prefix *)
Lemma matmul_pre (a b : rtensor) pre m k n : length pre <= 1 -> shape a = pre ++ [m; k] -> shape b = pre ++ [k; n] ->
  exists t, matmul a b = Ok t /\ wft t /\ shape t = pre ++ [m; n] /\
    forall p i j, vidx pre p -> i < m -> j < n ->
      get t (p ++ [i; j]) = sumn (K := Rring) k (fun l => get a (p ++ [i; l]) * get b (p ++ [l; j]))%K.
Proof.
  intros Hp Ha Hb. destruct pre as [|B [|? ?]]; cbn [length] in Hp; [| |lia]; cbn [app] in *.
  - destruct (matmul_ok2 Rring a b m k n Ha Hb) as (t & E & W & S & G). exists t. repeat (split; [assumption|]).
    intros p i j V. inversion V; subst. apply G.
  - destruct (matmul_ok3 Rring a b B m k n Ha Hb) as (t & E & W & S & G). exists t. repeat (split; [assumption|]).
    intros p i j V. apply vidx_1_inv in V as (o & -> & Ho). cbn [app]. apply G; auto.
Qed.

Lemma swap_last_ok pre (x : rtensor) m n : length pre <= 1 -> wft x -> shape x = pre ++ [m; n] ->
  exists t, swap_last pre x = Ok t /\ wft t /\ shape t = pre ++ [n; m] /\
    forall p i j, vidx pre p -> i < m -> j < n -> get t (p ++ [j; i]) = get x (p ++ [i; j]).
Proof.
  intros Hp Hw Hs. unfold swap_last.
  destruct (transpose_ok Rring x (seq 0 (length pre) ++ [S (length pre); length pre])) as (t & E & W & S & G).
  { unfold rank. rewrite Hs. destruct pre as [|B [|? ?]]; cbn [length] in Hp; [reflexivity|reflexivity|lia]. }
  exists t. split; [exact E|]. split; [exact W|]. rewrite Hs in S.
  destruct pre as [|B [|? ?]]; cbn [length] in Hp; [| |lia]; cbn [app seq map nth length] in *.
  - split; [exact S|]. intros p i j V Hi Hj. inversion V; subst. cbn [app]. rewrite <- (G [i; j]); [reflexivity|].
    rewrite Hs. vsolve.
  - split; [exact S|]. intros p i j V Hi Hj. apply vidx_1_inv in V as (o & -> & Ho). cbn [app].
    rewrite <- (G [o; i; j]); [reflexivity|]. rewrite Hs. vsolve.
Qed.

(** *** Lists of cores that still have to be reshaped *)
Local Notation core0 := (core0 Rring).
Definition vshape (t : rtt) (ranks : list nat) (k : nat) : list nat :=
  bpre t ++ nth k ranks 0 :: modes t k ++ [nth (S k) ranks 0].
Definition vcore (t : rtt) (cs : list rtensor) (ranks : list nat) (k : nat) : rtensor :=
  RT (vshape t ranks k) (data (nth k cs core0)).
(** The object the cores will form. *)
Definition vtt (t : rtt) (cs : list rtensor) (ranks : list nat) : rtt :=
  TT (map (vcore t cs ranks) (seq 0 (ndims t))) (rshape t) ranks (bsz t).

Record good (t : rtt) (cs : list rtensor) (ranks : list nat) : Prop := {
  g_len : length cs = ndims t;
  g_rlen : length ranks = S (ndims t);
  g_pos : Forall (fun n => 0 < n) ranks;
  g_first : nth 0 ranks 0 = 1;
  g_last : nth (ndims t) ranks 0 = 1;
  g_core : forall k, k < ndims t -> wft (nth k cs core0) /\ prodn (shape (nth k cs core0)) = prodn (vshape t ranks k) }.

Lemma vtt_ndims t cs ranks : ndims (vtt t cs ranks) = ndims t.
Proof. unfold ndims, vtt. cbn [cores]. now rewrite map_length, seq_length. Qed.

Lemma vtt_core t cs ranks k : k < ndims t -> core (vtt t cs ranks) k = vcore t cs ranks k.
Proof.
  intros Hk. unfold core, vtt. cbn [cores]. rewrite (nth_map_default _ _ _ 0) by now rewrite seq_length.
  now rewrite seq_nth.
Qed.

Lemma good_wf t cs ranks : wf t -> good t cs ranks -> wf (vtt t cs ranks).
Proof.
  intros Hw [L RL P F La C]. constructor; cbn [rshape rks bsz].
  - rewrite vtt_ndims. apply (wf_d Hw).
  - apply (wf_kind Hw).
  - rewrite vtt_ndims. apply (wf_rlen Hw).
  - now rewrite vtt_ndims.
  - exact F.
  - unfold rk. rewrite vtt_ndims. exact La.
  - apply (wf_rpos Hw).
  - exact P.
  - apply (wf_bpos Hw).
  - intros k Hk. rewrite vtt_ndims in Hk. rewrite vtt_core by auto. destruct (C k Hk) as [C1 C2].
    split; [|reflexivity]. unfold wft in *. unfold vcore. cbn [data shape]. congruence.
Qed.

Lemma vtt_coreG t cs ranks p k a j b : k < ndims t ->
  coreG (vtt t cs ranks) p k a j b = get (vcore t cs ranks k) (p ++ a :: j ++ [b]).
Proof. intros Hk. unfold coreG. now rewrite vtt_core. Qed.

Lemma good_init t : wf t -> good t (cores t) (rks t).
Proof.
  intros Hw. constructor; try apply Hw; auto.
  intros k Hk. destruct (wf_core Hw k Hk) as [W S]. split; [exact W|]. change (nth k (cores t) core0) with (core t k). now rewrite S.
Qed.

Lemma vtt_init t : wf t -> vtt t (cores t) (rks t) = t.
Proof.
  intros Hw. unfold vtt. destruct t as [cs rsh ranks bs]. cbn [cores rshape rks bsz]. f_equal.
  apply nth_ext with (d := core0) (d' := core0); rewrite map_length, seq_length; [reflexivity|].
  intros k Hk. rewrite (nth_map_default _ _ _ 0) by now rewrite seq_length. rewrite seq_nth by auto. cbn [Nat.add].
  destruct (wf_core Hw k Hk) as [W S]. unfold core in S. cbn [cores] in S. change (Tensor [] []) with core0 in S.
  unfold vcore, vshape. transitivity (RT (shape (nth k cs core0)) (data (nth k cs core0))); [now rewrite S|].
  now destruct (nth k cs core0).
Qed.

(** Replacing cores i and i+1 and the rank between them. *)
Lemma good_upd t cs ranks i x y r : good t cs ranks -> S i < ndims t -> 0 < r ->
  wft x -> prodn (shape x) = prodn (bpre t ++ nth i ranks 0 :: modes t i ++ [r]) ->
  wft y -> prodn (shape y) = prodn (bpre t ++ r :: modes t (S i) ++ [nth (S (S i)) ranks 0]) ->
  good t (upd (S i) y (upd i x cs)) (upd (S i) r ranks).
Proof.
  intros [L RL P F La C] Hi Hr Wx Sx Wy Sy. constructor.
  - now rewrite !length_upd.
  - now rewrite length_upd.
  - apply Forall_forall. intros n Hn. apply (In_nth _ _ 0) in Hn as (k & Hk & <-). rewrite length_upd in Hk.
    destruct (Nat.eq_dec k (S i)) as [->|Hne]; [now rewrite nth_upd_same by lia|].
    rewrite nth_upd_other by auto. now apply Forall_nth'.
  - rewrite nth_upd_other by lia. exact F.
  - rewrite nth_upd_other by lia. exact La.
  - intros k Hk. unfold vshape.
    destruct (Nat.eq_dec k (S i)) as [->|H1].
    { rewrite nth_upd_same by (rewrite length_upd; lia). rewrite nth_upd_same by lia. rewrite nth_upd_other by lia. auto. }
    rewrite nth_upd_other by auto.
    destruct (Nat.eq_dec k i) as [->|H2].
    { rewrite nth_upd_same by lia. rewrite nth_upd_same by lia. rewrite nth_upd_other by lia. auto. }
    rewrite nth_upd_other by auto. rewrite !nth_upd_other by lia. now apply C.
Qed.

Lemma entry_upd t cs ranks i x y r : good t cs ranks -> S i < ndims t -> 
  (forall p a j1 j2 c, vidx (bpre t) p -> a < nth i ranks 0 -> vidx (modes t i) j1 -> vidx (modes t (S i)) j2 ->
     c < nth (S (S i)) ranks 0 ->
     sumn (K := Rring) (nth (S i) ranks 0) (fun b => get (vcore t cs ranks i) (p ++ a :: j1 ++ [b]) *
                                       get (vcore t cs ranks (S i)) (p ++ b :: j2 ++ [c]))%K =
     sumn (K := Rring) r (fun b =>
       get (RT (bpre t ++ nth i ranks O :: modes t i ++ [r]) (data x)) (p ++ a :: j1 ++ [b]) *
       get (RT (bpre t ++ r :: modes t (S i) ++ [nth (S (S i)) ranks O]) (data y)) (p ++ b :: j2 ++ [c]))%K) ->
  forall p J, vidx (bpre t) p -> vchain (modes t) 0 J -> length J = ndims t ->
  tt_entry (vtt t (upd (S i) y (upd i x cs)) (upd (S i) r ranks)) p J = tt_entry (vtt t cs ranks) p J.
Proof.
  intros [L RL P F La C] Hi HS p J Hp HJ HL. unfold tt_entry. symmetry.
  assert (Hcore : forall m, m < ndims t -> m <> i -> m <> S i ->
    vcore t (upd (S i) y (upd i x cs)) (upd (S i) r ranks) m = vcore t cs ranks m).
  { intros m Hm H1 H2. unfold vcore, vshape. now rewrite !nth_upd_other by lia. }
  apply (chain_gauge Rring (modes t)) with (i := i); auto; try lia.
  - change (rk (vtt t cs ranks) 0) with (nth 0 ranks 0). rewrite F. lia.
  - intros m Hm. unfold rk, vtt. cbn [rks]. now rewrite nth_upd_other.
  - intros m a j b Hm H1 H2 Ha Hb Hj. rewrite !vtt_coreG by lia. now rewrite Hcore by lia.
  - intros a j1 j2 c Ha H1 H2 Hc. change (rk (vtt t cs ranks)) with (fun k => nth k ranks 0) in *. cbv beta in *.
    change (rk (vtt t (upd (S i) y (upd i x cs)) (upd (S i) r ranks)) (S i)) with (nth (S i) (upd (S i) r ranks) 0).
    rewrite nth_upd_same by lia.
    transitivity (sumn (K := Rring) (nth (S i) ranks 0) (fun b => get (vcore t cs ranks i) (p ++ a :: j1 ++ [b]) *
                                       get (vcore t cs ranks (S i)) (p ++ b :: j2 ++ [c]))%K).
    { apply sumn_ext. intros b _. now rewrite !vtt_coreG by lia. }
    rewrite HS by auto. apply sumn_ext. intros b _. rewrite !vtt_coreG by lia.
    f_equal.
    + unfold vcore, vshape. rewrite (nth_upd_other (S i) i) by lia. rewrite (nth_upd_other (S i) i) by lia.
      now rewrite !nth_upd_same by lia.
    + unfold vcore, vshape. rewrite (nth_upd_other (S i) (S (S i))) by lia.
      rewrite (nth_upd_same (S i) r) by lia. now rewrite nth_upd_same by (rewrite length_upd; lia).
Qed.

End WithR.
Arguments vshape _ _ _ : simpl never.
