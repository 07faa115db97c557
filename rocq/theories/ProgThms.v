(** Proofs for C56: every call of the dense language returns an object that stands for its dense value. *)
From Coq Require Import String List Arith ZArith Lia Lra Bool Reals.
From Verif Require Import Scalar Tensor TensorLemmas Base Spec BaseLemmas Ops FullProofs ResultLemmas Dense OpsR BatchOps Det Decomp DecompSpec SvdSpec Approx Kron KronSpec Init History.
From Verif Require Import AddProofs MulProofs MatmulProofs MiscProofs BatchProofs InitProofs SliceProofs RankArgs ValidProofs DetProofs KronProofs CholProofs RiemSpec Autodiff AutoSpec ProgSpec ProgRiem ProgAuto.
From Verif Require Import Properties_Full_Add Properties_Mul_Matmul Properties_Scale Properties_Index Properties_Construct Properties_Batch Properties_Decomp Properties_Svd Properties_Approx Properties_Kron Properties_Init.
Import ListNotations.
Local Open Scope nat_scope.
Local Notation get := (@get Rring).

Lemma denotes_shape t v : denotes t v -> wft (d_x v) /\ shape (d_x v) = d_shape (d_modes v) (d_batch v).
Proof. intros (Hw & R & B & F & _). rewrite <- R, <- B. now apply shape_of. Qed.

Lemma value_denotes (t : rtt) d v ms B rs f : wf t -> rshape t = ms -> bsz t = B -> full t = Ok d ->
  (forall i, vidx (d_shape ms B) i -> get d i = f i) -> (forall k, k <= ndims t -> rk t k <= rs k) -> value v ms B rs f -> denotes t v.
Proof.
  intros Hw HR HB Fd G K (M & Bv & Kv & Wv & Sv & Gv). destruct (shape_of t d Hw Fd) as [Wd Sd]. rewrite HR, HB in Sd.
  split; [exact Hw|]. split; [congruence|]. split; [congruence|]. split; [|intros k Hk; rewrite Kv; auto].
  rewrite Fd. f_equal. apply tensor_ext; [exact Wd|exact Wv|congruence|]. intros i Hi. rewrite Sd in Hi. rewrite Gv, G by auto. reflexivity.
Qed.

Lemma same_denotes (t s : rtt) v x rs : denotes t x -> wf s -> rshape s = rshape t -> bsz s = bsz t -> same_full t s ->
  (forall k, k <= ndims s -> rk s k <= rs k) -> same_value v x rs -> denotes s v.
Proof.
  intros (Wt & R & B & F & _) Ws Rs Bs (dt & ds & Ft & Fs & S & G) K (M & Bv & Kv & Xv). rewrite F in Ft. apply Ok_inj in Ft. subst dt.
  split; [exact Ws|]. split; [congruence|]. split; [congruence|]. split; [|intros k Hk; rewrite Kv; auto].
  rewrite Fs, Xv. f_equal. destruct (shape_of t _ Wt F) as [W1 S1]. destruct (shape_of s _ Ws Fs) as [W2 S2].
  apply tensor_ext; auto. intros i Hi. symmetry. apply G. congruence.
Qed.

Lemma same_id t v x : denotes t x -> same_value v x (d_rank x) -> denotes t v.
Proof.
  intros (Wt & R & B & F & K) (M & Bv & Kv & Xv). split; [exact Wt|]. split; [congruence|]. split; [congruence|]. split; [congruence|].
  intros k Hk. rewrite Kv. auto.
Qed.

Lemma arg_get e de a x : denote_all e de -> nth_error de a = Some x -> exists o, nthr e a = Ok o /\ denotes (o_tt o) x.
Proof.
  intros H. revert a. induction H as [|o v e de Ho H IH]; intros [|a] E; cbn in E; try discriminate.
  - injection E as <-. exists o. split; [reflexivity|exact Ho].
  - destruct (IH a E) as (o' & E' & D). exists o'. split; [exact E'|exact D].
Qed.

Lemma args_get e de l xs : denote_all e de -> Forall2 (fun a x => nth_error de a = Some x) l xs ->
  exists os, mapM (nthr e) l = Ok os /\ Forall2 (fun o x => denotes (o_tt o) x) os xs.
Proof.
  intros H L. induction L as [|a x l xs A L IH]; [exists []; split; [reflexivity|constructor]|].
  destruct (arg_get e de a x H A) as (o & Eo & Do). destruct IH as (os & Eos & Dos). exists (o :: os). split; [|now constructor].
  cbn [mapM]. rewrite Eo. cbn [bind]. rewrite Eos. reflexivity.
Qed.

Lemma limits_one batch a eps d m k : rank_limits batch a eps d m -> k <= d -> 1 <= m k.
Proof.
  intros [_ H] Hk. destruct a as [| |z|l]; try contradiction.
  - destruct H as [Hz H]. rewrite H by auto. lia.
  - destruct H as (_ & L & P & H). rewrite H by auto. assert (1 <= nth k l 0)%Z; [|lia].
    rewrite Forall_forall in P. apply P. apply nth_In. lia.
Qed.

(** Bounds at the ends are 1. *)
Lemma inner_bounds (t : rtt) (m : nat -> nat) : wf t -> 1 <= m 0 -> 1 <= m (ndims t) -> (forall k, 0 < k < ndims t -> rk t k <= m k) ->
  forall k, k <= ndims t -> rk t k <= m k.
Proof.
  intros Hw H0 H1 H k Hk. destruct (Nat.eq_dec k 0) as [->|]; [rewrite (wf_first Hw); lia|].
  destruct (Nat.eq_dec k (ndims t)) as [->|]; [rewrite (wf_last Hw); lia|]. apply H; lia.
Qed.

Lemma same_rks (t s : rtt) (f : nat -> nat) : wf t -> wf s -> rks s = rks t -> (forall k, k <= ndims t -> rk t k <= f k) -> forall k, k <= ndims s -> rk s k <= f k.
Proof.
  intros Wt Ws E H k Hk. unfold rk. rewrite E. apply H. assert (L : length (rks s) = length (rks t)) by now rewrite E.
  rewrite (wf_klen Ws), (wf_klen Wt) in L. lia.
Qed.

Lemma sum_bounds (a b c : rtt) (f g : nat -> nat) : wf a -> wf b -> wf c -> ndims b = ndims a ->
  rks c = (1 :: map (fun i => rk a i + rk b i) (seq 1 (ndims a - 1)) ++ [1]) ->
  (forall k, k <= ndims a -> rk a k <= f k) -> (forall k, k <= ndims b -> rk b k <= g k) -> forall k, k <= ndims c -> rk c k <= f k + g k.
Proof.
  intros Wa Wb Wc D E Ha Hb. pose proof (wf_d Wa) as Hd.
  assert (Dc : ndims c = ndims a). { pose proof (wf_klen Wc) as L. rewrite E in L. cbn [length] in L. rewrite app_length, map_length, seq_length in L. cbn in L. lia. }
  pose proof (Ha 0 ltac:(lia)) as A0. pose proof (Ha (ndims a) ltac:(lia)) as A1. rewrite (wf_first Wa) in A0. rewrite (wf_last Wa) in A1.
  apply inner_bounds; auto; [lia|rewrite Dc; lia|]. intros k Hk. unfold rk at 1. rewrite E. destruct k as [|k]; [lia|]. cbn [nth].
  rewrite app_nth1 by (rewrite map_length, seq_length; lia). rewrite (nth_indep _ 0 (rk a 0 + rk b 0)) by (rewrite map_length, seq_length; lia).
  rewrite (map_nth (fun i => rk a i + rk b i)), seq_nth by lia. cbn [Nat.add]. pose proof (Ha (S k) ltac:(lia)). pose proof (Hb (S k) ltac:(lia)). lia.
Qed.

Lemma mul_bounds (a b c : rtt) (f g : nat -> nat) : wf a -> wf b -> wf c -> ndims b = ndims a -> rks c = map2 Nat.mul (rks a) (rks b) ->
  (forall k, k <= ndims a -> rk a k <= f k) -> (forall k, k <= ndims b -> rk b k <= g k) -> forall k, k <= ndims c -> rk c k <= f k * g k.
Proof.
  intros Wa Wb Wc D E Ha Hb k Hk. assert (L : length (rks a) = length (rks b)) by (rewrite (wf_klen Wa), (wf_klen Wb); lia).
  assert (k <= ndims a). { pose proof (wf_klen Wc) as L'. rewrite E, map2_length', (wf_klen Wa) in L' by auto. lia. }
  unfold rk. rewrite E, nth_map2_mul by auto. apply Nat.mul_le_mono; [apply Ha|apply Hb]; lia.
Qed.

(** Positions of a dense array with or without a batch axis. *)
Lemma shape_none ms : d_shape ms None = match ms with [rows; cols] => [prodn rows; prodn cols] | _ => nth 0 ms [] end.
Proof. reflexivity. Qed.
Lemma shape_some ms b : d_shape ms (Some b) = b :: d_shape ms None.
Proof. reflexivity. Qed.
Lemma vidx_some ms b i : vidx (d_shape ms (Some b)) i -> exists o j, i = o :: j /\ o < b /\ vidx (d_shape ms None) j.
Proof.
  rewrite shape_some. intros H. destruct i as [|o j]; [inversion H|]. apply vidx_cons_inv in H as [H1 H2]. eauto.
Qed.
Lemma bpre_some (t : rtt) b : wf t -> bsz t = Some b -> 0 < b.
Proof. intros Hw HB. pose proof (wf_bpos Hw) as P. unfold bpre in P. rewrite HB in P. now inversion P. Qed.

Lemma ew2_operand F (a b c : rtt) x y : denotes a x -> denotes b y -> wf c -> elementwise2 (K := Rring) F a b c ->
  exists dc, full c = Ok dc /\ forall i, vidx (d_shape (rshape c) (bsz c)) i -> get dc i = F (operand (bsz c) x i) (operand (bsz c) y i).
Proof.
  intros (_ & _ & Ba & Fa & _) (_ & _ & Bb & Fb & _) Wc (da & db & dc & F1 & F2 & F3 & S & G).
  rewrite Fa in F1. apply Ok_inj in F1. subst da. rewrite Fb in F2. apply Ok_inj in F2. subst db. exists dc. split; [exact F3|].
  destruct (shape_of c dc Wc F3) as [_ Sc]. rewrite Sc in G. intros i Hi. unfold operand. destruct (bsz c) as [B|].
  - destruct (vidx_some _ _ _ Hi) as (o & j & -> & Ho & Hj). cbn [hd tl]. rewrite <- Ba, <- Bb. now apply G.
  - now apply G.
Qed.

Lemma ew1_dense F (a c : rtt) x : denotes a x -> wf c -> rshape c = rshape a -> bsz c = bsz a -> elementwise1 (K := Rring) (L := Rring) F a c ->
  exists dc, full c = Ok dc /\ forall i, vidx (d_shape (d_modes x) (d_batch x)) i -> get dc i = F (get (d_x x) i).
Proof.
  intros (Wa & Ra & Ba & Fa & _) Wc Rc Bc (da & dc & F1 & F2 & S & G). rewrite Fa in F1. apply Ok_inj in F1. subst da.
  exists dc. split; [exact F2|]. destruct (shape_of c dc Wc F2) as [_ Sc]. rewrite Sc, Rc, Bc, Ra, Ba in G. exact G.
Qed.

(** Ranks of a slice are monotone in the ranks. *)
Lemma filter_le spec : forall l l', Forall2 le l l' ->
  Forall2 le (map snd (filter (fun p => is_slice (fst p)) (combine spec l))) (map snd (filter (fun p => is_slice (fst p)) (combine spec l'))).
Proof.
  induction spec as [|i spec IH]; intros l l' H; [constructor|]. destruct H as [|x y l l' Hxy H]; [constructor|]. cbn [combine filter fst].
  destruct (is_slice i); [cbn [map]; constructor; auto|auto].
Qed.
Lemma removelast_le l l' : Forall2 le l l' -> Forall2 le (removelast l) (removelast l').
Proof.
  intros H. induction H as [|x y l l' Hxy H IH]; [constructor|]. cbn [removelast]. destruct H; [constructor|]. constructor; auto.
Qed.
Lemma slice_ranks_le spec l l' : Forall2 le l l' -> Forall2 le (slice_ranks spec l) (slice_ranks spec l').
Proof.
  intros H. unfold slice_ranks. constructor; [lia|]. apply Forall2_app; [|repeat constructor]. apply removelast_le, filter_le.
  destruct H; [constructor|auto].
Qed.
Lemma Forall2_le_nth l l' : Forall2 le l l' -> forall k, nth k l 0 <= nth k l' 0.
Proof. intros H. induction H as [|x y l l' Hxy H IH]; intros [|k]; cbn [nth]; auto. Qed.
Lemma slice_bounds (t z : rtt) v x spec : denotes t x -> rks z = slice_ranks spec (rks t) ->
  (forall k, d_rank v k = nth k (slice_ranks spec (map (d_rank x) (seq 0 (S (axes x))))) 0) -> forall k, rk z k <= d_rank v k.
Proof.
  intros Dt E H k. rewrite H. unfold rk. rewrite E. apply Forall2_le_nth, slice_ranks_le. rewrite (axes_ndims _ _ Dt). destruct Dt as (Wt & _ & _ & _ & K).
  assert (G : forall n (l : list nat) m, length l = n -> (forall i, i < n -> nth i l 0 <= d_rank x (m + i)) -> Forall2 le l (map (d_rank x) (seq m n))).
  { clear. induction n as [|n IH]; intros l m L H; destruct l as [|a l]; try discriminate; [constructor|]. cbn [seq map]. constructor.
    - specialize (H 0 ltac:(lia)). rewrite Nat.add_0_r in H. exact H.
    - apply IH; [now injection L|]. intros i Hi. specialize (H (S i) ltac:(lia)). now replace (S m + i) with (m + S i) by lia. }
  apply G; [apply (wf_klen Wt)|]. intros i Hi. apply K. lia.
Qed.

(** Two right inverses are equal. *)
Lemma inverse_one n A B C : right_inverse n A B -> right_inverse n A C -> meq n B C.
Proof.
  intros HB HC i j Hi Hj. apply inverse_comm in HB.
  transitivity (mmul n B (mmul n A C) i j).
  - unfold mmul at 1. rewrite <- (mmul_kron_r n B i j Hi Hj) at 1. unfold mmul at 1. apply (sumn_ext Rring). intros k Hk. now rewrite <- HC by auto.
  - rewrite <- (mmul_kron_l n C i j Hi Hj). unfold mmul at 1 3. transitivity (sumn (K := Rring) n (fun l => sumn (K := Rring) n (fun k => (B i k * A k l * C l j)%R))).
    + rewrite (sumn_swap Rring). apply (sumn_ext Rring). intros k Hk. unfold mmul. rewrite <- (sumn_mul_l Rring). apply (sumn_ext Rring). intros l Hl. cbn. ring.
    + apply (sumn_ext Rring). intros l Hl. rewrite <- HB by auto. unfold mmul. rewrite <- (sumn_mul_r Rring). reflexivity.
Qed.

(** Elements of a concatenation. *)
Lemma elements_cons (t : rtt) l : elements (t :: l) = map (fun o => (t, o)) (seq 0 (bsize t)) ++ elements l.
Proof. reflexivity. Qed.
Lemma elements_total ts xs : Forall2 denotes ts xs -> length (elements ts) = batch_total xs.
Proof.
  intros H. induction H as [|t x ts xs D H IH]; [reflexivity|]. rewrite elements_cons, app_length, map_length, seq_length, IH.
  unfold batch_total. cbn [map list_sum fold_right]. unfold bsize. destruct D as (_ & _ & -> & _). reflexivity.
Qed.
Lemma elements_nth ts xs : Forall2 denotes ts xs -> Forall (fun x => d_batch x <> None) xs -> forall o, o < batch_total xs ->
  exists t o' x, nth_error (elements ts) o = Some (t, o') /\ denotes t x /\ forall i, element_of xs o i = get (d_x x) (o' :: i).
Proof.
  intros H. induction H as [|t x ts xs D H IH]; intros HB o Ho; [cbn in Ho; lia|]. apply Forall_cons_iff in HB as [HB HB'].
  unfold batch_total in Ho. cbn [map list_sum fold_right] in Ho. rewrite elements_cons. unfold bsize. cbn [element_of]. destruct D as (D1 & D2 & D3 & D4). rewrite D3.
  destruct (d_batch x) as [b|] eqn:EB; [|congruence]. destruct (Nat.ltb_spec o b) as [L|L].
  - exists t, o, x. split; [|split; [unfold denotes; rewrite EB; auto|reflexivity]]. rewrite nth_error_app1 by (rewrite map_length, seq_length; lia).
    rewrite (map_nth_error (fun o => (t, o)) o (seq 0 b) (d := o)); [reflexivity|]. rewrite (nth_error_nth' _ 0) by (rewrite seq_length; lia). now rewrite seq_nth by lia.
  - destruct (IH HB' (o - b)) as (t' & o' & x' & E & D & G). { unfold batch_total. unfold list_sum. lia. }
    exists t', o', x'. split; [|split; auto]. rewrite nth_error_app2 by (rewrite map_length, seq_length; lia). now rewrite map_length, seq_length.
Qed.

(** Random cores. *)
Lemma drawn_unique xi B ms rs mean sd t t' : drawn xi B ms rs mean sd t -> drawn xi B ms rs mean sd t' -> t = t'.
Proof.
  intros [W R K Bt G] [W' R' K' B' G']. assert (N : ndims t = ndims t') by (pose proof (wf_klen W); pose proof (wf_klen W'); rewrite K in *; rewrite K' in *; lia).
  assert (HC : cores t = cores t').
  { apply nth_ext with (d := Tensor (K := Rring) [] []) (d' := Tensor (K := Rring) [] []); [exact N|]. intros k Hk. change (k < ndims t) in Hk. destruct (wf_core W k Hk) as [C1 C2]. destruct (wf_core W' k ltac:(lia)) as [C1' C2'].
    assert (S : shape (core t k) = shape (core t' k)). { rewrite C2, C2'. unfold bpre, modes, rk. rewrite R, R', K, K', Bt, B'. reflexivity. }
    change (core t k = core t' k). apply tensor_ext; auto. intros i Hi. rewrite G by auto. symmetry. apply G'; [lia|]. now rewrite <- S. }
  destruct t, t'. cbn in *. congruence.
Qed.
Lemma sampled_denotes xi B ms rs mean sd t v : drawn xi B ms rs mean sd t -> sampled v ms B rs mean sd xi -> denotes t v.
Proof.
  intros D (u & Wu & Ru & Ku & Bu & Gu & HV). assert (t = u) by (apply (drawn_unique xi B ms rs mean sd); [exact D|constructor; auto]). subst u.
  destruct (full_correct Rring t Wu) as (d & F & W & S & G). eapply value_denotes; [exact Wu|exact Ru|exact Bu|exact F| |intros; unfold rk; rewrite Ku; apply le_n|exact HV].
  intros i Hi. apply G. destruct (shape_of t d Wu F) as [_ Sd]. rewrite Ru, Bu in Sd. congruence.
Qed.
Lemma pow_inj n (a b : R) : 0 < n -> (0 <= a)%R -> (0 <= b)%R -> (a ^ n = b ^ n)%R -> a = b.
Proof.
  intros Hn Ha Hb H. destruct (Rtotal_order a b) as [L|[E|L]]; [|exact E|].
  - exfalso. assert (a ^ n < b ^ n)%R; [|lra]. clear H. destruct n as [|n]; [lia|]. clear Hn. induction n as [|n IH]; [cbn; lra|].
    cbn [pow] in *. apply Rmult_le_0_lt_compat; auto. apply Rmult_le_pos; [auto|now apply pow_le].
  - exfalso. assert (b ^ n < a ^ n)%R; [|lra]. clear H. destruct n as [|n]; [lia|]. clear Hn. induction n as [|n IH]; [cbn; lra|].
    cbn [pow] in *. apply Rmult_le_0_lt_compat; auto. apply Rmult_le_pos; [auto|now apply pow_le].
Qed.
Lemma core_stddev_pos d rs sd : (0 <= sd)%R -> (0 <= core_stddev d rs sd)%R.
Proof.
  intros Hs. unfold core_stddev. apply Rmult_le_pos.
  - unfold tf_pow. destruct (Req_EM_T sd 0); [destruct (Req_EM_T _ 0); lra|]. unfold Rpower. left. apply exp_pos.
  - induction rs as [|n rs IH]; cbn [map fold_right]; [lra|]. apply Rmult_le_pos; [unfold Rpower; left; apply exp_pos|exact IH].
Qed.
Lemma core_sd_unique d rs sd var c : 0 < d -> (0 <= sd)%R -> (sd ^ 2 = var)%R -> Forall (fun n => 0 < n) rs -> core_sd d rs var c -> c = core_stddev d rs sd.
Proof.
  intros Hd Hs <- Hr [Hc H]. rewrite <- (RandomProofs.core_stddev_pow d rs sd Hd Hs Hr) in H. apply Rmult_eq_reg_r in H; [|pose proof (prodn_pos rs Hr) as P; apply lt_0_INR in P; lra].
  pose proof (core_stddev_pos d rs sd Hs) as Hp. apply (pow_inj d); auto. apply (pow_inj 2); auto; now apply pow_le.
Qed.

(** Arguments of the constructors. *)
Lemma names_clean sh ms : names_sizes sh ms -> ms <> [] -> exists o, clean_raw_shape sh = Ok o /\ names o ms.
Proof.
  intros [->|[->|[(l & -> & [->|[Hl ->]])|(rows & cols & -> & Hr & Hc & ->)]]] Hm.
  - exists None. split; [reflexivity|now left].
  - exists (Some ms). split; [destruct ms; [congruence|reflexivity]|now right].
  - exists (Some [l]). split; [reflexivity|now right].
  - exists (Some [l]). split; [|now right]. destruct l as [|a [|b l]]; cbn in Hl; try lia. reflexivity.
  - exists (Some [rows; cols]). split; [|now right]. destruct rows as [|a [|b rows]]; cbn in Hr; try lia. destruct cols as [|a' [|b' cols]]; try discriminate Hc.
    cbn in *. injection Hc as Hc. rewrite Hc. rewrite !Nat.eqb_refl. reflexivity.
Qed.
Lemma named_accepted (t : rtt) sh ranks : wf t -> bsz t = None -> names_sizes sh (rshape t) -> names ranks (rks t) -> TensorTrain (cores t) sh ranks = Ok t.
Proof.
  intros Hw HB N1 N2. pose proof (wf_shaped Rring t Hw) as S. unfold bpre in S. rewrite HB in S.
  assert (Ne : rshape t <> []) by (destruct (wf_kind Hw) as [E|E]; intros X; rewrite X in E; discriminate).
  destruct (names_clean sh _ N1 Ne) as (o & Eo & No). unfold TensorTrain. rewrite Eo. cbn [bind].
  pose proof (cores_valid_ok Rring [] (rshape t) (rks t) (cores t) o ranks None S (wf_d Hw) (wf_rlen Hw) (wf_klen Hw) (wf_first Hw) (wf_last Hw)) as V. cbn [length] in V. rewrite V; auto. cbn [bind negb].
  pose proof (infer_raw_shape_ok Rring [] (rshape t) (rks t) (cores t) S (wf_d Hw) (wf_rlen Hw)) as E1. pose proof (infer_tt_ranks_ok Rring [] (rshape t) (rks t) (cores t) S (wf_d Hw) (wf_klen Hw)) as E2. cbn [length] in *.
  destruct t as [c s r b]. cbn [cores rshape rks bsz] in *. subst b. destruct No as [->| ->], N2 as [->| ->]; rewrite ?E1, ?E2; reflexivity.
Qed.
Lemma named_accepted_batch (t : rtt) b sh ranks bs : wf t -> bsz t = Some b -> names_sizes sh (rshape t) -> names ranks (rks t) -> names bs b ->
  TensorTrainBatch (cores t) sh ranks bs = Ok t.
Proof.
  intros Hw HB N1 N2 N3. pose proof (wf_shaped Rring t Hw) as S. unfold bpre in S. rewrite HB in S.
  assert (Ne : rshape t <> []) by (destruct (wf_kind Hw) as [E|E]; intros X; rewrite X in E; discriminate).
  destruct (names_clean sh _ N1 Ne) as (o & Eo & No). unfold TensorTrainBatch. rewrite Eo. cbn [bind].
  pose proof (cores_valid_ok Rring [b] (rshape t) (rks t) (cores t) o ranks bs S (wf_d Hw) (wf_rlen Hw) (wf_klen Hw) (wf_first Hw) (wf_last Hw)) as V. cbn [length] in V. rewrite V; auto. cbn [bind negb].
  2:{ destruct N3 as [->| ->]; eauto. }
  pose proof (infer_raw_shape_ok Rring [b] (rshape t) (rks t) (cores t) S (wf_d Hw) (wf_rlen Hw)) as E1. pose proof (infer_tt_ranks_ok Rring [b] (rshape t) (rks t) (cores t) S (wf_d Hw) (wf_klen Hw)) as E2. cbn [length] in *.
  assert (E3 : match bs with Some b => Ok b | None => do c <- nthr (cores t) 0; nthr (shape c) 0 end = Ok b).
  { destruct N3 as [->| ->]; [|reflexivity]. rewrite (nthr_nth (cores t) 0 (Tensor (K := Rring) [] []) (wf_d Hw)). cbn [bind]. change (nth 0 (cores t) (Tensor (K := Rring) [] [])) with (core t 0). rewrite (proj2 (wf_core Hw 0 (wf_d Hw))). unfold bpre. rewrite HB. reflexivity. }
  rewrite E3. cbn [bind]. destruct t as [c s r b']. cbn [cores rshape rks bsz] in *. subst b'. destruct No as [->| ->], N2 as [->| ->]; rewrite ?E1, ?E2; reflexivity.
Qed.

Section Calls.
Variable qr : rtensor -> rtensor * rtensor.
Variable svd : rtensor -> rtensor * rtensor * rtensor.
Variable la : linalg.
Variable grad : (list rtensor -> res R) -> list rtensor -> list (option rtensor).
Hypothesis Hqr : qr_ok qr.
Hypothesis Hsvd : svd_ok svd.
Hypothesis Hinv : inv_ok (tf_inv la).
Hypothesis Hcho : cho_ok (tf_cholesky la).
Hypothesis Hgrad : grad_ok grad.
Variables (e : env) (de : list dval).
Hypothesis HE : denote_all e de.
Local Notation called c v := (exists o, call qr svd la grad e c = Ok o /\ denotes (o_tt o) v).

Lemma fresh_called c v z : call qr svd la grad e c = fresh (length e) (Ok z) -> denotes z v -> called c v.
Proof. intros E D. rewrite E. eexists. split; [reflexivity|exact D]. Qed.

Lemma unary_called c v a f o z : call qr svd la grad e c = unary e a f -> nthr e a = Ok o -> f (o_tt o) = Ok z -> denotes z v -> called c v.
Proof. intros E A F D. rewrite E. unfold unary. rewrite A. cbn [bind]. rewrite F. eexists. split; [reflexivity|exact D]. Qed.

Lemma binary_called c v a b f o o' z : call qr svd la grad e c = binary e a b f -> nthr e a = Ok o -> nthr e b = Ok o' -> f (o_tt o) (o_tt o') = Ok z -> denotes z v -> called c v.
Proof. intros E A B F D. rewrite E. unfold binary. rewrite A. cbn [bind]. rewrite B. cbn [bind]. rewrite F. eexists. split; [reflexivity|exact D]. Qed.

Lemma call_TensorTrain cs sh ranks v : means de (CallTensorTrain cs sh ranks) v -> called (CallTensorTrain cs sh ranks) v.
Proof.
  cbn [means]. intros (t & Hw & <- & HB & N1 & N2 & HV).
  apply (fresh_called _ v t); [cbn [call]; now rewrite (named_accepted t sh ranks Hw HB N1 N2)|]. destruct (full_correct Rring t Hw) as (d & F & W & S & G).
  eapply value_denotes; [exact Hw|reflexivity|exact HB|exact F| |intros; apply le_n|exact HV].
  intros i Hi. apply G. destruct (shape_of t d Hw F) as [_ Sd]. rewrite HB in Sd. congruence.
Qed.
Lemma call_TensorTrainBatch cs sh ranks bs v : means de (CallTensorTrainBatch cs sh ranks bs) v -> called (CallTensorTrainBatch cs sh ranks bs) v.
Proof.
  cbn [means]. intros (t & b & Hw & <- & HB & N1 & N2 & N3 & HV).
  apply (fresh_called _ v t); [cbn [call]; now rewrite (named_accepted_batch t b sh ranks bs Hw HB N1 N2 N3)|]. destruct (full_correct Rring t Hw) as (d & F & W & S & G).
  eapply value_denotes; [exact Hw|reflexivity|exact HB|exact F| |intros; apply le_n|exact HV].
  intros i Hi. apply G. destruct (shape_of t d Hw F) as [_ Sd]. rewrite HB in Sd. congruence.
Qed.

Lemma call_Squeeze a v : means de (CallSqueezeBatchDim a) v -> called (CallSqueezeBatchDim a) v.
Proof.
  cbn [means]. intros (x & A & HV). destruct (arg_get e de a x HE A) as (o & Eo & Do). pose proof Do as (Wt & R & B & F & K).
  cbn [call]. rewrite Eo. cbn [bind]. rewrite B. destruct (C23_squeeze Rring (o_tt o) Wt) as (S1 & _ & _).
  destruct (d_batch x) as [[|[|b]]|] eqn:EB; try (exists o; split; [reflexivity|now apply (same_id _ _ x)]).
  destruct (S1 B) as (z & d & dz & Ez & Wz & Bz & Rz & Kz & Ft & Fz & Sz & G). rewrite Ez. eexists. split; [reflexivity|]. cbn [o_tt].
  rewrite F in Ft. apply Ok_inj in Ft. subst d. destruct (shape_of z dz Wz Fz) as [_ Sd]. rewrite Bz, Rz, R in Sd.
  eapply value_denotes; [exact Wz|exact (eq_trans Rz R)|exact Bz|exact Fz| | |exact HV].
  - intros i Hi. apply G. now rewrite Sd.
  - now apply (same_rks (o_tt o)).
Qed.
Lemma call_Expand a v : means de (CallExpandBatchDim a) v -> called (CallExpandBatchDim a) v.
Proof.
  cbn [means]. intros (x & A & HV). destruct (arg_get e de a x HE A) as (o & Eo & Do). pose proof Do as (Wt & R & B & F & K).
  cbn [call]. rewrite Eo. cbn [bind]. unfold is_batch. rewrite B. destruct (d_batch x) as [b|] eqn:EB; [exists o; split; [reflexivity|now apply (same_id _ _ x)]|].
  destruct (C23_expand Rring (o_tt o) Wt B) as (z & d & dz & Ez & Wz & Bz & Rz & Kz & Ft & Fz & Sz & G & _). rewrite Ez. eexists. split; [reflexivity|]. cbn [o_tt].
  rewrite F in Ft. apply Ok_inj in Ft. subst d. destruct (denotes_shape _ _ Do) as [_ Sx]. rewrite EB in Sx.
  eapply value_denotes; [exact Wz|exact (eq_trans Rz R)|exact Bz|exact Fz| | |exact HV].
  - intros i Hi. destruct (vidx_some _ _ _ Hi) as (q & j & -> & Hq & Hj). cbn [tl]. replace q with 0 by lia. apply G. now rewrite Sx.
  - now apply (same_rks (o_tt o)).
Qed.

Lemma matrix_shape (t : rtt) rows cols : wf t -> rshape t = [rows; cols] -> is_tt_matrix t = true.
Proof. intros _ R. unfold is_tt_matrix. now rewrite R. Qed.

Lemma call_Transpose a v : means de (CallTranspose a) v -> called (CallTranspose a) v.
Proof.
  cbn [means]. intros (x & rows & cols & A & M & HV). destruct (arg_get e de a x HE A) as (o & Eo & Do). pose proof Do as (Wt & R & B & F & K). rewrite M in R.
  destruct (C12_transpose Rring (o_tt o) Wt (matrix_shape _ _ _ Wt R)) as (z & d & dz & Ez & Wz & Rz & Bz & Kz & Ft & Fz & S1 & S2 & G).
  rewrite F in Ft. apply Ok_inj in Ft. subst d. rewrite R in *. cbn [nth] in *.
  eapply unary_called; [reflexivity|exact Eo|exact Ez|]. eapply value_denotes; [exact Wz|exact Rz|exact (eq_trans Bz B)|exact Fz| | |exact HV].
  - intros i Hi. destruct (d_batch x) as [b|] eqn:EB.
    + destruct (vidx_some _ _ _ Hi) as (q & j & -> & Hq & Hj). cbn [d_shape app] in Hj. destruct j as [|j1 [|j2 [|? ?]]]; try now (inversion Hj as [|? ? ? ? ? X]; inversion X as [|? ? ? ? ? Y]; inversion Y).
      apply vidx_cons_inv in Hj as [H1 Hj]. apply vidx_cons_inv in Hj as [H2 _]. cbn [swap_last]. apply (G [q] j2 j1); auto. unfold bpre. rewrite B. repeat constructor; auto.
    + cbn [d_shape app] in Hi. destruct i as [|j1 [|j2 [|? ?]]]; try now (inversion Hi as [|? ? ? ? ? X]; inversion X as [|? ? ? ? ? Y]; inversion Y).
      apply vidx_cons_inv in Hi as [H1 Hi]. apply vidx_cons_inv in Hi as [H2 _]. cbn [swap_last]. apply (G [] j2 j1); auto. unfold bpre. rewrite B. constructor.
  - now apply (same_rks (o_tt o)).
Qed.

Lemma call_Matmul a b v : means de (CallMatmul a b) v -> called (CallMatmul a b) v.
Proof.
  cbn [means]. intros (x & y & rows & mid & cols & A & A' & M & M' & BC & HV).
  destruct (arg_get e de a x HE A) as (o & Eo & Do). pose proof Do as (Wt & R & B & F & K). rewrite M in R.
  destruct (arg_get e de b y HE A') as (o' & Eo' & Do'). pose proof Do' as (Wu & R' & B' & F' & K'). rewrite M' in R'.
  destruct (C09_matmul Rring (o_tt o) (o_tt o') Wt Wu (matrix_shape _ _ _ Wt R) (matrix_shape _ _ _ Wu R')) as (z & Ez & Wz & Rz & Kz & Bz & G).
  { now rewrite R, R'. } { now rewrite B, B'. }
  cbn [matmul_any] in Ez. destruct (tt_tt_matmul (o_tt o) (o_tt o')) as [z'|] eqn:Ez'; [|discriminate]. cbn [bind] in Ez. injection Ez as ->.
  rewrite R, R' in *. cbn [nth] in *. destruct G as (da & db & dz & F1 & F2 & Fz & G). rewrite F in F1. apply Ok_inj in F1. subst da. rewrite F' in F2. apply Ok_inj in F2. subst db.
  eapply binary_called; [reflexivity|exact Eo|exact Eo'|exact Ez'|]. rewrite B, B' in *.
  assert (D : ndims (o_tt o') = ndims (o_tt o)).
  { pose proof (wf_rlen Wt) as L1. pose proof (wf_rlen Wu) as L2. rewrite R in L1. rewrite R' in L2. inversion L1 as [|? ? _ L1']; subst. inversion L1'; inversion L2; subst. congruence. }
  eapply value_denotes; [exact Wz|exact Rz|exact Bz|exact Fz| | |exact HV].
  - rewrite <- Bz. destruct (bsz z) as [q|]; destruct G as [Sz G].
    + intros i Hi. destruct (vidx_some _ _ _ Hi) as (p & j & -> & Hp & Hj). cbn [d_shape app] in Hj. destruct j as [|j1 [|j2 [|? ?]]]; try now (inversion Hj as [|? ? ? ? ? X]; inversion X as [|? ? ? ? ? Y]; inversion Y).
      apply vidx_cons_inv in Hj as [H1 Hj]. apply vidx_cons_inv in Hj as [H2 _]. now apply G.
    + intros i Hi. cbn [d_shape app] in Hi. destruct i as [|j1 [|j2 [|? ?]]]; try now (inversion Hi as [|? ? ? ? ? X]; inversion X as [|? ? ? ? ? Y]; inversion Y).
      apply vidx_cons_inv in Hi as [H1 Hi]. apply vidx_cons_inv in Hi as [H2 _]. now apply G.
  - now apply (mul_bounds (o_tt o) (o_tt o')).
Qed.

Lemma denotes_ndims t u x y : denotes t x -> denotes u y -> d_modes x = d_modes y -> rshape t = rshape u /\ ndims u = ndims t.
Proof.
  intros Dt Du E. pose proof (axes_ndims _ _ Dt) as H1. pose proof (axes_ndims _ _ Du) as H2. unfold axes in *. rewrite E in H1.
  destruct Dt as (_ & R & _), Du as (_ & R' & _). split; congruence.
Qed.

Lemma call_Multiply a b v : means de (CallMultiply a b) v -> called (CallMultiply a b) v.
Proof.
  cbn [means]. intros (x & y & A & A' & M & BC & HV).
  destruct (arg_get e de a x HE A) as (o & Eo & Do). pose proof Do as (Wt & R & B & F & K).
  destruct (arg_get e de b y HE A') as (o' & Eo' & Do'). pose proof Do' as (Wu & R' & B' & F' & K').
  destruct (denotes_ndims _ _ _ _ Do Do' M) as [RR D].
  destruct (C08_multiply_batch Rring (o_tt o) (o_tt o') Wt Wu RR) as (z & Ez & Wz & Rz & Bz & Kz & G). { now rewrite B, B'. }
  destruct (ew2_operand _ _ _ _ _ _ Do Do' Wz G) as (dz & Fz & Gz). rewrite Bz, Rz, R, B, B' in Gz.
  eapply binary_called; [reflexivity|exact Eo|exact Eo'|exact Ez|]. 
  eapply value_denotes; [exact Wz|exact (eq_trans Rz R)|rewrite Bz, B, B'; reflexivity|exact Fz| | |exact HV].
  - exact Gz.
  - now apply (mul_bounds (o_tt o) (o_tt o')).
Qed.

Lemma call_sum (f : rtt -> rtt -> res rtt) F t u x y : 
  (forall a b : rtt, wf a -> wf b -> rshape a = rshape b -> 2 <= ndims a -> bsz a = None -> bsz b = None ->
    exists c, f a b = Ok c /\ wf c /\ rshape c = rshape a /\ bsz c = None /\ rks c = (1 :: map (fun i => rk a i + rk b i) (seq 1 (ndims a - 1)) ++ [1])%nat /\ elementwise2 (K := Rring) F a b c) ->
  (forall (a b : rtt) p q, wf a -> wf b -> rshape a = rshape b -> 2 <= ndims a -> bsz a = Some p -> bsz b = Some q -> (p = q \/ p = 1 \/ q = 1) ->
    exists c, f a b = Ok c /\ wf c /\ rshape c = rshape a /\ bsz c = Some (Nat.max p q) /\ rks c = (1 :: map (fun i => rk a i + rk b i) (seq 1 (ndims a - 1)) ++ [1])%nat /\ elementwise2 (K := Rring) F a b c) ->
  (forall (a b : rtt) p, wf a -> wf b -> rshape a = rshape b -> 2 <= ndims a -> bsz a = Some p -> p <> 1 -> bsz b = None ->
    exists c, f a b = Ok c /\ wf c /\ rshape c = rshape a /\ bsz c = Some p /\ rks c = (1 :: map (fun i => rk a i + rk b i) (seq 1 (ndims a - 1)) ++ [1])%nat /\ elementwise2 (K := Rring) F a b c) ->
  denotes t x -> denotes u y -> addable x y ->
  exists z dz, f t u = Ok z /\ wf z /\ rshape z = d_modes x /\ bsz z = bc_size (d_batch x) (d_batch y) /\ full z = Ok dz /\
    (forall i, vidx (d_shape (d_modes x) (bc_size (d_batch x) (d_batch y))) i -> get dz i = F (operand (bc_size (d_batch x) (d_batch y)) x i) (operand (bc_size (d_batch x) (d_batch y)) y i)) /\
    forall k, k <= ndims z -> rk z k <= d_rank x k + d_rank y k.
Proof.
  intros H0 H1 H2 Dt Du (M & HA & BC). pose proof Dt as (Wt & R & B & F1 & K). pose proof Du as (Wu & R' & B' & F' & K').
  destruct (denotes_ndims _ _ _ _ Dt Du M) as [RR D]. rewrite (axes_ndims _ _ Dt) in HA.
  assert (X : exists z, f t u = Ok z /\ wf z /\ rshape z = rshape t /\ bsz z = bc_size (d_batch x) (d_batch y) /\
    rks z = (1 :: map (fun i => rk t i + rk u i) (seq 1 (ndims t - 1)) ++ [1])%nat /\ elementwise2 (K := Rring) F t u z).
  { destruct (d_batch x) as [p|], (d_batch y) as [q|]; try contradiction; cbn [bc_size]; [eapply H1|eapply H2|eapply H0]; eauto. }
  destruct X as (z & Ez & Wz & Rz & Bz & Kz & G). destruct (ew2_operand _ _ _ _ _ _ Dt Du Wz G) as (dz & Fz & Gz). rewrite Bz, Rz, R in Gz.
  exists z, dz. split; [exact Ez|]. split; [exact Wz|]. split; [congruence|]. split; [exact Bz|]. split; [exact Fz|]. split; [exact Gz|].
  now apply (sum_bounds t u).
Qed.

Lemma call_Add a b v : means de (CallAdd a b) v -> called (CallAdd a b) v.
Proof.
  cbn [means]. intros (x & y & A & A' & AD & HV).
  destruct (arg_get e de a x HE A) as (o & Eo & Do). destruct (arg_get e de b y HE A') as (o' & Eo' & Do').
  destruct (call_sum (fun x y => add x y) Rplus _ _ _ _ (C03_add Rring) (C04_add_batches Rring) (C04_add_batch_tt Rring) Do Do' AD) as (z & dz & Ez & Wz & Rz & Bz & Fz & Gz & Kz).
  eapply binary_called; [reflexivity|exact Eo|exact Eo'|exact Ez|]. now apply (value_denotes z dz v _ _ _ _ Wz Rz Bz Fz Gz Kz).
Qed.
Lemma call_Sub a b v : means de (CallSub a b) v -> called (CallSub a b) v.
Proof.
  cbn [means]. intros (x & y & A & A' & AD & HV).
  destruct (arg_get e de a x HE A) as (o & Eo & Do). destruct (arg_get e de b y HE A') as (o' & Eo' & Do').
  destruct (call_sum tt_sub Rminus _ _ _ _ C05_sub C05_sub_batches C05_sub_batch_tt Do Do' AD) as (z & dz & Ez & Wz & Rz & Bz & Fz & Gz & Kz).
  eapply binary_called; [reflexivity|exact Eo|exact Eo'|exact Ez|]. now apply (value_denotes z dz v _ _ _ _ Wz Rz Bz Fz Gz Kz).
Qed.

Lemma ew1_called c v a f F o x z : call qr svd la grad e c = unary e a f -> nthr e a = Ok o -> denotes (o_tt o) x -> f (o_tt o) = Ok z -> wf z -> rshape z = rshape (o_tt o) ->
  rks z = rks (o_tt o) -> bsz z = bsz (o_tt o) -> elementwise1 (K := Rring) (L := Rring) F (o_tt o) z ->
  value v (d_modes x) (d_batch x) (d_rank x) (fun i => F (get (d_x x) i)) -> called c v.
Proof.
  intros E Eo Do Ez Wz Rz Kz Bz EW HV. destruct (ew1_dense _ _ _ _ Do Wz Rz Bz EW) as (dz & Fz & Gz). pose proof Do as (Wt & R & B & _ & K).
  eapply unary_called; [exact E|exact Eo|exact Ez|]. eapply value_denotes; [exact Wz|exact (eq_trans Rz R)|exact (eq_trans Bz B)|exact Fz|exact Gz| |exact HV].
  now apply (same_rks (o_tt o)).
Qed.
Lemma call_Neg a v : means de (CallNeg a) v -> called (CallNeg a) v.
Proof.
  cbn [means]. intros (x & A & HV). destruct (arg_get e de a x HE A) as (o & Eo & Do). destruct (C05_neg (o_tt o)) as (z & Ez & Wz & Rz & Kz & Bz & G); [apply Do|].
  eapply ew1_called; try eassumption. reflexivity.
Qed.
Lemma call_MultiplyNum a c v : means de (CallMultiplyNum a c) v -> called (CallMultiplyNum a c) v.
Proof.
  cbn [means]. intros (x & A & HV). destruct (arg_get e de a x HE A) as (o & Eo & Do). destruct (C07_multiply_number (o_tt o) c) as (z & Ez & Wz & Rz & Kz & Bz & G); [apply Do|].
  apply (ew1_called (CallMultiplyNum a c) v a (fun t => multiply t (FNum c)) _ o x z eq_refl Eo Do Ez Wz Rz Kz Bz G HV).
Qed.
Lemma ew1_same (a c : rtt) F : wf a -> wf c -> elementwise1 (K := Rring) (L := Rring) F a c -> (forall y, F y = y) -> same_full a c.
Proof.
  intros Wa Wc (da & dc & F1 & F2 & S & G) HF. exists da, dc. do 3 (split; [assumption|]). intros i Hi. rewrite S in Hi. now rewrite G, HF by auto.
Qed.
Lemma call_Cast a f v : means de (CallCast a f) v -> called (CallCast a f) v.
Proof.
  cbn [means]. intros (x & A & Hf & HV). destruct (arg_get e de a x HE A) as (o & Eo & Do). pose proof Do as (Wt & R & B & _ & K).
  destruct (C51_cast Rring Rring f (o_tt o) Wt) as (z & Ez & Wz & Rz & Kz & Bz & _ & _).
  destruct (C51_cast_full Rring Rring f (o_tt o) Wt) as (z' & Ez' & G); try (intros; cbn; now rewrite !Hf). rewrite Ez in Ez'. apply Ok_inj in Ez'. subst z'.
  eapply unary_called; [reflexivity|exact Eo|exact Ez|]. apply (same_denotes (o_tt o) z v x (d_rank x)); auto.
  - now apply (ew1_same _ _ f).
  - now apply (same_rks (o_tt o)).
Qed.
Lemma call_Renormalize a eps v : means de (CallRenormalize a eps) v -> called (CallRenormalize a eps) v.
Proof.
  cbn [means]. intros (x & A & He & HV). destruct (arg_get e de a x HE A) as (o & Eo & Do). pose proof Do as (Wt & R & B & _ & K).
  destruct (C42_renormalize (o_tt o) eps Wt He) as (z & Ez & Wz & Rz & Kz & Bz & G & _).
  eapply unary_called; [reflexivity|exact Eo|exact Ez|]. apply (same_denotes (o_tt o) z v x (d_rank x)); auto.
  - now apply (ew1_same _ _ (fun y => y)).
  - now apply (same_rks (o_tt o)).
Qed.
Lemma call_Orthogonalize a l2r v : means de (CallOrthogonalize a l2r) v -> called (CallOrthogonalize a l2r) v.
Proof.
  cbn [means]. intros (x & A & HL & HV). destruct (arg_get e de a x HE A) as (o & Eo & Do). pose proof Do as (Wt & R & B & _ & K).
  destruct (C27_orthogonalize_keeps_tensor qr (o_tt o) l2r Hqr Wt) as (z & Ez & Wz & Rz & Bz & G). { intros E. rewrite B. auto. }
  eapply unary_called; [reflexivity|exact Eo|exact Ez|]. apply (same_denotes (o_tt o) z v x (d_rank x)); auto.
  assert (D : ndims z = ndims (o_tt o)) by (apply (same_ndims Rring); auto).
  intros k Hk. rewrite D in Hk. specialize (K k Hk). destruct l2r.
  - destruct (C28_left_orthogonal qr (o_tt o) Hqr Wt) as (z' & Ez' & _ & _ & Q). rewrite Ez in Ez'. apply Ok_inj in Ez'. subst z'. specialize (Q k). lia.
  - destruct (C28_right_orthogonal qr (o_tt o) Hqr Wt) as (z' & Ez' & Q); [rewrite B; auto|]. rewrite Ez in Ez'. apply Ok_inj in Ez'. subst z'. destruct Q as (_ & _ & Q). specialize (Q k). lia.
Qed.
Lemma call_Round a m eps v : means de (CallRound a m eps) v -> called (CallRound a m eps) v.
Proof.
  cbn [means]. intros (x & lim & A & HL & HX & HV). destruct (arg_get e de a x HE A) as (o & Eo & Do). pose proof Do as (Wt & R & B & F & K).
  rewrite (axes_ndims _ _ Do) in *. assert (HL' : rank_limits (is_batch (o_tt o)) m eps (ndims (o_tt o)) lim) by (unfold is_batch; rewrite B; exact HL).
  destruct (C31_round_ranks qr svd (o_tt o) m eps lim Hqr Hsvd Wt HL') as (z & Ez & Wz & Rz & Bz & Dz & Kz).
  assert (SF : same_full (o_tt o) z).
  { destruct HX as [HX|(b & Wb & Rb & Bb & Fb & Kb)].
    - destruct (C31_round_exact qr svd (o_tt o) m eps lim Hqr Hsvd Wt HL') as (z' & Ez' & _ & _ & _ & Q); [intros k Hk; specialize (HX k Hk); specialize (K k ltac:(lia)); lia|].
      rewrite Ez in Ez'. apply Ok_inj in Ez'. now subst z'.
    - assert (D : ndims b = ndims (o_tt o)) by (apply (same_ndims Rring); auto; congruence).
      destruct (C31_round_exact_low_rank qr svd (o_tt o) b m eps lim Hqr Hsvd Wt HL' Wb ltac:(congruence) ltac:(congruence)) as (z' & Ez' & _ & _ & _ & _ & Q).
      { rewrite <- D. exact Kb. } { exists (d_x x), (d_x x). auto. }
      rewrite Ez in Ez'. apply Ok_inj in Ez'. now subst z'. }
  eapply unary_called; [reflexivity|exact Eo|exact Ez|]. eapply same_denotes; [exact Do|exact Wz|exact Rz|exact Bz|exact SF| |exact HV].
  pose proof (limits_one _ _ _ _ _ 0 HL ltac:(lia)) as L0. pose proof (limits_one _ _ _ _ _ (ndims (o_tt o)) HL ltac:(lia)) as L1.
  pose proof (K 0 ltac:(lia)) as K0. pose proof (K (ndims (o_tt o)) ltac:(lia)) as K1. rewrite (wf_first Wt) in K0. rewrite (wf_last Wt) in K1.
  apply inner_bounds; auto; [lia|rewrite Dz; lia|]. intros k Hk. rewrite Dz in Hk. destruct (Kz k Hk). specialize (K k ltac:(lia)). lia.
Qed.

Lemma call_Getitem a spec v : means de (CallGetitem a spec) v -> called (CallGetitem a spec) v.
Proof.
  cbn [means]. intros (x & sizes & A & M & G & P & HV). destruct (arg_get e de a x HE A) as (o & Eo & Do). pose proof Do as (Wt & R & B & F & K).
  assert (NM : is_tt_matrix (o_tt o) = false) by (unfold is_tt_matrix; now rewrite R, M).
  destruct (d_batch x) as [b|].
  - destruct HV as (b0 & spec' & -> & HS & Mv & Bv & Kv).
    destruct (C20_batch_full_index_partial Rring (o_tt o) b b0 spec' (d_x x) (d_x v) Wt B NM F G HS P) as (z & Ez & Wz & Bz & Rz & Kz & Fz).
    eapply unary_called; [reflexivity|exact Eo|unfold is_batch; rewrite B; exact Ez|].
    split; [exact Wz|]. split; [congruence|]. split; [congruence|]. split; [exact Fz|]. intros k _. now apply (slice_bounds (o_tt o) z v x spec').
  - destruct HV as (NE & Mv & Bv & Kv).
    destruct (C19_slicing_partial Rring (o_tt o) spec (d_x x) (d_x v) Wt B NM F G NE P) as (z & Ez & Wz & Bz & Rz & Kz & Fz).
    eapply unary_called; [reflexivity|exact Eo|unfold is_batch; rewrite B; exact Ez|].
    split; [exact Wz|]. split; [congruence|]. split; [congruence|]. split; [exact Fz|]. intros k _. now apply (slice_bounds (o_tt o) z v x spec).
Qed.
Lemma call_BatchItem a ix v : means de (CallBatchItem a ix) v -> called (CallBatchItem a ix) v.
Proof.
  cbn [means]. intros (x & b & A & Bx & G & P & Mv & Bv & Kv). destruct (arg_get e de a x HE A) as (o & Eo & Do). pose proof Do as (Wt & R & B & F & K). rewrite Bx in B.
  destruct (C20_batch_index Rring (o_tt o) b ix (d_x x) (d_x v) Wt B F G P) as (z & Ez & Wz & Bz & Rz & Kz & Fz).
  eapply unary_called; [reflexivity|exact Eo|unfold is_batch; rewrite B; exact Ez|].
  split; [exact Wz|]. split; [congruence|]. split; [|split; [exact Fz|]].
  - destruct (shape_of z _ Wz Fz) as [_ Sz]. rewrite Bv, Sz. unfold is_batch in Bz. destruct (bsz z), (is_slice ix); try discriminate; reflexivity.
  - intros k Hk. rewrite Kv. revert k Hk. now apply (same_rks (o_tt o)).
Qed.

Lemma call_Inv a v : means de (CallInv a) v -> called (CallInv a) v.
Proof.
  cbn [means]. intros (x & ns & A & M & K1 & HD & Mv & Bv & Kv & Wv & Sv & HI). destruct (arg_get e de a x HE A) as (o & Eo & Do). pose proof Do as (Wt & R & B & F & K). rewrite M in R.
  assert (PB : bpre (o_tt o) = match d_batch x with None => [] | Some b => [b] end) by (unfold bpre; now rewrite B). rewrite <- PB in *.
  assert (KR : kronecker (o_tt o) ns).
  { split; [exact Wt|]. split; [exact R|]. intros k Hk. specialize (K k Hk). specialize (K1 k). assert (0 < rk (o_tt o) k); [|lia].
    apply (Forall_nth' (fun n => 0 < n)); [apply (wf_kpos Wt)|rewrite (wf_klen Wt); lia]. }
  destruct (C40_inv la (o_tt o) ns (d_x x) Hinv KR F HD) as (z & E & Ez & (Wz & Rz & Kz) & Bz & Fz & Sz & G).
  eapply unary_called; [reflexivity|exact Eo|exact Ez|]. destruct (shape_of z E Wz Fz) as [WE SE]. rewrite Rz, Bz, B in SE.
  split; [exact Wz|]. split; [congruence|]. split; [congruence|]. split; [|intros k Hk; rewrite Kv, Kz by auto; lia].
  rewrite Fz. f_equal. apply tensor_ext; auto; [congruence|]. intros i Hi.
  assert (X : exists p i1 i2, i = p ++ [i1; i2] /\ vidx (bpre (o_tt o)) p /\ i1 < prodn ns /\ i2 < prodn ns).
  { rewrite SE in Hi. rewrite PB. destruct (d_batch x) as [b|].
    - destruct (vidx_some _ _ _ Hi) as (q & j & -> & Hq & Hj). cbn [d_shape app] in Hj. destruct j as [|j1 [|j2 [|? ?]]]; try now (inversion Hj as [|? ? ? ? ? X]; inversion X as [|? ? ? ? ? Y]; inversion Y).
      apply vidx_cons_inv in Hj as [H1 Hj]. apply vidx_cons_inv in Hj as [H2 _]. exists [q], j1, j2. repeat split; auto. repeat constructor; auto.
    - cbn [d_shape app] in Hi. destruct i as [|j1 [|j2 [|? ?]]]; try now (inversion Hi as [|? ? ? ? ? X]; inversion X as [|? ? ? ? ? Y]; inversion Y).
      apply vidx_cons_inv in Hi as [H1 Hi]. apply vidx_cons_inv in Hi as [H2 _]. exists [], j1, j2. repeat split; auto. constructor. }
  destruct X as (p & i1 & i2 & -> & Vp & H1 & H2). destruct (G p Vp) as [G1 _].
  exact (inverse_one (prodn ns) (mat (d_x x) p) (mat E p) (mat (d_x v) p) G1 (HI p Vp) i1 i2 H1 H2).
Qed.

Lemma call_Cholesky a v o : means de (CallCholesky a) v -> call qr svd la grad e (CallCholesky a) = Ok o -> denotes (o_tt o) v.
Proof.
  cbn [means]. intros (x & ns & A & M & K1 & HD & Mv & Bv & Kv & Wv & Sv & HI) EC. destruct (arg_get e de a x HE A) as (o' & Eo & Do). pose proof Do as (Wt & R & B & F & K). rewrite M in R.
  assert (PB : bpre (o_tt o') = match d_batch x with None => [] | Some b => [b] end) by (unfold bpre; now rewrite B). rewrite <- PB in *.
  assert (KR : kronecker (o_tt o') ns).
  { split; [exact Wt|]. split; [exact R|]. intros k Hk. specialize (K k Hk). specialize (K1 k). assert (0 < rk (o_tt o') k); [|lia].
    apply (Forall_nth' (fun n => 0 < n)); [apply (wf_kpos Wt)|rewrite (wf_klen Wt); lia]. }
  pose proof (cholesky_dense la (o_tt o') ns (d_x x) Hcho KR F HD) as C. cbn [call] in EC. unfold unary in EC. rewrite Eo in EC. cbn [bind] in EC.
  destruct (cholesky la (o_tt o')) as [z|]; [|discriminate EC]. cbn [fresh bind] in EC. apply Ok_inj in EC. subst o. cbn [o_tt].
  destruct C as (E & (Wz & Rz & Kz) & Bz & Fz & Sz & G). destruct (shape_of z E Wz Fz) as [WE SE]. rewrite Rz, Bz, B in SE.
  split; [exact Wz|]. split; [congruence|]. split; [congruence|]. split; [|intros k Hk; rewrite Kv, Kz by auto; lia].
  rewrite Fz. f_equal. apply tensor_ext; auto; [congruence|]. intros i Hi.
  assert (X : exists p i1 i2, i = p ++ [i1; i2] /\ vidx (bpre (o_tt o')) p /\ i1 < prodn ns /\ i2 < prodn ns).
  { rewrite SE in Hi. rewrite PB. destruct (d_batch x) as [b|].
    - destruct (vidx_some _ _ _ Hi) as (q & j & -> & Hq & Hj). cbn [d_shape app] in Hj. destruct j as [|j1 [|j2 [|? ?]]]; try now (inversion Hj as [|? ? ? ? ? X]; inversion X as [|? ? ? ? ? Y]; inversion Y).
      apply vidx_cons_inv in Hj as [H1 Hj]. apply vidx_cons_inv in Hj as [H2 _]. exists [q], j1, j2. repeat split; auto. repeat constructor; auto.
    - cbn [d_shape app] in Hi. destruct i as [|j1 [|j2 [|? ?]]]; try now (inversion Hi as [|? ? ? ? ? X]; inversion X as [|? ? ? ? ? Y]; inversion Y).
      apply vidx_cons_inv in Hi as [H1 Hi]. apply vidx_cons_inv in Hi as [H2 _]. exists [], j1, j2. repeat split; auto. constructor. }
  destruct X as (p & i1 & i2 & -> & Vp & H1 & H2).
  exact (cholesky_unique (prodn ns) (mat (d_x x) p) (mat E p) (mat (d_x v) p) (G p Vp) (HI p Vp) i1 i2 H1 H2).
Qed.

Lemma call_ToTTTensor x m eps v : means de (CallToTTTensor x m eps) v -> called (CallToTTTensor x m eps) v.
Proof.
  cbn [means]. intros (lim & Wx & Hd & P & HL & HX & HV).
  destruct (C29_ranks svd x m eps lim Hsvd Wx Hd P HL) as (z & Ez & Wz & Rz & Bz & Kz).
  assert (SF : exists dz, full z = Ok dz /\ forall i, vidx (shape x) i -> get dz i = get x i).
  { assert (Q : exists z dz, to_tt_tensor svd x m eps = Ok z /\ wf z /\ rshape z = [shape x] /\ bsz z = None /\ full z = Ok dz /\ shape dz = shape x /\ forall i, vidx (shape x) i -> get dz i = get x i).
    { destruct HX as [HX|(b & Wb & Rb & Bb & Fb & Kb)].
      - now apply (C29_exact svd x m eps lim).
      - assert (Db : ndims b = length (shape x)) by (rewrite <- (rshape0_len Rring b Wb), Rb; reflexivity). rewrite Db in Kb.
        apply (C29_exact_low_rank svd x m eps lim b Hsvd Wx Hd P HL); auto. }
    destruct Q as (z' & dz & Ez' & _ & _ & _ & Fz & _ & G). rewrite Ez in Ez'. apply Ok_inj in Ez'. subst z'. eauto. }
  destruct SF as (dz & Fz & G). assert (Dz : ndims z = length (shape x)) by (rewrite <- (rshape0_len Rring z Wz), Rz; reflexivity).
  apply (fresh_called _ v z); [cbn [call]; now rewrite Ez|]. apply (value_denotes z dz v _ _ lim _ Wz Rz Bz Fz G); [|exact HV].
  apply inner_bounds; auto; try (apply (limits_one _ _ _ _ _ _ HL); lia). intros k Hk. apply Kz. lia.
Qed.

Lemma call_ToTTMatrix x s0 s1 m eps v : means de (CallToTTMatrix x s0 s1 m eps) v -> called (CallToTTMatrix x s0 s1 m eps) v.
Proof.
  cbn [means]. intros (rows & cols & lim & (Hl & HS) & Wx & Sx & Hd & P0 & P1 & HL & HX & HV).
  assert (EQ : to_tt_matrix svd x s0 s1 m eps = to_tt_matrix svd x (Some rows) (Some cols) m eps).
  { destruct (C30_none_is_ones svd x cols m eps) as (N1 & _). destruct (C30_none_is_ones svd x rows m eps) as (_ & N2 & _).
    destruct HS as [[-> ->]|[(-> & -> & E)|(-> & -> & E)]]; [reflexivity|rewrite N1, <- E; reflexivity|rewrite N2, <- E; reflexivity]. }
  destruct (C30_ranks svd x rows cols m eps lim Hsvd Sx Hl Hd P0 P1 HL) as (z & Ez & Wz & Rz & Bz & Kz).
  assert (SF : exists dz, full z = Ok dz /\ forall i, vidx (shape x) i -> get dz i = get x i).
  { assert (Q : exists z dz, to_tt_matrix svd x (Some rows) (Some cols) m eps = Ok z /\ wf z /\ rshape z = [rows; cols] /\ bsz z = None /\ full z = Ok dz /\ shape dz = shape x /\ forall i, vidx (shape x) i -> get dz i = get x i).
    { destruct HX as [HX|(b & Wb & Rb & Bb & Fb & Kb)].
      - now apply (C30_exact svd x rows cols m eps lim).
      - assert (Db : ndims b = length rows) by (rewrite <- (rshape0_len Rring b Wb), Rb; reflexivity). rewrite Db in Kb.
        apply (C30_exact_low_rank svd x rows cols m eps lim b Hsvd Sx); auto. }
    destruct Q as (z' & dz & Ez' & _ & _ & _ & Fz & _ & G). rewrite Ez in Ez'. apply Ok_inj in Ez'. subst z'. eauto. }
  destruct SF as (dz & Fz & G). assert (Dz : ndims z = length rows) by (rewrite <- (rshape0_len Rring z Wz), Rz; reflexivity). rewrite Sx in G.
  apply (fresh_called _ v z); [cbn [call]; now rewrite EQ, Ez|]. apply (value_denotes z dz v _ _ lim _ Wz Rz Bz Fz G); [|exact HV].
  apply inner_bounds; auto; try (apply (limits_one _ _ _ _ _ _ HL); lia). intros k Hk. apply Kz. lia.
Qed.

Lemma call_ConcatSingle a v : means de (CallConcatSingle a) v -> called (CallConcatSingle a) v.
Proof.
  cbn [means]. intros (x & A & NB & HV). destruct (arg_get e de a x HE A) as (o & Eo & Do). pose proof Do as (Wt & R & B & F & K).
  cbn [call]. rewrite Eo. cbn [bind]. rewrite C24_concat_single by auto. rewrite B. destruct (d_batch x) as [b|] eqn:EB; [|congruence]. cbn [bind].
  exists o. split; [reflexivity|now apply (same_id _ _ x)].
Qed.

Lemma objs_denote os xs : Forall2 (fun o x => denotes (o_tt o) x) os xs -> Forall2 denotes (map o_tt os) xs.
Proof. intros H. induction H; constructor; auto. Qed.


Lemma Forall2_in {A B} (P : A -> B -> Prop) l m a : Forall2 P l m -> In a l -> exists b, In b m /\ P a b.
Proof. intros H. induction H as [|x y l m Hxy H IH]; intros []; [subst; exists y; cbn; auto|]. destruct (IH H0) as (b & Hb & Pb). exists b. cbn; auto. Qed.

Lemma call_Concat l v o : means de (CallConcat l) v -> call qr svd la grad e (CallConcat l) = Ok o -> denotes (o_tt o) v.
Proof.
  cbn [means]. intros (xs & x0 & AL & H0 & HF & HV). destruct (args_get e de l xs HE AL) as (os & Eos & Dos). cbn [call]. rewrite Eos. cbn [bind]. apply objs_denote in Dos.
  set (ts := map o_tt os) in *. clearbody ts. clear os Eos AL. intros EC.
  destruct xs as [|x xs]; [discriminate|]. injection H0 as ->. destruct ts as [|t0 ts]; [inversion Dos|]. assert (D0 : denotes t0 x0) by now inversion Dos.
  assert (IN : forall t, In t (t0 :: ts) -> wf t /\ is_batch t = true /\ rshape t = rshape t0).
  { intros t Ht. destruct (Forall2_in _ _ _ _ Dos Ht) as (y & Hy & (Wt & Rt & Bt & _)). rewrite Forall_forall in HF. destruct (HF y Hy) as [My By].
    split; [exact Wt|]. split; [unfold is_batch; rewrite Bt; now destruct (d_batch y)|]. destruct D0 as (_ & R0 & _). congruence. }
  assert (KS : forall t, In t (t0 :: ts) -> rks t = rks t0).
  { intros t Ht. destruct (list_eq_dec Nat.eq_dec (rks t) (rks t0)) as [E|E]; [exact E|]. exfalso.
    rewrite (C24_concat_rejects Rring (t0 :: ts) t0 eq_refl) in EC; [discriminate|]. exists t. auto. }
  destruct (C24_concat Rring (t0 :: ts) t0 eq_refl) as (z & dz & Ez & Wz & Rz & Kz & Bz & Fz & Sz & G).
  { intros t Ht. destruct (IN t Ht) as (? & ? & ?). auto. }
  rewrite Ez in EC. cbn [fresh bind] in EC. apply Ok_inj in EC. subst o. cbn [o_tt]. pose proof (elements_total _ _ Dos) as ET. rewrite ET in Bz. destruct D0 as (W0 & R0 & B0 & F0 & K0).
  destruct (shape_of z dz Wz Fz) as [_ Sz']. rewrite Rz, R0, Bz in Sz'.
  eapply value_denotes; [exact Wz|exact (eq_trans Rz R0)|exact Bz|exact Fz| | |exact HV].
  - intros i Hi. destruct (vidx_some _ _ _ Hi) as (q & j & -> & Hq & Hj). cbn [hd tl].
    destruct (elements_nth _ _ Dos) with (o := q) as (t & o' & y & En & (_ & _ & _ & Fy & _) & Gy); auto.
    { apply Forall_forall. intros y Hy. rewrite Forall_forall in HF. apply HF; auto. }
    destruct (G q t o' En) as (d & Fd & Gd). rewrite Fd in Fy. apply Ok_inj in Fy. subst d. rewrite Gy. apply Gd. now rewrite Sz'.
  - now apply (same_rks t0).
Qed.

Lemma call_MultiplyBatch a w v : means de (CallMultiplyBatch a w) v -> called (CallMultiplyBatch a w) v.
Proof.
  cbn [means]. intros (x & b & A & Bx & Ww & Sw & HV). destruct (arg_get e de a x HE A) as (o & Eo & Do). pose proof Do as (Wt & R & B & F & K). rewrite Bx in B.
  destruct (C25_multiply_along_batch_dim Rring (o_tt o) b w Wt B Ww Sw) as (z & Ez & Wz & Rz & Kz & Bz & d & dz & Fd & Fz & Sz & G).
  rewrite F in Fd. apply Ok_inj in Fd. subst d. destruct (denotes_shape _ _ Do) as [_ Sx]. rewrite Bx in Sx. rewrite Sx in *.
  eapply unary_called; [reflexivity|exact Eo|exact Ez|]. eapply value_denotes; [exact Wz|exact (eq_trans Rz R)|exact (eq_trans Bz B)|exact Fz| | |exact HV].
  - intros i Hi. destruct (vidx_some _ _ _ Hi) as (q & j & -> & Hq & Hj). cbn [hd]. now apply G.
  - now apply (same_rks (o_tt o)).
Qed.

Lemma call_AddN l m v : means de (CallAddN l m) v -> called (CallAddN l m) v.
Proof.
  cbn [means]. intros (xs & x0 & lim & AL & H0 & HA & HF & HL & HS & HV). destruct (args_get e de l xs HE AL) as (os & Eos & Dos).
  assert (X : exists o', (match os with [x] => Ok x | _ => fresh (length e) (add_n qr svd (map o_tt os) m) end) = Ok o' /\ add_n qr svd (map o_tt os) m = Ok (o_tt o') \/
              exists er, add_n qr svd (map o_tt os) m = Err er).
  { destruct os as [|o1 [|o2 os]].
    - eexists (Obj 0 (TT [] [] [] None) None). right. exists IndexError. reflexivity.
    - exists o1. left. split; [reflexivity|]. cbn [map]. apply C34_one_object.
    - destruct (add_n qr svd (map o_tt (o1 :: o2 :: os)) m) as [z|er].
      + exists (Obj (length e) z None). left. split; reflexivity.
      + exists o1. right. eauto. }
  apply objs_denote in Dos. set (ts := map o_tt os) in *. destruct xs as [|x xs]; [discriminate|]. injection H0 as ->.
  assert (D0 : exists t0 ts', ts = t0 :: ts' /\ denotes t0 x0) by (inversion Dos; subst; eauto). destruct D0 as (t0 & ts' & Ets & D0).
  rewrite (axes_ndims _ _ D0) in *.
  assert (IN : forall t, In t ts -> wf t /\ rshape t = d_modes x0 /\ ndims t = ndims t0 /\ bsz t = d_batch x0).
  { intros t Ht. destruct (Forall2_in _ _ _ _ Dos Ht) as (y & Hy & Dt). rewrite Forall_forall in HF. destruct (HF y Hy) as [My By].
    destruct (denotes_ndims _ _ _ _ D0 Dt (eq_sym My)) as [_ Dn]. destruct Dt as (Wt & Rt & Bt & _). split; [exact Wt|]. split; [congruence|]. split; [exact Dn|congruence]. }
  assert (SUM : forall k, 0 < k < ndims t0 -> list_sum (map (fun t => rk t k) ts) <= lim k).
  { intros k Hk. specialize (HS k Hk). eapply Nat.le_trans; [|exact HS]. clear - Dos IN Hk. revert IN. induction Dos as [|t y ts ys D Dos IH]; intros IN; [cbn; lia|].
    cbn [map list_sum fold_right]. destruct (IN t ltac:(cbn; auto)) as (_ & _ & Dn & _). destruct D as (_ & _ & _ & _ & Kt). specialize (Kt k ltac:(lia)).
    specialize (IH ltac:(intros u Hu; apply IN; cbn; auto)). unfold list_sum in IH. cbn. lia. }
  assert (FD : forall ds, Forall2 (fun t dt => full t = Ok dt) ts ds -> ds = map d_x (x0 :: xs)).
  { clear - Dos. induction Dos as [|t y ts ys D Dos IH]; intros ds H; inversion H; subst; [reflexivity|]. cbn [map]. destruct D as (_ & _ & _ & F & _). f_equal; [congruence|auto]. }
  assert (RES : exists z dz, add_n qr svd ts m = Ok z /\ wf z /\ rshape z = d_modes x0 /\ bsz z = d_batch x0 /\ (forall k, 0 < k < ndims t0 -> rk z k <= lim k) /\
    full z = Ok dz /\ forall i, vidx (d_shape (d_modes x0) (d_batch x0)) i -> get dz i = fold_right Rplus 0%R (map (fun x => get (d_x x) i) (x0 :: xs))).
  { assert (NE : ts <> []) by (rewrite Ets; discriminate). destruct (d_batch x0) as [b|] eqn:EB.
    - assert (Pb : 0 < b) by (destruct D0 as (W0 & _ & B0 & _); apply (bpre_some t0 b); [exact W0|congruence]).
      destruct (C34_add_n_batches qr svd ts (d_modes x0) (ndims t0) b m lim Hqr Hsvd NE HA Pb) as (z & dz & ds & Ez & Wz & Rz & Bz & Kz & Fz & Fds & G); auto.
      { apply Forall_forall. intros t Ht. destruct (IN t Ht) as (? & ? & ? & ?). auto. }
      rewrite (FD ds Fds) in *. clear Fds ds.
      assert (Bz' : bsz z = Some b).
      { rewrite Bz, Ets. assert (Q : forall us, (forall t, In t us -> bsz t = Some b) -> us <> [] -> fold_right (fun (t : rtt) acc => bc_size (bsz t) acc) None us = Some b).
        { clear. induction us as [|u us IH]; [congruence|]. intros H _. cbn [fold_right]. rewrite (H u) by (cbn; auto). destruct us as [|u' us]; [reflexivity|].
          rewrite IH; [cbn [bc_size]; now rewrite Nat.max_id| |discriminate]. intros t Ht. apply H. cbn; auto. }
        apply Q; [|discriminate]. intros t Ht. rewrite <- Ets in Ht. now destruct (IN t Ht) as (_ & _ & _ & ?). }
      exists z, dz. do 6 (split; [assumption|]). destruct (shape_of z dz Wz Fz) as [_ Sz]. rewrite Rz, Bz' in Sz. rewrite Sz in G.
      intros i Hi. destruct (vidx_some _ _ _ Hi) as (q & j & -> & Hq & Hj). rewrite G by exact Hi. clear - Dos IN Hq. revert IN. induction Dos as [|t y ts ys D Dos IH]; intros IN; [reflexivity|].
      cbn [map map2 fold_right]. f_equal; [|apply IH; intros u Hu; apply IN; cbn; auto]. destruct (IN t ltac:(cbn; auto)) as (_ & _ & _ & ->). f_equal.
      unfold opidx. destruct b as [|[|b]]; auto. now replace q with 0 by lia.
    - destruct (C34_add_n qr svd ts (d_modes x0) (ndims t0) m lim Hqr Hsvd NE HA) as (z & dz & ds & Ez & Wz & Rz & Bz & Kz & Fz & Fds & G); auto.
      { apply Forall_forall. intros t Ht. destruct (IN t Ht) as (? & ? & ? & ?). auto. }
      rewrite (FD ds Fds) in *. exists z, dz. do 6 (split; [assumption|]). destruct (shape_of z dz Wz Fz) as [_ Sz]. rewrite Rz, Bz in Sz. rewrite Sz in G.
      intros i Hi. rewrite G by exact Hi. now rewrite map_map. }
  destruct RES as (z & dz & Ez & Wz & Rz & Bz & Kz & Fz & G). destruct X as (o' & [[E1 E2]|(er & E2)]); [|congruence].
  cbn [call]. rewrite Eos. cbn [bind]. exists o'. split; [exact E1|]. rewrite Ez in E2. apply Ok_inj in E2. rewrite E2.
  assert (Dz : ndims z = ndims t0) by (destruct D0 as (W0 & R0 & _); apply (same_ndims Rring); auto; congruence).
  apply (value_denotes z dz v _ _ lim _ Wz Rz Bz Fz G); [|exact HV].
  apply inner_bounds; auto; try (apply (limits_one _ _ _ _ _ _ HL); lia). intros k Hk. apply Kz. lia.
Qed.

Lemma call_ReduceSumBatch a m coef v : means de (CallReduceSumBatch a m coef) v -> called (CallReduceSumBatch a m coef) v.
Proof.
  cbn [means]. intros (x & b & lim & A & Bx & HA & HL & HS & HV). destruct (arg_get e de a x HE A) as (o & Eo & Do). pose proof Do as (Wt & R & B & F & K). rewrite Bx in B.
  rewrite (axes_ndims _ _ Do) in *. set (t := o_tt o) in *. pose proof (bpre_some t b Wt B) as Pb.
  assert (HK : forall k, 0 < k < ndims t -> b * rk t k <= lim k). { intros k Hk. specialize (HS k Hk). specialize (K k ltac:(lia)). nia. }
  assert (FIN : forall z, reduce_sum_batch qr svd t m coef = Ok z -> wf z -> rshape z = rshape t -> (2 <= b -> forall k, 0 < k < ndims t -> rk z k <= lim k) -> (b = 1 -> rks z = rks t) ->
    forall k, k <= ndims z -> rk z k <= lim k).
  { intros z _ Wz Rz K2 K1. assert (Dz : ndims z = ndims t) by (apply (same_ndims Rring); auto).
    apply inner_bounds; auto; try (apply (limits_one _ _ _ _ _ _ HL); lia). intros k Hk. rewrite Dz in Hk. destruct (Nat.eq_dec b 1) as [E|E].
    - unfold rk. rewrite (K1 E). specialize (HK k Hk). unfold rk in HK. nia.
    - apply K2; auto. lia. }
  assert (SX : shape (d_x x) = b :: d_shape (d_modes x) None) by (destruct (denotes_shape _ _ Do) as [_ ->]; now rewrite Bx).
  assert (B1 : b = 1 -> bsz t = Some 1) by congruence.
  destruct coef as [w|].
  - destruct HV as (Ww & [(Sw & HV)|(N & HN & Sw & HV)]).
    + destruct (C35_weighted_sum qr svd t b w m lim Hqr Hsvd Wt B Ww Sw HA HL HK) as (z & dt & dz & Ez & Wz & Rz & Bz & Ft & Fz & St & G).
      rewrite F in Ft. apply Ok_inj in Ft. subst dt. rewrite SX in St. injection St as St.
      eapply unary_called; [reflexivity|exact Eo|exact Ez|]. eapply value_denotes; [exact Wz|exact (eq_trans Rz R)|exact Bz|exact Fz| | |exact HV].
      * intros i Hi. apply G. now rewrite <- St.
      * apply (FIN z Ez Wz Rz).
        -- intros H2. destruct (C35_ranks qr svd t b m lim Hqr Hsvd Wt B H2 HA HL) as (_ & Q & _). destruct (Q w Ww Sw) as (z' & Ez' & _ & _ & _ & Q'). rewrite Ez in Ez'. apply Ok_inj in Ez'. now subst z'.
        -- intros E. destruct (C35_one_element_ranks qr svd t m Wt (B1 E)) as (_ & Q & _). rewrite E in Sw. destruct (Q w Ww Sw) as (z' & Ez' & Q'). rewrite Ez in Ez'. apply Ok_inj in Ez'. now subst z'.
    + destruct (C35_matrix_of_weights qr svd t b N w m lim Hqr Hsvd Wt B Ww Sw HN HA HL HK) as (z & dt & dz & sh & Ez & Wz & Rz & Bz & Ft & Fz & St & Sz & G).
      rewrite F in Ft. apply Ok_inj in Ft. subst dt. rewrite SX in St. injection St as St. subst sh.
      eapply unary_called; [reflexivity|exact Eo|exact Ez|]. eapply value_denotes; [exact Wz|exact (eq_trans Rz R)|exact Bz|exact Fz| | |exact HV].
      * intros i Hi. destruct (vidx_some _ _ _ Hi) as (q & j & -> & Hq & Hj). cbn [hd tl]. now apply G.
      * apply (FIN z Ez Wz Rz).
        -- intros H2. destruct (C35_ranks qr svd t b m lim Hqr Hsvd Wt B H2 HA HL) as (_ & _ & Q). destruct (Q w N Ww Sw HN) as (z' & Ez' & _ & _ & _ & Q'). rewrite Ez in Ez'. apply Ok_inj in Ez'. now subst z'.
        -- intros E. destruct (C35_one_element_ranks qr svd t m Wt (B1 E)) as (_ & _ & Q). rewrite E in Sw. destruct (Q w N Ww Sw HN) as (z' & Ez' & Q'). rewrite Ez in Ez'. apply Ok_inj in Ez'. now subst z'.
  - destruct (C35_reduce_sum qr svd t b m lim Hqr Hsvd Wt B HA HL HK) as (z & dt & dz & Ez & Wz & Rz & Bz & Ft & Fz & St & G).
    rewrite F in Ft. apply Ok_inj in Ft. subst dt. rewrite SX in St. injection St as St.
    eapply unary_called; [reflexivity|exact Eo|exact Ez|]. eapply value_denotes; [exact Wz|exact (eq_trans Rz R)|exact Bz|exact Fz| | |exact HV].
    + intros i Hi. apply G. now rewrite <- St.
    + apply (FIN z Ez Wz Rz).
      * intros H2. destruct (C35_ranks qr svd t b m lim Hqr Hsvd Wt B H2 HA HL) as (Q & _ & _). destruct Q as (z' & Ez' & _ & _ & _ & Q'). rewrite Ez in Ez'. apply Ok_inj in Ez'. now subst z'.
      * intros E. destruct (C35_one_element_ranks qr svd t m Wt (B1 E)) as (Q & _ & _). destruct Q as (z' & Ez' & Q'). rewrite Ez in Ez'. apply Ok_inj in Ez'. now subst z'.
Qed.

Lemma ones_ranks n k : nth k (repeat 1 n) 0 <= 1.
Proof. revert k. induction n as [|n IH]; intros [|k]; cbn; auto. Qed.
Lemma const_called c v z d ms f n : call qr svd la grad e c = fresh (length e) (Ok z) -> wf z -> rshape z = ms -> rks z = repeat 1 n -> bsz z = None -> full z = Ok d ->
  (forall i, vidx (d_shape ms None) i -> get d i = f i) -> value v ms None (fun _ => 1) f -> called c v.
Proof.
  intros E Wz Rz Kz Bz Fz G HV. apply (fresh_called c v z E). apply (value_denotes z d v _ _ (fun _ => 1) _ Wz Rz Bz Fz G); [|exact HV].
  intros k _. unfold rk. rewrite Kz. apply ones_ranks.
Qed.

Lemma call_TensorOnes s v : means de (CallTensorOnes s) v -> called (CallTensorOnes s) v.
Proof.
  cbn [means]. intros (l & -> & Hl & P & HV). destruct (C36_tensor_ones Rring l Hl P) as (z & d & Ez & Wz & Rz & Kz & Bz & Fz & Sz & G).
  apply (const_called _ v z d [l] (fun _ => 1%R) (S (length l))); auto. cbn [call]. now rewrite Ez.
Qed.
Lemma call_TensorZeros s v : means de (CallTensorZeros s) v -> called (CallTensorZeros s) v.
Proof.
  cbn [means]. intros (l & -> & Hl & P & HV). destruct (C36_tensor_zeros Rring l Hl P) as (z & d & Ez & Wz & Rz & Kz & Bz & Fz & Sz & G).
  apply (const_called _ v z d [l] (fun _ => 0%R) (S (length l))); auto. cbn [call]. now rewrite Ez.
Qed.
Lemma two_axes a b (f : list nat -> R) (d : rtensor) : (forall i j, i < a -> j < b -> get d [i; j] = f [i; j]) -> forall i, vidx [a; b] i -> get d i = f i.
Proof.
  intros H i Hi. destruct i as [|j1 [|j2 [|? ?]]]; try now (inversion Hi as [|? ? ? ? ? X]; inversion X as [|? ? ? ? ? Y]; inversion Y).
  apply vidx_cons_inv in Hi as [H1 Hi]. apply vidx_cons_inv in Hi as [H2 _]. now apply H.
Qed.
Lemma call_Eye s v : means de (CallEye s) v -> called (CallEye s) v.
Proof.
  cbn [means]. intros (l & -> & Hl & P & HV). destruct (C36_eye Rring l Hl P) as (z & d & Ez & Wz & Rz & Kz & Bz & Fz & Sz & G).
  eapply const_called; [cbn [call]; rewrite Ez; reflexivity|exact Wz|exact Rz|exact Kz|exact Bz|exact Fz| |exact HV]. apply two_axes. exact G.
Qed.
Lemma call_MatrixOnes s v : means de (CallMatrixOnes s) v -> called (CallMatrixOnes s) v.
Proof.
  cbn [means]. intros (rows & cols & HR & Hl & Hc & P & P' & HV). destruct (C36_matrix_ones Rring rows cols s HR Hl Hc P P') as (z & d & Ez & Wz & Rz & Kz & Bz & Fz & Sz & G).
  eapply const_called; [cbn [call]; rewrite Ez; reflexivity|exact Wz|exact Rz|exact Kz|exact Bz|exact Fz| |exact HV]. apply two_axes. exact G.
Qed.
Lemma call_MatrixZeros s v : means de (CallMatrixZeros s) v -> called (CallMatrixZeros s) v.
Proof.
  cbn [means]. intros (rows & cols & HR & Hl & Hc & P & P' & HV). destruct (C36_matrix_zeros Rring rows cols s HR Hl Hc P P') as (z & d & Ez & Wz & Rz & Kz & Bz & Fz & Sz & G).
  eapply const_called; [cbn [call]; rewrite Ez; reflexivity|exact Wz|exact Rz|exact Kz|exact Bz|exact Fz| |exact HV]. apply two_axes. exact G.
Qed.
Lemma call_OnesLike a v : means de (CallOnesLike a) v -> called (CallOnesLike a) v.
Proof.
  cbn [means]. intros (x & A & HA & HV). destruct (arg_get e de a x HE A) as (o & Eo & Do). rewrite (axes_ndims _ _ Do) in HA. pose proof Do as (Wt & R & B & F & K).
  destruct (C36_ones_like Rring (o_tt o) Wt HA) as (z & d & Ez & Wz & Rz & Kz & Bz & Fz & Sz & G). destruct (shape_of z d Wz Fz) as [_ Sd]. rewrite Rz, R, Bz in Sd. rewrite Sd in G.
  eapply const_called; [|exact Wz|exact (eq_trans Rz R)|exact Kz|exact Bz|exact Fz|exact G|exact HV]. cbn [call]. unfold unary. rewrite Eo. cbn [bind]. now rewrite Ez.
Qed.
Lemma call_ZerosLike a v : means de (CallZerosLike a) v -> called (CallZerosLike a) v.
Proof.
  cbn [means]. intros (x & A & HA & HV). destruct (arg_get e de a x HE A) as (o & Eo & Do). rewrite (axes_ndims _ _ Do) in HA. pose proof Do as (Wt & R & B & F & K).
  destruct (C36_zeros_like Rring (o_tt o) Wt HA) as (z & d & Ez & Wz & Rz & Kz & Bz & Fz & Sz & G). destruct (shape_of z d Wz Fz) as [_ Sd]. rewrite Rz, R, Bz in Sd. rewrite Sd in G.
  eapply const_called; [|exact Wz|exact (eq_trans Rz R)|exact Kz|exact Bz|exact Fz|exact G|exact HV]. cbn [call]. unfold unary. rewrite Eo. cbn [bind]. now rewrite Ez.
Qed.

Lemma call_Project a b v : means de (CallProject a b) v -> called (CallProject a b) v.
Proof.
  cbn [means]. intros (z & x & A & A' & M & HV). destruct (arg_get e de a z HE A) as (o & Eo & Do). destruct (arg_get e de b x HE A') as (o' & Eo' & Do').
  destruct (project_means qr (o_tt o') (o_tt o) (o_addr o') x z v Hqr Do' Do M HV) as (p & Ep & Dp).
  eexists. split; [cbn [call]; rewrite Eo; cbn [bind]; rewrite Eo'; cbn [bind]; rewrite Ep; reflexivity|exact Dp].
Qed.
Lemma call_ProjectSum a b ws v : means de (CallProjectSum a b ws) v -> called (CallProjectSum a b ws) v.
Proof.
  cbn [means]. intros (z & x & N & A & A' & M & HN & HV). destruct (arg_get e de a z HE A) as (o & Eo & Do). destruct (arg_get e de b x HE A') as (o' & Eo' & Do').
  destruct (project_sum_means qr (o_tt o') (o_tt o) (o_addr o') x z v N ws Hqr Do' Do M HN HV) as (p & Ep & Dp).
  eexists. split; [cbn [call]; rewrite Eo; cbn [bind]; rewrite Eo'; cbn [bind]; rewrite Ep; reflexivity|exact Dp].
Qed.
Lemma call_ProjectMatmul a b c v : means de (CallProjectMatmul a b c) v -> called (CallProjectMatmul a b c) v.
Proof.
  cbn [means]. intros (z & x & y & B & rows & cols & A & A' & A'' & Mx & Mz & Bz & My & By & HV).
  destruct (arg_get e de a z HE A) as (o & Eo & Do). destruct (arg_get e de b x HE A') as (o' & Eo' & Do'). destruct (arg_get e de c y HE A'') as (o'' & Eo'' & Do'').
  destruct (project_matmul_means qr (o_tt o') (o_tt o) (o_tt o'') (o_addr o') x z y v B rows cols Hqr Do' Do Do'' Mx Mz Bz My By HV) as (p & Ep & Dp).
  eexists. split; [cbn [call]; rewrite Eo; cbn [bind]; rewrite Eo'; cbn [bind]; rewrite Eo''; cbn [bind]; rewrite Ep; reflexivity|exact Dp].
Qed.

Lemma call_Gradients f a chk v o : means de (CallGradients f a chk) v -> call qr svd la grad e (CallGradients f a chk) = Ok o -> denotes (o_tt o) v.
Proof.
  cbn [means call]. intros (x & F & E & A & Hf & HF & HG & HV & HP) H. destruct (arg_get e de a x HE A) as (y & Ey & Dy). rewrite Ey in H. cbn [bind] in H.
  unfold on in H. destruct (gradients qr grad f (o_addr y) (o_tt y) chk) as [p|] eqn:Ep; cbn [bind] in H; [|discriminate]. injection H as <-. cbn [o_tt].
  exact (proj1 (gradients_means qr grad f F E chk _ _ x v p Hqr Hgrad Dy Hf HF HG HV HP Ep)).
Qed.

Lemma call_HessianVectorProduct f a b chk v o : steady grad -> means de (CallHessianVectorProduct f a b chk) v ->
  call qr svd la grad e (CallHessianVectorProduct f a b chk) = Ok o -> denotes (o_tt o) v.
Proof.
  cbn [means call]. intros HS (x & z & F & E & H & W & A & A' & M & Bz & Hf & HF & HG & HH & HV & HW & HP) Q.
  destruct (arg_get e de a x HE A) as (y & Ey & Dy). destruct (arg_get e de b z HE A') as (y' & Ey' & Dy'). rewrite Ey in Q. cbn [bind] in Q. rewrite Ey' in Q. cbn [bind] in Q.
  unfold on in Q. destruct (hessian_vector_product qr grad f (o_addr y) (o_tt y) (o_tt y') chk) as [p|] eqn:Ep; cbn [bind] in Q; [|discriminate]. injection Q as <-. cbn [o_tt].
  exact (proj1 (hvp_means qr grad f F E H W chk _ _ _ x z v Hqr Hgrad Dy Dy' M Bz Hf HF HG HH HV HW HP p HS Ep)).
Qed.

Lemma call_TensorWithRandomCores xi s r mean sd v : means de (CallTensorWithRandomCores xi s r mean sd) v -> called (CallTensorWithRandomCores xi s r mean sd) v.
Proof.
  cbn [means]. intros (l & rs & (-> & Hl & Hp & Hr) & HS).
  destruct (tensor_random_ok xi l r rs mean sd) as (t & Et & Dt); auto.
  apply (fresh_called _ v t); [cbn [call]; now rewrite Et|]. exact (sampled_denotes _ _ _ _ _ _ _ v Dt HS).
Qed.
Lemma call_TensorBatchWithRandomCores xi s r b mean sd v : means de (CallTensorBatchWithRandomCores xi s r b mean sd) v -> called (CallTensorBatchWithRandomCores xi s r b mean sd) v.
Proof.
  cbn [means]. intros (l & rs & B & (-> & Hl & Hp & Hr) & (-> & Hb) & HS).
  destruct (tensor_batch_random_ok xi l r rs B mean sd) as (t & Et & Dt); auto.
  apply (fresh_called _ v t); [cbn [call]; now rewrite Et|]. exact (sampled_denotes _ _ _ _ _ _ _ v Dt HS).
Qed.
Lemma call_MatrixWithRandomCores xi s r mean sd v : means de (CallMatrixWithRandomCores xi s r mean sd) v -> called (CallMatrixWithRandomCores xi s r mean sd) v.
Proof.
  cbn [means]. intros (rows & cols & rs & (Hs & Hl & Hc & Hp & Hp' & Hr) & HS).
  destruct (matrix_random_ok xi rows cols s r rs mean sd) as (t & Et & Dt); auto.
  apply (fresh_called _ v t); [cbn [call]; now rewrite Et|]. exact (sampled_denotes _ _ _ _ _ _ _ v Dt HS).
Qed.
Lemma call_MatrixBatchWithRandomCores xi s r b mean sd v : means de (CallMatrixBatchWithRandomCores xi s r b mean sd) v -> called (CallMatrixBatchWithRandomCores xi s r b mean sd) v.
Proof.
  cbn [means]. intros (rows & cols & rs & B & (Hs & Hl & Hc & Hp & Hp' & Hr) & (-> & Hb) & HS).
  destruct (matrix_batch_random_ok xi rows cols s r rs B mean sd) as (t & Et & Dt); auto.
  apply (fresh_called _ v t); [cbn [call]; now rewrite Et|]. exact (sampled_denotes _ _ _ _ _ _ _ v Dt HS).
Qed.
Lemma call_RandomTensor xi s r mean sd v : means de (CallRandomTensor xi s r mean sd) v -> called (CallRandomTensor xi s r mean sd) v.
Proof.
  cbn [means]. intros (l & rs & c & (-> & Hl & Hp & Hr) & (Hm & Hsd) & HC & HS).
  assert (Pr : Forall (fun n => 0 < n) rs) by exact (proj1 (proj2 (RandomProofs.rank_arg_pos (length l) r rs ltac:(lia) Hr))). destruct (random_tensor_ok xi l r rs mean sd) as (t & Et & Dt); auto.
  unfold check_mean in Et. destruct (Rlt_dec (Rabs mean) _) as [_|Q]; [|exfalso; now apply Q].
  apply (fresh_called _ v t); [cbn [call]; now rewrite Et|]. rewrite (core_sd_unique (length l) rs sd _ c ltac:(lia) Hsd eq_refl Pr HC) in HS. exact (sampled_denotes _ _ _ _ _ _ _ v Dt HS).
Qed.
Lemma call_RandomTensorBatch xi s r b mean sd v : means de (CallRandomTensorBatch xi s r b mean sd) v -> called (CallRandomTensorBatch xi s r b mean sd) v.
Proof.
  cbn [means]. intros (l & rs & c & B & (-> & Hl & Hp & Hr) & (-> & Hb) & (Hm & Hsd) & HC & HS).
  assert (Pr : Forall (fun n => 0 < n) rs) by exact (proj1 (proj2 (RandomProofs.rank_arg_pos (length l) r rs ltac:(lia) Hr))). destruct (random_tensor_batch_ok xi l r rs B mean sd) as (t & Et & Dt); auto.
  unfold check_mean in Et. destruct (Rlt_dec (Rabs mean) _) as [_|Q]; [|exfalso; now apply Q].
  apply (fresh_called _ v t); [cbn [call]; now rewrite Et|]. rewrite (core_sd_unique (length l) rs sd _ c ltac:(lia) Hsd eq_refl Pr HC) in HS. exact (sampled_denotes _ _ _ _ _ _ _ v Dt HS).
Qed.
Lemma call_RandomMatrix xi s r mean sd v : means de (CallRandomMatrix xi s r mean sd) v -> called (CallRandomMatrix xi s r mean sd) v.
Proof.
  cbn [means]. intros (rows & cols & rs & c & (Hs & Hl & Hc & Hp & Hp' & Hr) & (Hm & Hsd) & HC & HS).
  assert (Pr : Forall (fun n => 0 < n) rs) by exact (proj1 (proj2 (RandomProofs.rank_arg_pos (length rows) r rs ltac:(lia) Hr))). destruct (random_matrix_ok xi rows cols s r rs mean sd) as (t & Et & Dt); auto.
  unfold check_mean in Et. destruct (Rlt_dec (Rabs mean) _) as [_|Q]; [|exfalso; now apply Q].
  apply (fresh_called _ v t); [cbn [call]; now rewrite Et|]. rewrite (core_sd_unique (length rows) rs sd _ c ltac:(lia) Hsd eq_refl Pr HC) in HS. exact (sampled_denotes _ _ _ _ _ _ _ v Dt HS).
Qed.
Lemma call_RandomMatrixBatch xi s r b mean sd v : means de (CallRandomMatrixBatch xi s r b mean sd) v -> called (CallRandomMatrixBatch xi s r b mean sd) v.
Proof.
  cbn [means]. intros (rows & cols & rs & c & B & (Hs & Hl & Hc & Hp & Hp' & Hr) & (-> & Hb) & (Hm & Hsd) & HC & HS).
  assert (Pr : Forall (fun n => 0 < n) rs) by exact (proj1 (proj2 (RandomProofs.rank_arg_pos (length rows) r rs ltac:(lia) Hr))). destruct (random_matrix_batch_ok xi rows cols s r rs B mean sd) as (t & Et & Dt); auto.
  unfold check_mean in Et. destruct (Rlt_dec (Rabs mean) _) as [_|Q]; [|exfalso; now apply Q].
  apply (fresh_called _ v t); [cbn [call]; now rewrite Et|]. rewrite (core_sd_unique (length rows) rs sd _ c ltac:(lia) Hsd eq_refl Pr HC) in HS. exact (sampled_denotes _ _ _ _ _ _ _ v Dt HS).
Qed.
Lemma call_Glorot xi s r v : means de (CallGlorot xi s r) v -> called (CallGlorot xi s r) v.
Proof.
  cbn [means]. intros (rows & cols & rs & c & (Hs & Hl & Hc & Hp & Hp' & Hr) & HC & HS).
  assert (Pr : Forall (fun n => 0 < n) rs) by exact (proj1 (proj2 (RandomProofs.rank_arg_pos (length rows) r rs ltac:(lia) Hr))). assert (Q1 : (0 < INR (prodn rows))%R) by (apply lt_0_INR, prodn_pos; exact Hp). assert (Q2 : (0 < INR (prodn cols))%R) by (apply lt_0_INR, prodn_pos; exact Hp').
  destruct (variance_ok xi (fun m => 2 / (n_in m + n_out m))%R rows cols s r rs) as (t & Et & Dt); auto.
  apply (fresh_called _ v t); [cbn [call]; unfold glorot_initializer; now rewrite Et|]. assert (HL : (0 <= 2 / (n_in [rows; cols] + n_out [rows; cols]))%R) by (unfold n_in, n_out; cbn [nth]; left; apply Rdiv_lt_0_compat; lra).
  rewrite (core_sd_unique (length rows) rs (sqrt (2 / (n_in [rows; cols] + n_out [rows; cols]))) _ c ltac:(lia) (sqrt_pos _) (pow2_sqrt _ HL) Pr HC) in HS. exact (sampled_denotes _ _ _ _ _ _ _ v Dt HS).
Qed.
Lemma call_He xi s r v : means de (CallHe xi s r) v -> called (CallHe xi s r) v.
Proof.
  cbn [means]. intros (rows & cols & rs & c & (Hs & Hl & Hc & Hp & Hp' & Hr) & HC & HS).
  assert (Pr : Forall (fun n => 0 < n) rs) by exact (proj1 (proj2 (RandomProofs.rank_arg_pos (length rows) r rs ltac:(lia) Hr))). assert (Q1 : (0 < INR (prodn rows))%R) by (apply lt_0_INR, prodn_pos; exact Hp). assert (Q2 : (0 < INR (prodn cols))%R) by (apply lt_0_INR, prodn_pos; exact Hp').
  destruct (variance_ok xi (fun m => 2 / n_in m)%R rows cols s r rs) as (t & Et & Dt); auto.
  apply (fresh_called _ v t); [cbn [call]; unfold he_initializer; now rewrite Et|]. assert (HL : (0 <= 2 / n_in [rows; cols])%R) by (unfold n_in, n_out; cbn [nth]; left; apply Rdiv_lt_0_compat; lra).
  rewrite (core_sd_unique (length rows) rs (sqrt (2 / n_in [rows; cols])) _ c ltac:(lia) (sqrt_pos _) (pow2_sqrt _ HL) Pr HC) in HS. exact (sampled_denotes _ _ _ _ _ _ _ v Dt HS).
Qed.
Lemma call_Lecun xi s r v : means de (CallLecun xi s r) v -> called (CallLecun xi s r) v.
Proof.
  cbn [means]. intros (rows & cols & rs & c & (Hs & Hl & Hc & Hp & Hp' & Hr) & HC & HS).
  assert (Pr : Forall (fun n => 0 < n) rs) by exact (proj1 (proj2 (RandomProofs.rank_arg_pos (length rows) r rs ltac:(lia) Hr))). assert (Q1 : (0 < INR (prodn rows))%R) by (apply lt_0_INR, prodn_pos; exact Hp). assert (Q2 : (0 < INR (prodn cols))%R) by (apply lt_0_INR, prodn_pos; exact Hp').
  destruct (variance_ok xi (fun m => 1 / n_in m)%R rows cols s r rs) as (t & Et & Dt); auto.
  apply (fresh_called _ v t); [cbn [call]; unfold lecun_initializer; now rewrite Et|]. assert (HL : (0 <= 1 / n_in [rows; cols])%R) by (unfold n_in, n_out; cbn [nth]; left; apply Rdiv_lt_0_compat; lra).
  rewrite (core_sd_unique (length rows) rs (sqrt (1 / n_in [rows; cols])) _ c ltac:(lia) (sqrt_pos _) (pow2_sqrt _ HL) Pr HC) in HS. exact (sampled_denotes _ _ _ _ _ _ _ v Dt HS).
Qed.

Theorem call_denotes c v : means de c v -> may_raise c = false -> called c v.
Proof.
  intros H HC. destruct c; try (exfalso; exact H); try discriminate HC.
  - now apply call_TensorTrain.
  - now apply call_TensorTrainBatch.
  - now apply call_Getitem.
  - now apply call_BatchItem.
  - now apply call_Squeeze.
  - now apply call_Expand.
  - now apply call_Transpose.
  - now apply call_Matmul.
  - now apply call_Add.
  - now apply call_Sub.
  - now apply call_Neg.
  - now apply call_Multiply.
  - now apply call_MultiplyNum.
  - now apply call_Cast.
  - now apply call_Renormalize.
  - now apply call_ConcatSingle.
  - now apply call_MultiplyBatch.
  - now apply call_Orthogonalize.
  - now apply call_ToTTTensor.
  - now apply call_ToTTMatrix.
  - now apply call_Round.
  - now apply call_AddN.
  - now apply call_ReduceSumBatch.
  - now apply call_Inv.
  - now apply call_TensorOnes.
  - now apply call_TensorZeros.
  - now apply call_Eye.
  - now apply call_MatrixOnes.
  - now apply call_MatrixZeros.
  - now apply call_OnesLike.
  - now apply call_ZerosLike.
  - now apply call_TensorWithRandomCores.
  - now apply call_TensorBatchWithRandomCores.
  - now apply call_MatrixWithRandomCores.
  - now apply call_MatrixBatchWithRandomCores.
  - now apply call_RandomTensor.
  - now apply call_RandomTensorBatch.
  - now apply call_RandomMatrix.
  - now apply call_RandomMatrixBatch.
  - now apply call_Glorot.
  - now apply call_He.
  - now apply call_Lecun.
  - now apply call_Project.
  - now apply call_ProjectSum.
  - now apply call_ProjectMatmul.
Qed.

Theorem call_correct c v o : (second_order c = true -> steady grad) -> means de c v -> call qr svd la grad e c = Ok o -> denotes (o_tt o) v.
Proof.
  intros HS H E. destruct (may_raise c) eqn:C.
  - destruct c; try discriminate; [now apply (call_Concat l)|now apply (call_Cholesky a)|now apply (call_Gradients func a runtime_check)|].
    apply (call_HessianVectorProduct func a vector runtime_check); auto.
  - destruct (call_denotes c v H C) as (o' & E' & D). rewrite E in E'. apply Ok_inj in E'. now subst o'.
Qed.
End Calls.
