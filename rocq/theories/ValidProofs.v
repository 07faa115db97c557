(** Proofs for ValidSpec.v: successful constructor calls and the operations that need no real numbers. *)
From Coq Require Import String Ascii List Arith ZArith Lia Bool.
From Verif Require Import Scalar Tensor TensorLemmas Base BaseLemmas Spec Ops ConstructProofs BatchOps GatherProofs ValidSpec.
Import ListNotations.
Local Open Scope nat_scope.
Local Open Scope list_scope.

Ltac bdes H :=
  match type of H with
  | bind ?x _ = Ok _ => let E := fresh "E" in destruct x eqn:E; [cbn [bind] in H|discriminate H]
  end.
Tactic Notation "bdesn" hyp(H) ident(E) :=
  match type of H with
  | bind ?x _ = Ok _ => destruct x eqn:E; [cbn [bind] in H|discriminate H]
  end.

Lemma Ok_inj {A} (a b : A) : Ok a = Ok b -> b = a. Proof. congruence. Qed.
Ltac okinv H := apply Ok_inj in H; match type of H with ?y = _ => subst y end.

(** *** Numbers of axes of the results of tensor operations *)
Section Rank.
Variable K : cring.
Implicit Types (x y : tensor K).

Lemma reshape_rank x spec y : reshape x spec = Ok y -> rank y = length spec.
Proof.
  unfold reshape. cbv zeta. destruct (length (filter _ spec)) as [|[|]]; [| |discriminate].
  - destruct (Nat.eqb _ _); [|discriminate]. intros H. injection H as <-. unfold rank. cbn. apply map_length.
  - destruct (Nat.eqb _ _); [discriminate|]. destruct (Nat.eqb _ _); [|discriminate]. intros H. injection H as <-. unfold rank. cbn. apply map_length.
Qed.

Lemma reshape_shape x sh y : reshape x (map Some sh) = Ok y -> shape y = sh.
Proof.
  intros H. destruct (Nat.eq_dec (prodn sh) (size x)) as [E|E].
  - rewrite (reshape_exact K x sh E) in H. injection H as <-. reflexivity.
  - rewrite (reshape_exact_err K x sh E) in H. discriminate.
Qed.

Lemma transpose_rank x p y : transpose x p = Ok y -> rank y = rank x.
Proof.
  unfold transpose. destruct (perm_ok p (rank x)) eqn:E; [|discriminate]. intros H. injection H as <-.
  unfold rank at 1. rewrite shape_mk, map_length. unfold perm_ok in E. apply andb_true_iff in E as [E _]. now apply Nat.eqb_eq.
Qed.

Lemma concat_inv (l : list (tensor K)) ax y : concat l ax = Ok y ->
  l <> [] /\ (forall x, In x l -> rank x = rank y) /\ forall x k, In x l -> k <> ax -> nth k (shape x) 0 = nth k (shape y) 0.
Proof.
  unfold concat. destruct l as [|x0 l]; [discriminate|]. destruct (Nat.ltb ax (rank x0) && _) eqn:E; [|discriminate]. intros H. injection H as <-.
  apply andb_true_iff in E as [_ E]. rewrite forallb_forall in E. split; [discriminate|]. split.
  - intros x Hx. unfold rank at 2. rewrite shape_mk, length_upd. specialize (E x Hx). apply list_eqb_eq in E.
    apply (f_equal (@length nat)) in E. now rewrite !length_upd in E.
  - intros x k Hx Hk. rewrite shape_mk, nth_upd_other by auto. specialize (E x Hx). apply list_eqb_eq in E.
    apply (f_equal (fun l => nth k l 0)) in E. now rewrite !nth_upd_other in E by auto.
Qed.

Lemma concat_rank (l : list (tensor K)) ax y x : concat l ax = Ok y -> In x l -> rank y = rank x.
Proof. intros H Hx. symmetry. now apply (concat_inv _ _ _ H). Qed.

Lemma tile_rank x m y : tile x m = Ok y -> rank y = rank x.
Proof.
  unfold tile. destruct (Nat.eqb_spec (length m) (rank x)); [|discriminate]. intros H. injection H as <-.
  unfold rank at 1. rewrite shape_mk, length_map2. unfold rank in *. lia.
Qed.

Lemma expand_dims_rank x ax : ax <= rank x -> rank (expand_dims x ax) = S (rank x).
Proof. unfold expand_dims, rank. cbn [shape]. rewrite !app_length, firstn_length, skipn_length. cbn [length]. lia. Qed.

Lemma squeeze_axis0_rank x y : squeeze_axis x 0 = Ok y -> rank x = S (rank y).
Proof.
  unfold squeeze_axis, rank. destruct (shape x) as [|[|[|n]] s] eqn:E; cbn; try discriminate. intros H. injection H as <-. reflexivity.
Qed.

Definition kept (l : list pyindex) : nat := length (filter is_slice l).

Lemma resolve_kept spec sh ps : resolve spec sh = Ok ps -> length (sel_shape ps) = kept spec /\ length spec = length sh.
Proof.
  revert sh ps; induction spec as [|i spec IH]; intros [|n sh] ps; cbn [resolve]; try discriminate.
  - intros H. injection H as <-. split; reflexivity.
  - intros H. destruct (resolve1 i n) as [[l k]|] eqn:E; [|discriminate]. cbn [bind] in H.
    destruct (resolve spec sh) as [ps'|] eqn:E2; [|discriminate]. cbn [bind] in H. injection H as <-.
    destruct (IH _ _ E2) as [H1 H2]. split; [|cbn; now rewrite H2]. unfold kept. cbn [filter].
    destruct i as [z|a b s]; cbn [is_slice resolve1] in *.
    + destruct (_ && _)%bool in E; [|discriminate]. injection E as <- <-. cbn [sel_shape]. exact H1.
    + destruct (slice_positions n a b s); [|discriminate]. injection E as <- <-. cbn [sel_shape length]. now rewrite H1.
Qed.

Lemma getitem_rank x spec y : getitem x spec = Ok y -> rank y = kept spec /\ length spec = rank x.
Proof.
  unfold getitem. intros H. bdes H. injection H as <-. apply resolve_kept in E as [H1 H2]. unfold rank. rewrite shape_mk. auto.
Qed.

(** The size of a sliced first axis depends on the size of the axis only. *)
Lemma getitem_first a b s x spec y : getitem x (ISlice a b s :: spec) = Ok y ->
  exists l, slice_positions (nth 0 (shape x) 0) a b s = Some l /\ nth 0 (shape y) 0 = length l.
Proof.
  unfold getitem. intros H. bdesn H E. injection H as <-. rewrite shape_mk. destruct (shape x) as [|n sh]; [discriminate E|].
  cbn [resolve] in E. cbn [nth]. cbn [resolve1] in E. destruct (slice_positions n a b s) as [l|]; [|discriminate]. cbn [bind] in E.
  destruct (resolve spec sh) as [ps|]; [|discriminate]. cbn [bind] in E. injection E as <-. exists l. auto.
Qed.

Lemma getitem_second i x spec y : is_slice i = true -> getitem x (i :: full_slice :: spec) = Ok y -> nth 1 (shape y) 0 = nth 1 (shape x) 0.
Proof.
  intros Hi. unfold getitem. intros H. bdesn H E. injection H as <-. rewrite shape_mk. destruct (shape x) as [|n [|m sh]]; [discriminate E|cbn [resolve] in E; bdesn E E0; discriminate|].
  cbn [resolve] in E. bdesn E E0. unfold full_slice at 1 in E. cbn [resolve1] in E. rewrite slice_full in E. cbn [bind] in E.
  destruct (resolve spec sh) as [ps|]; [|discriminate]. cbn [bind] in E. injection E as <-. destruct i as [|sa sb ss]; [discriminate|].
  cbn [resolve1] in E0. destruct (slice_positions n sa sb ss); [|discriminate]. injection E0 as <-. cbn [sel_shape nth]. apply seq_length.
Qed.

Lemma einsum_rank e (ts : list (tensor K)) y ins out : parse_eq e [] [] = Some (ins, out) -> einsum e ts = Ok y -> rank y = length out.
Proof.
  intros P. unfold einsum. rewrite P. intros H. bdes H. destruct (forallb _ out); [|discriminate]. injection H as <-.
  unfold rank. rewrite shape_mk. apply map_length.
Qed.

Lemma einsum_rank_n e (ts : list (tensor K)) y n : einsum e ts = Ok y ->
  match parse_eq e [] [] with Some (_, out) => length out | None => 0 end = n -> rank y = n.
Proof.
  intros H. destruct (parse_eq e [] []) as [[ins out]|] eqn:P; [|unfold einsum in H; rewrite P in H; discriminate]. intros <-. now apply (einsum_rank e ts y ins).
Qed.

Lemma lookup_app l env env' m : lookup l env = Some m -> lookup l (env ++ env') = Some m.
Proof. induction env as [|[k n] env IH]; cbn; [discriminate|]. destruct (Ascii.eqb l k); auto. Qed.

Lemma bind_labels_keep ls sh env env' l m : bind_labels ls sh env = Ok env' -> lookup l env = Some m -> lookup l env' = Some m.
Proof.
  revert sh env; induction ls as [|k ls IH]; intros [|n sh] env; cbn [bind_labels]; try discriminate.
  - intros H. now injection H as <-.
  - destruct (lookup k env) as [m'|] eqn:E; [destruct (Nat.eqb m' n); [|discriminate]|]; intros H Hl; eapply IH; eauto. now apply lookup_app.
Qed.

Lemma bind_labels_len ls sh env env' : bind_labels ls sh env = Ok env' -> length ls = length sh.
Proof.
  revert sh env; induction ls as [|k ls IH]; intros [|n sh] env; cbn [bind_labels]; try discriminate; auto.
  destruct (lookup k env) as [m'|] eqn:E; [destruct (Nat.eqb m' n); [|discriminate]|]; intros H; cbn; f_equal; eapply IH; eauto.
Qed.

Lemma bind_all_keep ins (ts : list (tensor K)) env env' l m : bind_all ins ts env = Ok env' -> lookup l env = Some m -> lookup l env' = Some m.
Proof.
  revert ts env; induction ins as [|ls ins IH]; intros [|x ts] env; cbn [bind_all]; try discriminate.
  - intros H. now injection H as <-.
  - intros H Hl. bdesn H E. eapply IH; eauto. eapply bind_labels_keep; eauto.
Qed.

Lemma bind_all_ranks ins (ts : list (tensor K)) env env' : bind_all ins ts env = Ok env' -> map (@length ascii) ins = map (fun x => rank x) ts.
Proof.
  revert ts env; induction ins as [|ls ins IH]; intros [|x ts] env; cbn [bind_all]; try discriminate; auto.
  intros H. bdesn H E. apply bind_labels_len in E. cbn [map]. unfold rank at 1. rewrite <- E. f_equal. eapply IH; eauto.
Qed.

Lemma einsum_in_ranks e (ts : list (tensor K)) y ins out : parse_eq e [] [] = Some (ins, out) -> einsum e ts = Ok y ->
  map (@length ascii) ins = map (fun x => rank x) ts.
Proof. intros P. unfold einsum. rewrite P. intros H. bdesn H E. eapply bind_all_ranks; eauto. Qed.

(** The first axis of the result is the first axis of the first operand. *)
Lemma einsum_first e x (ts : list (tensor K)) y l ls ins out :
  parse_eq e [] [] = Some ((l :: ls) :: ins, l :: out) -> einsum e (x :: ts) = Ok y -> nth 0 (shape y) 0 = nth 0 (shape x) 0.
Proof.
  intros P. unfold einsum. rewrite P. intros H. bdesn H E. destruct (forallb _ _); [|discriminate]. injection H as <-.
  rewrite shape_mk. cbn [map nth]. cbn [bind_all] in E. bdesn E E1. destruct (shape x) as [|n sh]; [discriminate|]. cbn [bind_labels lookup] in E1.
  assert (L : lookup l a = Some n). { eapply bind_all_keep; [exact E|]. eapply bind_labels_keep; [exact E1|]. cbn. now rewrite Ascii.eqb_refl. }
  unfold lookup0. rewrite L. reflexivity.
Qed.

End Rank.
Arguments kept _.

(** *** Constructors *)
Section Made.
Variable K : cring.
Implicit Types (t u : tt K) (cs : list (tensor K)).

Lemma nth_error_nth0 {A} (l : list A) k x d : nth_error l k = Some x -> nth k l d = x.
Proof. apply nth_error_nth. Qed.

Lemma shape_cases (s : list nat) n : length s = n -> n = 3 \/ n = 4 \/ n = 5 ->
  (exists a b c, s = [a; b; c] /\ n = 3) \/ (exists a b c d, s = [a; b; c; d] /\ n = 4) \/ (exists a b c d e, s = [a; b; c; d; e] /\ n = 5).
Proof.
  intros H Hn. destruct s as [|a [|b [|c [|d [|e [|f s]]]]]]; cbn in H; try lia; subst n; eauto 12.
Qed.

Lemma stored off cs clean ranks bs bs' nax : cores_valid off cs clean ranks bs = Ok true ->
  nax = 1 \/ nax = 2 -> rank (nth 0 cs (core0 K)) = off + 2 + nax ->
  (forall ss, clean = Some ss -> length ss = nax /\ forall s, In s ss -> length s = length cs) ->
  (forall rs, ranks = Some rs -> length rs = S (length cs)) ->
  (off = 0 /\ bs' = None \/ off = 1 /\ exists b, bs' = Some b /\ forall k, k < length cs -> nth 0 (shape (nth k cs (core0 K))) 0 = b) ->
  let t := TT cs (match clean with Some s => s | None => infer_raw_shape off cs end)
              (match ranks with Some r => r | None => infer_tt_ranks off cs end) bs' in
  valid t /\ length (rshape t) = nax.
Proof.
  intros Hv Hn Hr Hs Hk Hb t. destruct (cores_valid_inv _ _ _ _ _ _ Hv) as (Hne & Hc).
  assert (L0 : 0 < length cs) by (destruct cs; [congruence|cbn; lia]).
  assert (HR : forall k, k < length cs -> rank (nth k cs (core0 K)) = off + 2 + nax).
  { intros k Hlt. rewrite <- Hr. destruct Hc as (Hc & _). apply (Hc k); apply nth_error_nth'; lia. }
  assert (Hz : sized off cs clean ranks).
  { split; auto. split; [|split; auto].
    - intros c Hi. destruct (In_nth _ _ (core0 K) Hi) as (k & Hlt & <-). rewrite HR by auto. lia.
    - intros ss E. destruct (Hs ss E) as [E1 E2]. split; auto. intros c Hi. destruct (In_nth _ _ (core0 K) Hi) as (k & Hlt & <-). rewrite HR by auto. lia. }
  pose proof (describes_ok K off cs clean ranks bs bs' Hz Hc) as D. fold t in D.
  assert (Ln : length (rshape t) = nax).
  { unfold t. cbn [rshape]. destruct clean as [ss|]; [now apply Hs|]. unfold infer_raw_shape. rewrite map_length, seq_length.
    change (Tensor [] []) with (core0 K). unfold rank in Hr. rewrite Hr. lia. }
  split; [|exact Ln].
  assert (Dk : forall k, k < length cs -> rk t k = left_rank off (nth k cs (core0 K)) /\ rk t (S k) = right_rank (nth k cs (core0 K)) /\
             forall ax, ax < nax -> nth k (nth ax (rshape t) []) 0 = mode_of off ax (nth k cs (core0 K))).
  { intros k Hlt. rewrite <- Ln. apply D. cbn [cores]. now apply nth_error_nth'. }
  destruct Hc as (_ & _ & H1 & H2 & _).
  assert (Ec : cores t = cs) by reflexivity. assert (En : ndims t = length cs) by reflexivity.
  constructor.
  - exact L0.
  - rewrite Ln. exact Hn.
  - rewrite En. unfold t. cbn [rshape]. destruct clean as [ss|]; [now apply (Hs ss)|]. unfold infer_raw_shape. intros s Hi. apply in_map_iff in Hi as (ax & <- & _).
    apply map_length.
  - rewrite En. unfold t. cbn [rks]. destruct ranks as [rs|]; [now apply Hk|]. unfold infer_tt_ranks. rewrite app_length, map_length. cbn. lia.
  - destruct (Dk 0 L0) as (-> & _). apply H1. now apply nth_error_nth'.
  - rewrite En. replace (length cs) with (S (length cs - 1)) by lia. destruct (Dk (length cs - 1) ltac:(lia)) as (_ & -> & _). apply H2. apply nth_error_nth'. lia.
  - rewrite En. intros k Hlt. destruct (Dk k Hlt) as (-> & -> & HM). unfold core. rewrite Ec. change (Tensor [] []) with (core0 K).
    set (c := nth k cs (core0 K)) in *. specialize (HR k Hlt). unfold rank in HR. fold c in HR. unfold modes.
    assert (EM : map (fun s => nth k s 0) (rshape t) = map (fun ax => mode_of off ax c) (seq 0 nax)).
    { apply nth_ext with (d := 0) (d' := 0); rewrite !map_length; [rewrite seq_length; exact Ln|]. rewrite Ln. intros ax Hax.
      rewrite (nth_map' (fun s => nth k s 0) _ ax []) by lia. rewrite (nth_map' _ _ ax 0) by (rewrite seq_length; lia). rewrite seq_nth by lia. now apply HM. }
    rewrite EM. assert (EB : bpre t = match bs' with Some b => [b] | None => [] end) by reflexivity. rewrite EB. unfold left_rank, right_rank, mode_of.
    destruct Hb as [(-> & ->)|(-> & b & -> & Hb)].
    + destruct Hn as [-> | ->]; destruct (shape c) as [|? [|? [|? [|? [|]]]]]; cbn in HR; try discriminate; reflexivity.
    + specialize (Hb k Hlt). fold c in Hb. rewrite <- Hb. destruct Hn as [-> | ->]; destruct (shape c) as [|? [|? [|? [|? [|? [|]]]]]]; cbn in HR; try discriminate; reflexivity.
Qed.

(** What a successful call stores. *)
Lemma made cs sh clean ranks t nax : TensorTrain cs sh ranks = Ok t -> clean_raw_shape sh = Ok clean ->
  nax = 1 \/ nax = 2 -> rank (nth 0 cs (core0 K)) = 2 + nax ->
  (forall ss, clean = Some ss -> length ss = nax /\ forall s, In s ss -> length s = length cs) ->
  (forall rs, ranks = Some rs -> length rs = S (length cs)) ->
  valid t /\ cores t = cs /\ length (rshape t) = nax /\ bsz t = None /\ (forall ss, clean = Some ss -> rshape t = ss).
Proof.
  intros H Ec Hn Hr Hs Hk. unfold TensorTrain in H. rewrite Ec in H. cbn [bind] in H.
  destruct (cores_valid 0 cs clean ranks None) as [[|]|] eqn:E2; cbn [bind negb] in H; try discriminate. injection H as <-.
  destruct (stored 0 cs clean ranks None None nax E2 Hn Hr Hs Hk) as [V Ln]; [auto|]. split; auto. split; auto. split; auto. split; auto. intros ss ->. reflexivity.
Qed.

Lemma made_batch cs sh clean ranks bs t nax : TensorTrainBatch cs sh ranks bs = Ok t -> clean_raw_shape sh = Ok clean ->
  nax = 1 \/ nax = 2 -> rank (nth 0 cs (core0 K)) = 3 + nax ->
  (forall ss, clean = Some ss -> length ss = nax /\ forall s, In s ss -> length s = length cs) ->
  (forall rs, ranks = Some rs -> length rs = S (length cs)) ->
  (bs = None -> forall k, k < length cs -> nth 0 (shape (nth k cs (core0 K))) 0 = nth 0 (shape (nth 0 cs (core0 K))) 0) ->
  valid t /\ cores t = cs /\ length (rshape t) = nax /\ (exists b, bsz t = Some b /\ (forall x, bs = Some x -> b = x)) /\
  (forall ss, clean = Some ss -> rshape t = ss).
Proof.
  intros H Ec Hn Hr Hs Hk Hb. unfold TensorTrainBatch in H. rewrite Ec in H. cbn [bind] in H.
  destruct (cores_valid 1 cs clean ranks bs) as [[|]|] eqn:E2; cbn [bind negb] in H; try discriminate.
  match type of H with bind ?x _ = _ => destruct x as [b|] eqn:B; [|discriminate] end. cbn [bind] in H. injection H as <-.
  destruct (cores_valid_inv _ _ _ _ _ _ E2) as (Hne & Hc).
  assert (HB : forall k, k < length cs -> nth 0 (shape (nth k cs (core0 K))) 0 = b).
  { intros k Hlt. destruct bs as [x|].
    - injection B as ->. destruct Hc as (_ & _ & _ & _ & Hc & _). apply (Hc b k); auto. now apply nth_error_nth'.
    - rewrite Hb by auto. destruct cs as [|c0 cs']; [congruence|]. change (nthr (c0 :: cs') 0) with (Ok c0) in B. cbn [bind nth] in *.
      apply nthr_inv in B. now apply nth_error_nth. }
  destruct (stored 1 cs clean ranks bs (Some b) nax E2 Hn Hr Hs Hk) as [V Ln]; [right; split; auto; now exists b|].
  split; auto. split; auto. split; auto. split; [exists b; split; auto; intros x ->; now injection B|]. intros ss ->. reflexivity.
Qed.

(** The common case: the shape of a valid object with as many cores. *)
Lemma clean_tuple ss : ss <> [] -> clean_raw_shape (STuple ss) = Ok (Some ss).
Proof. destruct ss; [congruence|reflexivity]. Qed.
Lemma valid_rshape_ne t : valid t -> rshape t <> [].
Proof. intros V E. destruct (v_kind _ _ V) as [H|H]; rewrite E in H; discriminate. Qed.

Definition opt_len (o : option (list nat)) n : Prop := forall rs, o = Some rs -> length rs = n.

Lemma made_like cs t u ranks : TensorTrain cs (STuple (rshape u)) ranks = Ok t -> valid u -> length cs = ndims u ->
  rank (nth 0 cs (core0 K)) = 2 + length (rshape u) -> opt_len ranks (S (ndims u)) ->
  valid t /\ cores t = cs /\ rshape t = rshape u /\ bsz t = None.
Proof.
  intros H V L R Hk. destruct (made cs _ (Some (rshape u)) ranks t (length (rshape u)) H) as (V' & E1 & _ & E2 & E3); auto.
  - apply clean_tuple. now apply valid_rshape_ne.
  - now apply v_kind.
  - intros ss E. injection E as <-. split; auto. rewrite L. now apply v_rlen.
  - now rewrite L.
Qed.

Lemma made_batch_like cs t u ranks bs : TensorTrainBatch cs (STuple (rshape u)) ranks bs = Ok t -> valid u -> length cs = ndims u ->
  rank (nth 0 cs (core0 K)) = 3 + length (rshape u) -> opt_len ranks (S (ndims u)) ->
  (bs = None -> forall k, k < length cs -> nth 0 (shape (nth k cs (core0 K))) 0 = nth 0 (shape (nth 0 cs (core0 K))) 0) ->
  valid t /\ cores t = cs /\ rshape t = rshape u /\ exists b, bsz t = Some b /\ (forall x, bs = Some x -> b = x).
Proof.
  intros H V L R Hk Hb. destruct (made_batch cs _ (Some (rshape u)) ranks bs t (length (rshape u)) H) as (V' & E1 & _ & E2 & E3); auto.
  - apply clean_tuple. now apply valid_rshape_ne.
  - now apply v_kind.
  - intros ss E. injection E as <-. split; auto. rewrite L. now apply v_rlen.
  - now rewrite L.
Qed.

Lemma opt_len_some r n : length r = n -> opt_len (Some r) n. Proof. intros H rs E. now injection E as <-. Qed.
Lemma opt_len_none n : opt_len None n. Proof. intros rs E. discriminate. Qed.

(** *** Valid objects *)
Lemma valid_rank t i : valid t -> i < ndims t -> rank (core t i) = (if is_batch t then 3 else 2) + length (rshape t).
Proof.
  intros V Hi. unfold rank. rewrite (v_core _ _ V) by auto. rewrite app_length. cbn [length]. rewrite app_length. unfold modes. rewrite map_length.
  unfold bpre, is_batch. destruct (bsz t); cbn; lia.
Qed.

Lemma valid_batch_dim t i b : valid t -> i < ndims t -> bsz t = Some b -> nth 0 (shape (core t i)) 0 = b.
Proof. intros V Hi E. rewrite (v_core _ _ V) by auto. unfold bpre. rewrite E. reflexivity. Qed.

Lemma valid_matrix t : valid t -> length (rshape t) = if is_tt_matrix t then 2 else 1.
Proof. intros V. unfold is_tt_matrix. destruct (v_kind _ _ V) as [-> | ->]; reflexivity. Qed.

Lemma valid_shaped t : valid t -> shaped (bpre t) (rshape t) (rks t) (cores t).
Proof. intros V k Hk. apply (v_core _ _ V k Hk). Qed.

(** The constructor accepts a valid object's own data, and infers the same. *)
Lemma valid_accepted t : valid t ->
  match bsz t with
  | None => TensorTrain (cores t) (STuple (rshape t)) (Some (rks t)) = Ok t /\ TensorTrain (cores t) SNone None = Ok t
  | Some b => TensorTrainBatch (cores t) (STuple (rshape t)) (Some (rks t)) (Some b) = Ok t /\
              TensorTrainBatch (cores t) SNone None (Some b) = Ok t /\ TensorTrainBatch (cores t) SNone None None = Ok t
  end.
Proof.
  intros V. pose proof (valid_shaped t V) as S'. pose proof (valid_rshape_ne t V) as NE. destruct V as [Vd _ Vr Vk V0 V1 _].
  assert (FR : Forall (fun s => length s = length (cores t)) (rshape t)) by (apply Forall_forall; exact Vr).
  destruct t as [cs rsh ranks [b|]]; cbn [bsz cores rshape rks bpre] in *; unfold bpre in S'; cbn [bsz] in S'.
  - split; [|split].
    + now apply TensorTrainBatch_ok.
    + now apply TensorTrainBatch_infer_ok; auto.
    + now apply TensorTrainBatch_infer_ok; auto.
  - split; [now apply TensorTrain_ok|now apply TensorTrain_infer_ok].
Qed.

End Made.
Arguments opt_len _ _.
