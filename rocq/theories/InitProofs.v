(** The initializers. *)
From Coq Require Import String List Arith ZArith Lia Lra Bool Ring Reals.
From Verif Require Import Scalar Tensor TensorLemmas TensorLemmas2 Base Spec Chain BaseLemmas Ops FullProofs ResultLemmas Dense ConstructProofs OpsR Init.
Import ListNotations.
Local Open Scope nat_scope.

Lemma nints_pos l : Forall (fun n => 0 < n) l -> forallb pos_int (nints l) = true.
Proof. unfold nints. induction 1 as [|n l Hn Hl IH]; cbn; auto. rewrite IH, andb_true_r. apply Z.leb_le. lia. Qed.
Lemma nints_nat l : map to_nat (nints l) = l.
Proof. unfold nints. rewrite map_map. rewrite <- (map_id l) at 2. apply map_ext. intros n. cbn. now rewrite Nat2Z.id. Qed.

Lemma validate_tensor_ok l : Forall (fun n => 0 < n) l -> validate_tensor (S1Vec (nints l)) = Ok l.
Proof. intros H. cbn. now rewrite nints_pos, nints_nat. Qed.

Lemma nints_length l : length (nints l) = length l. Proof. apply map_length. Qed.
Lemma nints_ones n : nints (repeat 1 n) = repeat (NI 1) n.
Proof. unfold nints. induction n; cbn; auto. now f_equal. Qed.

Lemma validate_matrix_ok r c : Forall (fun n => 0 < n) r -> Forall (fun n => 0 < n) c -> length c = length r ->
  validate_matrix [nints r; nints c] = Ok [r; c].
Proof.
  intros Hr Hc Hl. unfold validate_matrix, rectangular. cbn [nth forallb map]. rewrite !nints_length, Hl, Nat.eqb_refl. cbn [andb negb].
  now rewrite !nints_pos, !nints_nat.
Qed.

(** The argument [shape] of a matrix: both rows, or one of them. *)
Definition rows_of (r c : list nat) (s : shape2) : Prop :=
  s = S2Rows [Some (nints r); Some (nints c)] \/
  (s = S2Rows [None; Some (nints c)] /\ r = repeat 1 (length c)) \/
  (s = S2Rows [Some (nints r); None] /\ c = repeat 1 (length r)).

Lemma matrix_rows_ok r c s : rows_of r c s -> Forall (fun n => 0 < n) r -> Forall (fun n => 0 < n) c -> length c = length r ->
  matrix_rows s = Ok [r; c].
Proof.
  intros [-> | [[-> E]|[-> E]]] Hr Hc Hl; cbn [matrix_rows all_some].
  - now apply validate_matrix_ok.
  - unfold ones_row. rewrite nints_length, <- nints_ones, <- E. now apply validate_matrix_ok.
  - unfold ones_row. rewrite nints_length, <- nints_ones, <- E. now apply validate_matrix_ok.
Qed.

Section WithK.
Variable K : cring.
Add Ring Kring : (cth K).

Lemma mapM_ext {A B} (f g : A -> res B) l : (forall x, In x l -> f x = g x) -> mapM f l = mapM g l.
Proof. induction l as [|x l IH]; intros H; cbn; auto. rewrite H by now left. destruct (g x); cbn; auto. rewrite IH; auto. intros y Hy. apply H. now right. Qed.
Lemma map2_length' {A B C} (f : A -> B -> C) I J : length J = length I -> length (map2 f I J) = length I.
Proof. revert J. induction I as [|x I IH]; intros [|y J] X; cbn in *; try discriminate; auto. Qed.
Lemma map2_nth' {A B C} (f : A -> B -> C) I J m a b c : length J = length I -> m < length I -> nth m (map2 f I J) c = f (nth m I a) (nth m J b).
Proof. revert J m. induction I as [|x I IH]; intros [|y J] m X Hm; cbn in *; try discriminate; try lia. destruct m; cbn; auto. apply IH; lia. Qed.
Lemma nth_repeat_lt (x : nat) n k z : k < n -> nth k (repeat x n) z = x.
Proof. revert k. induction n; intros [|k] H; cbn; try lia. apply IHn. lia. Qed.
Lemma vchain_nth ms k J m : vchain ms k J -> m < length J -> vidx (ms (k + m)) (nth m J []).
Proof.
  revert k m. induction J as [|j J IH]; intros k m; cbn; [lia|]. intros [H1 H2] Hm. destruct m; [now rewrite Nat.add_0_r|].
  rewrite Nat.add_succ_r. apply (IH (S k)); auto. lia.
Qed.
Lemma mapM_map {A B} (g : A -> B) l : mapM (fun i => Ok (g i)) l = Ok (map g l).
Proof. induction l as [|x l IH]; cbn; auto. now rewrite IH. Qed.

Definition shape_of (rsh : list (list nat)) : shape_arg := match rsh with [l] => SList l | _ => SList2 rsh end.
Definition construct' (cs : list (tensor K)) rsh ranks bs : res (tt K) :=
  match bs with None => TensorTrain cs (shape_of rsh) (Some ranks) | Some b => TensorTrainBatch cs (shape_of rsh) (Some ranks) (Some b) end.

Lemma shape_arg_eq rsh d : length rsh = 1 \/ length rsh = 2 -> Forall (fun s => length s = d) rsh -> 2 <= d ->
  clean_raw_shape (shape_of rsh) = clean_raw_shape (STuple rsh).
Proof.
  intros [H|H] Hf Hd; destruct rsh as [|l [|r [|]]]; try discriminate; apply Forall_cons_iff in Hf as [Hl Hf]; cbn [shape_of clean_raw_shape].
  - destruct l as [|x [|y l]]; cbn in Hl; try lia. reflexivity.
  - apply Forall_cons_iff in Hf as [Hr _]. unfold np_squeeze. cbn [forallb]. rewrite Hr, Hl, Nat.eqb_refl. cbn [andb].
    destruct d as [|[|d]]; try lia. reflexivity.
Qed.
Lemma construct_eq cs rsh ranks bs d : length rsh = 1 \/ length rsh = 2 -> Forall (fun s => length s = d) rsh -> 2 <= d ->
  construct' cs rsh ranks bs = construct cs rsh ranks bs.
Proof.
  intros H1 H2 H3. unfold construct', construct. destruct bs; unfold TensorTrain, TensorTrainBatch; now rewrite (shape_arg_eq rsh d).
Qed.

Lemma made_ok (g : nat -> tensor K) d bs rsh ranks : 2 <= d -> length rsh = 1 \/ length rsh = 2 ->
  Forall (fun s => length s = d) rsh -> length ranks = S d -> nth 0 ranks 0 = 1 -> nth d ranks 0 = 1 ->
  Forall (Forall (fun n => 0 < n)) rsh -> Forall (fun n => 0 < n) ranks -> Forall (fun n => 0 < n) (pre_of bs) ->
  (forall i, i < d -> wft (g i) /\ shape (g i) = pre_of bs ++ nth i ranks 0 :: map (fun s => nth i s 0) rsh ++ [nth (S i) ranks 0]) ->
  exists t, construct' (map g (seq 0 d)) rsh ranks bs = Ok t /\ wf t /\ rshape t = rsh /\ rks t = ranks /\ bsz t = bs /\ ndims t = d /\
    forall i, i < d -> core t i = g i.
Proof.
  intros Hd Hk Hr Hl H0 H1 P1 P2 P3 Hg.
  destruct (build_ok K (fun i => Ok (g i)) (fun i c => c = g i) d bs rsh ranks) as (cs & Ecs & Lcs & Con & W & G); auto; try lia.
  - intros i Hi. exists (g i). destruct (Hg i Hi). auto.
  - rewrite mapM_map in Ecs. injection Ecs as <-. eexists. rewrite (construct_eq _ rsh ranks bs d) by auto. split; [exact Con|].
    split; [exact W|]. do 3 (split; [reflexivity|]). split; [exact Lcs|]. intros i Hi. apply (G i Hi).
Qed.

(** Cores of rank one. *)
Lemma chain_rank1 (G : nat -> nat -> list nat -> nat -> K) r (s : nat -> list nat -> K) k J v : (forall m, k < m <= k + length J -> r m = 1) ->
  (forall m j, k <= m < k + length J -> In j J -> nth (m - k) J [] = j -> G m 0 j 0 = s m j) ->
  chain G r k J v 0 = (prodK (map (fun m => s m (nth (m - k) J [])) (seq k (length J))) * v O)%K.
Proof.
  revert k. induction J as [|j J IH]; intros k Hr HG; cbn [chain length seq map prodK]; [ring|].
  rewrite Hr by (cbn; lia). cbn [sumn]. rewrite (IH (S k)).
  - rewrite Nat.sub_diag. cbn [nth]. rewrite (HG k j); [|cbn [length]; lia|now left|now rewrite Nat.sub_diag].
    rewrite (map_ext_in _ (fun m => s m (nth (m - k) (j :: J) [])) (seq (S k) (length J))); [cbn [nth]; ring|].
    intros m Hm. apply in_seq in Hm. replace (m - k) with (S (m - S k)) by lia. reflexivity.
  - intros m Hm. apply Hr. cbn. lia.
  - intros m j' Hm Hin Hn. apply HG; [cbn; lia|now right|]. replace (m - k) with (S (m - S k)) by lia. exact Hn.
Qed.

Lemma prodK_ones n k : prodK (map (fun _ => c1 : K) (seq k n)) = c1.
Proof. revert k. induction n; intros k; cbn [seq map prodK]; auto. rewrite IHn. ring. Qed.
Lemma prodK_zeros n k : 0 < n -> prodK (map (fun _ => c0 : K) (seq k n)) = c0.
Proof. destruct n; [lia|]. intros _. cbn [seq map prodK]. ring. Qed.

(** An object all entries of whose cores are [v], 0 or 1, and whose ranks are 1. *)
Lemma const_entries (t : tt K) v J : v = c1 \/ v = c0 -> wf t -> rks t = repeat 1 (S (ndims t)) -> bsz t = None ->
  (forall i ix, i < ndims t -> vidx (1 :: modes t i ++ [1]) ix -> get (core t i) ix = v) ->
  vchain (modes t) 0 J -> length J = ndims t -> tt_entry t [] J = v.
Proof.
  intros Hv Hw Hk HB HG HJ LJ.
  assert (Hr : forall m, m <= ndims t -> rk t m = 1).
  { intros m Hm. unfold rk. rewrite Hk. apply nth_repeat_lt. lia. }
  unfold tt_entry. rewrite (chain_rank1 _ _ (fun _ _ => v)).
  - rewrite LJ. pose proof (wf_d Hw). destruct Hv as [-> | ->].
    + rewrite prodK_ones. ring.
    + rewrite prodK_zeros by auto. ring.
  - intros m Hm. apply Hr. lia.
  - intros m j Hm _ Ej. rewrite Nat.sub_0_r in Ej. unfold coreG. cbn [app]. apply HG; [lia|].
    apply vidx_cons; [lia|]. apply vidx_app; [|vsolve]. rewrite <- Ej. clear - HJ Hm. apply (vchain_nth (modes t) 0 J m); auto. lia.
Qed.

Lemma tensor_const_ok (v : K) l : v = c1 \/ v = c0 -> 2 <= length l -> Forall (fun n => 0 < n) l ->
  exists t d, tensor_const v (S1Vec (nints l)) = Ok t /\ wf t /\ rshape t = [l] /\ rks t = repeat 1 (S (length l)) /\ bsz t = None /\
    full t = Ok d /\ shape d = l /\ forall i, vidx l i -> get d i = v.
Proof.
  intros Hv Hl Hp. unfold tensor_const. rewrite validate_tensor_ok by auto. cbn [bind].
  set (g := fun i => mk [1; nth i l 0; 1] (fun _ : list nat => v)).
  destruct (made_ok g (length l) None [l] (repeat 1 (S (length l)))) as (t & Et & Wt & Rt & Kt & Bt & Dt & Gt); auto.
  - now rewrite repeat_length.
  - apply nth_repeat_lt. lia.
  - apply Forall_forall. intros x Hx. apply repeat_spec in Hx. lia.
  - constructor.
  - intros i Hi. split; [apply wft_mk|]. rewrite !nth_repeat_lt by lia. reflexivity.
  - cbn [construct' shape_of] in Et. rewrite Et.
    assert (EE : forall J, vchain (modes t) 0 J -> length J = ndims t -> tt_entry t [] J = v).
    { intros J HJ LJ. apply const_entries; auto; [now rewrite Dt|].
      intros i ix Hi Hix. rewrite Gt by lia. unfold g. apply get_mk. unfold modes in Hix. now rewrite Rt in Hix. }
    destruct (full_correct K t Wt) as (dt & Ft & _ & St & Ed). exists t, dt. do 5 (split; [assumption || reflexivity|]). split; [exact Ft|].
    assert (Eg : get_shape t = l). { unfold get_shape, is_tt_matrix. rewrite Rt, Bt. reflexivity. }
    rewrite Eg in *. split; [exact St|]. intros i Hi. rewrite Ed by auto. unfold tt_at. rewrite Bt.
    assert (Hi' : vidx (ishape t) i) by (unfold ishape, is_tt_matrix; rewrite Rt; exact Hi).
    destruct (split_idx_valid _ t i Wt Hi'). now apply EE.
Qed.

Lemma matrix_const_ok (v : K) r c s : v = c1 \/ v = c0 -> rows_of r c s -> 2 <= length r -> length c = length r -> Forall (fun n => 0 < n) r -> Forall (fun n => 0 < n) c ->
  exists t d, matrix_const v s = Ok t /\ wf t /\ rshape t = [r; c] /\ rks t = repeat 1 (S (length r)) /\ bsz t = None /\
    full t = Ok d /\ shape d = [prodn r; prodn c] /\ forall i j, i < prodn r -> j < prodn c -> get d [i; j] = v.
Proof.
  intros Hv Hs Hl Hc P1 P2. unfold matrix_const. rewrite (matrix_rows_ok r c) by auto. cbn [bind nth].
  set (g := fun i => mk [1; nth i r 0; nth i c 0; 1] (fun _ : list nat => v)).
  destruct (made_ok g (length r) None [r; c] (repeat 1 (S (length r)))) as (t & Et & Wt & Rt & Kt & Bt & Dt & Gt); auto.
  - now rewrite repeat_length.
  - apply nth_repeat_lt. lia.
  - apply Forall_forall. intros x Hx. apply repeat_spec in Hx. lia.
  - constructor.
  - intros i Hi. split; [apply wft_mk|]. rewrite !nth_repeat_lt by lia. reflexivity.
  - cbn [construct' shape_of] in Et. rewrite Et.
    assert (EE : forall J, vchain (modes t) 0 J -> length J = ndims t -> tt_entry t [] J = v).
    { intros J HJ LJ. apply const_entries; auto; [now rewrite Dt|].
      intros i ix Hi Hix. rewrite Gt by lia. unfold g. apply get_mk. unfold modes in Hix. now rewrite Rt in Hix. }
    destruct (full_correct K t Wt) as (dt & Ft & _ & St & Ed). exists t, dt. do 5 (split; [assumption || reflexivity|]). split; [exact Ft|].
    assert (Eg : get_shape t = [prodn r; prodn c]). { unfold get_shape, is_tt_matrix. rewrite Rt, Bt. reflexivity. }
    rewrite Eg in *. split; [exact St|]. intros i j Hi Hj. rewrite Ed by vsolve. unfold tt_at. rewrite Bt.
    assert (Hi' : vidx (ishape t) [i; j]) by (unfold ishape, is_tt_matrix; rewrite Rt; cbn; vsolve).
    destruct (split_idx_valid _ t [i; j] Wt Hi'). now apply EE.
Qed.

(** [ones_like], [zeros_like]. *)
Lemma const_like_ok (v : K) (t : tt K) : v = c1 \/ v = c0 -> wf t -> 2 <= ndims t ->
  exists z d, const_like v t = Ok z /\ wf z /\ rshape z = rshape t /\ rks z = repeat 1 (S (ndims t)) /\ bsz z = None /\
    full z = Ok d /\ get_shape t = bpre t ++ shape d /\ forall i, vidx (shape d) i -> get d i = v.
Proof.
  intros Hv Hw Hd. pose proof (wf_rlen Hw) as L. pose proof (wf_rpos Hw) as P. unfold const_like, lazy_raw_shape. rewrite get_shape_ishape. unfold ishape.
  destruct (wf_kind_cases _ t Hw) as [(E & Hl & _)|(E & Hl & _)]; rewrite E.
  - destruct (rshape t) as [|l [|]] eqn:R; try discriminate. apply Forall_cons_iff in L as [L _]. apply Forall_cons_iff in P as [P _]. cbn [nth].
    destruct (tensor_const_ok v l Hv ltac:(lia) P) as (z & d & Ez & Wz & Rz & Kz & Bz & Fz & Sz & G).
    exists z, d. rewrite <- L. do 6 (split; [assumption|]). rewrite Sz. split; [reflexivity|exact G].
  - destruct (rshape t) as [|r [|c [|]]] eqn:R; try discriminate. apply Forall_cons_iff in L as [L1 L]. apply Forall_cons_iff in P as [P1 P].
    apply Forall_cons_iff in L as [L2 _]. apply Forall_cons_iff in P as [P2 _]. cbn [nth].
    destruct (matrix_const_ok v r c (S2Rows [Some (nints r); Some (nints c)]) Hv ltac:(now left) ltac:(lia) ltac:(lia) P1 P2) as (z & d & Ez & Wz & Rz & Kz & Bz & Fz & Sz & G).
    exists z, d. rewrite <- L1. do 6 (split; [assumption|]). rewrite Sz. split; [reflexivity|].
    intros i Hi. apply vidx_2_inv in Hi as (x & y & -> & Hx & Hy). now apply G.
Qed.

(** [eye]. *)
Lemma prodK_delta (l : list nat) i j : vidx l i -> vidx l j ->
  prodK (map (fun m => if Nat.eqb (nth m i 0) (nth m j 0) then c1 else c0 : K) (seq 0 (length l))) = if Nat.eqb (ravel l i) (ravel l j) then c1 else c0.
Proof.
  intros Hi Hj. destruct (Nat.eqb_spec (ravel l i) (ravel l j)) as [E|E].
  - apply ravel_inj in E; auto. subst j. rewrite (map_ext _ (fun _ => c1)) by (intros; now rewrite Nat.eqb_refl). apply prodK_ones.
  - assert (Hij : i <> j) by congruence. clear E. revert Hij. revert j Hj. induction Hi as [|x n i l Hx Hi IH]; intros j Hj Hij; inversion Hj as [|y n' j' l' Hy Hj']; subst; [congruence|].
    cbn [length seq map prodK nth]. rewrite <- seq_shift, map_map. destruct (Nat.eqb_spec x y) as [->|]; [|ring].
    cbn [nth]. rewrite IH by (auto; congruence). ring.
Qed.

Lemma eye_ok l : 2 <= length l -> Forall (fun n => 0 < n) l ->
  exists t d, eye (K := K) (S1Vec (nints l)) = Ok t /\ wf t /\ rshape t = [l; l] /\ rks t = repeat 1 (S (length l)) /\ bsz t = None /\
    full t = Ok d /\ shape d = [prodn l; prodn l] /\ forall i j, i < prodn l -> j < prodn l -> get d [i; j] = if Nat.eqb i j then c1 else c0.
Proof.
  intros Hl Hp. unfold eye. rewrite validate_tensor_ok by auto. cbn [bind].
  set (e := fun n => mk [n; n] (fun ix => if Nat.eqb (nth 0 ix 0) (nth 1 ix 0) then c1 else c0 : K)).
  set (g := fun i => Tensor [1; nth i l 0; nth i l 0; 1] (data (e (nth i l 0)))).
  rewrite (mapM_ext _ (fun i => Ok (g i))).
  2:{ intros i Hi. cbv zeta. fold (e (nth i l 0)). rewrite reshape_exact by (change (size (e (nth i l 0))) with (prodn [nth i l 0; nth i l 0]); unfold prodn; cbn [fold_right]; ring). reflexivity. }
  rewrite mapM_map. cbn [bind].
  destruct (made_ok g (length l) None [l; l] (repeat 1 (S (length l)))) as (t & Et & Wt & Rt & Kt & Bt & Dt & Gt); auto.
  - now rewrite repeat_length.
  - apply nth_repeat_lt. lia.
  - apply Forall_forall. intros x Hx. apply repeat_spec in Hx. lia.
  - constructor.
  - intros i Hi. split; [|rewrite !nth_repeat_lt by lia; reflexivity]. unfold g. apply wft_reshaped; [apply wft_mk|]. change (shape (e (nth i l 0))) with [nth i l 0; nth i l 0]. unfold prodn; cbn [fold_right]. ring.
  - cbn [construct' shape_of] in Et. rewrite Et.
    destruct (full_correct K t Wt) as (dt & Ft & _ & St & Ed). exists t, dt. do 5 (split; [assumption || reflexivity|]). split; [exact Ft|].
    assert (Eg : get_shape t = [prodn l; prodn l]). { unfold get_shape, is_tt_matrix. rewrite Rt, Bt. reflexivity. }
    rewrite Eg in *. split; [exact St|]. intros i j Hi Hj. rewrite Ed by vsolve. unfold tt_at. rewrite Bt.
    assert (Hr : forall m, m <= ndims t -> rk t m = 1).
    { intros m Hm. unfold rk. rewrite Kt. apply nth_repeat_lt. lia. }
    assert (Es : split_idx t [i; j] = map2 (fun x y => [x; y]) (unravel l i) (unravel l j)).
    { unfold split_idx, is_tt_matrix. rewrite Rt. reflexivity. }
    rewrite Es. pose proof (unravel_valid l i Hi) as Vi. pose proof (unravel_valid l j Hj) as Vj.
    set (I := unravel l i) in *. set (J := unravel l j) in *. pose proof (vidx_length _ _ Vi) as LI. pose proof (vidx_length _ _ Vj) as LJ.
    assert (LIJ : length J = length I) by congruence.
    assert (Lm : length (map2 (fun x y => [x; y]) I J) = length l) by (rewrite map2_length'; lia).
    assert (Nm : forall m, m < length l -> nth m (map2 (fun x y => [x; y]) I J) [] = [nth m I 0; nth m J 0]).
    { intros m Hm. exact (map2_nth' (fun x y => [x; y]) I J m 0 0 [] LIJ ltac:(lia)). }
    unfold tt_entry. rewrite (chain_rank1 _ _ (fun m ix => if Nat.eqb (nth 0 ix 0) (nth 1 ix 0) then c1 else c0 : K)).
    + rewrite Lm. rewrite (map_ext_in _ (fun m => if Nat.eqb (nth m I 0) (nth m J 0) then c1 else c0 : K)).
      * rewrite (prodK_delta l I J) by auto. unfold I, J. rewrite !ravel_unravel by auto. ring.
      * intros m Hm. apply in_seq in Hm. rewrite Nat.sub_0_r, Nm by lia. reflexivity.
    + intros m Hm. apply Hr. lia.
    + intros m ix Hm _ Ej. rewrite Lm in Hm. rewrite Nat.sub_0_r, Nm in Ej by lia. subst ix. unfold coreG. cbn [app]. rewrite Gt by lia. unfold g.
      assert (V : vidx [nth m l 0; nth m l 0] [nth m I 0; nth m J 0]).
      { apply vidx_cons; [apply vidx_nth; auto; lia|]. apply vidx_cons; [apply vidx_nth; auto; lia|constructor]. }
      rewrite <- (get_mk K [nth m l 0; nth m l 0] (fun ix => if Nat.eqb (nth 0 ix 0) (nth 1 ix 0) then c1 else c0) [nth m I 0; nth m J 0]) by exact V.
      apply (get_reshaped K _ _ (e (nth m l 0))); [reflexivity|]. change (shape (e (nth m l 0))) with [nth m l 0; nth m l 0]. cbn [app ravel]; unfold prodn; cbn [fold_right]. ring.
Qed.
End WithK.

(** ** Random objects *)
(** The ranks that the argument tt_rank asks for. *)
Definition rank_arg (d : nat) (r : rarg) (rk : list nat) : Prop :=
  (exists n, 0 < n /\ r = RAnum (NI (Z.of_nat n)) /\ rk = 1 :: repeat n (d - 1) ++ [1]) \/
  (r = RAvec (nints rk) /\ length rk = S d /\ nth 0 rk 0 = 1 /\ nth d rk 0 = 1 /\ Forall (fun n => 0 < n) rk).

Lemma rank_arg_ok d r rk : 1 <= d -> rank_arg d r rk ->
  validate_rank d r = Ok Datatypes.tt /\ expand_rank d r = Ok rk /\
  length rk = S d /\ nth 0 rk 0 = 1 /\ nth d rk 0 = 1 /\ Forall (fun n => 0 < n) rk.
Proof.
  intros Hd [(n & Hn & -> & ->)|(-> & L & H0 & H1 & P)].
  - split. { cbn. replace (1 <=? Z.of_nat n)%Z with true by (symmetry; apply Z.leb_le; lia). reflexivity. }
    split. { unfold expand_rank. destruct (Nat.eqb_spec d 0); [lia|]. cbn [to_nat]. now rewrite Nat2Z.id. }
    split. { cbn [length]. rewrite app_length, repeat_length. cbn. lia. }
    split; [reflexivity|]. split. { destruct d as [|d]; [lia|]. cbn [nth]. rewrite app_nth2; rewrite repeat_length; [|lia]. now replace (d - (S d - 1)) with 0 by lia. }
    constructor; [lia|]. apply Forall_app. split; [|constructor; auto]. apply Forall_forall. intros x Hx. apply repeat_spec in Hx. lia.
  - split. { unfold validate_rank. rewrite nints_pos by auto. rewrite nints_length, L, Nat.eqb_refl. cbn [negb].
      destruct rk as [|x [|y rk]]; cbn in L; try lia. reflexivity. }
    split. { cbn. now rewrite nints_nat. } auto.
Qed.
Lemma rank_arg_list d r rk : 1 <= d -> rank_arg d r rk -> rank_arg d (RAvec (nints rk)) rk.
Proof. intros Hd H. destruct (rank_arg_ok d r rk Hd H) as (_ & _ & H1 & H2 & H3 & H4). right. auto. Qed.

Section Rand.
Variable xi : nat -> list nat -> R.

(** The object [t] has the requested sizes and its cores are filled with the numbers drawn. *)
Record drawn (bs : option nat) (rsh : list (list nat)) (rk : list nat) (mean sd : R) (t : rtt) : Prop := {
  dr_wf : wf t;
  dr_shape : rshape t = rsh;
  dr_ranks : rks t = rk;
  dr_batch : bsz t = bs;
  dr_core : forall k ix, k < ndims t -> vidx (shape (core t k)) ix -> get (K := Rring) (core t k) ix = (mean + sd * xi k ix)%R }.

Lemma random_ok bs rsh rk mean sd d : 2 <= d -> length rsh = 1 \/ length rsh = 2 ->
  Forall (fun s => length s = d) rsh -> length rk = S d -> nth 0 rk 0 = 1 -> nth d rk 0 = 1 ->
  Forall (Forall (fun n => 0 < n)) rsh -> Forall (fun n => 0 < n) rk -> Forall (fun n => 0 < n) (pre_of bs) ->
  exists t, construct' Rring (random_cores xi bs rsh rk mean sd) rsh rk bs = Ok t /\ drawn bs rsh rk mean sd t.
Proof.
  intros Hd Hk Hr Hl H0 H1 P1 P2 P3. unfold random_cores.
  assert (L0 : length (nth 0 rsh []) = d). { destruct rsh; [destruct Hk; discriminate|]. now apply Forall_cons_iff in Hr as [Hr _]. }
  rewrite L0.
  set (g := fun i => normal xi i (pre_of bs ++ nth i rk 0 :: map (fun r => nth i r 0) rsh ++ [nth (S i) rk 0]) mean sd).
  destruct (made_ok Rring g d bs rsh rk) as (t & Et & Wt & Rt & Kt & Bt & Dt & Gt); auto.
  { intros i Hi. split; [apply wft_mk|reflexivity]. }
  exists t. split; [exact Et|]. constructor; auto. intros k ix Hk' Hix. rewrite Gt in * by lia. apply get_mk. exact Hix.
Qed.

Lemma tensor_random_ok l r rk mean sd : 2 <= length l -> Forall (fun n => 0 < n) l -> rank_arg (length l) r rk ->
  exists t, tensor_with_random_cores xi (S1Vec (nints l)) r mean sd = Ok t /\ drawn None [l] rk mean sd t.
Proof.
  intros Hl Hp Hr. destruct (rank_arg_ok (length l) r rk ltac:(lia) Hr) as (E1 & E2 & H1 & H2 & H3 & H4). unfold tensor_with_random_cores.
  rewrite validate_tensor_ok by auto. cbn [bind]. rewrite E1. cbn [bind]. rewrite E2. cbn [bind].
  apply (random_ok None [l] rk mean sd (length l)); auto. constructor.
Qed.
Lemma tensor_batch_random_ok l r rk b mean sd : 2 <= length l -> Forall (fun n => 0 < n) l -> rank_arg (length l) r rk -> 0 < b ->
  exists t, tensor_batch_with_random_cores xi (S1Vec (nints l)) r (NI (Z.of_nat b)) mean sd = Ok t /\ drawn (Some b) [l] rk mean sd t.
Proof.
  intros Hl Hp Hr Hb. destruct (rank_arg_ok (length l) r rk ltac:(lia) Hr) as (E1 & E2 & H1 & H2 & H3 & H4). unfold tensor_batch_with_random_cores.
  rewrite validate_tensor_ok by auto. cbn [bind]. unfold validate_batch. cbn [pos_int to_nat].
  replace (1 <=? Z.of_nat b)%Z with true by (symmetry; apply Z.leb_le; lia). rewrite Nat2Z.id. cbn [bind]. rewrite E1. cbn [bind]. rewrite E2. cbn [bind].
  apply (random_ok (Some b) [l] rk mean sd (length l)); auto. constructor; auto.
Qed.
Lemma matrix_random_ok rows cols s r rk mean sd : 2 <= length rows -> length cols = length rows -> rows_of rows cols s ->
  Forall (fun n => 0 < n) rows -> Forall (fun n => 0 < n) cols -> rank_arg (length rows) r rk ->
  exists t, matrix_with_random_cores xi s r mean sd = Ok t /\ drawn None [rows; cols] rk mean sd t.
Proof.
  intros Hl Hc Hs Hp Hp2 Hr. destruct (rank_arg_ok (length rows) r rk ltac:(lia) Hr) as (E1 & E2 & H1 & H2 & H3 & H4). unfold matrix_with_random_cores.
  rewrite (matrix_rows_ok rows cols) by auto. cbn [bind nth]. rewrite E1. cbn [bind]. rewrite E2. cbn [bind firstn].
  apply (random_ok None [rows; cols] rk mean sd (length rows)); auto. constructor.
Qed.
Lemma matrix_batch_random_ok rows cols s r rk b mean sd : 2 <= length rows -> length cols = length rows -> rows_of rows cols s ->
  Forall (fun n => 0 < n) rows -> Forall (fun n => 0 < n) cols -> rank_arg (length rows) r rk -> 0 < b ->
  exists t, matrix_batch_with_random_cores xi s r (NI (Z.of_nat b)) mean sd = Ok t /\ drawn (Some b) [rows; cols] rk mean sd t.
Proof.
  intros Hl Hc Hs Hp Hp2 Hr Hb. destruct (rank_arg_ok (length rows) r rk ltac:(lia) Hr) as (E1 & E2 & H1 & H2 & H3 & H4). unfold matrix_batch_with_random_cores.
  rewrite (matrix_rows_ok rows cols) by auto. cbn [bind nth]. unfold validate_batch. cbn [pos_int to_nat].
  replace (1 <=? Z.of_nat b)%Z with true by (symmetry; apply Z.leb_le; lia). rewrite Nat2Z.id. cbn [bind]. rewrite E1. cbn [bind]. rewrite E2. cbn [bind firstn].
  apply (random_ok (Some b) [rows; cols] rk mean sd (length rows)); auto. constructor; auto.
Qed.

(** [random_tensor] and its relatives. *)
Lemma check_mean0 (t : rtt) : check_mean 0 t = Ok t.
Proof. unfold check_mean. rewrite Rabs_R0. destruct (Rlt_dec 0 (/ 10 ^ 8)) as [_|n]; [reflexivity|]. exfalso. apply n. apply Rinv_0_lt_compat. apply pow_lt. lra. Qed.

Lemma random_tensor_ok l r rk mean sd : 2 <= length l -> Forall (fun n => 0 < n) l -> rank_arg (length l) r rk ->
  exists t, random_tensor xi (S1Vec (nints l)) r mean sd = check_mean mean t /\ drawn None [l] rk 0 (core_stddev (length l) rk sd) t.
Proof.
  intros Hl Hp Hr. destruct (rank_arg_ok (length l) r rk ltac:(lia) Hr) as (E1 & E2 & _). unfold random_tensor.
  rewrite validate_tensor_ok by auto. cbn [bind]. rewrite E1. cbn [bind]. rewrite E2. cbn [bind].
  destruct (tensor_random_ok l _ rk 0 (core_stddev (length l) rk sd) Hl Hp (rank_arg_list (length l) r rk ltac:(lia) Hr)) as (t & Et & Dt).
  exists t. rewrite Et. auto.
Qed.
Lemma random_tensor_batch_ok l r rk b mean sd : 2 <= length l -> Forall (fun n => 0 < n) l -> rank_arg (length l) r rk -> 0 < b ->
  exists t, random_tensor_batch xi (S1Vec (nints l)) r (NI (Z.of_nat b)) mean sd = check_mean mean t /\ drawn (Some b) [l] rk 0 (core_stddev (length l) rk sd) t.
Proof.
  intros Hl Hp Hr Hb. destruct (rank_arg_ok (length l) r rk ltac:(lia) Hr) as (E1 & E2 & _). unfold random_tensor_batch.
  rewrite validate_tensor_ok by auto. cbn [bind]. unfold validate_batch. cbn [pos_int].
  replace (1 <=? Z.of_nat b)%Z with true by (symmetry; apply Z.leb_le; lia). cbn [bind]. rewrite E1. cbn [bind]. rewrite E2. cbn [bind].
  destruct (tensor_batch_random_ok l _ rk b 0 (core_stddev (length l) rk sd) Hl Hp (rank_arg_list (length l) r rk ltac:(lia) Hr) Hb) as (t & Et & Dt).
  exists t. rewrite Et. auto.
Qed.
Lemma random_matrix_ok rows cols s r rk mean sd : 2 <= length rows -> length cols = length rows -> rows_of rows cols s ->
  Forall (fun n => 0 < n) rows -> Forall (fun n => 0 < n) cols -> rank_arg (length rows) r rk ->
  exists t, random_matrix xi s r mean sd = check_mean mean t /\ drawn None [rows; cols] rk 0 (core_stddev (length rows) rk sd) t.
Proof.
  intros Hl Hc Hs Hp Hp2 Hr. destruct (rank_arg_ok (length rows) r rk ltac:(lia) Hr) as (E1 & E2 & _). unfold random_matrix.
  rewrite (matrix_rows_ok rows cols) by auto. cbn [bind nth]. rewrite E1. cbn [bind]. rewrite E2. cbn [bind map].
  destruct (matrix_random_ok rows cols (S2Rows [Some (nints rows); Some (nints cols)]) _ rk 0 (core_stddev (length rows) rk sd) Hl Hc ltac:(now left) Hp Hp2 (rank_arg_list (length rows) r rk ltac:(lia) Hr)) as (t & Et & Dt).
  exists t. rewrite Et. auto.
Qed.
Lemma random_matrix_batch_ok rows cols s r rk b mean sd : 2 <= length rows -> length cols = length rows -> rows_of rows cols s ->
  Forall (fun n => 0 < n) rows -> Forall (fun n => 0 < n) cols -> rank_arg (length rows) r rk -> 0 < b ->
  exists t, random_matrix_batch xi s r (NI (Z.of_nat b)) mean sd = check_mean mean t /\ drawn (Some b) [rows; cols] rk 0 (core_stddev (length rows) rk sd) t.
Proof.
  intros Hl Hc Hs Hp Hp2 Hr Hb. destruct (rank_arg_ok (length rows) r rk ltac:(lia) Hr) as (E1 & E2 & _). unfold random_matrix_batch.
  rewrite (matrix_rows_ok rows cols) by auto. cbn [bind nth]. unfold validate_batch. cbn [pos_int].
  replace (1 <=? Z.of_nat b)%Z with true by (symmetry; apply Z.leb_le; lia). cbn [bind]. rewrite E1. cbn [bind]. rewrite E2. cbn [bind map].
  destruct (matrix_batch_random_ok rows cols (S2Rows [Some (nints rows); Some (nints cols)]) _ rk b 0 (core_stddev (length rows) rk sd) Hl Hc ltac:(now left) Hp Hp2 (rank_arg_list (length rows) r rk ltac:(lia) Hr) Hb) as (t & Et & Dt).
  exists t. rewrite Et. auto.
Qed.
Lemma variance_ok lamb rows cols s r rk : 2 <= length rows -> length cols = length rows -> rows_of rows cols s ->
  Forall (fun n => 0 < n) rows -> Forall (fun n => 0 < n) cols -> rank_arg (length rows) r rk ->
  exists t, variance_initializer xi lamb s r = Ok t /\ drawn None [rows; cols] rk 0 (core_stddev (length rows) rk (sqrt (lamb [rows; cols]))) t.
Proof.
  intros Hl Hc Hs Hp Hp2 Hr. destruct (rank_arg_ok (length rows) r rk ltac:(lia) Hr) as (E1 & E2 & _). unfold variance_initializer.
  rewrite (matrix_rows_ok rows cols) by auto. cbn [bind nth]. rewrite E1. cbn [bind map].
  destruct (random_matrix_ok rows cols (S2Rows [Some (nints rows); Some (nints cols)]) _ rk 0 (sqrt (lamb [rows; cols])) Hl Hc ltac:(now left) Hp Hp2 Hr) as (t & Et & Dt).
  exists t. rewrite Et. split; [apply check_mean0|exact Dt].
Qed.

(** ** Refused arguments *)
Definition good_int (x : num) : Prop := exists n, 0 < n /\ x = NI (Z.of_nat n).
Lemma pos_int_iff x : pos_int x = true <-> good_int x.
Proof.
  split.
  - destruct x as [z|]; cbn; [|discriminate]. intros H. apply Z.leb_le in H. exists (Z.to_nat z). rewrite Z2Nat.id by lia. split; [lia|reflexivity].
  - intros (n & Hn & ->). cbn. apply Z.leb_le. lia.
Qed.
Lemma not_pos l : ~ Forall good_int l -> forallb pos_int l = false.
Proof.
  intros H. destruct (forallb pos_int l) eqn:E; auto. exfalso. apply H. rewrite forallb_forall in E. apply Forall_forall. intros x Hx. apply pos_int_iff. auto.
Qed.
Lemma good_nints l : Forall good_int l -> exists m, l = nints m /\ Forall (fun n => 0 < n) m.
Proof.
  induction 1 as [|x l (n & Hn & ->) _ (m & -> & Hm)]; [exists []; auto|]. exists (n :: m). split; [reflexivity|]. constructor; auto.
Qed.

(** A shape for a tensor, a rank argument for [d] dimensions and a batch size that are refused. *)
Definition bad_shape1 (s : shape1) : Prop := match s with S1Other => True | S1Vec l => ~ Forall good_int l end.
Definition bad_rank (d : nat) (r : rarg) : Prop :=
  match r with RAnum x => ~ good_int x | RAvec l => length l <> S d \/ ~ Forall good_int l end.

Lemma bad_shape1_err s : bad_shape1 s -> validate_tensor s = Err ValueError.
Proof. destruct s as [l|]; cbn; auto. intros H. now rewrite not_pos. Qed.
Lemma bad_rank_err d r : bad_rank d r -> validate_rank d r = Err ValueError.
Proof.
  destruct r as [x|l]; cbn [bad_rank validate_rank].
  - intros H. destruct (pos_int x) eqn:E; auto. apply pos_int_iff in E. contradiction.
  - destruct l as [|x [|y l]]; [reflexivity|reflexivity|]. intros [H|H]; [|now rewrite not_pos]. destruct (negb _); auto. destruct (Nat.eqb_spec (length (x :: y :: l)) (S d)); [contradiction|reflexivity].
Qed.
Lemma bad_batch_err b : ~ good_int b -> validate_batch b = Err ValueError.
Proof. intros H. unfold validate_batch. destruct (pos_int b) eqn:E; auto. apply pos_int_iff in E. contradiction. Qed.

(** Ranks that do not begin and end with 1. *)
Lemma random_ends_err bs rsh rk mean sd d : 2 <= d -> length rsh = 1 \/ length rsh = 2 ->
  Forall (fun s => length s = d) rsh -> length rk = S d -> nth 0 rk 0 <> 1 \/ nth d rk 0 <> 1 ->
  construct' Rring (random_cores xi bs rsh rk mean sd) rsh rk bs = Err ValueError.
Proof.
  intros Hd Hk Hr Hl He. rewrite (construct_eq _ _ rsh rk bs d) by auto. unfold random_cores.
  assert (L0 : length (nth 0 rsh []) = d). { destruct rsh; [destruct Hk; discriminate|]. now apply Forall_cons_iff in Hr as [Hr _]. }
  rewrite L0.
  set (g := fun i => normal xi i (pre_of bs ++ nth i rk 0 :: map (fun r => nth i r 0) rsh ++ [nth (S i) rk 0]) mean sd).
  change (construct (map g (seq 0 d)) rsh rk bs = Err ValueError).
  set (off := match bs with None => 0 | Some _ => 1 end).
  assert (Hoff : length (pre_of bs) = off) by (destruct bs; reflexivity).
  assert (Sg : forall i, shape (g i) = pre_of bs ++ nth i rk 0 :: map (fun r => nth i r 0) rsh ++ [nth (S i) rk 0]) by reflexivity.
  assert (Rg : forall i, rank (g i) = off + length rsh + 2).
  { intros i. unfold rank. rewrite Sg, app_length. cbn [length]. rewrite app_length, map_length. cbn [length]. lia. }
  assert (Lg : forall i, left_rank off (g i) = nth i rk 0). { intros i. unfold left_rank. rewrite Sg, <- Hoff. apply nth_left. }
  assert (Rig : forall i, right_rank (g i) = nth (S i) rk 0).
  { intros i. unfold right_rank. rewrite Sg, app_comm_cons, app_assoc. apply last_last. }
  assert (Hz : sized off (map g (seq 0 d)) (Some rsh) (Some rk)).
  { split; [destruct d; [lia|discriminate]|]. split; [|split].
    - intros c Hc. apply in_map_iff in Hc as (i & <- & _). rewrite Rg. lia.
    - intros ss E. injection E as <-. rewrite map_length, seq_length. split; [rewrite Forall_forall in Hr; auto|]. intros c Hc. apply in_map_iff in Hc as (i & <- & _). rewrite Rg. lia.
    - intros rs E. injection E as <-. rewrite map_length, seq_length. exact Hl. }
  assert (Hn : forall i, i < d -> nth_error (map g (seq 0 d)) i = Some (g i)).
  { intros i Hi. rewrite nth_error_map. rewrite (nth_error_nth' _ 0) by (rewrite seq_length; lia). rewrite seq_nth by lia. reflexivity. }
  assert (Hc : forall b, ~ consistent off (map g (seq 0 d)) (Some rsh) (Some rk) b).
  { intros b (_ & _ & H1 & H2 & _). destruct He as [He|He].
    - apply He. rewrite <- Lg. apply H1. apply Hn. lia.
    - apply He. rewrite map_length, seq_length in H2. specialize (H2 (g (d - 1)) (Hn (d - 1) ltac:(lia))). rewrite Rig in H2. now replace (S (d - 1)) with d in H2 by lia. }
  unfold construct. destruct bs as [b|].
  - apply (TensorTrainBatch_iff Rring (map g (seq 0 d)) (STuple rsh) (Some rsh)); auto. destruct rsh; [destruct Hk; discriminate|reflexivity].
  - apply (TensorTrain_iff Rring (map g (seq 0 d)) (STuple rsh) (Some rsh)); auto. destruct rsh; [destruct Hk; discriminate|reflexivity].
Qed.
Lemma validate_list d rk : 1 <= d -> length rk = S d -> Forall (fun n => 0 < n) rk -> validate_rank d (RAvec (nints rk)) = Ok Datatypes.tt.
Proof.
  intros Hd L P. unfold validate_rank. rewrite nints_pos by auto. rewrite nints_length, L, Nat.eqb_refl. cbn [negb].
  destruct rk as [|x [|y rk]]; cbn in L; try lia. reflexivity.
Qed.

Lemma good_ones n : Forall good_int (repeat (NI 1) n).
Proof. apply Forall_forall. intros x Hx. apply repeat_spec in Hx as ->. exists 1. split; [lia|reflexivity]. Qed.
Lemma bad_rows_err s :
  (exists r1 r2, s = S2Rows [Some r1; Some r2] /\ (length r1 <> length r2 \/ ~ Forall good_int (r1 ++ r2))) \/
  (exists r1, (s = S2Rows [Some r1; None] \/ s = S2Rows [None; Some r1]) /\ ~ Forall good_int r1) \/
  (exists l, s = S2Vec l /\ 2 <= length l) -> matrix_rows s = Err ValueError.
Proof.
  assert (X : forall r1 r2, (length r1 <> length r2 \/ ~ Forall good_int (r1 ++ r2)) -> validate_matrix [r1; r2] = Err ValueError).
  { intros r1 r2 H. unfold validate_matrix, rectangular. cbn [forallb nth]. destruct (Nat.eqb_spec (length r2) (length r1)) as [E|E].
    - destruct H as [H|H]; [congruence|]. rewrite Nat.eqb_refl. cbn [andb negb]. apply not_pos in H. rewrite forallb_app in H.
      destruct (forallb pos_int r1); cbn [andb] in *; [rewrite H|]; reflexivity.
    - rewrite Nat.eqb_refl. reflexivity. }
  intros [(r1 & r2 & -> & H)|[(r1 & [-> | ->] & H)|(l & -> & H)]]; cbn [matrix_rows all_some].
  - auto.
  - apply X. right. intros F. apply H. now apply Forall_app in F.
  - apply X. right. intros F. apply H. now apply Forall_app in F.
  - destruct (Nat.ltb_spec (length l) 2); [lia|reflexivity].
Qed.
End Rand.
