(** Propagation of rounding errors through the functions of Float.v. *)
From Coq Require Import String Ascii List Arith ZArith Lia Lra Bool Reals.
From Verif Require Import Scalar Tensor TensorLemmas Base Spec BaseLemmas Ops OpsR Float FloatSpec.
Import ListNotations.
Local Open Scope R_scope.
Local Notation get := (@get Rring).

Section U.
Variable u : R.
Hypothesis Hu : 0 <= u.

Definition near (m : nat) (z x X : R) : Prop := Rabs (z - x) <= ((1 + u) ^ m - 1) * X /\ Rabs x <= X.

Lemma pow_ge1 m : 1 <= (1 + u) ^ m.
Proof. apply pow_R1_Rle. lra. Qed.

Lemma near_pos m z x X : near m z x X -> 0 <= X.
Proof. intros [_ H]. pose proof (Rabs_pos x). lra. Qed.

Lemma near_size m z x X : near m z x X -> Rabs z <= (1 + u) ^ m * X.
Proof.
  intros [H1 H2]. replace z with ((z - x) + x) by ring. pose proof (Rabs_triang (z - x) x). lra.
Qed.

Lemma near_self x m : near m x x (Rabs x).
Proof. split; [|lra]. unfold Rminus at 1. rewrite Rplus_opp_r, Rabs_R0. apply Rmult_le_pos; [|apply Rabs_pos]. pose proof (pow_ge1 m). lra. Qed.

Lemma near_0 m : near m 0 0 0.
Proof. split; rewrite ?Rminus_0_r, Rabs_R0; lra. Qed.

Lemma near_1 m : near m 1 1 1.
Proof. pose proof (near_self 1 m) as H. now rewrite Rabs_R1 in H. Qed.

Lemma near_more m n z x X : near m z x X -> (m <= n)%nat -> near n z x X.
Proof.
  intros H L. pose proof (near_pos _ _ _ _ H) as HX. destruct H as [H1 H2]. split; [|exact H2].
  pose proof (Rle_pow (1 + u) m n ltac:(lra) L). nra.
Qed.

Lemma near_add m a' a A b' b B : near m a' a A -> near m b' b B -> near m (a' + b') (a + b) (A + B).
Proof.
  intros [H1 H2] [H3 H4]. split.
  - replace (a' + b' - (a + b)) with ((a' - a) + (b' - b)) by ring. pose proof (Rabs_triang (a' - a) (b' - b)). lra.
  - pose proof (Rabs_triang a b). lra.
Qed.

Lemma near_mul m n a' a A b' b B : near m a' a A -> near n b' b B -> near (m + n) (a' * b') (a * b) (A * B).
Proof.
  intros Ha Hb. pose proof (near_size _ _ _ _ Ha) as Sa. pose proof (near_pos _ _ _ _ Ha) as PA. pose proof (near_pos _ _ _ _ Hb) as PB.
  destruct Ha as [H1 H2], Hb as [H3 H4]. pose proof (pow_ge1 m) as Pm. pose proof (pow_ge1 n) as Pn. unfold near. rewrite pow_add. split.
  - replace (a' * b' - a * b) with (a' * (b' - b) + (a' - a) * b) by ring.
    eapply Rle_trans; [apply Rabs_triang|]. rewrite !Rabs_mult.
    assert (X1 : Rabs a' * Rabs (b' - b) <= ((1 + u) ^ m * A) * (((1 + u) ^ n - 1) * B)) by (apply Rmult_le_compat; auto using Rabs_pos).
    assert (X2 : Rabs (a' - a) * Rabs b <= (((1 + u) ^ m - 1) * A) * B) by (apply Rmult_le_compat; auto using Rabs_pos).
    eapply Rle_trans; [exact (Rplus_le_compat _ _ _ _ X1 X2)|]. right. ring.
  - rewrite Rabs_mult. apply Rmult_le_compat; auto using Rabs_pos.
Qed.

Lemma near_round m x' x X z : near m x' x X -> rounds u x' z -> near (S m) z x X.
Proof.
  intros H R. pose proof (near_size _ _ _ _ H) as S. pose proof (near_pos _ _ _ _ H) as P. destruct H as [H1 H2]. split; [|exact H2].
  replace (z - x) with ((z - x') + (x' - x)) by ring. eapply Rle_trans; [apply Rabs_triang|]. unfold rounds in R. cbn [pow].
  assert (u * Rabs x' <= u * ((1 + u) ^ m * X)) by (apply Rmult_le_compat_l; auto). nra.
Qed.

Lemma fl_eval_near m z x X : fl_eval u m z x X -> near m z x X.
Proof.
  intros H. induction H.
  - apply near_self.
  - eapply near_round; [|eassumption]. now apply near_mul.
  - eapply near_round; [|eassumption]. now apply near_add.
  - eapply near_round; [|eassumption]. apply near_add; [|assumption]. eapply near_more; [exact (near_mul _ _ _ _ _ _ _ _ IHfl_eval1 IHfl_eval2)|assumption].
  - eapply near_more; eassumption.
Qed.

(** Exact evaluation on perturbed numbers, then rounding. *)
Lemma near_trans m n z d' D' d D : near n z d' D' -> near m d' d D -> D' <= (1 + u) ^ m * D -> near (m + n) z d D.
Proof.
  intros [H1 H2] [H3 H4] H5. split; [|exact H4]. replace (z - d) with ((z - d') + (d' - d)) by ring.
  eapply Rle_trans; [apply Rabs_triang|]. pose proof (pow_ge1 n). rewrite pow_add.
  assert (((1 + u) ^ n - 1) * D' <= ((1 + u) ^ n - 1) * ((1 + u) ^ m * D)) by (apply Rmult_le_compat_l; lra). nra.
Qed.

(** ** Tensors *)
Definition tnear (m : nat) (z x X : rtensor) : Prop :=
  wft z /\ wft x /\ wft X /\ shape z = shape x /\ shape X = shape x /\
  forall k, near m (nth k (data z) 0) (nth k (data x) 0) (nth k (data X) 0).

Lemma tnear_get m z x X i : tnear m z x X -> near m (get z i) (get x i) (get X i).
Proof. intros (_ & _ & _ & S1 & S2 & H). unfold Tensor.get. rewrite S1, S2. apply H. Qed.

Lemma nth_seq_map {A} (f : nat -> A) n k d : nth k (map f (seq 0 n)) d = if (k <? n)%nat then f k else d.
Proof.
  destruct (Nat.ltb_spec k n) as [H|H].
  - rewrite (nth_indep _ d (f 0%nat)) by (now rewrite map_length, seq_length). rewrite map_nth, seq_nth by auto. reflexivity.
  - apply nth_overflow. now rewrite map_length, seq_length.
Qed.

Lemma tnear_mk m sh f g h : (forall i, vidx sh i -> near m (f i) (g i) (h i)) -> tnear m (mk (K := Rring) sh f) (mk (K := Rring) sh g) (mk (K := Rring) sh h).
Proof.
  intros H. split; [apply wft_mk|]. split; [apply wft_mk|]. split; [apply wft_mk|]. do 2 (split; [reflexivity|]). intros k. unfold mk. cbn [data].
  rewrite !nth_seq_map. destruct (Nat.ltb_spec k (prodn sh)) as [L|L]; [|apply near_0]. apply H. now apply unravel_valid.
Qed.

Lemma tnear_more m n z x X : tnear m z x X -> (m <= n)%nat -> tnear n z x X.
Proof. intros (A & B & C & D & E & H) L. do 5 (split; [assumption|]). intros k. eapply near_more; eauto. Qed.

Lemma tabs_wft x : wft x -> wft (tabs x).
Proof. unfold wft, tabs, tmap. cbn. now rewrite map_length. Qed.

Lemma tabs_get x i : get (tabs x) i = Rabs (get x i).
Proof.
  unfold Tensor.get, tabs, tmap. cbn [shape data]. rewrite <- (map_nth Rabs). f_equal. cbn. now rewrite Rabs_R0.
Qed.

Lemma tnear_self x m : wft x -> tnear m x x (tabs x).
Proof.
  intros W. split; [exact W|]. split; [exact W|]. split; [now apply tabs_wft|]. do 2 (split; [reflexivity|]). intros k.
  change (near m (nth k (data x) 0) (nth k (data x) 0) (nth k (map Rabs (data x)) 0)). generalize (data x). intros l. cbn in l.
  pose proof (map_nth Rabs l 0 k) as E. rewrite Rabs_R0 in E. rewrite E. apply near_self.
Qed.

Lemma tnear_ext m z x X : wft z -> wft x -> wft X -> shape z = shape x -> shape X = shape x ->
  (forall i, vidx (shape x) i -> near m (get z i) (get x i) (get X i)) -> tnear m z x X.
Proof.
  intros A B C D E H. do 5 (split; [assumption|]). intros k. destruct (Nat.ltb_spec k (prodn (shape x))) as [L|L].
  - specialize (H (unravel (shape x) k) (unravel_valid _ _ L)). unfold Tensor.get in H. rewrite D, E in H. now rewrite ravel_unravel in H.
  - rewrite !nth_overflow; [apply near_0|..]; unfold wft in *; rewrite ?A, ?B, ?C, ?D, ?E; exact L.
Qed.

(** Results, exceptions included. *)
Definition rel3 {A} (P : A -> A -> A -> Prop) (z x X : res A) : Prop :=
  match z, x, X with
  | Ok z, Ok x, Ok X => P z x X
  | Err a, Err b, Err c => a = b /\ c = b
  | _, _, _ => False
  end.

Lemma rel3_bind {A B} (P : A -> A -> A -> Prop) (Q : B -> B -> B -> Prop) z x X kz kx kX :
  rel3 P z x X -> (forall a b c, P a b c -> rel3 Q (kz a) (kx b) (kX c)) -> rel3 Q (bind z kz) (bind x kx) (bind X kX).
Proof. destruct z, x, X; cbn; try tauto. auto. Qed.

Lemma rel3_mono {A} (P Q : A -> A -> A -> Prop) z x X : rel3 P z x X -> (forall a b c, P a b c -> Q a b c) -> rel3 Q z x X.
Proof. destruct z, x, X; cbn; auto. Qed.

Lemma rel3_refl {A} (x : res A) : rel3 (fun a b c => a = b /\ c = b) x x x.
Proof. destruct x; cbn; auto. Qed.

Lemma prodn_holes n spec : prodn (map (fun d => match d with Some k => k | None => n end) spec) =
  (prodn (map (fun d => match d with Some k => k | None => 1 end) spec) * n ^ length (filter (fun d => match d with None => true | _ => false end) spec))%nat.
Proof. induction spec as [|[k|] l IH]; [reflexivity|..]; unfold prodn in *; cbn [map fold_right filter length Nat.pow] in *; rewrite IH; ring. Qed.

Lemma tnear_reshaped m z x X sh : tnear m z x X -> prodn sh = prodn (shape x) ->
  tnear m (Tensor sh (data z)) (Tensor sh (data x)) (Tensor sh (data X)).
Proof. intros (A & B & C & D & E & H) P. unfold wft in A, B, C. split; [change (length (data z) = prodn sh); congruence|]. split; [change (length (data x) = prodn sh); congruence|]. split; [change (length (data X) = prodn sh); congruence|]. split; [reflexivity|]. split; [reflexivity|]. exact H. Qed.

Lemma reshape_rel m z x X spec : tnear m z x X -> rel3 (tnear m) (reshape z spec) (reshape x spec) (reshape X spec).
Proof.
  intros H. pose proof H as (_ & _ & _ & D & E & _). unfold reshape, size. rewrite D, E.
  pose proof (fun n => prodn_holes n spec) as P. destruct (length (filter _ spec)) as [|[|?]].
  - destruct (Nat.eqb_spec (prodn (map (fun d => match d with Some n => n | None => 1%nat end) spec)) (prodn (shape x))) as [Q|Q]; cbn [rel3]; [|auto].
    apply tnear_reshaped; [exact H|]. rewrite P. cbn. lia.
  - destruct (Nat.eqb_spec (prodn (map (fun d => match d with Some n => n | None => 1%nat end) spec)) 0) as [Q|Q]; cbn [rel3]; [auto|].
    destruct (Nat.eqb_spec (prodn (shape x) mod prodn (map (fun d => match d with Some n => n | None => 1%nat end) spec)) 0) as [Q2|Q2]; cbn [rel3]; [|auto].
    apply tnear_reshaped; [exact H|]. rewrite P, Nat.pow_1_r. symmetry. now apply Nat.div_exact.
  - cbn. auto.
Qed.

Lemma transpose_rel m z x X perm : tnear m z x X -> rel3 (tnear m) (transpose z perm) (transpose x perm) (transpose X perm).
Proof.
  intros H. pose proof H as (_ & _ & _ & D & E & _). unfold transpose, rank. rewrite D, E. destruct (perm_ok _ _); cbn [rel3]; [|auto].
  apply tnear_mk. intros i _. now apply tnear_get.
Qed.

Lemma transpose_rev_rel m z x X : tnear m z x X -> rel3 (tnear m) (transpose_rev z) (transpose_rev x) (transpose_rev X).
Proof. intros H. pose proof H as (_ & _ & _ & D & E & _). unfold transpose_rev, rank. rewrite D, E. now apply transpose_rel. Qed.

Lemma prodn_no_ones l : prodn (filter (fun n => negb (Nat.eqb n 1)) l) = prodn l.
Proof. induction l as [|n l IH]; [reflexivity|]. cbn [filter]. destruct (Nat.eqb_spec n 1) as [->|]; cbn [negb]; unfold prodn in *; cbn [fold_right]; rewrite ?IH; lia. Qed.

Lemma squeeze_rel m z x X : tnear m z x X -> tnear m (squeeze z) (squeeze x) (squeeze X).
Proof. intros H. pose proof H as (_ & _ & _ & D & E & _). unfold squeeze. rewrite D, E. apply tnear_reshaped; [exact H|]. apply prodn_no_ones. Qed.

Lemma prodn_del k l : nth_error l k = Some 1%nat -> prodn (del k l) = prodn l.
Proof. revert k. induction l as [|n l IH]; intros [|k] H; cbn in H; try discriminate; unfold prodn in *; cbn [del fold_right] in *. - injection H as ->. lia. - now rewrite IH. Qed.

Lemma squeeze_axis_rel m z x X ax : tnear m z x X -> rel3 (tnear m) (squeeze_axis z ax) (squeeze_axis x ax) (squeeze_axis X ax).
Proof.
  intros H. pose proof H as (_ & _ & _ & D & E & _). unfold squeeze_axis. rewrite D, E.
  destruct (nth_error (shape x) ax) as [[|[|?]]|] eqn:Q; cbn [rel3]; auto. apply tnear_reshaped; [exact H|]. now apply prodn_del.
Qed.

(** ** Contractions, for a relation that is kept by sums and products *)
Section Rel.
Variable P : nat -> R -> R -> R -> Prop.
Hypothesis P0 : forall m, P m 0 0 0.
Hypothesis P1 : forall m, P m 1 1 1.
Hypothesis Padd : forall m a' a A b' b B, P m a' a A -> P m b' b B -> P m (a' + b') (a + b) (A + B).
Hypothesis Pmul : forall m n a' a A b' b B, P m a' a A -> P n b' b B -> P (m + n) (a' * b') (a * b) (A * B).

Lemma sumn_rel m n f g h : (forall i, (i < n)%nat -> P m (f i) (g i) (h i)) ->
  P m (@sumn Rring n f) (@sumn Rring n g) (@sumn Rring n h).
Proof. induction n as [|n IH]; intros H; cbn [sumn]; [apply P0|]. apply Padd; auto. Qed.

Lemma esum_rel m dims : forall asg f g h, (forall a, P m (f a) (g a) (h a)) ->
  P m (@esum Rring dims asg f) (@esum Rring dims asg g) (@esum Rring dims asg h).
Proof. induction dims as [|[l n] ds IH]; intros asg f g h H; cbn [esum]; [apply H|]. apply sumn_rel. intros i _. now apply IH. Qed.

Inductive opsrel : list nat -> list rtensor -> list rtensor -> list rtensor -> Prop :=
| or_nil : opsrel [] [] [] []
| or_cons m ms z x X zs xs Xs : (forall i, P m (get z i) (get x i) (get X i)) -> shape z = shape x -> shape X = shape x ->
    opsrel ms zs xs Xs -> opsrel (m :: ms) (z :: zs) (x :: xs) (X :: Xs).

Lemma opsrel_shapes ms zs xs Xs : opsrel ms zs xs Xs -> map (@shape Rring) zs = map (@shape Rring) xs /\ map (@shape Rring) Xs = map (@shape Rring) xs.
Proof. intros H. induction H as [|? ? ? ? ? ? ? ? ? ? ? ? [IH1 IH2]]; cbn; [auto|]. split; congruence. Qed.

Lemma eprod_rel ms zs xs Xs : opsrel ms zs xs Xs -> forall asg ins, P (list_sum ms) (@eprod Rring asg ins zs) (@eprod Rring asg ins xs) (@eprod Rring asg ins Xs).
Proof.
  intros H. induction H as [|m ms z x X zs xs Xs Hz Sz SX H IH]; intros asg ins.
  - destruct ins as [|? [|? ?]]; cbn; apply P1.
  - destruct ins as [|ls ins]; [cbn [eprod]; apply P1|].
    change (list_sum (m :: ms)) with (m + list_sum ms)%nat. destruct ins as [|ls' ins].
    + destruct H; cbn [eprod].
      * cbn [list_sum fold_right]. rewrite Nat.add_0_r. apply Hz.
      * apply Pmul; [apply Hz|]. apply P1.
    + cbn [eprod]. apply Pmul; [apply Hz|]. exact (IH asg (ls' :: ins)).
Qed.
End Rel.

Lemma bind_all_shapes ins : forall (ts us : list rtensor) env, map (@shape Rring) ts = map (@shape Rring) us -> bind_all (K := Rring) ins ts env = bind_all (K := Rring) ins us env.
Proof.
  induction ins as [|ls ins IH]; intros [|t ts] [|v us] env H; try discriminate; [reflexivity..|]. injection H as H1 H2.
  cbn [bind_all]. rewrite H1. destruct (bind_labels ls (shape v) env); [|reflexivity]. cbn [bind]. now apply IH.
Qed.

Lemma einsum_terms_shapes eq ts us : map (@shape Rring) ts = map (@shape Rring) us -> einsum_terms eq ts = einsum_terms eq us.
Proof. intros H. unfold einsum_terms. destruct (parse_eq eq [] []) as [[ins out]|]; [|reflexivity]. now rewrite (bind_all_shapes ins ts us). Qed.

Inductive lnear : list nat -> list rtensor -> list rtensor -> list rtensor -> Prop :=
| ln_nil : lnear [] [] [] []
| ln_cons m ms z x X zs xs Xs : tnear m z x X -> lnear ms zs xs Xs -> lnear (m :: ms) (z :: zs) (x :: xs) (X :: Xs).

Definition dom (m : nat) (a' a A : R) : Prop := 0 <= a' <= (1 + u) ^ m * A.

Lemma dom_mul m n a' a A b' b B : dom m a' a A -> dom n b' b B -> dom (m + n) (a' * b') (a * b) (A * B).
Proof.
  intros [H1 H2] [H3 H4]. split; [nra|]. rewrite pow_add. replace ((1 + u) ^ m * (1 + u) ^ n * (A * B)) with (((1 + u) ^ m * A) * ((1 + u) ^ n * B)) by ring.
  now apply Rmult_le_compat.
Qed.
Lemma dom_add m a' a A b' b B : dom m a' a A -> dom m b' b B -> dom m (a' + b') (a + b) (A + B).
Proof. intros [H1 H2] [H3 H4]. split; lra. Qed.
Lemma dom_0 m : dom m 0 0 0.
Proof. split; lra. Qed.
Lemma dom_1 m : dom m 1 1 1.
Proof. pose proof (pow_ge1 m). split; lra. Qed.

Lemma lnear_ops ms zs xs Xs : lnear ms zs xs Xs -> opsrel near ms zs xs Xs.
Proof. intros H. induction H; constructor; auto. - intros i. now apply tnear_get. - apply H. - apply H. Qed.

Lemma tnear_dom m z x X : tnear m z x X -> forall i a, dom m (get (tabs z) i) a (get X i).
Proof. intros H i a. rewrite tabs_get. split; [apply Rabs_pos|]. eapply near_size. eapply tnear_get. eauto. Qed.

Lemma lnear_dom ms zs xs Xs : lnear ms zs xs Xs -> opsrel dom ms (map tabs zs) (map tabs zs) Xs.
Proof.
  intros H. induction H; cbn [map]; constructor; auto.
  - intros i. now apply tnear_dom with (x := x).
  - destruct H as (_ & _ & _ & S1 & S2 & _). cbn. congruence.
Qed.

Lemma lnear_wft ms zs xs Xs : lnear ms zs xs Xs -> Forall wft zs /\ length ms = length zs.
Proof. intros H. induction H as [|? ? ? ? ? ? ? ? T ? [? ?]]; cbn; [auto|]. split; [|congruence]. constructor; [apply T|assumption]. Qed.

Variable ar : arith.
Hypothesis Har : arith_ok u ar.

Lemma einsum_rel eq ms zs xs Xs : lnear ms zs xs Xs -> (2 <= length ms)%nat ->
  rel3 (tnear (list_sum ms + (einsum_terms eq xs + length ms - 2))) (f_einsum ar eq zs) (einsum (K := Rring) eq xs) (einsum (K := Rring) eq Xs).
Proof.
  intros H L. pose proof (lnear_ops _ _ _ _ H) as HN. pose proof (lnear_dom _ _ _ _ H) as HD. destruct (opsrel_shapes _ _ _ _ _ HN) as [S1 S2].
  destruct (lnear_wft _ _ _ _ H) as [W Len]. pose proof (ok_einsum u ar Har eq zs W ltac:(lia)) as C.
  rewrite (einsum_terms_shapes eq zs xs S1), <- Len in C. unfold computed in C.
  assert (S3 : map (@shape Rring) (map tabs zs) = map (@shape Rring) xs).
  { rewrite <- S1, map_map. now apply map_ext. }
  unfold einsum in C at 1 |- *. destruct (parse_eq eq [] []) as [[ins out]|] eqn:Ep; [|rewrite C; cbn; auto].
  rewrite (bind_all_shapes ins zs xs) in C by auto. rewrite (bind_all_shapes ins Xs xs) by auto.
  destruct (bind_all ins xs []) as [env|e] eqn:Eb; cbn [bind] in C |- *; [|rewrite C; cbn; auto].
  destruct (forallb _ out) eqn:Ef; [|rewrite C; cbn; auto].
  destruct C as (z' & D' & Ez & ED & Wz & Sz & Hz). rewrite Ez. cbn [rel3].
  unfold einsum in ED. rewrite Ep in ED. rewrite (bind_all_shapes ins (map tabs zs) xs), Eb in ED by auto. cbn [bind] in ED. rewrite Ef in ED.
  injection ED as <-. rewrite shape_mk in *. apply tnear_ext; [exact Wz|apply wft_mk|apply wft_mk|rewrite shape_mk; exact Sz|reflexivity|].
  rewrite shape_mk. intros i Hi. specialize (Hz i Hi). rewrite !get_mk in * by auto. apply fl_eval_near in Hz.
  eapply near_trans; [exact Hz|..].
  - apply esum_rel; [exact near_0|exact near_add|]. intros a. apply (eprod_rel near near_1 near_mul _ _ _ _ HN).
  - refine (proj2 (esum_rel dom dom_0 dom_add _ _ _ _ (fun a => eprod (K := Rring) a ins (map tabs zs)) _ _)). intros a. apply (eprod_rel dom dom_1 dom_mul _ _ _ _ HD).
Qed.

Lemma matmul_rel m n z x X y' y Y : tnear m z x X -> tnear n y' y Y ->
  rel3 (tnear (m + n + last (shape x) 0%nat)) (f_matmul ar z y') (matmul (K := Rring) x y) (matmul (K := Rring) X Y).
Proof.
  intros H H'. pose proof (ok_matmul u ar Har z y' ltac:(apply H) ltac:(apply H')) as C. unfold computed in C.
  pose proof H as (_ & _ & _ & S1 & S2 & _). pose proof H' as (_ & _ & _ & S1' & S2' & _).
  rewrite S1 in C. unfold matmul at 1 in C. unfold matmul. unfold rank in C |- *. rewrite S1, S1' in C. rewrite S2, S2'.
  destruct (skipn _ (shape x)) as [|a [|k [|? ?]]] eqn:Ex; try (rewrite C; cbn; auto; fail).
  destruct (skipn _ (shape y)) as [|k' [|c [|? ?]]] eqn:Ey; try (rewrite C; cbn; auto; fail).
  destruct (Nat.eqb k k') eqn:Ek; [|rewrite C; cbn; auto].
  destruct (bcast _ _) as [s|] eqn:Es; [|rewrite C; cbn; auto].
  destruct C as (z' & D' & Ez & ED & Wz & Sz & Hz). rewrite Ez. cbn [rel3].
  unfold matmul, rank in ED. cbn [tabs tmap shape] in ED. rewrite S1, S1', Ex, Ey, Ek, Es in ED. injection ED as <-.
  rewrite shape_mk in *. apply tnear_ext; [exact Wz|apply wft_mk|apply wft_mk|rewrite shape_mk; exact Sz|reflexivity|].
  rewrite shape_mk. intros i Hi. specialize (Hz i Hi). rewrite !get_mk in * by auto. apply fl_eval_near in Hz.
  eapply near_trans; [exact Hz|..].
  - apply (sumn_rel near near_0 near_add). intros l _. apply near_mul; now apply tnear_get.
  - refine (proj2 (sumn_rel dom dom_0 dom_add _ _ _ (fun _ => 0 * 0) _ _)). intros l _. exact (dom_mul _ _ _ 0 _ _ 0 _ (tnear_dom _ _ _ _ H _ _) (tnear_dom _ _ _ _ H' _ _)).
Qed.
End U.
