(** Moments of random objects. *)
From Coq Require Import String List Arith ZArith Lia Lra Bool Reals Permutation.
From Verif Require Import Scalar Tensor TensorLemmas TensorLemmas2 Base Spec Chain BaseLemmas Ops FullProofs ResultLemmas Dense OpsR Init InitProofs FullThms RandomSpec.
Import ListNotations.
Local Open Scope R_scope.
Local Notation isum := (@isum Rring).
Local Notation sumn := (@sumn Rring).

Ltac req := match goal with |- @eq _ ?u ?v => change (@eq R u v) end.

Lemma draw_eqb_spec p q : reflect (p = q) (draw_eqb p q).
Proof.
  unfold draw_eqb. destruct p as [k i], q as [m j]. cbn [fst snd]. destruct (Nat.eqb_spec k m); cbn [andb].
  - destruct (list_eq_dec Nat.eq_dec i j); constructor; congruence.
  - constructor. congruence.
Qed.

Lemma tl_length {A} (l : list A) n : length l = S n -> length (tl l) = n.
Proof. destruct l; cbn; [discriminate|lia]. Qed.

(** ** The instance *)
Lemma sum_app_map (f : list R -> R) l m : fold_right Rplus 0 (map f (l ++ m)) = fold_right Rplus 0 (map f l) + fold_right Rplus 0 (map f m).
Proof. induction l as [|x l IH]; cbn; [lra|]. rewrite IH. lra. Qed.
Lemma sum_ext_map (f g : list R -> R) l : (forall x, In x l -> f x = g x) -> fold_right Rplus 0 (map f l) = fold_right Rplus 0 (map g l).
Proof. intros H. f_equal. now apply map_ext_in. Qed.
Lemma sum_scale_map c (f : list R -> R) l : fold_right Rplus 0 (map (fun x => c * f x) l) = c * fold_right Rplus 0 (map f l).
Proof. induction l as [|x l IH]; cbn; [lra|]. rewrite IH. lra. Qed.
Lemma mean_S n f : mean_of (S n) f = (mean_of n (fun w => f (1 :: w)) + mean_of n (fun w => f (-1 :: w))) / 2.
Proof. unfold mean_of. cbn [all_signs pow]. rewrite sum_app_map, !map_map. assert (2 ^ n <> 0) by (apply pow_nonzero; lra). field. auto. Qed.
Lemma mean_ext n f g : (forall w, f w = g w) -> mean_of n g = mean_of n f.
Proof. intros H. unfold mean_of. f_equal. apply sum_ext_map. auto. Qed.
Lemma mean_add n f g : mean_of n (fun w => f w + g w) = mean_of n f + mean_of n g.
Proof.
  unfold mean_of. assert (H : fold_right Rplus 0 (map (fun w => f w + g w) (all_signs n)) = fold_right Rplus 0 (map f (all_signs n)) + fold_right Rplus 0 (map g (all_signs n))).
  { induction (all_signs n); cbn; [lra|]. rewrite IHl. lra. }
  rewrite H. unfold Rdiv. lra.
Qed.
Lemma mean_scale n c f : mean_of n (fun w => c * f w) = c * mean_of n f.
Proof. unfold mean_of. rewrite sum_scale_map. unfold Rdiv. lra. Qed.

Definition signs (n : nat) : expectation (list R) := {|
  integrable := fun _ => True;
  Ex := mean_of n;
  Ex_ext := fun f g H _ => conj I (mean_ext n f g H);
  Ex_add := fun f g _ _ => conj I (mean_add n f g);
  Ex_scale := fun c f _ => conj I (mean_scale n c f) |}.

Definition val_at (l : list (draw * nat)) (p : draw) : nat := fold_right (fun pe acc => if draw_eqb (fst pe) p then snd pe else acc) 0%nat l.

(** Monomials with exponents 0, 1, 2 in the order of [P]. *)
Fixpoint mono_P (P : list draw) (e : draw -> nat) (w : list R) : R :=
  match P, w with p :: P', s :: w' => s ^ e p * mono_P P' e w' | [], _ => 1 | _, [] => 0 end.
Lemma mono_P_mean P e : (forall p, In p P -> (e p <= 2)%nat) -> mean_of (length P) (mono_P P e) = if existsb (fun p => Nat.eqb (e p) 1) P then 0 else 1.
Proof.
  induction P as [|p P IH]; intros He; cbn [length].
  - unfold mean_of. cbn. lra.
  - rewrite mean_S. cbn [mono_P]. rewrite !mean_scale. rewrite IH by (intros q Hq; apply He; now right). cbn [existsb].
    pose proof (He p (or_introl eq_refl)) as Hp. destruct (e p) as [|[|[|n]]]; cbn [Nat.eqb orb pow]; [| | |lia]; destruct (existsb _ P); lra.
Qed.
Lemma monomial_app x l m : monomial x (l ++ m) = monomial x l * monomial x m.
Proof. unfold monomial. induction l as [|pe l IH]; cbn; [lra|]. rewrite IH. ring. Qed.
Lemma monomial_perm x l m : Permutation l m -> monomial x l = monomial x m.
Proof. unfold monomial. induction 1; cbn; try congruence; ring. Qed.

Lemma monomial_ext x y l : (forall p, In p (map fst l) -> x (fst p) (snd p) = y (fst p) (snd p)) -> monomial x l = monomial y l.
Proof. unfold monomial. induction l as [|pe l IH]; cbn; intros H; auto. rewrite IH, H by auto. reflexivity. Qed.

Lemma mono_eq P : NoDup P -> forall l, NoDup (map fst l) -> (forall p, In p (map fst l) -> In p P) -> forall w, length w = length P ->
  monomial (fun k ix => sign_at P w (k, ix)) l = mono_P P (val_at l) w.
Proof.
  induction 1 as [|p P Hp HP IH]; intros l Hl Hin w Hw.
  - destruct l as [|pe l]; [destruct w; [reflexivity|discriminate]|]. exfalso. apply (Hin (fst pe)). now left.
  - destruct w as [|s w]; [discriminate|]. cbn [mono_P]. injection Hw as Hw.
    assert (Hrest : forall m, NoDup (map fst m) -> (forall q, In q (map fst m) -> In q P) -> monomial (fun k ix => sign_at (p :: P) (s :: w) (k, ix)) m = mono_P P (val_at m) w).
    { intros m Nm Im. rewrite <- IH by auto. apply monomial_ext. intros q Hq. cbn [sign_at]. rewrite <- surjective_pairing.
      destruct (draw_eqb_spec q p) as [->|]; [|reflexivity]. apply Im in Hq. contradiction. }
    destruct (in_dec (fun a b => match draw_eqb_spec a b with ReflectT _ e => left e | ReflectF _ n => right n end) p (map fst l)) as [Hi|Hi].
    + apply in_map_iff in Hi as ((q & n) & Eq & Hi). cbn in Eq. subst q. apply in_split in Hi as (l1 & l2 & ->).
      rewrite (monomial_perm _ _ ((p, n) :: l1 ++ l2)) by (symmetry; apply Permutation_middle).
      assert (Pm : Permutation (map fst (l1 ++ (p, n) :: l2)) (p :: map fst (l1 ++ l2))).
      { rewrite !map_app. cbn [map fst]. symmetry. apply Permutation_middle. }
      pose proof (Permutation_NoDup Pm Hl) as Nd. inversion Nd as [|? ? N1 N2]; subst.
      unfold monomial at 1. cbn [fold_right fst snd]. fold (monomial (fun k ix => sign_at (p :: P) (s :: w) (k, ix)) (l1 ++ l2)).
      rewrite Hrest; auto.
      2:{ intros q Hq. destruct (Hin q) as [->|]; auto; [|contradiction]. apply (Permutation_in (l := p :: map fst (l1 ++ l2))); [now symmetry|now right]. }
      cbn [sign_at]. rewrite <- surjective_pairing. destruct (draw_eqb_spec p p); [|congruence].
      assert (Ev : val_at (l1 ++ (p, n) :: l2) p = n).
      { clear - N1. unfold val_at. induction l1 as [|qe l1 IH]; cbn [app fold_right fst snd]; [destruct (draw_eqb_spec p p); congruence|].
        cbn [app map] in N1. destruct (draw_eqb_spec (fst qe) p) as [E|E]; [exfalso; apply N1; now left|]. apply IH. intros H. apply N1. now right. }
      rewrite Ev. f_equal. clear - Hp.
      assert (X : forall P', (forall q, In q P' -> q <> p) -> forall w, mono_P P' (val_at (l1 ++ l2)) w = mono_P P' (val_at (l1 ++ (p, n) :: l2)) w).
      { induction P' as [|q P' IH]; intros H w'; cbn [mono_P]; auto. destruct w' as [|s' w']; auto. rewrite IH by (intros; apply H; now right). f_equal. f_equal.
        unfold val_at. clear - H. induction l1 as [|qe l1 IH]; cbn [app fold_right]; [|now rewrite IH]. cbn [fst].
        destruct (draw_eqb_spec p q) as [E|E]; auto. exfalso. apply (H q); [now left|auto]. }
      apply X. intros q Hq ->. contradiction.
    + rewrite Hrest; auto.
      * assert (Ev : val_at l p = 0%nat).
        { clear - Hi. unfold val_at. induction l as [|qe l IH]; cbn [fold_right]; auto. destruct (draw_eqb_spec (fst qe) p) as [E|E]; [exfalso; apply Hi; now left|].
          apply IH. intros H. apply Hi. now right. }
        rewrite Ev. cbn [pow]. ring.
      * intros q Hq. destruct (Hin q Hq) as [->|]; auto. contradiction.
Qed.

Theorem signs_white P : NoDup P -> white (signs (length P)) (fun p => In p P) (fun w k ix => sign_at P w (k, ix)).
Proof.
  intros HP l Hl HS. split; [exact I|]. cbn [signs Ex].
  transitivity (mean_of (length P) (mono_P P (val_at l))).
  - unfold mean_of. f_equal. apply sum_ext_map. intros w Hw. apply mono_eq; auto.
    + intros p Hp. apply in_map_iff in Hp as (pe & <- & Hp). rewrite Forall_forall in HS. now apply HS.
    + clear - Hw. revert w Hw. generalize (length P). induction n; intros w Hw; cbn in Hw; [now destruct Hw as [<-|[]]|].
      apply in_app_or in Hw as [H|H]; apply in_map_iff in H as (v & <- & H); cbn; f_equal; auto.
  - assert (Hle : forall p, (val_at l p <= 2)%nat).
    { intros p. clear - HS. unfold val_at. induction HS as [|pe l (_ & H) _ IH]; cbn [fold_right]; [lia|]. destruct (draw_eqb _ _); auto. lia. }
    rewrite mono_P_mean by auto.
    assert (X : existsb (fun p => Nat.eqb (val_at l p) 1) P = negb (forallb (fun pe => Nat.eqb (snd pe) 2) l)).
    { apply eq_true_iff_eq. rewrite existsb_exists, negb_true_iff, <- not_true_iff_false, forallb_forall. split.
      - intros (p & Hp & E) H. apply Nat.eqb_eq in E. clear - E H. unfold val_at in E. induction l as [|pe l IH]; cbn [fold_right] in E; [discriminate|].
        destruct (draw_eqb (fst pe) p); [|apply IH; auto; intros; apply H; now right]. specialize (H pe (or_introl eq_refl)). apply Nat.eqb_eq in H. lia.
      - intros H. assert (Hx : exists pe, In pe l /\ snd pe <> 2%nat).
        { clear - H. induction l as [|pe l IH]; [exfalso; apply H; intros ? []|]. destruct (Nat.eq_dec (snd pe) 2).
          - destruct IH as (q & Hq & Nq); [|exists q; split; [now right|auto]]. intros X. apply H. intros y [<-|Hy]; [now apply Nat.eqb_eq|auto].
          - exists pe. split; [now left|auto]. }
        destruct Hx as (pe & Hpe & Ne). rewrite Forall_forall in HS. destruct (HS pe Hpe) as [Hin [E|E]]; [|contradiction].
        exists (fst pe). split; auto. apply Nat.eqb_eq. clear - Hl Hpe E. unfold val_at. induction l as [|qe l IH]; [destruct Hpe|]. cbn [fold_right].
        destruct Hpe as [->|Hpe]; [destruct (draw_eqb_spec (fst pe) (fst pe)); congruence|]. cbn [map] in Hl. inversion Hl as [|? ? N1 N2]; subst.
        destruct (draw_eqb_spec (fst qe) (fst pe)) as [Eq|]; [|auto]. exfalso. apply N1. rewrite Eq. now apply in_map. }
    rewrite X. destruct (forallb _ l); reflexivity.
Qed.

(** ** Expectations of sums *)
Section Moments.
Context {W : Type}.
Variable E : expectation W.

Lemma expects_ext f g v : (forall w, f w = g w) -> expects E f v -> expects E g v.
Proof. intros H [Hi He]. destruct (Ex_ext E f g H Hi) as [H1 H2]. split; auto. congruence. Qed.
Lemma expects_add f g u v : expects E f u -> expects E g v -> expects E (fun w => f w + g w) (u + v).
Proof. intros [H1 H2] [H3 H4]. destruct (Ex_add E f g H1 H3) as [H5 H6]. split; auto. congruence. Qed.
Lemma expects_scale c f v : expects E f v -> expects E (fun w => c * f w) (c * v).
Proof. intros [H1 H2]. destruct (Ex_scale E c f H1) as [H5 H6]. split; auto. congruence. Qed.
Lemma expects_sumn n (f : nat -> W -> R) v : expects E (fun _ => 0) 0 -> (forall i, (i < n)%nat -> expects E (f i) (v i)) ->
  expects E (fun w => sumn n (fun i => f i w)) (sumn n v).
Proof.
  intros H0. induction n as [|n IH]; intros H; [exact H0|]. cbn [Scalar.sumn]. apply (expects_add _ _ (sumn n v) (v n)); [apply IH; intros; apply H; lia|apply H; lia].
Qed.
Lemma expects_isum ns (f : list nat -> W -> R) v : expects E (fun _ => 0) 0 -> (forall i, vidx ns i -> expects E (f i) (v i)) ->
  expects E (fun w => isum ns (fun i => f i w)) (isum ns v).
Proof.
  intros H0. revert f v. induction ns as [|n ns IH]; intros f v H; cbn [Scalar.isum]; [apply H; constructor|].
  apply expects_sumn; auto. intros i Hi. apply (IH (fun I => f (i :: I)) (fun I => v (i :: I))). intros I HI. apply H. now constructor.
Qed.

(** ** Products of the numbers along a path *)
Fixpoint ppos (pre : list nat) (k a : nat) (J : list (list nat)) (bs : list nat) : list draw :=
  match J, bs with
  | j :: J', b :: bs' => (k, pre ++ a :: j ++ [b]) :: ppos pre (S k) b J' bs'
  | _, _ => []
  end.
Definition pprod (x : nat -> list nat -> R) (P : list draw) : R := fold_right (fun p acc => x (fst p) (snd p) * acc) 1 P.

Lemma path_draws (G : nat -> nat -> list nat -> nat -> Rring) x sg pre k a J bs (r : nat -> nat) ms : vchain ms k J -> vidx (map r (seq (S k) (length J))) bs -> (a < r k)%nat ->
  (forall m a' j b', (k <= m < k + length J)%nat -> vidx (ms m) j -> (a' < r m)%nat -> (b' < r (S m))%nat -> G m a' j b' = sg * x m (pre ++ a' :: j ++ [b'])) ->
  path_prod (K := Rring) G k a J bs = sg ^ length J * pprod x (ppos pre k a J bs).
Proof.
  revert k a bs. induction J as [|j J IH]; intros k a bs HJ Hb Ha HG; cbn [length seq map] in Hb.
  - cbn. req. ring.
  - inversion Hb as [|b ? bs' ? Hb1 Hb2]; subst. destruct HJ as [Hj HJ]. cbn [path_prod ppos pprod fold_right length pow fst snd].
    rewrite HG by (auto; cbn [length]; lia). rewrite (IH (S k) b bs') by (auto; intros; apply HG; auto; cbn [length]; lia).
    fold (pprod x (ppos pre (S k) b J bs')). change (@cmul Rring) with Rmult. req. ring.
Qed.

(** Two paths. *)
Fixpoint ppair (P Q : list draw) : list (draw * nat) :=
  match P, Q with
  | p :: P', q :: Q' => if draw_eqb p q then (p, 2%nat) :: ppair P' Q' else (p, 1%nat) :: (q, 1%nat) :: ppair P' Q'
  | _, _ => []
  end.
Lemma ppair_prod x P Q : length P = length Q -> monomial x (ppair P Q) = pprod x P * pprod x Q.
Proof.
  revert Q. induction P as [|p P IH]; intros [|q Q] HL; try discriminate; [unfold monomial, pprod; cbn; ring|]. injection HL as HL. cbn [ppair].
  destruct (draw_eqb_spec p q) as [->|N]; unfold monomial, pprod in *; cbn [fold_right fst snd]; rewrite IH by auto; cbn [pow]; ring.
Qed.
Definition at_core (k : nat) (P : list draw) : Prop := forall n p, nth_error P n = Some p -> fst p = (k + n)%nat.
Lemma at_core_cons k p P : at_core k (p :: P) <-> fst p = k /\ at_core (S k) P.
Proof.
  split.
  - intros H. split; [rewrite (H 0%nat p eq_refl); lia|]. intros n q Hq. rewrite (H (S n) q Hq). lia.
  - intros [H1 H2] [|n] q Hq; cbn in Hq; [injection Hq as <-; lia|]. rewrite (H2 n q Hq). lia.
Qed.
Lemma ppos_core pre k a J bs : at_core k (ppos pre k a J bs).
Proof.
  revert k a bs. induction J as [|j J IH]; intros k a bs; cbn [ppos]; [intros [|n] p H; discriminate|].
  destruct bs as [|b bs]; [intros [|n] p H; discriminate|]. apply at_core_cons. split; [reflexivity|apply IH].
Qed.
Lemma ppos_length pre k a J bs : length bs = length J -> length (ppos pre k a J bs) = length J.
Proof. revert k a bs. induction J as [|j J IH]; intros k a [|b bs] H; try discriminate; cbn; auto. Qed.

Lemma ppair_core k P Q : at_core k P -> at_core k Q -> forall pe, In pe (ppair P Q) -> (k <= fst (fst pe))%nat.
Proof.
  revert k Q. induction P as [|p P IH]; intros k [|q Q] HP HQ pe; cbn [ppair]; try now intros [].
  apply at_core_cons in HP as [H1 H2]. apply at_core_cons in HQ as [H3 H4].
  destruct (draw_eqb p q); intros Hin.
  - destruct Hin as [<-|Hin]; [cbn; lia|]. specialize (IH (S k) Q H2 H4 pe Hin). lia.
  - destruct Hin as [<-|[<-|Hin]]; [cbn; lia|cbn; lia|]. specialize (IH (S k) Q H2 H4 pe Hin). lia.
Qed.
Lemma ppair_nodup k P Q : at_core k P -> at_core k Q -> NoDup (map fst (ppair P Q)).
Proof.
  revert k Q. induction P as [|p P IH]; intros k [|q Q] HP HQ; cbn [ppair]; try constructor.
  apply at_core_cons in HP as [H1 H2]. apply at_core_cons in HQ as [H3 H4].
  assert (N : forall x, fst x = k -> ~ In x (map fst (ppair P Q))).
  { intros x Hx Hin. apply in_map_iff in Hin as (pe & <- & Hin). pose proof (ppair_core (S k) P Q H2 H4 pe Hin). lia. }
  destruct (draw_eqb_spec p q) as [->|Ne]; cbn [map fst].
  - constructor; eauto.
  - constructor; [|constructor; eauto]. intros [He|Hin]; [congruence|]. now apply (N p).
Qed.
Lemma ppair_all2 P Q : length P = length Q -> forallb (fun pe => Nat.eqb (snd pe) 2) (ppair P Q) = true <-> P = Q.
Proof.
  revert Q. induction P as [|p P IH]; intros [|q Q] HL; try discriminate; [cbn; tauto|]. injection HL as HL. cbn [ppair].
  destruct (draw_eqb_spec p q) as [->|N]; cbn [forallb snd Nat.eqb andb].
  - rewrite IH by auto. split; [now intros ->|congruence].
  - split; [discriminate|congruence].
Qed.
Lemma ppair_exps P Q pe : In pe (ppair P Q) -> (In (fst pe) P \/ In (fst pe) Q) /\ (snd pe = 1%nat \/ snd pe = 2%nat).
Proof.
  revert Q. induction P as [|p P IH]; intros [|q Q]; cbn [ppair]; try now intros [].
  destruct (draw_eqb p q); intros Hin.
  - destruct Hin as [<-|Hin]; [cbn; auto|]. destruct (IH Q Hin) as [H1 H2]. cbn. tauto.
  - destruct Hin as [<-|[<-|Hin]]; [cbn; auto..|]. destruct (IH Q Hin) as [H1 H2]. cbn. tauto.
Qed.

Lemma ppos_inj pre pre' k a a' J J' bs bs' : length J = length J' -> length bs = length J -> length bs' = length J -> length pre = length pre' ->
  Forall2 (fun j j' : list nat => length j = length j') J J' -> J <> [] ->
  ppos pre k a J bs = ppos pre' k a' J' bs' -> pre = pre' /\ a = a' /\ J = J' /\ bs = bs'.
Proof.
  intros L1 L2 L3 L4 HF Hne. revert k a a' bs bs' L2 L3 L1 Hne. induction HF as [|j j' J J' Hj HF IH]; intros k a a' bs bs' L2 L3 L1 Hne He; [congruence|].
  destruct bs as [|b bs]; [discriminate|]. destruct bs' as [|b' bs']; [discriminate|]. cbn [ppos] in He. injection He as He1 He2.
  assert (X : pre = pre' /\ a :: j ++ [b] = a' :: j' ++ [b']).
  { clear - He1 L4. revert pre' L4 He1. induction pre as [|x pre IH]; intros [|x' pre'] L He; try discriminate; auto. cbn in *. injection L as L. injection He as -> He.
    destruct (IH pre' L He) as [-> H]. auto. }
  destruct X as [-> X]. injection X as -> X. apply app_inj_tail in X as [-> ->].
  destruct J as [|j2 J].
  - inversion HF; subst. destruct bs; [|discriminate]. destruct bs'; [|discriminate]. auto.
  - inversion HF as [|? j2' ? J2' ? HF2]; subst. destruct (IH (S k) b' b' bs bs') as (_ & _ & -> & ->); auto; try (cbn in *; lia). discriminate.
Qed.

(** ** Elements of drawn objects *)
Section Elements.
Variables (bs : option nat) (rsh : list (list nat)) (rr : list nat) (d : nat).
Let shell : rtt := TT [] rsh rr bs.
Definition pre_idx (i : list nat) : list nat := match bs with None => [] | Some _ => [nth 0 i 0%nat] end.
Definition phys_idx (i : list nat) : list (list nat) := split_idx shell (match bs with None => i | Some _ => tl i end).

Lemma elem_paths x sg (t : rtt) i : drawn x bs rsh rr 0 sg t -> vidx (get_shape t) i ->
  exists dt, full t = Ok dt /\ shape dt = get_shape t /\
  get (K := Rring) dt i = sg ^ ndims t * isum (tl rr) (fun b => pprod x (ppos (pre_idx i) 0 0 (phys_idx i) b)).
Proof.
  intros D Hi. pose proof (dr_wf _ _ _ _ _ _ _ D) as Wt. destruct (full_correct Rring t Wt) as (dt & Ft & _ & St & Ed). exists dt. split; [exact Ft|]. split; [exact St|].
  rewrite Ed by auto. rewrite get_shape_ishape in Hi. apply vidx_app_inv in Hi as (p & i' & -> & Hp & Hi').
  assert (Ep : tt_at t (p ++ i') = tt_entry t p (split_idx t i')).
  { unfold tt_at. unfold bpre in Hp. destruct (bsz t); [apply vidx_1_inv in Hp as (o & -> & _)|destruct p; [|now inversion Hp]]; reflexivity. }
  rewrite Ep.
  assert (E1 : pre_idx (p ++ i') = p). { unfold pre_idx. unfold bpre in Hp. rewrite (dr_batch _ _ _ _ _ _ _ D) in Hp. destruct bs; [apply vidx_1_inv in Hp as (o & -> & _)|destruct p; [|now inversion Hp]]; reflexivity. }
  assert (E2 : phys_idx (p ++ i') = split_idx t i').
  { unfold phys_idx. unfold bpre in Hp. rewrite (dr_batch _ _ _ _ _ _ _ D) in Hp.
    assert (X : split_idx shell i' = split_idx t i') by (unfold split_idx, is_tt_matrix; rewrite (dr_shape _ _ _ _ _ _ _ D); reflexivity).
    destruct bs; [apply vidx_1_inv in Hp as (o & -> & _)|destruct p; [|now inversion Hp]]; exact X. }
  rewrite E1, E2. destruct (split_idx_valid _ t i' Wt Hi') as [HJ LJ]. set (J := split_idx t i') in *.
  unfold tt_entry. rewrite chain_paths, LJ, rks_tail, (dr_ranks _ _ _ _ _ _ _ D) by auto.
  rewrite <- (isum_mul_l Rring). apply (isum_ext Rring). intros b Hb.
  rewrite (path_draws _ x sg p 0 0 J b (rk t) (modes t)); auto.
  - now rewrite LJ.
  - rewrite LJ, rks_tail, (dr_ranks _ _ _ _ _ _ _ D) by auto. exact Hb.
  - rewrite (wf_first Wt). lia.
  - intros m a j b' Hm Hj Ha Hb'. unfold coreG. rewrite (dr_core _ _ _ _ _ _ _ D); [req; ring|lia|].
    destruct (wf_core Wt m) as [_ Sc]; [lia|]. rewrite Sc. apply vidx_app; auto. apply vidx_cons; auto. apply vidx_app; auto. vsolve.
Qed.

(** Physical indices determine the dense position. *)
Lemma phys_inj x sg (t : rtt) i i' : drawn x bs rsh rr 0 sg t -> vidx (get_shape t) i -> vidx (get_shape t) i' ->
  pre_idx i = pre_idx i' -> phys_idx i = phys_idx i' -> i = i'.
Proof.
  intros D Hi Hi' E1 E2. pose proof (dr_wf _ _ _ _ _ _ _ D) as Wt. pose proof (dr_batch _ _ _ _ _ _ _ D) as B. pose proof (dr_shape _ _ _ _ _ _ _ D) as Rs.
  rewrite get_shape_ishape in Hi, Hi'. unfold bpre in Hi, Hi'. rewrite B in Hi, Hi'. unfold ishape in Hi, Hi'.
  assert (X : forall u v, vidx (if is_tt_matrix t then [prodn (nth 0 (rshape t) []); prodn (nth 1 (rshape t) [])] else nth 0 (rshape t) []) u ->
    vidx (if is_tt_matrix t then [prodn (nth 0 (rshape t) []); prodn (nth 1 (rshape t) [])] else nth 0 (rshape t) []) v -> split_idx shell u = split_idx shell v -> u = v).
  { intros u v Hu Hv. assert (Y : forall z, split_idx shell z = split_idx t z) by (intros z; unfold split_idx, is_tt_matrix; rewrite Rs; reflexivity).
    rewrite !Y. unfold split_idx. pose proof (wf_rlen Wt) as L. destruct (wf_kind_cases _ t Wt) as [(Em & Hl & _)|(Em & Hl & _)]; rewrite Em in *.
    - intros H. apply (f_equal (map (fun l => nth 0 l 0%nat))) in H. rewrite !map_map in H. cbn [nth] in H. now rewrite !map_id in H.
    - destruct (rshape t) as [|r [|c [|]]] eqn:R; try discriminate. cbn [nth] in *. apply vidx_2_inv in Hu as (u1 & u2 & -> & Hu1 & Hu2). apply vidx_2_inv in Hv as (v1 & v2 & -> & Hv1 & Hv2). cbn [nth].
      apply Forall_cons_iff in L as [L1 L]. apply Forall_cons_iff in L as [L2 _].
      assert (Z : forall (A B A' B' : list nat), length A = length B -> length A' = length B' -> map2 (fun i j => [i; j]) A B = map2 (fun i j => [i; j]) A' B' -> A = A' /\ B = B').
      { clear. induction A as [|x A IH]; intros [|y B] [|x' A'] [|y' B'] H1 H2 H; try discriminate; auto. cbn in *. injection H as -> -> H. destruct (IH B A' B') as [-> ->]; auto. }
      intros H. apply Z in H as [H1 H2].
      + rewrite <- (ravel_unravel r u1), <- (ravel_unravel c u2), H1, H2 by auto. now rewrite !ravel_unravel by auto.
      + rewrite (vidx_length _ _ (unravel_valid r u1 Hu1)), (vidx_length _ _ (unravel_valid c u2 Hu2)). congruence.
      + rewrite (vidx_length _ _ (unravel_valid r v1 Hv1)), (vidx_length _ _ (unravel_valid c v2 Hv2)). congruence. }
  unfold pre_idx, phys_idx in *. destruct bs as [b|]; cbn [app] in Hi, Hi'.
  - inversion Hi as [|o ? u ? Ho Hu]; subst. inversion Hi' as [|o' ? u' ? Ho' Hu']; subst. cbn [nth tl] in *. injection E1 as ->. f_equal. now apply X.
  - now apply X.
Qed.

Lemma isum_one ns : isum ns (fun _ => 1) = INR (prodn ns).
Proof.
  induction ns as [|n ns IH]; cbn [Scalar.isum]; [reflexivity|]. rewrite IH, prodn_cons, mult_INR. generalize (INR (prodn ns)) as x. intros x. clear.
  induction n; cbn [Scalar.sumn]; [cbn; req; ring|]. rewrite IHn, S_INR. change (@cadd Rring) with Rplus. req. ring.
Qed.
Lemma isum_delta ns p : vidx ns p -> isum ns (fun q => if list_eq_dec Nat.eq_dec p q then 1 else 0) = 1.
Proof.
  induction 1 as [|x n p ns Hx Hp IH]; cbn [Scalar.isum].
  - destruct (list_eq_dec _ _ _); [reflexivity|congruence].
  - rewrite (sumn_single Rring n x); auto.
    + etransitivity; [|exact IH]. apply (isum_ext Rring). intros q _. destruct (list_eq_dec Nat.eq_dec (x :: p) (x :: q)), (list_eq_dec Nat.eq_dec p q); congruence || reflexivity.
    + intros y Hy Hne. apply (isum_zero Rring). intros q _. destruct (list_eq_dec _ _ _); [congruence|reflexivity].
Qed.

Variable xi : W -> nat -> list nat -> R.
Variable T : W -> rtt.
Variable sg : R.
Hypothesis w0 : W.
Hypothesis HT : forall w, drawn (xi w) bs rsh rr 0 sg (T w).
Hypothesis Hw : white E (core_draws bs rsh rr) xi.

Lemma shell_shape w : get_shape (T w) = get_shape shell.
Proof. unfold get_shape, is_tt_matrix. rewrite (dr_shape _ _ _ _ _ _ _ (HT w)), (dr_batch _ _ _ _ _ _ _ (HT w)). reflexivity. Qed.
Lemma dims_eq w : ndims (T w) = length (nth 0 rsh []).
Proof.
  pose proof (dr_wf _ _ _ _ _ _ _ (HT w)) as Wt. pose proof (wf_rlen Wt) as L. pose proof (wf_kind Wt) as Hk. rewrite (dr_shape _ _ _ _ _ _ _ (HT w)) in *.
  revert L Hk. generalize rsh as q. intros [|x q] L Hk; [destruct Hk; discriminate|]. apply Forall_cons_iff in L as [L _]. auto.
Qed.

Lemma white_0 : expects E (fun _ => 0) 0.
Proof.
  destruct (Hw [] (NoDup_nil _) (Forall_nil _)) as [H1 H2]. pose proof (expects_scale 0 _ _ (conj H1 H2)) as H. rewrite Rmult_0_l in H.
  eapply expects_ext; [|exact H]. intros w. cbn beta. ring.
Qed.

Lemma path_facts i b : vidx (get_shape shell) i -> vidx (tl rr) b ->
  length b = length (phys_idx i) /\ length (phys_idx i) = length (nth 0 rsh []) /\ length (pre_idx i) = length (pre_of bs) /\
  vchain (modes (T w0)) 0 (phys_idx i) /\
  forall p, In p (ppos (pre_idx i) 0 0 (phys_idx i) b) -> core_draws bs rsh rr p.
Proof.
  intros Hi Hb. pose proof (HT w0) as D. pose proof (dr_wf _ _ _ _ _ _ _ D) as Wt. rewrite <- (shell_shape w0) in Hi.
  rewrite get_shape_ishape in Hi. apply vidx_app_inv in Hi as (p & i' & -> & Hp & Hi').
  unfold bpre in Hp. rewrite (dr_batch _ _ _ _ _ _ _ D) in Hp.
  assert (Hpre : vidx (pre_of bs) (pre_idx (p ++ i'))).
  { unfold pre_idx, pre_of. destruct bs; [apply vidx_1_inv in Hp as (o & -> & Ho); cbn [app nth]; vsolve|constructor]. }
  assert (E2 : phys_idx (p ++ i') = split_idx (T w0) i').
  { unfold phys_idx. assert (X : split_idx shell i' = split_idx (T w0) i') by (unfold split_idx, is_tt_matrix; rewrite (dr_shape _ _ _ _ _ _ _ D); reflexivity).
    destruct bs; [apply vidx_1_inv in Hp as (o & -> & _)|destruct p; [|now inversion Hp]]; exact X. }
  destruct (split_idx_valid _ (T w0) i' Wt Hi') as [HJ LJ]. rewrite <- E2 in HJ, LJ. set (J := phys_idx (p ++ i')) in *.
  assert (Lb : length b = length J). { rewrite LJ. rewrite (vidx_length _ _ Hb). pose proof (wf_klen Wt) as L. rewrite (dr_ranks _ _ _ _ _ _ _ D) in L. now apply tl_length. }
  split; [exact Lb|]. split; [rewrite LJ; apply dims_eq|]. split; [now apply vidx_length|]. split; [exact HJ|].
  assert (X : forall (JJ : list (list nat)) k a bb, vchain (modes (T w0)) k JJ -> (k + length JJ = ndims (T w0))%nat -> (a < rk (T w0) k)%nat -> vidx (map (rk (T w0)) (seq (S k) (length JJ))) bb ->
     forall q, In q (ppos (pre_idx (p ++ i')) k a JJ bb) -> core_draws bs rsh rr q).
  { clear b Hb Lb. induction JJ as [|j JJ IH]; intros k a bb HJJ Hk Ha Hb q; cbn [ppos]; [intros []|]. cbn [length seq map] in Hb.
    inversion Hb as [|b ? bb' ? Hb1 Hb2]; subst. destruct HJJ as [Hj HJJ]. cbn [length] in Hk. intros [<-|Hq]; [|apply (IH (S k) b bb'); auto; lia].
    split; [rewrite <- (dims_eq w0); lia|]. fold (pre_of bs). apply vidx_app; auto.
    unfold rk in *. rewrite (dr_ranks _ _ _ _ _ _ _ D) in *. apply vidx_cons; auto. unfold modes in Hj. rewrite (dr_shape _ _ _ _ _ _ _ D) in Hj. apply vidx_app; auto. vsolve. }
  intros q Hq. apply (X J 0%nat 0%nat b); auto; [rewrite (wf_first Wt); lia|]. rewrite LJ, rks_tail, (dr_ranks _ _ _ _ _ _ _ D) by auto. exact Hb.
Qed.

Lemma elem_eq w i : vidx (get_shape shell) i ->
  element (Ok (T w)) i = sg ^ length (nth 0 rsh []) * isum (tl rr) (fun b => pprod (xi w) (ppos (pre_idx i) 0 0 (phys_idx i) b)).
Proof.
  intros Hi. rewrite <- (shell_shape w) in Hi. destruct (elem_paths (xi w) sg (T w) i (HT w) Hi) as (dt & F & _ & Eg).
  cbn [element]. rewrite F, Eg, dims_eq. reflexivity.
Qed.

(** Every element has mean 0 ... *)
Lemma elem_mean i : vidx (get_shape shell) i -> expects E (fun w => element (Ok (T w)) i) 0.
Proof.
  intros Hi. apply (expects_ext (fun w => sg ^ length (nth 0 rsh []) * isum (tl rr) (fun b => pprod (xi w) (ppos (pre_idx i) 0 0 (phys_idx i) b)))).
  { intros w. now rewrite elem_eq. }
  rewrite <- (Rmult_0_r (sg ^ length (nth 0 rsh []))). apply expects_scale.
  assert (Z : isum (tl rr) (fun _ => 0) = 0) by (apply (isum_zero Rring); reflexivity). rewrite <- Z.
  apply (expects_isum (tl rr) (fun b w => pprod (xi w) (ppos (pre_idx i) 0 0 (phys_idx i) b)) (fun _ => 0)); [exact white_0|].
  intros b Hb. destruct (path_facts i b Hi Hb) as (L1 & L2 & L3 & V & Hc). set (P := ppos (pre_idx i) 0 0 (phys_idx i) b) in *.
  destruct (Hw (map (fun p => (p, 1%nat)) P)) as [H1 H2].
  - rewrite map_map. cbn [fst]. rewrite map_id. pose proof (ppos_core (pre_idx i) 0 0 (phys_idx i) b) as HP. fold P in HP.
    replace P with (map fst (ppair P P)); [now apply (ppair_nodup 0)|]. clear. induction P as [|p P IH]; auto. cbn. destruct (draw_eqb_spec p p); [|congruence]. cbn. now f_equal.
  - apply Forall_forall. intros pe Hpe. apply in_map_iff in Hpe as (p & <- & Hp). cbn [fst snd]. auto.
  - assert (Pn : P <> []). { unfold P. pose proof (ppos_length (pre_idx i) 0 0 (phys_idx i) b L1) as L. pose proof (wf_d (dr_wf _ _ _ _ _ _ _ (HT w0))) as Hd. rewrite dims_eq in Hd.
      intros X. rewrite X in L. cbn in L. lia. }
    apply (expects_ext (fun w => monomial (xi w) (map (fun p => (p, 1%nat)) P))).
    + intros w. clear. unfold monomial, pprod. induction P as [|p P IH]; cbn [map fold_right fst snd]; auto. rewrite IH. cbn [pow]. ring.
    + split; auto. rewrite H2. destruct P; [congruence|reflexivity].
Qed.

(** ... variance sg^(2d) times the number of paths, and different elements are uncorrelated. *)
Lemma elem_cov i i' : vidx (get_shape shell) i -> vidx (get_shape shell) i' ->
  expects E (fun w => element (Ok (T w)) i * element (Ok (T w)) i')
    (if list_eq_dec Nat.eq_dec i i' then (sg ^ length (nth 0 rsh [])) ^ 2 * INR (prodn (tl rr)) else 0).
Proof.
  intros Hi Hi'. set (S := sg ^ length (nth 0 rsh [])).
  set (F := fun (i : list nat) w b => pprod (xi w) (ppos (pre_idx i) 0 0 (phys_idx i) b)).
  apply (expects_ext (fun w => S ^ 2 * isum (tl rr) (fun b => isum (tl rr) (fun b' => F i w b * F i' w b')))).
  { intros w. rewrite !elem_eq by auto. fold S. fold (F i w). fold (F i' w).
    rewrite (isum_ext Rring _ _ (fun b => F i w b * isum (tl rr) (fun b' => F i' w b'))) by (intros b _; apply (isum_mul_l Rring)).
    rewrite (isum_mul_r Rring). change (@cmul Rring) with Rmult. req. change (isum (tl rr) (fun b' => F i' w b')) with (isum (tl rr) (F i' w)). generalize (isum (tl rr) (F i w)) (isum (tl rr) (F i' w)). cbn [car Rring]. intros; ring. }
  assert (V : forall b b', vidx (tl rr) b -> vidx (tl rr) b' ->
    expects E (fun w => F i w b * F i' w b') (if list_eq_dec Nat.eq_dec i i' then if list_eq_dec Nat.eq_dec b b' then 1 else 0 else 0)).
  { intros b b' Hb Hb'. destruct (path_facts i b Hi Hb) as (L1 & L2 & L3 & V & Hc). destruct (path_facts i' b' Hi' Hb') as (L1' & L2' & L3' & V' & Hc').
    unfold F. set (P := ppos (pre_idx i) 0 0 (phys_idx i) b) in *. set (Q := ppos (pre_idx i') 0 0 (phys_idx i') b') in *.
    assert (LPQ : length P = length Q) by (unfold P, Q; rewrite !ppos_length by auto; congruence).
    destruct (Hw (ppair P Q)) as [H1 H2].
    - apply (ppair_nodup 0); apply ppos_core.
    - apply Forall_forall. intros pe Hpe. apply ppair_exps in Hpe as [[H|H] He]; auto.
    - apply (expects_ext (fun w => monomial (xi w) (ppair P Q))); [intros w; now apply ppair_prod|]. split; auto. rewrite H2. clear H1 H2.
      assert (Xe : P = Q <-> i = i' /\ b = b').
      { split; [|now intros [-> ->]]. intros He. unfold P, Q in He.
        pose proof (wf_d (dr_wf _ _ _ _ _ _ _ (HT w0))) as Hd. rewrite dims_eq in Hd.
        apply ppos_inj in He; try congruence.
        - destruct He as (E1 & _ & E2 & E3). split; auto. apply (phys_inj (xi w0) sg (T w0)); auto; rewrite shell_shape; auto.
        - clear - V V' L2 L2'. assert (L : length (phys_idx i) = length (phys_idx i')) by congruence. clear L2 L2'. revert V V' L. generalize (phys_idx i) (phys_idx i') 0%nat.
          induction l as [|j l IH]; intros [|j' l'] k; cbn; try discriminate; [constructor|]. intros [H1 H2] [H3 H4] L. injection L as L.
          constructor; [now rewrite (vidx_length _ _ H1), (vidx_length _ _ H3)|]. now apply (IH l' (Datatypes.S k)).
        - intros X. rewrite X in L2. cbn in L2. lia. }
      pose proof (ppair_all2 P Q LPQ) as Y. destruct (forallb _ (ppair P Q)).
      + destruct Y as [Y _]. destruct (proj1 Xe (Y eq_refl)) as [-> ->]. destruct (list_eq_dec Nat.eq_dec i' i'); [|congruence]. destruct (list_eq_dec Nat.eq_dec b' b'); congruence.
      + destruct (list_eq_dec Nat.eq_dec i i') as [Ei|]; [|reflexivity]. destruct (list_eq_dec Nat.eq_dec b b') as [Eb|]; [|reflexivity].
        destruct Y as [_ Y]. discriminate Y. apply Xe. auto. }
  assert (G : expects E (fun w => isum (tl rr) (fun b => isum (tl rr) (fun b' => F i w b * F i' w b')))
     (isum (tl rr) (fun b => isum (tl rr) (fun b' => if list_eq_dec Nat.eq_dec i i' then if list_eq_dec Nat.eq_dec b b' then 1 else 0 else 0)))).
  { apply (expects_isum (tl rr) (fun b w => isum (tl rr) (fun b' => F i w b * F i' w b'))); [exact white_0|]. intros b Hb.
    apply (expects_isum (tl rr) (fun b' w => F i w b * F i' w b')); [exact white_0|]. intros b' Hb'. now apply V. }
  apply (expects_scale (S ^ 2)) in G. destruct (list_eq_dec Nat.eq_dec i i') as [Ei|Ei].
  - rewrite (isum_ext Rring _ _ (fun _ => 1)) in G by (intros b Hb; now apply isum_delta). now rewrite isum_one in G.
  - rewrite (isum_zero Rring) in G; [now rewrite Rmult_0_r in G|]. intros b _. now apply (isum_zero Rring).
Qed.
End Elements.
End Moments.

(** The standard deviation chosen for the cores. *)
Lemma Rpower_pow_mult x y n : 0 < x -> Rpower x y ^ n = Rpower x (y * INR n).
Proof. intros Hx. rewrite <- Rpower_pow by (unfold Rpower; apply exp_pos). apply Rpower_mult. Qed.
Lemma core_stddev_pow d rr sd : (0 < d)%nat -> 0 <= sd -> Forall (fun n => 0 < n)%nat rr -> (core_stddev d rr sd ^ d) ^ 2 * INR (prodn rr) = sd ^ 2.
Proof.
  intros Hd Hs Hr. unfold core_stddev. rewrite Rpow_mult_distr, Rpow_mult_distr, Rmult_assoc.
  assert (Hd' : 0 < INR d) by now apply lt_0_INR.
  assert (E1 : tf_pow sd (1 / INR d) ^ d = sd).
  { unfold tf_pow. destruct (Req_EM_T sd 0) as [->|N].
    - destruct (Req_EM_T (1 / INR d) 0) as [X|_]; [|destruct d; [lia|cbn; lra]]. exfalso. unfold Rdiv in X. rewrite Rmult_1_l in X. pose proof (Rinv_0_lt_compat _ Hd'). lra.
    - rewrite Rpower_pow_mult by lra. replace (1 / INR d * INR d) with 1 by (field; lra). apply Rpower_1. lra. }
  rewrite E1. assert (E2 : (fold_right Rmult 1 (map (fun r => Rpower (INR r) (-1 / (2 * INR d))) rr) ^ d) ^ 2 * INR (prodn rr) = 1); [|rewrite E2; ring].
  induction Hr as [|n rr Hn Hr IH]; [cbn [map fold_right]; change (prodn []) with 1%nat; rewrite !pow1; change (INR 1) with 1; ring|]. cbn [map fold_right]. rewrite prodn_cons, mult_INR.
  rewrite Rpow_mult_distr, Rpow_mult_distr.
  assert (Hn' : 0 < INR n) by now apply lt_0_INR.
  assert (E3 : (Rpower (INR n) (-1 / (2 * INR d)) ^ d) ^ 2 * INR n = 1).
  { rewrite <- pow_mult, Rpower_pow_mult by auto. rewrite mult_INR. replace (-1 / (2 * INR d) * (INR d * INR 2)) with (- (1)) by (cbn [INR]; field; lra).
    rewrite Rpower_Ropp, Rpower_1 by auto. field. lra. }
  transitivity ((Rpower (INR n) (-1 / (2 * INR d)) ^ d) ^ 2 * INR n * ((fold_right Rmult 1 (map (fun r => Rpower (INR r) (-1 / (2 * INR d))) rr) ^ d) ^ 2 * INR (prodn rr))); [ring|].
  rewrite E3, IH. ring.
Qed.

Lemma rank_arg_pos d r rr : (1 <= d)%nat -> rank_arg d r rr -> nth 0 rr 0%nat = 1%nat /\ Forall (fun n => 0 < n)%nat rr /\ rr <> [].
Proof. intros Hd H. destruct (rank_arg_ok d r rr Hd H) as (_ & _ & L & H0 & _ & P). split; [exact H0|]. split; [exact P|]. destruct rr; [discriminate|discriminate]. Qed.

Lemma moments_at {W} (E : expectation W) (w0 : W) bs rsh rr xi (F : W -> res rtt) d sd :
  (0 < d)%nat -> 0 <= sd -> length (nth 0 rsh []) = d ->
  nth 0 rr 0%nat = 1%nat /\ Forall (fun n => 0 < n)%nat rr /\ rr <> [] ->
  (forall w, exists t, F w = Ok t /\ drawn (xi w) bs rsh rr 0 (core_stddev d rr sd) t) ->
  white E (core_draws bs rsh rr) xi ->
  forall i i', vidx (get_shape (K := Rring) (TT [] rsh rr bs)) i -> vidx (get_shape (K := Rring) (TT [] rsh rr bs)) i' ->
  expects E (fun w => element (F w) i) 0 /\
  expects E (fun w => element (F w) i * element (F w) i') (if list_eq_dec Nat.eq_dec i i' then sd ^ 2 else 0).
Proof.
  intros Hd Hs Hl (H0 & Hp & Hne) HF Hw i i' Hi Hi'.
  set (T := fun w => match F w with Ok t => t | Err _ => TT [] rsh rr bs end).
  assert (HT : forall w, F w = Ok (T w) /\ drawn (xi w) bs rsh rr 0 (core_stddev d rr sd) (T w)).
  { intros w. unfold T. destruct (HF w) as (t & -> & D). auto. }
  assert (D : forall w, drawn (xi w) bs rsh rr 0 (core_stddev d rr sd) (T w)) by (intros w; apply HT).
  split.
  - apply (expects_ext E (fun w => element (Ok (T w)) i)); [intros w; now rewrite (proj1 (HT w))|]. now apply (elem_mean E bs rsh rr xi T _ w0 D Hw).
  - apply (expects_ext E (fun w => element (Ok (T w)) i * element (Ok (T w)) i')); [intros w; now rewrite (proj1 (HT w))|].
    pose proof (elem_cov E bs rsh rr xi T _ w0 D Hw i i' Hi Hi') as C. rewrite Hl in C.
    assert (Ep : prodn (tl rr) = prodn rr). { destruct rr as [|x rr]; [congruence|]. cbn in H0. subst x. cbn [tl]. rewrite prodn_cons. lia. }
    rewrite Ep, core_stddev_pow in C by auto. exact C.
Qed.
