(** Counting: rules for the cost of a program, and the kernel calls of the inner products. *)
From Coq Require Import String Ascii List Arith ZArith Lia Bool Permutation.
From Verif Require Import Scalar Tensor TensorLemmas TensorLemmas2 Base Spec Chain BaseLemmas Ops
  FullProofs ResultLemmas Dense AddProofs MulProofs MatmulProofs DenseMatmul Sweep FlatProofs ValidProofs
  BatchOps Cost CostOps CostErase.
Import ListNotations.

Section Rules.
Variable ec : string -> list (list nat) -> nat.
Variable c : nat.

Lemma total_nil : total ec c [] = 0.
Proof. reflexivity. Qed.
Lemma total_app l l' : total ec c (l ++ l') = total ec c l + total ec c l'.
Proof. unfold total. now rewrite map_app, list_sum_app. Qed.

Definition tcost {A} (m : tr A) (P : A -> Prop) (n : nat) : Prop :=
  match m with Ok (a, l) => P a /\ total ec c l <= n | Err _ => True end.

Lemma tcost_bind {A B} (m : tr A) (k : A -> tr B) P Q n1 n2 : tcost m P n1 -> (forall a, P a -> tcost (k a) Q n2) ->
  tcost (tbind m k) Q (n1 + n2).
Proof.
  destruct m as [[a l]|e]; [|exact (fun _ _ => I)]. intros [H1 H2] H. specialize (H a H1). cbn. destruct (k a) as [[b l']|e]; [|exact I].
  destruct H as [H3 H4]. split; auto. rewrite total_app. lia.
Qed.

Lemma tcost_free {A B} (m : res A) (k : A -> tr B) Q n : (forall a, m = Ok a -> tcost (k a) Q n) -> tcost (tbind (free m) k) Q n.
Proof.
  destruct m as [a|e]; [|intros _; exact I]. intros H. specialize (H a eq_refl). cbn. destruct (k a) as [[b l']|e]; [|exact I]. exact H.
Qed.

Lemma tcost_pure {A} (m : res A) (P : A -> Prop) n : (forall a, m = Ok a -> P a) -> tcost (free m) P n.
Proof. destruct m as [a|e]; [|intros _; exact I]. intros H. split; auto. cbn. apply Nat.le_0_l. Qed.

Lemma tcost_ret {A} (a : A) (P : A -> Prop) n : P a -> tcost (Ok (a, [])) P n.
Proof. intros H. split; auto. cbn. apply Nat.le_0_l. Qed.

Lemma tcost_weak {A} (m : tr A) (P Q : A -> Prop) n n' : tcost m P n -> (forall a, P a -> Q a) -> n <= n' -> tcost m Q n'.
Proof. destruct m as [[a l]|e]; [|auto]. intros [H1 H2] H ?. split; auto. lia. Qed.

Lemma tcost_seq {S} (f : nat -> S -> tr S) (I : nat -> S -> Prop) n : forall m s i, I i s ->
  (forall j s, i <= j < i + m -> I j s -> tcost (f j s) (I (Datatypes.S j)) n) ->
  tcost (tfold f (seq i m) s) (I (i + m)) (m * n).
Proof.
  induction m as [|m IH]; intros s i Hs H.
  - cbn. rewrite Nat.add_0_r. auto.
  - cbn [seq tfold]. replace (Datatypes.S m * n) with (n + m * n) by lia. eapply tcost_bind; [apply H; [lia|exact Hs]|].
    intros s' Hs'. rewrite <- Nat.add_succ_comm. apply IH; auto. intros. apply H; auto; lia.
Qed.

Lemma tcost_calls {A} (m : tr A) P n : tcost m P n -> total ec c (calls m) <= n.
Proof. destruct m as [[a l]|e]; cbn; [intros [_ H]; exact H|intros _; apply Nat.le_0_l]. Qed.

Lemma tcost_err {A} (m : tr A) P n e : erase m = Err e -> tcost m P n.
Proof. destruct m as [[a l]|e']; [discriminate|intros; exact I]. Qed.
End Rules.

(** *** Arithmetic of the bounds *)
Lemma list_max_nth l k : nth k l 0 <= list_max l.
Proof.
  destruct (Nat.lt_ge_cases k (length l)) as [H|H]; [|rewrite nth_overflow by auto; lia].
  pose proof (proj1 (list_max_le l (list_max l)) (le_n _)) as F. rewrite Forall_forall in F. apply F. now apply nth_In.
Qed.

Section G.
Context {K : cring}.
Implicit Types t a b : tt K.

Lemma rk_max t k : rk t k <= rmax t.
Proof. apply list_max_nth. Qed.
Lemma modes_max t k : k < ndims t -> prodn (modes t k) <= nmax t.
Proof.
  intros H. unfold nmax. pose proof (list_max_nth (map (fun i => prodn (modes t i)) (seq 0 (ndims t))) k) as E.
  rewrite (nth_map_default (fun i => prodn (modes t i)) _ k 0) in E by now rewrite seq_length. now rewrite seq_nth in E.
Qed.
Lemma rmax_pos t : wf t -> 1 <= rmax t.
Proof. intros H. pose proof (rk_max t 0). rewrite (wf_first H) in H0. exact H0. Qed.
End G.


Lemma bind_all_shapes {K : cring} ins (ts : list (tensor K)) env : bind_all ins ts env = bind_shapes ins (map shape ts) env.
Proof.
  revert ts env; induction ins as [|ls ins IH]; intros [|x ts] env; try reflexivity. cbn [bind_all bind_shapes map].
  destruct (bind_labels ls (shape x) env); cbn [bind]; auto.
Qed.

Lemma F2_cons_inv {A B} (P : A -> B -> Prop) x y l l' : Forall2 P (x :: l) (y :: l') -> P x y /\ Forall2 P l l'.
Proof. intros H. inversion H; auto. Qed.
Lemma Forall2_imp2 {A B} (P Q : A -> B -> Prop) l l' : (forall x y, P x y -> Q x y) -> Forall2 P l l' -> Forall2 Q l l'.
Proof. intros H F. induction F; constructor; auto. Qed.

Lemma tcost_einsum {K : cring} ec c eq (ts : list (tensor K)) ins out p sh n : best_order ec ->
  parse_eq eq [] [] = Some (ins, out) -> ts <> [] -> is_order (length ts) p ->
  (forall env, Forall2 (fun ls s => Forall2 (fun l n => lookup0 env l = n) ls s) ins (map shape ts) ->
     map (lookup0 env) out = sh /\ omults ins out (lookup0 env) p <= n) ->
  tcost ec c (t_einsum eq ts) (fun r => shape r = sh) n.
Proof.
  intros Hb P N O H. unfold t_einsum. destruct (einsum eq ts) as [r|e] eqn:Er; [|exact I]. cbn [bind].
  unfold einsum in Er. rewrite P in Er. destruct (bind_all ins ts []) as [env|] eqn:E; [|discriminate].
  destruct (bind_all_ok K ins ts [] env E) as [_ F].
  destruct (H env) as [H1 H2].
  { clear - F. induction F as [|ls x ins ts F1 _ IH]; cbn [map]; constructor; auto. revert F1. apply Forall2_imp2. intros l n L. unfold lookup0. now rewrite L. }
  cbn [bind] in Er. destruct (forallb _ out); [|discriminate]. injection Er as <-. split.
  - rewrite <- H1. apply shape_mk.
  - unfold total. cbn [map call_cost list_sum fold_right]. destruct (Hb eq (map shape ts)) as [_ L]; [now destruct ts|]. rewrite map_length in L.
    specialize (L p O). unfold order_cost in L. rewrite P, <- bind_all_shapes, E in L. lia.
Qed.

Ltac ccbv := cbv beta iota zeta delta
  [Ascii.eqb Bool.eqb List.app forallb filter negb existsb fst snd map andb orb
   omults olabels leaves needed occurs uniq nth length seq Nat.eqb prodn fold_right].
Ltac perm := first [apply Permutation_refl | apply NoDup_Permutation;
  [repeat constructor; cbn; intuition lia | repeat constructor; cbn; intuition lia | cbn; intuition lia]].
Ltac f2inv := repeat match goal with
  | H : Forall2 _ (_ :: _) (_ :: _) |- _ => apply F2_cons_inv in H as [? H]
  | H : Forall2 _ [] [] |- _ => clear H
  | H : Forall2 _ [] (_ :: _) |- _ => inversion H
  | H : Forall2 _ (_ :: _) [] |- _ => inversion H
  end.
(** [p]: the order.  What is left: the number of multiplications is at most the bound.  The sizes of the
    labels replace those of the operands everywhere. *)
Tactic Notation "ecost" constr(p) :=
  eapply (tcost_einsum _ _ _ _ _ _ p); [assumption | vm_compute; reflexivity
    | discriminate | unfold is_order; cbn [leaves length seq List.app]; perm
    | let env := fresh "env" in let F := fresh "F" in intros env F; cbn [map] in F;
      repeat match goal with H : shape ?a = _ |- _ => rewrite H in F end;
      f2inv; (split; [cbn [map]; repeat (apply f_equal2; [assumption|]); reflexivity |
      ccbv; repeat match goal with H : lookup0 _ _ = _ |- _ => rewrite <- H in *; clear H end ]) ].

Local Notation o3 := (ONode (ONode (OLeaf 0) (OLeaf 1)) (OLeaf 2)).
Local Notation o2 := (ONode (OLeaf 0) (OLeaf 1)).

Section G2.
Context {K : cring}.
Variable ec : string -> list (list nat) -> nat.
Variable c : nat.
Hypothesis Hec : best_order ec.

Lemma fi_step_cost (a b : tt K) i (r : tensor K) : wf a -> wf b -> is_tt_matrix a = is_tt_matrix b -> i < ndims a -> i < ndims b ->
  shape r = pre_of (ubs (bsz a) (bsz b)) ++ [rk a i; rk b i] ->
  tcost ec c (t_einsum (fi_eq K a b) [r; core a i; core b i])
    (fun r => shape r = pre_of (ubs (bsz a) (bsz b)) ++ [rk a (S i); rk b (S i)])
    (2 * (Nat.max (bnum a) (bnum b) * (rmax a * rmax b * nmax a * Nat.max (rmax a) (rmax b)))).
Proof.
  intros Ha Hb Hk Hi Hi' Sr.
  pose proof (core_shape _ a _ Ha Hi) as Sa; pose proof (core_shape _ b _ Hb Hi') as Sb.
  assert (HB : match ubs (bsz a) (bsz b) with Some x => x | None => 1 end <= Nat.max (bnum a) (bnum b)).
  { unfold bnum, ubs. destruct (bsz a), (bsz b); lia. }
  assert (Q1 : match ubs (bsz a) (bsz b) with Some x => x | None => 1 end * rk a i * rk b i * prodn (modes a i) * rk a (S i) <=
               Nat.max (bnum a) (bnum b) * rmax a * rmax b * nmax a * Nat.max (rmax a) (rmax b)).
  { repeat apply Nat.mul_le_mono; auto using rk_max, modes_max. etransitivity; [apply rk_max|apply Nat.le_max_l]. }
  assert (Q2 : match ubs (bsz a) (bsz b) with Some x => x | None => 1 end * rk b i * rk a (S i) * prodn (modes a i) * rk b (S i) <=
               Nat.max (bnum a) (bnum b) * rmax b * rmax a * nmax a * Nat.max (rmax a) (rmax b)).
  { repeat apply Nat.mul_le_mono; auto using rk_max, modes_max. etransitivity; [apply rk_max|apply Nat.le_max_r]. }
  unfold fi_eq, fi_init, fi_b, fi_r, fi_ax, is_batch, ubs, bpre in *. set (B := Nat.max (bnum a) (bnum b)) in *. clearbody B. clear HB.
  destruct (wf_kind_cases _ a Ha) as [(E & _ & Hm)|(E & _ & Hm)], (wf_kind_cases _ b Hb) as [(E' & _ & Hm')|(E' & _ & Hm')];
   try congruence; rewrite E, Hm, Hm' in *; clear E Hm E' Hm';
  destruct (bsz a) as [x|], (bsz b) as [y|]; cbn [pre_of app] in *;
    ecost o3; unfold prodn in Q1, Q2; cbn [fold_right] in Q1, Q2; lia.
Qed.

Lemma fi_init_cost (a b : tt K) : wf a -> wf b -> is_tt_matrix a = is_tt_matrix b ->
  tcost ec c (t_einsum (fi_init K a b) [core a 0; core b 0])
    (fun r => shape r = pre_of (ubs (bsz a) (bsz b)) ++ [rk a 1; rk b 1])
    (2 * (Nat.max (bnum a) (bnum b) * (rmax a * rmax b * nmax a * Nat.max (rmax a) (rmax b)))).
Proof.
  intros Ha Hb Hk. pose proof (wf_d Ha) as Hi. pose proof (wf_d Hb) as Hi'.
  pose proof (core_shape _ a _ Ha Hi) as Sa; pose proof (core_shape _ b _ Hb Hi') as Sb.
  assert (HB : match ubs (bsz a) (bsz b) with Some x => x | None => 1 end <= Nat.max (bnum a) (bnum b)).
  { unfold bnum, ubs. destruct (bsz a), (bsz b); lia. }
  assert (Q1 : match ubs (bsz a) (bsz b) with Some x => x | None => 1 end * rk a 1 * rk b 1 * prodn (modes a 0) * (rk a 0 * rk b 0) <=
               Nat.max (bnum a) (bnum b) * rmax a * rmax b * nmax a * Nat.max (rmax a) (rmax b)).
  { rewrite (wf_first Ha), (wf_first Hb). repeat apply Nat.mul_le_mono; auto using rk_max, modes_max.
    etransitivity; [apply (rmax_pos a Ha)|apply Nat.le_max_l]. }
  unfold fi_init, fi_b, fi_r, fi_ax, is_batch, ubs, bpre in *. set (B := Nat.max (bnum a) (bnum b)) in *. clearbody B. clear HB.
  destruct (wf_kind_cases _ a Ha) as [(E & _ & Hm)|(E & _ & Hm)], (wf_kind_cases _ b Hb) as [(E' & _ & Hm')|(E' & _ & Hm')];
   try congruence; rewrite E, Hm, Hm' in *; clear E Hm E' Hm';
  destruct (bsz a) as [x|], (bsz b) as [y|]; cbn [pre_of app] in *;
    ecost o2; unfold prodn in Q1; cbn [fold_right] in Q1; lia.
Qed.

Lemma sq_facts (t e : tt K) : wf t -> squeeze_batch_dim t = Ok e -> wf e /\ is_tt_matrix e = is_tt_matrix t /\ rmax e = rmax t /\
  nmax e = nmax t /\ ndims e = ndims t /\ bnum e = bnum t.
Proof.
  intros Hw H. destruct (squeeze_ok _ t Hw) as (e' & H' & We & Re & Ke & Be & De & _). rewrite H in H'. okinv H'.
  split; [assumption|]. split; [unfold is_tt_matrix; now rewrite Re|]. split; [unfold rmax; now rewrite Ke|].
  split; [unfold nmax, modes; now rewrite De, Re|]. split; [assumption|].
  unfold bnum. rewrite Be. destruct (bsz t) as [[|[|]]|]; reflexivity.
Qed.

Lemma flat_inner_cost (a b : tt K) : wf a -> wf b ->
  tcost ec c (t_flat_inner a b) (fun _ => True)
    (2 * (Nat.max (bnum a) (bnum b) * ndims a * (rmax a * rmax b * nmax a * Nat.max (rmax a) (rmax b)))).
Proof.
  intros Ha Hb. unfold t_flat_inner.
  destruct (Bool.eqb (is_tt_matrix a) (is_tt_matrix b)) eqn:Ek; [|exact I]. apply Bool.eqb_prop in Ek. cbn [negb].
  destruct (is_batch_broadcasting_possible a b); [|exact I]. cbn [negb].
  destruct (Nat.eqb_spec (ndims b) (ndims a)) as [Hd|Hd]; [|exact I]. cbn [negb]. rewrite <- Ek, Bool.andb_diag. cbv zeta.
  apply tcost_free. intros a' Ea. apply tcost_free. intros b' Eb.
  destruct (sq_facts a a' Ha Ea) as (Wa & Ma & Ra & Na & Da & Ba). destruct (sq_facts b b' Hb Eb) as (Wb & Mb & Rb & Nb & Db & Bb).
  rewrite <- Ma, <- Da, <- Ra, <- Rb, <- Na, <- Ba, <- Bb. fold (fi_ax K a') (fi_b K a') (fi_b K b') (fi_r K a' b'). fold (fi_init K a' b') (fi_eq K a' b').
  set (U := 2 * (Nat.max (bnum a') (bnum b') * (rmax a' * rmax b' * nmax a' * Nat.max (rmax a') (rmax b')))).
  pose proof (wf_d Wa) as Hd0.
  apply (tcost_weak ec c _ (fun _ => True) _ (U + ((ndims a' - 1) * U + 0))).
  2: exact (fun _ _ => I).
  2:{ replace (2 * _) with (ndims a' * U) by (unfold U; lia). nia. }
  eapply tcost_bind; [apply fi_init_cost; congruence|]. intros r0 S0. eapply tcost_bind.
  - apply (tcost_seq ec c _ (fun i r => shape r = pre_of (ubs (bsz a') (bsz b')) ++ [rk a' i; rk b' i]) U); [exact S0|].
    intros j s Hj Sj. apply fi_step_cost; auto; congruence || lia.
  - intros r _. apply tcost_ret. exact I.
Qed.
End G2.
