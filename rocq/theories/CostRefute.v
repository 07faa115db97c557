(** Counting: with a matrix of weights project_sum does more work than its docstring says. *)
From Coq Require Import String Ascii List Arith ZArith Lia Bool Permutation Reals.
From Verif Require Import Scalar Tensor TensorLemmas TensorLemmas2 Base Spec Chain BaseLemmas Ops
  FullProofs ResultLemmas Dense AddProofs MulProofs MatmulProofs DenseMatmul Sweep FlatProofs ValidProofs
  OpsR Decomp DecompSpec GaugeProofs OrthProofs BatchOps Riem RiemProofs RiemThms Cost CostOps CostErase CostProofs CostInner CostOrth CostRiem CostGreedy.
Import ListNotations.
Local Open Scope nat_scope.
Local Notation o2 := (ONode (OLeaf 0) (OLeaf 1)).

Section L.
Variable ec : string -> list (list nat) -> nat.
Variable c : nat.
Hypothesis Hec : best_order ec.

Definition tlow {A} (m : tr A) (n : nat) : Prop := match m with Ok (_, l) => n <= total ec c l | Err _ => True end.

Lemma tlow_bind {A B} (m : tr A) (k : A -> tr B) P n0 n : tcost ec c m P n0 -> (forall a, P a -> tlow (k a) n) -> tlow (tbind m k) n.
Proof.
  destruct m as [[a l]|]; [|intros; exact I]. intros [H _] Hk. specialize (Hk a H). cbn. destruct (k a) as [[b l']|]; [|exact I].
  cbn in *. rewrite total_app. lia.
Qed.
Lemma tlow_left {A B} (m : tr A) (k : A -> tr B) n : tlow m n -> tlow (tbind m k) n.
Proof.
  destruct m as [[a l]|]; [|intros; exact I]. intros H. cbn. destruct (k a) as [[b l']|]; [|exact I]. cbn in *. rewrite total_app. lia.
Qed.
Lemma tlow_free {A B} (m : res A) (k : A -> tr B) n : (forall a, m = Ok a -> tlow (k a) n) -> tlow (tbind (free m) k) n.
Proof.
  destruct m as [a|]; [|intros; exact I]. intros H. specialize (H a eq_refl). cbn. destruct (k a) as [[b l']|]; [|exact I]. exact H.
Qed.
Lemma tlow_first {A} (f : nat -> tr A) i l n : tlow (f i) n -> tlow (tmapM f (i :: l)) n.
Proof. intros H. cbn [tmapM]. now apply tlow_left. Qed.

(** The last einsum of a projected core. *)
Lemma weight_low (x p : rtensor) b O a i k : shape x = [b; O] -> shape p = [b; a; i; k] ->
  tlow (t_einsum "so,saic->oaic"%string [x; p]) (b * O * a * i * k).
Proof.
  intros Sx Sp. unfold t_einsum. destruct (einsum _ _) as [r|] eqn:E; [|exact I]. cbn [bind]. unfold tlow, total. cbn [map call_cost list_sum fold_right].
  rewrite Sx, Sp. clear E.
  destruct (Hec "so,saic->oaic"%string [[b; O]; [b; a; i; k]] ltac:(discriminate)) as [(q & Hq & ->) _]. unfold is_order in Hq. cbn [length seq] in Hq.
  unfold order_cost. 
  assert (Q : q = ONode (OLeaf 0) (OLeaf 1) \/ q = ONode (OLeaf 1) (OLeaf 0)).
  { assert (Ln : forall q, 1 <= length (leaves q)) by (intros q0; induction q0 as [|u IHu v IHv]; cbn; [lia|rewrite app_length; lia]).
    assert (L1 : forall q x, leaves q = [x] -> q = OLeaf x).
    { intros [j|u v] y; cbn; intros E; [congruence|]. pose proof (Ln u). pose proof (Ln v). apply (f_equal (@length _)) in E. rewrite app_length in E. cbn in E. lia. }
    destruct q as [j|u v]; [apply Permutation_length in Hq; discriminate|]. cbn in Hq. pose proof (Ln u) as Lu. pose proof (Ln v) as Lv.
    pose proof (Permutation_length Hq) as L. rewrite app_length in L. cbn in L.
    destruct (leaves u) as [|u0 [|]] eqn:Eu; cbn in *; try lia. destruct (leaves v) as [|v0 [|]] eqn:Ev; cbn in *; try lia.
    apply L1 in Eu, Ev. subst. symmetry in Hq. apply Permutation_length_2_inv in Hq as [Hq|Hq]; injection Hq as -> ->; auto. }
  assert (Ep : parse_eq "so,saic->oaic"%string [] [] = Some ([["s"%char; "o"%char]; ["s"%char; "a"%char; "i"%char; "c"%char]], ["o"%char; "a"%char; "i"%char; "c"%char])) by (vm_compute; reflexivity).
  rewrite Ep. clear Ep.
  assert (Eb : bind_shapes [["s"%char; "o"%char]; ["s"%char; "a"%char; "i"%char; "c"%char]] [[b; O]; [b; a; i; k]] [] =
    Ok [("s"%char, b); ("o"%char, O); ("a"%char, a); ("i"%char, i); ("c"%char, k)]).
  { cbn -[Nat.eqb]. rewrite Nat.eqb_refl. reflexivity. }
  rewrite Eb. destruct Q as [-> | ->]; ccbv; cbn [lookup0 lookup Ascii.eqb Bool.eqb]; lia.
Qed.

Lemma mid_shape (x p : rtensor) s a i b k : shape p = [s; a; i; b] -> shape x = [s; b; k] ->
  tcost ec c (t_einsum "saib,sbc->saic"%string [p; x]) (fun q => shape q = [s; a; i; k]) (s * a * i * b * k).
Proof. intros Sp Sx. ecost o2; lia. Qed.

(** Three cores, all sizes 1 ([ones3 1 1]), and weights with O columns. *)
Lemma sum_low qr addr O : qr_ok qr -> 1 < O ->
  tlow (t_project_sum qr (ones3 (K := Rring) 1 1) addr (ones3 1 1) (Some (ones [1; O]))) O.
Proof.
  intros Hq HO. set (w := ones3 (K := Rring) 1 1). assert (Hw : wf w) by (apply ones3_wf; lia).
  unfold t_project_sum. apply tlow_free. intros z Ez. destruct (what_facts w z Hw Ez) as (Wz & Rz & Bz & Kz).
  change (is_batch w) with false. cbv iota. destruct (negb _); [exact I|].
  eapply tlow_bind; [apply (frame_cost ec c qr w Hq Hw eq_refl)|]. intros [l r] HF. cbn [fst snd] in HF.
  unfold lazy_batch_size. rewrite Bz. apply tlow_free. intros b E. injection E as <-.
  cbv iota beta. change (shape (ones (K := Rring) [1; O])) with [1; O]. cbv iota beta. rewrite (proj2 (Nat.ltb_lt 1 O) HO). cbv zeta.
  eapply tlow_bind; [apply (rhs_cost ec c Hec w l r z (bnum w) Hw HF Wz Rz Bz)|]. intros rhs [_ Hr].
  eapply tlow_bind; [apply (lhs_cost ec c Hec w l r z (bnum w) Hw HF Wz Rz Bz)|]. intros lhs Hl.
  apply tlow_left. unfold t_result_cores. change (ndims w) with 3. cbn [seq]. apply tlow_first. apply tlow_left.
  change (Nat.ltb 0 (3 - 1)) with true. cbv iota.
  eapply tlow_bind; [apply (gauged_cost ec c Hec w l r z (bnum w) Hw HF Wz Rz Bz lhs 0 ltac:(cbn; lia) Hl)|]. intros p Sp.
  apply tlow_free. intros x Ex. specialize (Hr 1 ltac:(cbn; lia)). apply (nth_nthr _ _ _ _ Ex) in Hr as Sx.
  change (mode_str w) with "i"%string. cbn [String.append]. change (bnum w) with 1 in *.
  assert (R0 : rk l 0 = 1) by (apply (wf_first (fr_l _ _ _ HF))).
  assert (R1 : rk r 1 = 1).
  { pose proof (fr_rmax w l r Hw HF 1) as L. change (rmax w) with 1 in L. pose proof (rk_pos _ r 1 (fr_r _ _ _ HF)) as L'. rewrite (fr_nr _ _ _ HF) in L'. specialize (L' ltac:(cbn; lia)). lia. }
  change (modes w 0) with [1] in Sp. cbn [app] in Sp. rewrite R0 in Sp. rewrite R1 in Sx.
  eapply tlow_bind; [apply (mid_shape x p _ _ _ _ _ Sp Sx)|]. 
  - intros q Sq. pose proof (weight_low (ones [1; O]) q 1 O 1 1 1 eq_refl Sq) as L.
    rewrite !Nat.mul_1_r, Nat.mul_1_l in L. exact L.
Qed.
End L.
