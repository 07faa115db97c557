(** Greedy orders: they exist and can be computed; on the equation of the inner products they contract the
    two cores first. *)
From Coq Require Import String Ascii List Arith Lia Bool Permutation.
From Verif Require Import Scalar Tensor TensorLemmas TensorLemmas2 Base Spec BaseLemmas Sweep Ops FlatProofs Cost CostOps CostErase CostProofs
  CostOrder CostContract.
Import ListNotations.

(** *** Computing the greedy orders *)
Fixpoint pick1 {A} (l : list A) : list (A * list A) :=
  match l with [] => [] | x :: t => (x, t) :: map (fun p => (fst p, x :: snd p)) (pick1 t) end.
Definition pick2 {A} (l : list A) : list (A * A * list A) :=
  flat_map (fun p => map (fun q => (fst p, fst q, snd q)) (pick1 (snd p))) (pick1 l).

Lemma pick1_sound {A} (l : list A) x t : In (x, t) (pick1 l) -> Permutation l (x :: t).
Proof.
  revert x t; induction l as [|a l IH]; intros x t H; [destruct H|]. destruct H as [H|H]; [injection H as <- <-; reflexivity|].
  apply in_map_iff in H as ([y u] & E & H). injection E as <- <-. rewrite (IH _ _ H). apply perm_swap.
Qed.
Lemma pick1_complete {A} (l : list A) : forall x t, Permutation l (x :: t) -> exists t', In (x, t') (pick1 l) /\ Permutation t' t.
Proof.
  induction l as [|a l IH]; intros x t H; [apply Permutation_nil in H; discriminate|].
  assert (Hx : In x (a :: l)) by (rewrite H; now left). destruct Hx as [->|Hx].
  - exists l. split; [now left|]. now apply Permutation_cons_inv in H.
  - apply in_split in Hx as (u & v & ->). destruct (IH x (u ++ v)) as (t' & H1 & H2); [symmetry; apply Permutation_middle|].
    exists (a :: t'). split; [right; apply in_map_iff; exists (x, t'); auto|]. rewrite H2. apply (Permutation_cons_inv (a := x)). rewrite <- H.
    rewrite <- Permutation_middle. apply perm_swap.
Qed.
Lemma pick2_sound {A} (l : list A) x y t : In (x, y, t) (pick2 l) -> Permutation l (x :: y :: t).
Proof.
  intros H. apply in_flat_map in H as ([a u] & Ha & H). cbn [fst snd] in H. apply in_map_iff in H as ([b v] & E & Hb). injection E as <- <- <-.
  rewrite (pick1_sound _ _ _ Ha). now rewrite (pick1_sound _ _ _ Hb).
Qed.
Lemma pick2_complete {A} (l : list A) x y t : Permutation l (x :: y :: t) -> exists t', In (x, y, t') (pick2 l) /\ Permutation t' t.
Proof.
  intros H. apply pick1_complete in H as (u & H1 & H2). apply pick1_complete in H2 as (v & H3 & H4). exists v. split; auto.
  apply in_flat_map. exists (x, u). split; auto. cbn [fst snd]. apply in_map_iff. exists (y, v). auto.
Qed.

Section G.
Variables (ins : list (list ascii)) (out : list ascii) (dim : ascii -> nat).

Definition share_b (p q : order) : bool :=
  existsb (fun l => negb (occurs l out) && occurs l (olabels ins out q)) (olabels ins out p).
Definition removes_b (p q p' q' : order) : bool :=
  Nat.leb (osize ins out dim (ONode p q) + osize ins out dim p' + osize ins out dim q') (osize ins out dim (ONode p' q') + osize ins out dim p + osize ins out dim q).

Lemma share_b_spec p q : share_b p q = true <-> share_axis ins out p q.
Proof.
  unfold share_b, share_axis. rewrite existsb_exists. split.
  - intros (l & H1 & H2). apply andb_prop in H2 as [H2 H3]. apply Bool.negb_true_iff, occurs_nIn in H2. apply occurs_In in H3. eauto.
  - intros (l & H1 & H2 & H3). exists l. split; auto. apply andb_true_intro. split; [now apply Bool.negb_true_iff, occurs_nIn|now apply occurs_In].
Qed.
Lemma removes_b_spec p q p' q' : removes_b p q p' q' = true <-> removes_more ins out dim p q p' q'.
Proof. apply Nat.leb_le. Qed.

Definition is_best (ps : list order) (p q : order) : bool :=
  share_b p q && forallb (fun c => implb (share_b (fst (fst c)) (snd (fst c))) (removes_b p q (fst (fst c)) (snd (fst c)))) (pick2 ps).

Fixpoint greedy_all (n : nat) (ps : list order) : list order :=
  match n with
  | 0 => []
  | S n' => match ps with
            | [p] => [p]
            | _ => flat_map (fun c => if is_best ps (fst (fst c)) (snd (fst c)) then greedy_all n' (ONode (fst (fst c)) (snd (fst c)) :: snd c) else [])
                            (pick2 ps)
            end
  end.

Lemma is_best_spec ps p q : is_best ps p q = true <->
  share_axis ins out p q /\ forall p' q' rest', Permutation ps (p' :: q' :: rest') -> share_axis ins out p' q' -> removes_more ins out dim p q p' q'.
Proof.
  unfold is_best. rewrite andb_true_iff, forallb_forall, share_b_spec. split; intros [H1 H2]; (split; [assumption|]).
  - intros p' q' rest' P S. apply pick2_complete in P as (t & Ht & _). apply H2 in Ht. cbn [fst snd] in Ht. apply share_b_spec in S. rewrite S in Ht.
    now apply removes_b_spec.
  - intros [[p' q'] t] H. cbn [fst snd]. destruct (share_b p' q') eqn:E; [|reflexivity]. cbn [implb]. apply removes_b_spec. apply (H2 _ _ t); [now apply pick2_sound|now apply share_b_spec].
Qed.

Lemma greedy_all_sound n : forall ps r, In r (greedy_all n ps) -> greedy ins out dim ps r.
Proof.
  induction n as [|n IH]; intros ps r H; [destruct H|]. cbn [greedy_all] in H.
  assert (G : ps <> [r] -> In r (flat_map (fun c => if is_best ps (fst (fst c)) (snd (fst c)) then greedy_all n (ONode (fst (fst c)) (snd (fst c)) :: snd c) else [])
                            (pick2 ps)) -> greedy ins out dim ps r).
  { intros _ G. apply in_flat_map in G as ([[p q] t] & H1 & H2). cbn [fst snd] in H2. destruct (is_best ps p q) eqn:E; [|destruct H2].
    apply is_best_spec in E as [E1 E2]. apply (greedy_step _ _ _ ps p q t r); auto. now apply pick2_sound. }
  destruct ps as [|p [|q ps]]; [destruct H|destruct H as [<-|[]]; constructor|apply G; [discriminate|exact H]].
Qed.

Lemma greedy_perm ps r : greedy ins out dim ps r -> forall ps', Permutation ps ps' -> greedy ins out dim ps' r.
Proof.
  intros G. destruct G as [p|ps p q rest r P S M G]; intros ps' H.
  - apply Permutation_length_1_inv in H. subst. constructor.
  - apply (greedy_step _ _ _ ps' p q rest r); auto; [now rewrite <- H|]. intros p' q' rest' P'. apply (M p' q' rest'). now rewrite H.
Qed.

Lemma greedy_all_complete n : forall ps r, length ps <= n -> greedy ins out dim ps r -> In r (greedy_all n ps).
Proof.
  induction n as [|n IH]; intros ps r Hn G.
  - destruct ps; [|cbn in Hn; lia]. inversion G as [|? ? ? ? ? P]; subst. apply Permutation_nil in P. discriminate.
  - destruct G as [p|ps p q rest r P S M G]; [now left|]. cbn [greedy_all].
    pose proof (Permutation_length P) as L. cbn [length] in L. destruct ps as [|p1 [|p2 ps]]; [cbn in L; lia..|].
    destruct (pick2_complete _ _ _ _ P) as (t & Ht & Pt). apply in_flat_map. exists (p, q, t). split; [assumption|]. cbn [fst snd].
    replace (is_best (p1 :: p2 :: ps) p q) with true by (symmetry; apply is_best_spec; auto).
    apply IH; [cbn [length] in *; rewrite (Permutation_length Pt); lia|]. apply (greedy_perm _ _ G). now constructor.
Qed.
End G.

Definition greedy_cost (eq : string) (shs : list (list nat)) : nat :=
  match parse_eq eq [] [] with
  | Some (ins, out) =>
      match bind_shapes ins shs [] with
      | Ok env => match greedy_all ins out (lookup0 env) (length shs) (map OLeaf (seq 0 (length shs))) with p :: _ => order_cost eq shs p | [] => 0 end
      | Err _ => 0
      end
  | None => 0
  end.

Lemma greedy_cost_greedy : greedy_order greedy_cost.
Proof.
  intros eq shs ins out env P E (r & G). unfold greedy_cost. rewrite P, E.
  apply (greedy_all_complete _ _ _ (length shs)) in G; [|rewrite map_length, seq_length; lia].
  destruct (greedy_all _ _ _ _ _) as [|p l] eqn:A; [destruct G|]. exists p. split; [|reflexivity]. apply (greedy_all_sound _ _ _ (length shs)). rewrite A. now left.
Qed.

(** *** The equation of tt_tt_flat_inner *)
Local Notation L0 := (OLeaf 0).
Local Notation L1 := (OLeaf 1).
Local Notation L2 := (OLeaf 2).
Local Notation chars s := (list_ascii_of_string s).
Local Notation fins := [chars "ac"; chars "aib"; chars "cid"].
Local Notation fout := (chars "bd").

Lemma perm3 {A} (x y z p q : A) rest : Permutation [x; y; z] (p :: q :: rest) ->
  exists w, rest = [w] /\ ((p = x /\ q = y /\ w = z) \/ (p = y /\ q = x /\ w = z) \/ (p = x /\ q = z /\ w = y) \/ (p = z /\ q = x /\ w = y) \/
                           (p = y /\ q = z /\ w = x) \/ (p = z /\ q = y /\ w = x)).
Proof.
  intros H. pose proof (Permutation_length H) as L. destruct rest as [|w [|? ?]]; cbn in L; try lia. exists w. split; [reflexivity|].
  apply pick2_complete in H as (t & Ht & Pt). apply Permutation_sym, Permutation_length_1_inv in Pt. subst t. cbn in Ht.
  repeat (destruct Ht as [Ht|Ht]; [injection Ht as <- <- <-; tauto|]). destruct Ht.
Qed.

Lemma perm2 {A} (x y p q : A) rest : Permutation [x; y] (p :: q :: rest) -> rest = [] /\ ((p = x /\ q = y) \/ (p = y /\ q = x)).
Proof.
  intros H. pose proof (Permutation_length H) as L. destruct rest as [|w ?]; cbn in L; try lia. split; [reflexivity|].
  apply pick2_complete in H as (t & Ht & Pt). apply Permutation_sym, Permutation_nil in Pt. subst t. cbn in Ht.
  repeat (destruct Ht as [Ht|Ht]; [injection Ht as <- <-; tauto|]). destruct Ht.
Qed.

Section Forced.
Variables (dim : ascii -> nat) (r n : nat).
Hypotheses (Ha : dim "a"%char = r) (Hb : dim "b"%char = r) (Hc : dim "c"%char = r) (Hd : dim "d"%char = r) (Hi : dim "i"%char = n).
Hypotheses (Hr : 0 < r) (Hn : r * r + 1 < 2 * n).

Ltac szs := unfold removes_more, osize; cbn [list_ascii_of_string]; 
  cbv beta iota zeta delta [Ascii.eqb Bool.eqb List.app forallb filter negb existsb fst snd map andb orb
   omults olabels leaves needed occurs uniq nth length seq Nat.eqb prodn fold_right]; rewrite ?Ha, ?Hb, ?Hc, ?Hd, ?Hi.

Lemma key : r * (r * (r * r)) + r * r < 2 * (r * (r * n)).
Proof. nia. Qed.

Lemma forced p : greedy fins fout dim [L0; L1; L2] p -> n * (r * (r * (r * r))) <= omults fins fout dim p.
Proof.
  pose proof key as Hk. intros G. inversion G as [|ps p0 q0 rest r0 P S M G']; subst.
  apply perm3 in P as (w & -> & P).
  pose proof (M L1 L2 [L0]) as M1. unfold removes_more in M1.
  assert (S12 : share_axis fins fout L1 L2) by (exists "i"%char; cbn; split; [intros H; cbn in H; intuition discriminate|auto]).
  specialize (M1 ltac:(apply NoDup_Permutation; [repeat constructor; cbn; intuition discriminate..|cbn; intuition congruence]) S12).
  destruct P as [(-> & -> & ->)|[(-> & -> & ->)|[(-> & -> & ->)|[(-> & -> & ->)|[(-> & -> & ->)|(-> & -> & ->)]]]]].
  1-4: exfalso; revert M1; szs; lia.
  - clear M M1 S. inversion G' as [|ps p1 q1 rest1 r1 P1 S1 M1 G1]; subst. apply perm2 in P1 as [-> [[-> ->]|[-> ->]]]; inversion G1 as [|ps p2 q2 rest2 r2 P2]; subst;
    try (apply Permutation_length in P2; discriminate); szs; lia.
  - clear M M1 S. inversion G' as [|ps p1 q1 rest1 r1 P1 S1 M1 G1]; subst. apply perm2 in P1 as [-> [[-> ->]|[-> ->]]]; inversion G1 as [|ps p2 q2 rest2 r2 P2]; subst;
    try (apply Permutation_length in P2; discriminate); szs; lia.
Qed.

Lemma forced_exists : exists p, greedy fins fout dim [L0; L1; L2] p.
Proof.
  pose proof key as Hk. exists (ONode (ONode L1 L2) L0).
  assert (S12 : share_axis fins fout L1 L2) by (exists "i"%char; cbn; split; [intros H; cbn in H; intuition discriminate|auto]).
  apply (greedy_step _ _ _ _ L1 L2 [L0]).
  - apply NoDup_Permutation; [repeat constructor; cbn; intuition discriminate..|cbn; intuition congruence].
  - exact S12.
  - intros p q rest P _. apply perm3 in P as (w & -> & P).
    destruct P as [(-> & -> & ->)|[(-> & -> & ->)|[(-> & -> & ->)|[(-> & -> & ->)|[(-> & -> & ->)|(-> & -> & ->)]]]]]; szs; lia.
  - apply (greedy_step _ _ _ _ (ONode L1 L2) L0 []).
    + reflexivity.
    + exists "a"%char. split; [cbn; intros H; cbn in H; intuition discriminate|]. cbn. auto.
    + intros p q rest P _. apply perm2 in P as [-> [[-> ->]|[-> ->]]]; szs; lia.
    + constructor.
Qed.
End Forced.

(** A tensor train with three cores of ones: axes of size n, TT-ranks (1, r, r, 1). *)
Section Wit.
Context {K : cring}.
Definition ones3 (n r : nat) : tt K :=
  {| cores := [mk [1; n; r] (fun _ => c1); mk [r; n; r] (fun _ => c1); mk [r; n; 1] (fun _ => c1)];
     rshape := [[n; n; n]]; rks := [1; r; r; 1]; bsz := None |}.

Lemma ones3_wf n r : 0 < n -> 0 < r -> wf (ones3 n r).
Proof.
  intros Hn Hr. constructor; [cbn; lia|now left|repeat constructor|reflexivity|reflexivity|reflexivity|..].
  - repeat constructor; auto.
  - repeat constructor; auto.
  - constructor.
  - intros [|[|[|k]]] Hk; [..|cbn in Hk; lia]; cbn [nth core]; (split; [apply wft_mk|reflexivity]).
Qed.
End Wit.

Lemma in_total ec c k l : In k l -> call_cost ec c k <= total ec c l.
Proof.
  unfold total. induction l as [|x l IH]; [intros []|]. cbn [map list_sum fold_right]. intros [->|H]; [lia|]. specialize (IH H). unfold list_sum in *. lia.
Qed.

Section W.
Context {K : cring}.
Lemma tbind_ok {A B} (m : tr A) (k : A -> tr B) y : tbind m k = Ok y -> exists a l b l', m = Ok (a, l) /\ k a = Ok (b, l') /\ y = (b, l ++ l').
Proof.
  destruct m as [[a l]|]; [|discriminate]. cbn. destruct (k a) as [[b l']|] eqn:E; [|discriminate]. intros H. injection H as <-. eauto 8.
Qed.

Lemma ones3_calls n r : 0 < n -> 0 < r ->
  In (KEinsum "ac,aib,cid->bd" [[r; r]; [r; n; r]; [r; n; r]]) (calls (t_flat_inner (K := K) (ones3 n r) (ones3 n r))).
Proof.
  intros Hn Hr. pose proof (ones3_wf (K := K) n r Hn Hr) as W.
  destruct (flat_inner_full _ (ones3 n r) (ones3 n r) W W eq_refl) as (x & E & _); [cbn; auto|].
  rewrite <- erase_flat_inner in E. destruct (t_flat_inner (ones3 n r) (ones3 n r)) as [[y l]|] eqn:T; [|discriminate]. cbn [calls].
  assert (T' : (dt r0 <- t_einsum "aib,cid->bd" [core (ones3 n r) 0; core (ones3 n r) 0];
    dt r' <- tfold (fun i r' => t_einsum "ac,aib,cid->bd" [r'; core (ones3 n r) i; core (ones3 n r) i]) [1; 2] r0; Ok (squeeze r', [])) = @Ok (tensor K * list call) (y, l)).
  { assert (Es : squeeze_batch_dim (ones3 (K := K) n r) = Ok (ones3 n r)) by reflexivity.
    unfold t_flat_inner in T. change (is_tt_matrix (ones3 (K := K) n r)) with false in T. change (is_batch_broadcasting_possible (ones3 (K := K) n r) (ones3 n r)) with true in T.
    change (ndims (ones3 (K := K) n r)) with 3 in T. cbn [negb Bool.eqb Nat.eqb andb] in T. cbv zeta in T. rewrite Es in T. cbn [free] in T.
    apply tbind_ok in T as (a1 & k1 & a2 & k2 & Q1 & T & Ey). injection Q1 as <- <-. injection Ey as <- ->.
    apply tbind_ok in T as (a1 & k1 & a3 & k3 & Q1 & T & Ey). injection Q1 as <- <-. injection Ey as <- ->. exact T. }
  clear T E x. apply tbind_ok in T' as (r0 & l0 & b & l1 & E0 & T & Ey). injection Ey as <- ->.
  assert (S0 : shape r0 = [r; r]).
  { unfold t_einsum in E0. destruct (einsum _ _) as [z|] eqn:Z in E0; [|discriminate]. injection E0 as <- _.
    pose proof (tcost_einsum best_cost 0 "aib,cid->bd" [core (ones3 n r) 0; core (ones3 (K := K) n r) 0] [chars "aib"; chars "cid"] fout (ONode L0 L1) [r; r] (n * (r * r)) best_cost_best eq_refl) as H.
    unfold t_einsum in H. rewrite Z in H. apply H; [discriminate|apply Permutation_refl|]. intros env F. cbn [map] in F.
    change (shape (core (ones3 (K := K) n r) 0)) with [1; n; r] in F. cbn [list_ascii_of_string] in *. f2inv. split; [cbn [map list_ascii_of_string]; congruence|].
    unfold prodn in *. ccbv. repeat match goal with H : lookup0 _ _ = _ |- _ => rewrite H; clear H end. lia. }
  apply in_app_iff. right. apply tbind_ok in T as (r2 & l2 & b2 & l3 & E2 & _ & Ey). injection Ey as _ ->. apply in_app_iff. left.
  cbn [tfold] in E2. apply tbind_ok in E2 as (r3 & l4 & b3 & l5 & E3 & _ & Ey). injection Ey as _ ->. apply in_app_iff. left.
  unfold t_einsum in E3. destruct (einsum _ _) in E3; [|discriminate]. injection E3 as _ <-. left. cbn [map]. now rewrite S0.
Qed.

Lemma fbind r n : bind_shapes fins [[r; r]; [r; n; r]; [r; n; r]] [] = Ok [("a"%char, r); ("c"%char, r); ("i"%char, n); ("b"%char, r); ("d"%char, r)].
Proof. cbn. rewrite !Nat.eqb_refl. cbn. rewrite !Nat.eqb_refl. reflexivity. Qed.

(** With greedy orders the inner product takes more than any multiple of d r^3 n operations. *)
Lemma greedy_flat_inner ec c C : greedy_order ec -> exists n r, 0 < n /\ 0 < r /\
  C * (3 * (r * (r * r) * n)) < total ec c (calls (t_flat_inner (K := K) (ones3 n r) (ones3 n r))).
Proof.
  intros G. set (r := 3 * C + 2). exists (r * r), r. assert (Hr : 0 < r) by (unfold r; lia). assert (Hn : 0 < r * r) by nia. split; [assumption|]. split; [assumption|].
  eapply Nat.lt_le_trans; [|apply in_total, ones3_calls; assumption]. cbn [call_cost].
  assert (Hbig : 2 <= r) by (unfold r; lia).
  set (n := r * r) in *.
  set (env := [("a"%char, r); ("c"%char, r); ("i"%char, n); ("b"%char, r); ("d"%char, r)]).
  pose proof (fbind r n) as E. fold env in E.
  assert (H1 : r * r + 1 < 2 * n) by (unfold n; nia).
  destruct (G "ac,aib,cid->bd"%string [[r; r]; [r; n; r]; [r; n; r]] fins fout env eq_refl E) as (p & Gp & Ep).
    { apply (forced_exists _ r n); reflexivity || auto. }
    rewrite Ep. unfold order_cost. change (parse_eq "ac,aib,cid->bd" [] []) with (Some (fins, fout)). cbv beta iota. rewrite E.
    eapply Nat.lt_le_trans; [|apply (forced _ r n); reflexivity || eauto].
  assert (H3 : 3 * C < r) by (unfold r; lia). unfold n. clearbody n r. clear - H3 Hr.
  replace (C * (3 * (r * (r * r) * (r * r)))) with (3 * C * (r * (r * r) * (r * r))) by ring.
  replace (r * r * (r * (r * (r * r)))) with (r * (r * (r * r) * (r * r))) by ring.
  apply Nat.mul_lt_mono_pos_r; [repeat apply Nat.mul_pos_pos; assumption|exact H3].
Qed.
End W.
