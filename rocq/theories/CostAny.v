(** Counting without any assumption on the order of contractions. *)
From Coq Require Import String Ascii List Arith ZArith Lia Bool Permutation.
From Verif Require Import Scalar Tensor TensorLemmas TensorLemmas2 Base Spec Chain BaseLemmas Ops
  FullProofs ResultLemmas Dense AddProofs MulProofs MatmulProofs DenseMatmul Sweep FlatProofs ValidProofs
  BatchOps Cost CostOps CostErase CostProofs CostContract CostOrder.
Import ListNotations.

(** Every contraction costs at most the product of the sizes of all labels. *)
Section Any.
Variables (ins : list (list ascii)) (out : list ascii) (dim : ascii -> nat).
Hypothesis Hdim : forall l, In l (List.concat ins) -> 0 < dim l.

Lemma prod_sub ls : forall ls', NoDup ls -> NoDup ls' -> incl ls ls' -> (forall l, In l ls' -> 0 < dim l) -> prodn (map dim ls) <= prodn (map dim ls').
Proof.
  induction ls as [|l ls IH]; intros ls' N N' I P.
  - change (1 <= prodn (map dim ls')). assert (0 < prodn (map dim ls')); [|lia]. apply prodn_pos. apply Forall_forall. intros x Hx. apply in_map_iff in Hx as (k & <- & Hk). auto.
  - inversion N as [|? ? N1 N2]; subst. assert (Hl : In l ls') by (apply I; now left). apply in_split in Hl as (u & v & ->).
    rewrite map_app, prodn_app. cbn [map]. rewrite !prodn_cons.
    assert (E : prodn (map dim ls) <= prodn (map dim (u ++ v))).
    { apply IH; auto.
      - eapply NoDup_remove_1; eauto.
      - intros k Hk. specialize (I k (or_intror Hk)). rewrite in_app_iff in *. destruct I as [|[->|]]; auto. contradiction.
      - intros k Hk. apply P. rewrite in_app_iff in *. cbn. tauto. }
    rewrite map_app, prodn_app in E. nia.
Qed.

Lemma olabels_incl p : (forall i, In i (leaves p) -> i < length ins) -> incl (olabels ins out p) (List.concat ins).
Proof.
  intros Hp l H. apply olabels_below in H as (i & Hi & Hl). apply in_concat. exists (nth i ins []). split; auto. apply nth_In. auto.
Qed.

Lemma omults_any p : (forall i, In i (leaves p) -> i < length ins) ->
  omults ins out dim p + prodn (map dim (uniq (List.concat ins))) <= length (leaves p) * prodn (map dim (uniq (List.concat ins))).
Proof.
  set (U := prodn _). induction p as [i|p IHp q IHq]; intros Hp; cbn [omults leaves length] in *; [lia|].
  specialize (IHp ltac:(intros; apply Hp, in_app_iff; auto)). specialize (IHq ltac:(intros; apply Hp, in_app_iff; auto)). rewrite app_length.
  assert (prodn (map dim (uniq (olabels ins out p ++ olabels ins out q))) <= U); [|lia].
  apply prod_sub; try apply uniq_NoDup.
  - intros l H. rewrite uniq_In, in_app_iff in *. destruct H as [H|H]; [apply (olabels_incl p)|apply (olabels_incl q)]; auto; intros; apply Hp, in_app_iff; auto.
  - intros l H. rewrite uniq_In in H. auto.
Qed.
End Any.

Lemma F2_pos dim ins ss : Forall2 (fun ls s => Forall2 (fun l (n : nat) => dim l = n) ls s) ins ss -> Forall (Forall (fun n => 0 < n)) ss ->
  length ins = length ss /\ forall l : ascii, In l (List.concat ins) -> 0 < dim l.
Proof.
  intros F P. induction F as [|ls s ins ss F1 _ IH]; [split; [reflexivity|intros l []]|]. inversion P as [|? ? P1 P2]; subst. destruct (IH P2) as [L H].
  split; [cbn; now rewrite L|]. intros l Hl. cbn [List.concat] in Hl. apply in_app_iff in Hl as [Hl|Hl]; auto. clear - F1 P1 Hl.
  induction F1 as [|k m ks ms E _ IH]; [destruct Hl|]. inversion P1; subst. destruct Hl as [<-|Hl]; auto.
Qed.

(** An operand whose axes have sizes at least 1. *)
Lemma tcost_einsum_any {K : cring} ec c eq (ts : list (tensor K)) ins out sh n : some_order ec ->
  parse_eq eq [] [] = Some (ins, out) -> ts <> [] -> Forall (fun x => Forall (fun n => 0 < n) (shape x)) ts ->
  (forall env, Forall2 (fun ls s => Forall2 (fun l n => lookup0 env l = n) ls s) ins (map shape ts) ->
     map (lookup0 env) out = sh /\ (length ts - 1) * prodn (map (lookup0 env) (uniq (List.concat ins))) <= n) ->
  tcost ec c (t_einsum eq ts) (fun r => shape r = sh) n.
Proof.
  intros Hb P N Pos H. unfold t_einsum. destruct (einsum eq ts) as [r|e] eqn:Er; [|exact I]. cbn [bind].
  unfold einsum in Er. rewrite P in Er. destruct (bind_all ins ts []) as [env|] eqn:E; [|discriminate].
  destruct (bind_all_ok K ins ts [] env E) as [_ F].
  assert (F' : Forall2 (fun ls s => Forall2 (fun l n => lookup0 env l = n) ls s) ins (map shape ts)).
  { clear - F. induction F as [|ls x ins ts F1 _ IH]; cbn [map]; constructor; auto. revert F1. apply Forall2_imp2. intros l n L. unfold lookup0. now rewrite L. }
  destruct (H env F') as [H1 H2].
  cbn [bind] in Er. destruct (forallb _ out); [|discriminate]. injection Er as <-. split.
  - rewrite <- H1. apply shape_mk.
  - unfold total. cbn [map call_cost list_sum fold_right]. destruct (Hb eq (map shape ts)) as (p & O & L); [now destruct ts|]. rewrite map_length in O.
    unfold order_cost in L. rewrite P, <- bind_all_shapes, E in L.
    destruct (F2_pos (lookup0 env) ins (map shape ts)) as [Ln Pd]; [exact F'|now apply Forall_map|]. rewrite map_length in Ln.
    pose proof (omults_any ins out (lookup0 env) Pd) as A.
    specialize (A p ltac:(intros i Hi; rewrite O in Hi; apply in_seq in Hi; lia)).
    rewrite (Permutation_length O), seq_length in A. destruct (length ts); nia.
Qed.

Ltac ccbv := cbv beta iota zeta delta
  [Ascii.eqb Bool.eqb List.app forallb filter negb existsb fst snd map andb orb
   uniq occurs List.concat nth length seq Nat.eqb Nat.sub prodn fold_right].
Ltac acost :=
  eapply tcost_einsum_any; [assumption | vm_compute; reflexivity | discriminate | idtac
    | let env := fresh "env" in let F := fresh "F" in intros env F; cbn [map] in F;
      repeat match goal with H : shape ?a = _ |- _ => rewrite H in F end;
      f2inv; (split; [cbn [map]; repeat (apply f_equal2; [assumption|]); reflexivity |
      ccbv; repeat match goal with H : lookup0 _ _ = _ |- _ => rewrite <- H in *; clear H end ]) ].

Section G2.
Context {K : cring}.
Variable ec : string -> list (list nat) -> nat.
Variable c : nat.
Hypothesis Hec : some_order ec.

Lemma shape_pos (a : tt K) i : wf a -> i < ndims a -> Forall (fun n => 0 < n) (shape (core a i)).
Proof.
  intros Ha Hi. rewrite (core_shape _ a _ Ha Hi). apply Forall_app. split; [apply (wf_bpos Ha)|]. constructor; [apply rk_pos; auto; lia|].
  apply Forall_app. split; [now apply modes_pos|]. repeat constructor. apply rk_pos; auto; lia.
Qed.

Lemma fi_step_any (a b : tt K) i (r : tensor K) : wf a -> wf b -> is_tt_matrix a = is_tt_matrix b -> i < ndims a -> i < ndims b ->
  shape r = pre_of (ubs (bsz a) (bsz b)) ++ [rk a i; rk b i] ->
  tcost ec c (t_einsum (fi_eq K a b) [r; core a i; core b i])
    (fun r => shape r = pre_of (ubs (bsz a) (bsz b)) ++ [rk a (S i); rk b (S i)])
    (2 * (Nat.max (bnum a) (bnum b) * (rmax a * rmax a * (rmax b * rmax b) * nmax a))).
Proof.
  intros Ha Hb Hk Hi Hi' Sr.
  pose proof (core_shape _ a _ Ha Hi) as Sa; pose proof (core_shape _ b _ Hb Hi') as Sb.
  assert (HB : match ubs (bsz a) (bsz b) with Some x => x | None => 1 end <= Nat.max (bnum a) (bnum b)).
  { unfold bnum, ubs. destruct (bsz a), (bsz b); lia. }
  assert (Q1 : match ubs (bsz a) (bsz b) with Some x => x | None => 1 end * rk a i * rk a (S i) * rk b i * rk b (S i) * prodn (modes a i) <=
               Nat.max (bnum a) (bnum b) * rmax a * rmax a * rmax b * rmax b * nmax a).
  { repeat apply Nat.mul_le_mono; auto using rk_max, modes_max. }
  pose proof (shape_pos a i Ha Hi) as Pa. pose proof (shape_pos b i Hb Hi') as Pb.
  assert (Pr : Forall (fun n => 0 < n) (shape r)).
  { rewrite Sr. apply Forall_app. split; [|repeat constructor; apply rk_pos; auto; lia].
    pose proof (wf_bpos Ha). pose proof (wf_bpos Hb). unfold bpre, ubs in *. destruct (bsz a), (bsz b); auto. }
  assert (PP : Forall (fun x => Forall (fun n => 0 < n) (shape x)) [r; core a i; core b i]) by (repeat constructor; assumption). clear Pa Pb Pr.
  unfold fi_eq, fi_init, fi_b, fi_r, fi_ax, is_batch, ubs, bpre in *. set (B := Nat.max (bnum a) (bnum b)) in *. clearbody B. clear HB.
  destruct (wf_kind_cases _ a Ha) as [(E & _ & Hm)|(E & _ & Hm)], (wf_kind_cases _ b Hb) as [(E' & _ & Hm')|(E' & _ & Hm')];
   try congruence; rewrite E, Hm, Hm' in *; clear E Hm E' Hm';
  destruct (bsz a) as [x|], (bsz b) as [y|]; cbn [pre_of app] in *;
    (acost; [exact PP|unfold prodn in Q1; cbn [fold_right] in Q1; lia]).
Qed.

Lemma fi_init_any (a b : tt K) : wf a -> wf b -> is_tt_matrix a = is_tt_matrix b ->
  tcost ec c (t_einsum (fi_init K a b) [core a 0; core b 0])
    (fun r => shape r = pre_of (ubs (bsz a) (bsz b)) ++ [rk a 1; rk b 1])
    (2 * (Nat.max (bnum a) (bnum b) * (rmax a * rmax a * (rmax b * rmax b) * nmax a))).
Proof.
  intros Ha Hb Hk. pose proof (wf_d Ha) as Hi. pose proof (wf_d Hb) as Hi'.
  pose proof (core_shape _ a _ Ha Hi) as Sa; pose proof (core_shape _ b _ Hb Hi') as Sb.
  assert (HB : match ubs (bsz a) (bsz b) with Some x => x | None => 1 end <= Nat.max (bnum a) (bnum b)).
  { unfold bnum, ubs. destruct (bsz a), (bsz b); lia. }
  assert (Q1 : match ubs (bsz a) (bsz b) with Some x => x | None => 1 end * rk a 0 * rk a 1 * rk b 0 * rk b 1 * prodn (modes a 0) <=
               Nat.max (bnum a) (bnum b) * rmax a * rmax a * rmax b * rmax b * nmax a).
  { repeat apply Nat.mul_le_mono; auto using rk_max, modes_max. }
  pose proof (shape_pos a 0 Ha Hi) as Pa. pose proof (shape_pos b 0 Hb Hi') as Pb.
  assert (PP : Forall (fun x => Forall (fun n => 0 < n) (shape x)) [core a 0; core b 0]) by (repeat constructor; assumption). clear Pa Pb.
  unfold fi_init, fi_b, fi_r, fi_ax, is_batch, ubs, bpre in *. set (B := Nat.max (bnum a) (bnum b)) in *. clearbody B. clear HB.
  destruct (wf_kind_cases _ a Ha) as [(E & _ & Hm)|(E & _ & Hm)], (wf_kind_cases _ b Hb) as [(E' & _ & Hm')|(E' & _ & Hm')];
   try congruence; rewrite E, Hm, Hm' in *; clear E Hm E' Hm';
  destruct (bsz a) as [x|], (bsz b) as [y|]; cbn [pre_of app] in *;
    (acost; [exact PP|unfold prodn in Q1; cbn [fold_right] in Q1; lia]).
Qed.

Lemma flat_inner_any (a b : tt K) : wf a -> wf b ->
  tcost ec c (t_flat_inner a b) (fun _ => True)
    (2 * (Nat.max (bnum a) (bnum b) * ndims a * (rmax a * rmax a * (rmax b * rmax b) * nmax a))).
Proof.
  intros Ha Hb. unfold t_flat_inner.
  destruct (Bool.eqb (is_tt_matrix a) (is_tt_matrix b)) eqn:Ek; [|exact I]. apply Bool.eqb_prop in Ek. cbn [negb].
  destruct (is_batch_broadcasting_possible a b); [|exact I]. cbn [negb].
  destruct (Nat.eqb_spec (ndims b) (ndims a)) as [Hd|Hd]; [|exact I]. cbn [negb]. rewrite <- Ek, Bool.andb_diag. cbv zeta.
  apply tcost_free. intros a' Ea. apply tcost_free. intros b' Eb.
  destruct (sq_facts a a' Ha Ea) as (Wa & Ma & Ra & Na & Da & Ba). destruct (sq_facts b b' Hb Eb) as (Wb & Mb & Rb & Nb & Db & Bb).
  rewrite <- Ma, <- Da, <- Ra, <- Rb, <- Na, <- Ba, <- Bb. fold (fi_ax K a') (fi_b K a') (fi_b K b') (fi_r K a' b'). fold (fi_init K a' b') (fi_eq K a' b').
  set (U := 2 * (Nat.max (bnum a') (bnum b') * (rmax a' * rmax a' * (rmax b' * rmax b') * nmax a'))).
  pose proof (wf_d Wa) as Hd0.
  apply (tcost_weak ec c _ (fun _ => True) _ (U + ((ndims a' - 1) * U + 0))).
  2: exact (fun _ _ => I).
  2:{ replace (2 * _) with (ndims a' * U) by (unfold U; lia). nia. }
  eapply tcost_bind; [apply fi_init_any; congruence|]. intros r0 S0. eapply tcost_bind.
  - apply (tcost_seq ec c _ (fun i r => shape r = pre_of (ubs (bsz a') (bsz b')) ++ [rk a' i; rk b' i]) U); [exact S0|].
    intros j s Hj Sj. apply fi_step_any; auto; congruence || lia.
  - intros r _. apply tcost_ret. exact I.
Qed.
End G2.
