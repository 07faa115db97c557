(** [flat_inner] of two TT objects: correctness and errors. *)
From Coq Require Import String Ascii List Arith ZArith Lia Bool Ring.
From Verif Require Import Scalar Tensor TensorLemmas TensorLemmas2 Base Spec Chain BaseLemmas Ops
  FullProofs ResultLemmas Dense AddProofs MulProofs MatmulProofs DenseMatmul Sweep.
Import ListNotations.

Section WithK.
Variable K : cring.
Add Ring Kring : (cth K).
Implicit Types t : tt K.

(** Batch size of the combination of two squeezed objects, and batch coordinate of an element. *)
Definition ubs (x y : option nat) : option nat := match y with Some B => Some B | None => x end.
Definition bo (bs : option nat) (o : nat) : list nat := match bs with Some _ => [o] | None => [] end.

Definition fi_ax (a : tt K) : string := if is_tt_matrix a then "ij" else "i".
Definition fi_b (a : tt K) : string := if is_batch a then "o" else "".
Definition fi_r (a b : tt K) : string := if is_batch a || is_batch b then "o" else "".
Definition fi_init (a b : tt K) : string :=
  (fi_b a ++ "a" ++ fi_ax a ++ "b," ++ fi_b b ++ "c" ++ fi_ax a ++ "d->" ++ fi_r a b ++ "bd")%string.
Definition fi_eq (a b : tt K) : string :=
  (fi_r a b ++ "ac," ++ fi_init a b)%string.

Definition inrange (bs : option nat) (o : nat) : Prop := match bs with Some B => o < B | None => True end.

Lemma bsel_bo (t : tt K) bs o : bsz t = bs -> inrange bs o -> bsel t o = bo bs o.
Proof.
  intros E H. unfold bsel, bo, inrange in *. rewrite E. destruct bs as [[|[|B]]|]; auto. now replace o with 0 by lia.
Qed.

Ltac fi_kinds a b Ha Hb Hi Hi' Hr :=
  let Sa := fresh "Sa" in let Sb := fresh "Sb" in
  pose proof (core_shape _ a _ Ha Hi) as Sa; pose proof (core_shape _ b _ Hb Hi') as Sb;
  rewrite <- (modes_ext _ a b _ Hr) in Sb;
  unfold fi_eq, fi_init, fi_b, fi_r, fi_ax, is_batch, ubs, bo, inrange, bpre, coreG, bsel in *;
  let E := fresh "E" in let Hm := fresh "Hm" in
  destruct (wf_kind_cases _ a Ha) as [(E & _ & Hm)|(E & _ & Hm)]; rewrite E, Hm in *; clear E Hm;
  let Ba := fresh "Ba" in let Bb := fresh "Bb" in
  destruct (bsz a) as [[|[|]]|] eqn:Ba; destruct (bsz b) as [[|[|]]|] eqn:Bb.

Lemma fi_step_ok (a b : tt K) i (r : tensor K) : wf a -> wf b -> rshape a = rshape b -> i < ndims a -> i < ndims b ->
  (match bsz a, bsz b with Some x, Some y => x = y | _, _ => True end) ->
  shape r = pre_of (ubs (bsz a) (bsz b)) ++ [rk a i; rk b i] ->
  exists r', einsum (fi_eq a b) [r; core a i; core b i] = Ok r' /\ wft r' /\
    shape r' = pre_of (ubs (bsz a) (bsz b)) ++ [rk a (S i); rk b (S i)] /\
    forall o u v, inrange (ubs (bsz a) (bsz b)) o -> u < rk a (S i) -> v < rk b (S i) ->
      get r' (bo (ubs (bsz a) (bsz b)) o ++ [u; v]) =
      sumn (rk a i) (fun x => sumn (rk b i) (fun y => isum (modes a i) (fun j =>
        get r (bo (ubs (bsz a) (bsz b)) o ++ [x; y]) *
        (coreG a (bo (bsz a) o) i x j u * coreG b (bo (bsz b) o) i y j v))))%K.
Proof.
  intros Ha Hb Hr Hi Hi' Hbs Sr.
  pose proof (core_shape _ a _ Ha Hi) as Sa; pose proof (core_shape _ b _ Hb Hi') as Sb.
  rewrite <- (modes_ext _ a b _ Hr) in Sb.
  unfold fi_eq, fi_init, fi_b, fi_r, fi_ax, is_batch, ubs, bo, inrange, bpre, coreG in *.
  destruct (wf_kind_cases _ a Ha) as [(E & _ & Hm)|(E & _ & Hm)]; rewrite E, Hm in *; clear E Hm;
  destruct (bsz a) as [x|], (bsz b) as [y|]; cbn [pre_of app] in *; try subst y;
    einsum_step; eexists; (split; [reflexivity|]); (split; [apply wft_mk|]); (split; [reflexivity|]);
    intros; cbn [app isum]; rewrite get_mk by vsolve; ecbv; reflexivity.
Qed.

Lemma fi_init_ok (a b : tt K) : wf a -> wf b -> rshape a = rshape b ->
  (match bsz a, bsz b with Some x, Some y => x = y | _, _ => True end) ->
  exists r', einsum (fi_init a b) [core a 0; core b 0] = Ok r' /\ wft r' /\
    shape r' = pre_of (ubs (bsz a) (bsz b)) ++ [rk a 1; rk b 1] /\
    forall o u v, inrange (ubs (bsz a) (bsz b)) o -> u < rk a 1 -> v < rk b 1 ->
      get r' (bo (ubs (bsz a) (bsz b)) o ++ [u; v]) =
      isum (modes a 0) (fun j => coreG a (bo (bsz a) o) 0 0 j u * coreG b (bo (bsz b) o) 0 0 j v)%K.
Proof.
  intros Ha Hb Hr Hbs. pose proof (wf_d Ha) as Hi. pose proof (wf_d Hb) as Hi'.
  pose proof (core_shape _ a _ Ha Hi) as Sa; pose proof (core_shape _ b _ Hb Hi') as Sb.
  rewrite <- (modes_ext _ a b _ Hr) in Sb. rewrite (wf_first Ha) in Sa. rewrite (wf_first Hb) in Sb.
  unfold fi_init, fi_b, fi_r, fi_ax, is_batch, ubs, bo, inrange, bpre, coreG in *.
  destruct (wf_kind_cases _ a Ha) as [(E & _ & Hm)|(E & _ & Hm)]; rewrite E, Hm in *; clear E Hm;
  destruct (bsz a) as [x|], (bsz b) as [y|]; cbn [pre_of app] in *; try subst y;
    einsum_step; eexists; (split; [reflexivity|]); (split; [apply wft_mk|]); (split; [reflexivity|]);
    intros; cbn [app isum]; rewrite get_mk by vsolve; ecbv; rewrite sumn_1;
    repeat (apply sumn_ext; intros ? _); rewrite sumn_1; reflexivity.
Qed.

(** The sweep on squeezed operands. *)
Definition fi_inv (a b : tt K) (i : nat) (r : tensor K) : Prop :=
  wft r /\ shape r = pre_of (ubs (bsz a) (bsz b)) ++ [rk a i; rk b i] /\
  forall o u v, inrange (ubs (bsz a) (bsz b)) o -> u < rk a i -> v < rk b i ->
    get r (bo (ubs (bsz a) (bsz b)) o ++ [u; v]) =
    penv (modes a) (coreG a (bo (bsz a) o)) (rk a) (coreG b (bo (bsz b) o)) (rk b) i u v.

Lemma sweep_ok (a b : tt K) : wf a -> wf b -> rshape a = rshape b -> ndims a = ndims b ->
  (match bsz a, bsz b with Some x, Some y => x = y | _, _ => True end) ->
  exists r0 r, einsum (fi_init a b) [core a 0; core b 0] = Ok r0 /\
    foldM (fun i r => einsum (fi_eq a b) [r; core a i; core b i]) (seq 1 (ndims a - 1)) r0 = Ok r /\
    wft r /\ shape r = pre_of (ubs (bsz a) (bsz b)) ++ [1; 1] /\
    forall o, inrange (ubs (bsz a) (bsz b)) o ->
    get r (bo (ubs (bsz a) (bsz b)) o ++ [0; 0]) =
    jsum (all_modes a) (fun J => tt_entry a (bo (bsz a) o) J * tt_entry b (bo (bsz b) o) J)%K.
Proof.
  intros Ha Hb Hr Hd Hbs. pose proof (wf_d Ha) as Hd0.
  assert (R0 : 0 < rk a 0) by (rewrite (wf_first Ha); lia).
  assert (R0' : 0 < rk b 0) by (rewrite (wf_first Hb); lia).
  destruct (fi_init_ok a b Ha Hb Hr Hbs) as (r0 & E0 & W0 & S0 & G0).
  exists r0. rewrite E0.
  destruct (foldM_seq (fun i r => einsum (fi_eq a b) [r; core a i; core b i]) (fi_inv a b) (ndims a - 1) 1 r0)
    as (r & Er & Wr & Sr & Gr).
  - split; [exact W0|]. split; [exact S0|]. intros o u v Ho Hu Hv. rewrite G0 by auto.
    rewrite penv_S by auto. rewrite (wf_first Ha), (wf_first Hb), !sumn_1. apply isum_ext. intros j _.
    rewrite penv_0. ring.
  - intros i r Hi (Wr & Sr & Gr).
    destruct (fi_step_ok a b i r Ha Hb Hr ltac:(lia) ltac:(lia) Hbs Sr) as (r' & E1 & W1 & S1 & G1).
    exists r'. split; [exact E1|]. split; [exact W1|]. split; [exact S1|].
    intros o u v Ho Hu Hv. rewrite G1, penv_S by auto.
    apply sumn_ext. intros x Hx. apply sumn_ext. intros y Hy. apply isum_ext. intros j _. now rewrite Gr.
  - replace (1 + (ndims a - 1)) with (ndims a) in * by lia.
    rewrite (wf_last Ha) in *. rewrite Hd, (wf_last Hb) in *. rewrite <- Hd in *.
    exists r. split; [reflexivity|]. split; [exact Er|]. split; [exact Wr|]. split; [exact Sr|].
    intros o Ho. rewrite Gr by (auto; lia). unfold penv. fold (all_modes a). apply jsum_ext. intros J HJ.
    apply vjdx_seq in HJ as [HJ HL]. unfold tt_entry.
    rewrite !lv_last; auto; rewrite HL; [|apply (wf_last Ha)]. rewrite Hd. apply (wf_last Hb).
Qed.

(** Dense level.  For a TensorTrain the batch coordinate is absent. *)
Definition inner_values (a b : tt K) (r : tensor K) : Prop :=
  exists da db, full a = Ok da /\ full b = Ok db /\
  forall o, inrange (mm_bs a b) o ->
    get r (bo (mm_bs a b) o) =
    isum (ishape a) (fun i => get da (opidx (bsz a) o i) * get db (opidx (bsz b) o i))%K.

Lemma flat_inner_full (a b : tt K) : wf a -> wf b -> rshape a = rshape b -> bc_ok (bsz a) (bsz b) ->
  exists r, tt_tt_flat_inner a b = Ok r /\ wft r /\ shape r = pre_of (mm_bs a b) /\ inner_values a b r.
Proof.
  intros Ha Hb Hr Hbc.
  assert (Hd : ndims a = ndims b) by (apply (same_ndims K a b Ha Hb Hr)).
  assert (Hm : is_tt_matrix b = is_tt_matrix a) by (unfold is_tt_matrix; now rewrite Hr).
  pose proof (proj1 (bc_ok_possible K a b) Hbc) as Hbp.
  unfold tt_tt_flat_inner. rewrite Hm, Hbp, <- Hd, Nat.eqb_refl, Bool.eqb_reflx, Bool.andb_diag. cbn [negb].
  destruct (squeeze_entries K a Ha) as (a' & Sa & Wa & Ra & Ka & Ba & Na & Ea). rewrite Sa. cbn [bind].
  destruct (squeeze_entries K b Hb) as (b' & Sb & Wb & Rb & Kb & Bb & Nb & Eb). rewrite Sb. cbn [bind].
  assert (Hma : is_tt_matrix a = is_tt_matrix a') by (unfold is_tt_matrix; now rewrite Ra).
  rewrite Hma, <- Na. fold (fi_ax a'). fold (fi_b a') (fi_b b') (fi_r a' b'). fold (fi_init a' b') (fi_eq a' b').
  pose proof (wf_bpos Ha) as P1. pose proof (wf_bpos Hb) as P2. unfold bpre in P1, P2.
  assert (Hbs : match bsz a', bsz b' with Some x, Some y => x = y | _, _ => True end).
  { rewrite Ba, Bb. unfold sqb, bc_ok in *. destruct (bsz a) as [[|[|x]]|], (bsz b) as [[|[|y]]|]; auto;
     try lia; exfalso; inversion P1; inversion P2; subst; lia. }
  assert (Eu : ubs (bsz a') (bsz b') = mm_bs a b).
  { rewrite Ba, Bb. unfold mm_bs, sqb, ubs. destruct (bsz b) as [[|[|y]]|]; auto. }
  destruct (sweep_ok a' b' Wa Wb ltac:(congruence) ltac:(congruence) Hbs) as (r0 & r & E0 & E1 & Wr & Sr & Gr).
  rewrite E0. cbn [bind]. rewrite E1. cbn [bind]. rewrite Eu in *.
  assert (HB : match mm_bs a b with Some B => 1 < B | None => True end).
  { unfold mm_bs, sqb. destruct (bsz a) as [[|[|x]]|], (bsz b) as [[|[|y]]|]; auto; try lia;
    inversion P1; inversion P2; subst; lia. }
  assert (Ss : shape (squeeze r) = pre_of (mm_bs a b)).
  { unfold squeeze. cbn [shape]. rewrite Sr. destruct (mm_bs a b) as [B|]; cbn [pre_of app filter].
    - destruct (Nat.eqb_spec B 1); [lia|]. reflexivity.
    - reflexivity. }
  exists (squeeze r). split; [reflexivity|]. split; [|split; [exact Ss|]].
  { unfold wft in *. rewrite Ss. unfold squeeze. cbn [data]. rewrite Wr, Sr. pns. lia. }
  destruct (full_correct K a Ha) as (da & Fa & Wda & Sda & Eda).
  destruct (full_correct K b Hb) as (db & Fb & Wdb & Sdb & Edb).
  exists da, db. split; [exact Fa|]. split; [exact Fb|]. intros o Ho.
  transitivity (get r (bo (mm_bs a b) o ++ [0; 0])).
  { unfold get. rewrite Ss, Sr. unfold squeeze. cbn [data]. f_equal.
    destruct (mm_bs a b) as [B|]; cbn [bo pre_of app ravel]; pns; lia. }
  rewrite Gr by auto.
  assert (HC : vidx (bpre a) (bsel a o) /\ vidx (bpre b) (bsel b o) /\ bsel a' o = bo (bsz a') o /\ bsel b' o = bo (bsz b') o).
  { unfold bpre, bsel, mm_bs, sqb, bc_ok, inrange, bo in *. rewrite Ba, Bb.
    destruct (bsz a) as [[|[|x]]|], (bsz b) as [[|[|y]]|]; try (exfalso; inversion P1; inversion P2; subst; lia);
      repeat split; try (apply vidx_nil); try (apply vidx_cons; [|apply vidx_nil]); lia. }
  destruct HC as (C1 & C2 & C3 & C4).
  rewrite (isum_ext _ _ _ (fun i => tt_entry a (bsel a o) (split_idx a i) * tt_entry b (bsel b o) (split_idx a i))%K).
  2:{ intros i Hi. rewrite !opidx_bsel.
      assert (Hi' : vidx (ishape b) i) by (unfold ishape in *; now rewrite Hm, <- Hr).
      rewrite Eda by (rewrite get_shape_ishape; now apply vidx_app).
      rewrite Edb by (rewrite get_shape_ishape; now apply vidx_app).
      rewrite !tt_at_entry by auto. now rewrite (split_idx_ext _ b a) by auto. }
  rewrite (isum_split K a (fun J => tt_entry a (bsel a o) J * tt_entry b (bsel b o) J)%K) by auto.
  assert (EM : all_modes a' = all_modes a).
  { unfold all_modes. rewrite Na. apply map_ext. intros i. now apply modes_ext. }
  rewrite EM. apply jsum_ext. intros J HJ. apply vjdx_seq in HJ as [HJ HL].
  rewrite <- C3, <- C4. rewrite Ea, Eb; auto.
  - eapply vchain_ext; [|exact HJ]. intros i. now apply modes_ext.
  - congruence.
Qed.

(** Errors. *)
Lemma flat_inner_kind_err (a b : tt K) :
  is_tt_matrix a <> is_tt_matrix b \/ ~ bc_ok (bsz a) (bsz b) \/ ndims a <> ndims b ->
  tt_tt_flat_inner a b = Err ValueError.
Proof.
  intros H. unfold tt_tt_flat_inner.
  destruct (Bool.eqb (is_tt_matrix a) (is_tt_matrix b)) eqn:E; cbn [negb]; auto.
  apply Bool.eqb_prop in E. destruct (is_batch_broadcasting_possible a b) eqn:E2; cbn [negb]; auto.
  apply bc_ok_possible in E2. destruct (Nat.eqb_spec (ndims b) (ndims a)); cbn [negb]; auto.
  destruct H as [H|[H|H]]; try contradiction. congruence.
Qed.

Lemma fi_ok_modes (a b : tt K) i (l : list (tensor K)) r : wf a -> wf b -> i < ndims a -> i < ndims b ->
  is_tt_matrix a = is_tt_matrix b ->
  (einsum (fi_init a b) [core a i; core b i] = Ok r \/ exists r0, einsum (fi_eq a b) [r0; core a i; core b i] = Ok r) ->
  modes a i = modes b i.
Proof.
  intros Ha Hb Hi Hi' Hm H.
  pose proof (core_shape _ a _ Ha Hi) as Sa; pose proof (core_shape _ b _ Hb Hi') as Sb.
  assert (HF : exists env, Forall2 (fun l n => lookup l env = Some n)
       (list_ascii_of_string (fi_b a ++ "a" ++ fi_ax a ++ "b")) (shape (core a i)) /\
     Forall2 (fun l n => lookup l env = Some n)
       (list_ascii_of_string (fi_b b ++ "c" ++ fi_ax a ++ "d")) (shape (core b i))).
  { unfold fi_eq, fi_init, fi_b, fi_ax, fi_r, is_batch in *.
    destruct H as [H|[r0 H]]; destruct (is_tt_matrix a), (bsz a), (bsz b);
    (eapply einsum_ok_inv in H as [env H]; [|reflexivity]; exists env; cbn [app] in H;
     repeat match goal with H : Forall2 _ (_ :: _) (_ :: _) |- _ => inversion H; clear H; subst end;
     split; assumption). }
  destruct HF as (env & H1 & H2). rewrite Sa in H1. rewrite Sb in H2.
  unfold fi_b, fi_ax, is_batch, bpre in *.
  destruct (wf_kind_cases _ a Ha) as [(E & _ & Ma)|(E & _ & Ma)];
  destruct (wf_kind_cases _ b Hb) as [(E' & _ & Mb)|(E' & _ & Mb)]; try congruence; rewrite E, Ma, Mb in *;
  destruct (bsz a) as [x|], (bsz b) as [y|]; cbn [app String.append list_ascii_of_string] in H1, H2;
  repeat match goal with H : Forall2 _ (_ :: _) (_ :: _) |- _ => inversion H; clear H; subst end;
  repeat match goal with |- _ :: _ = _ :: _ => apply f_equal2 end; congruence.
Qed.

Lemma flat_inner_shape_err (a b : tt K) : wf a -> wf b -> rshape a <> rshape b ->
  exists er, tt_tt_flat_inner a b = Err er.
Proof.
  intros Ha Hb Hr.
  destruct (tt_tt_flat_inner a b) as [r|er] eqn:E; [|eauto]. exfalso. apply Hr.
  destruct (bool_dec (is_tt_matrix a) (is_tt_matrix b)) as [Hm|Hm].
  2:{ rewrite flat_inner_kind_err in E by auto. discriminate. }
  destruct (is_batch_broadcasting_possible a b) eqn:Hbp.
  2:{ rewrite flat_inner_kind_err in E; [discriminate|]. right; left. intros H. apply bc_ok_possible in H. congruence. }
  destruct (Nat.eq_dec (ndims a) (ndims b)) as [Hd|Hd].
  2:{ rewrite flat_inner_kind_err in E by auto. discriminate. }
  unfold tt_tt_flat_inner in E. rewrite <- Hm, Hbp, <- Hd, Nat.eqb_refl, Bool.eqb_reflx, Bool.andb_diag in E. cbn [negb] in E.
  destruct (squeeze_entries K a Ha) as (a' & Sa & Wa & Ra & Ka & Ba & Na & Ea). rewrite Sa in E. cbn [bind] in E.
  destruct (squeeze_entries K b Hb) as (b' & Sb & Wb & Rb & Kb & Bb & Nb & Eb). rewrite Sb in E. cbn [bind] in E.
  assert (Hma : is_tt_matrix a = is_tt_matrix a') by (unfold is_tt_matrix; now rewrite Ra).
  rewrite Hma, <- Na in E. fold (fi_ax a') (fi_b a') (fi_b b') (fi_r a' b') in E.
  fold (fi_init a' b') (fi_eq a' b') in E.
  destruct (einsum (fi_init a' b') [core a' 0; core b' 0]) as [r0|] eqn:E0; [|discriminate]. cbn [bind] in E.
  match type of E with context [foldM ?f ?l ?s] => destruct (foldM f l s) as [r1|] eqn:E1; [|discriminate] end.
  rewrite <- Ra, <- Rb. apply (rshape_ext K a' b' Wa Wb).
  - rewrite <- Hma, Hm. unfold is_tt_matrix. now rewrite Rb.
  - congruence.
  - assert (Hm' : is_tt_matrix a' = is_tt_matrix b') by (rewrite <- Hma, Hm; unfold is_tt_matrix; now rewrite Rb).
    intros i Hi. destruct i as [|i].
    + eapply (fi_ok_modes a' b' 0 [] r0); auto; lia.
    + destruct (foldM_ok_each _ _ _ _ (S i) E1) as (s1 & s2 & Es).
      { apply in_seq. lia. }
      eapply (fi_ok_modes a' b' (S i) [] s2); auto; [lia|]. right. eauto.
Qed.

End WithK.
Arguments inner_values {K} _ _ _.
