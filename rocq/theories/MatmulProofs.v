(** [matmul] of two TT-matrices: correctness. *)
From Coq Require Import String List Arith ZArith Lia Bool Ring.
From Verif Require Import Scalar Tensor TensorLemmas TensorLemmas2 Base Spec Chain BaseLemmas Ops
  FullProofs ResultLemmas Dense AddProofs MulProofs.
Import ListNotations.

Definition pairs (I J : list nat) : list (list nat) := map2 (fun i j => [i; j]) I J.

(** [full c] is the matrix product of [full a] and [full b] (for batches: of every element). *)
Definition matrix_product {K : cring} (a b c : tt K) (M N P : nat) : Prop :=
  exists da db dc, full a = Ok da /\ full b = Ok db /\ full c = Ok dc /\
    match bsz c with
    | None => shape dc = [M; P] /\ forall i k, i < M -> k < P ->
        get dc [i; k] = sumn N (fun j => (get da (opidx (bsz a) 0 [i; j]) * get db (opidx (bsz b) 0 [j; k]))%K)
    | Some B => shape dc = [B; M; P] /\ forall o i k, o < B -> i < M -> k < P ->
        get dc [o; i; k] = sumn N (fun j => (get da (opidx (bsz a) o [i; j]) * get db (opidx (bsz b) o [j; k]))%K)
    end.

Section WithK.
Variable K : cring.
Add Ring Kring : (cth K).
Implicit Types e t : tt K.

Lemma vchain_nth ms k J : (forall m, m < length J -> vidx (ms (k + m)) (nth m J [])) -> vchain ms k J.
Proof.
  revert k; induction J as [|j J IH]; intros k H; cbn; auto. split.
  - specialize (H 0). rewrite Nat.add_0_r in H. apply H. cbn; lia.
  - apply IH. intros m Hm. specialize (H (S m)). rewrite Nat.add_succ_r in H. apply H. cbn; lia.
Qed.

Lemma pairs_length I J : length I = length J -> length (pairs I J) = length I.
Proof. intros H. apply map2_length_min. exact H. Qed.

Lemma pairs_nth I J m : length I = length J -> m < length I -> nth m (pairs I J) [] = [nth m I 0; nth m J 0].
Proof.
  revert J m; induction I; destruct J; intros m H Hm; cbn in *; try lia. destruct m; auto. apply IHI; lia.
Qed.

Lemma matrix_rows_len t : wf t -> is_tt_matrix t = true ->
  length (nth 0 (rshape t) []) = ndims t /\ length (nth 1 (rshape t) []) = ndims t.
Proof.
  intros Hw Hm. apply Nat.eqb_eq in Hm. pose proof (wf_rlen Hw) as L.
  split; apply (Forall_nth' _ _ _ [] L); lia.
Qed.

Lemma pairs_valid t I J : wf t -> is_tt_matrix t = true ->
  vidx (nth 0 (rshape t) []) I -> vidx (nth 1 (rshape t) []) J ->
  vchain (modes t) 0 (pairs I J) /\ length (pairs I J) = ndims t.
Proof.
  intros Hw Hm HI HJ. destruct (matrix_rows_len t Hw Hm) as [L0 L1].
  pose proof (vidx_length _ _ HI) as LI. pose proof (vidx_length _ _ HJ) as LJ.
  rewrite pairs_length by lia. split; [|lia].
  apply vchain_nth. intros m Hmm. rewrite pairs_length in Hmm by lia. rewrite pairs_nth by lia.
  rewrite Nat.add_0_l.
  destruct (wf_kind_cases _ t Hw) as [(E & _)|(_ & _ & E)]; [congruence|]. rewrite E. unfold mode.
  apply vidx_cons; [apply vidx_nth; auto; lia|]. apply vidx_cons; [apply vidx_nth; auto; lia|]. constructor.
Qed.

Lemma chain_matmul (Ga Gb Gc : nat -> nat -> list nat -> nat -> K) ra rb rc (ms ns ps : nat -> nat) k I Q va vb vc (a c : nat) :
  length I = length Q -> vchain (fun m => [ms m; ps m]) k (pairs I Q) -> a < ra k -> c < rb k ->
  (forall m, k <= m <= k + length I -> rc m = (ra m * rb m)%nat) ->
  (forall m a c i q b d, k <= m < k + length I -> a < ra m -> c < rb m -> i < ms m -> q < ps m ->
     b < ra (S m) -> d < rb (S m) ->
     Gc m (a * rb m + c)%nat [i; q] (b * rb (S m) + d)%nat =
     sumn (ns m) (fun j => Ga m a [i; j] b * Gb m c [j; q] d)%K) ->
  (forall b d, b < ra (k + length I)%nat -> d < rb (k + length I)%nat ->
     vc (b * rb (k + length I) + d)%nat = (va b * vb d)%K) ->
  chain Gc rc k (pairs I Q) vc (a * rb k + c) =
  isum (map ns (seq k (length I))) (fun J =>
    chain Ga ra k (pairs I J) va a * chain Gb rb k (pairs J Q) vb c)%K.
Proof.
  revert k Q a c; induction I as [|i I IH]; intros k [|q Q] a c HL HJ Ha Hc Hr HG Hv; cbn in HL; try lia;
    cbn [pairs map2 chain length seq map isum] in *.
  - rewrite Nat.add_0_r in *. now apply Hv.
  - destruct HJ as [Hj HJ]. apply vidx_2_inv in Hj as (i' & q' & E & Hi & Hq). injection E as <- <-.
    rewrite Hr by lia. rewrite sumn_prod.
    rewrite (sumn_ext _ (ra (S k)) _ (fun b => sumn (rb (S k)) (fun d => sumn (ns k) (fun j =>
      isum (map ns (seq (S k) (length I))) (fun J =>
        (Ga k a [i; j] b * chain Ga ra (S k) (pairs I J) va b) *
        (Gb k c [j; q] d * chain Gb rb (S k) (pairs J Q) vb d)))))%K).
    2:{ intros b Hb. apply sumn_ext. intros d Hd. rewrite HG by (auto; lia).
        fold (pairs I Q). rewrite (IH (S k) Q b d); auto; try lia.
        - rewrite <- sumn_mul_r. apply sumn_ext. intros j Hjj. rewrite <- isum_mul_l.
          apply isum_ext. intros J _. ring.
        - intros m Hm. apply Hr. lia.
        - intros. apply HG; auto; lia.
        - intros b' d' Hb' Hd'. rewrite Nat.add_succ_r in Hv. now apply Hv. }
    (* exchange sums *)
    rewrite (sumn_ext _ (ra (S k)) _ (fun b => sumn (ns k) (fun j => sumn (rb (S k)) (fun d =>
      isum (map ns (seq (S k) (length I))) (fun J =>
        (Ga k a [i; j] b * chain Ga ra (S k) (pairs I J) va b) *
        (Gb k c [j; q] d * chain Gb rb (S k) (pairs J Q) vb d)))))%K).
    2:{ intros b Hb. now rewrite sumn_swap. }
    rewrite sumn_swap. apply sumn_ext. intros j Hjj.
    rewrite (sumn_ext _ (ra (S k)) _ (fun b => isum (map ns (seq (S k) (length I))) (fun J =>
       sumn (rb (S k)) (fun d =>
        (Ga k a [i; j] b * chain Ga ra (S k) (pairs I J) va b) *
        (Gb k c [j; q] d * chain Gb rb (S k) (pairs J Q) vb d))))%K).
    2:{ intros b Hb. now rewrite isum_sumn_swap. }
    rewrite <- isum_sumn_swap. apply isum_ext. intros J _.
    fold (pairs I J). fold (pairs J Q).
    rewrite <- sumn_mul_r. apply sumn_ext. intros b Hb. now rewrite sumn_mul_l.
Qed.

Definition sqb (x : option nat) : option nat := match x with Some 1 => None | x => x end.

(** Entries of a squeezed object. *)
Lemma squeeze_entries t : wf t ->
  exists e, squeeze_batch_dim t = Ok e /\ wf e /\ rshape e = rshape t /\ rks e = rks t /\
    bsz e = sqb (bsz t) /\ ndims e = ndims t /\
    forall o J, vchain (modes t) 0 J -> length J = ndims t -> tt_entry e (bsel e o) J = tt_entry t (bsel t o) J.
Proof.
  intros Hw. destruct (squeeze_ok K t Hw) as (e & H1 & H2 & H3 & H4 & H5 & H6 & H7).
  assert (H5' : bsz e = sqb (bsz t)) by (rewrite H5; destruct (bsz t) as [[|[|x]]|]; reflexivity).
  exists e. repeat (split; [assumption|]). intros o J HJ HlJ. unfold tt_entry.
  rewrite (chain_ext_r _ (coreG e (bsel e o)) (rk e) (rk t)) by (intros; unfold rk; now rewrite H4).
  eapply chain_ext; eauto.
  - rewrite (wf_first Hw). lia.
  - intros. apply H7; auto. lia.
Qed.

(** The core loop on squeezed operands. *)
Lemma mm_einsum (a b : tt K) i : wf a -> wf b -> is_tt_matrix a = true -> is_tt_matrix b = true ->
  mode a 1 i = mode b 0 i -> i < ndims a -> i < ndims b ->
  (match bsz a, bsz b with Some x, Some y => x = y | _, _ => True end) ->
  let bstr x := if is_batch x then "o"%string else ""%string in
  let eq := (bstr a ++ "aijb," ++ bstr b ++ "cjkd->" ++
             (if is_batch a || is_batch b then "o" else "") ++ "acikbd")%string in
  let bs := match bsz b with Some x => Some x | None => bsz a end in
  exists c, einsum eq [core a i; core b i] = Ok c /\ wft c /\
    shape c = pre_of bs ++ rk a i :: rk b i :: [mode a 0 i; mode b 1 i] ++ [rk a (S i); rk b (S i)] /\
    forall o x y i' k' u v, (match bs with Some B => o < B | None => True end) ->
      x < rk a i -> y < rk b i -> i' < mode a 0 i -> k' < mode b 1 i ->
      u < rk a (S i) -> v < rk b (S i) ->
      get c ((match bs with Some _ => [o] | None => [] end) ++ x :: y :: [i'; k'] ++ [u; v]) =
      sumn (mode a 1 i) (fun j => coreG a (match bsz a with Some _ => [o] | None => [] end) i x [i'; j] u *
                                  coreG b (match bsz b with Some _ => [o] | None => [] end) i y [j; k'] v)%K.
Proof.
  intros Ha Hb Ma Mb Hm Hi Hi' Hbs bstr eq bs.
  pose proof (core_shape _ a i Ha Hi) as Sa. pose proof (core_shape _ b i Hb Hi') as Sb.
  destruct (wf_kind_cases _ a Ha) as [(E & _)|(_ & _ & Hma)]; [congruence|].
  destruct (wf_kind_cases _ b Hb) as [(E & _)|(_ & _ & Hmb)]; [congruence|].
  rewrite Hma in Sa. rewrite Hmb in Sb. rewrite <- Hm in Sb. clear Hma Hmb.
  subst bstr eq bs. unfold bpre, is_batch, coreG in *.
  destruct (bsz a) as [x|] eqn:Ba, (bsz b) as [y|] eqn:Bb; cbn [app] in Sa, Sb.
  - subst y. einsum_step. eexists. split; [reflexivity|]. split; [apply wft_mk|]. split; [reflexivity|].
    intros. cbn [app]. rewrite get_mk by vsolve. ecbv. reflexivity.
  - einsum_step. eexists. split; [reflexivity|]. split; [apply wft_mk|]. split; [reflexivity|].
    intros. cbn [app]. rewrite get_mk by vsolve. ecbv. reflexivity.
  - einsum_step. eexists. split; [reflexivity|]. split; [apply wft_mk|]. split; [reflexivity|].
    intros. cbn [app]. rewrite get_mk by vsolve. ecbv. reflexivity.
  - einsum_step. eexists. split; [reflexivity|]. split; [apply wft_mk|]. split; [reflexivity|].
    intros. cbn [app]. rewrite get_mk by vsolve. ecbv. reflexivity.
Qed.

(** Batch size of the result: a batch of one element counts as a single matrix. *)
Definition mm_bs (a b : tt K) : option nat := match sqb (bsz b) with Some x => Some x | None => sqb (bsz a) end.

Lemma tt_tt_matmul_ok (a b : tt K) : wf a -> wf b -> is_tt_matrix a = true -> is_tt_matrix b = true ->
  nth 1 (rshape a) [] = nth 0 (rshape b) [] ->
  is_batch_broadcasting_possible a b = true ->
  exists c, tt_tt_matmul a b = Ok c /\ wf c /\ rshape c = [nth 0 (rshape a) []; nth 1 (rshape b) []] /\
    rks c = map2 Nat.mul (rks a) (rks b) /\ bsz c = mm_bs a b /\ ndims c = ndims a /\
    forall o I Q, (match mm_bs a b with Some B => o < B | None => o = 0%nat end) ->
      vidx (nth 0 (rshape a) []) I -> vidx (nth 1 (rshape b) []) Q ->
      tt_entry c (match mm_bs a b with Some _ => [o] | None => [] end) (pairs I Q) =
      isum (nth 1 (rshape a) []) (fun J =>
        tt_entry a (bsel a o) (pairs I J) * tt_entry b (bsel b o) (pairs J Q))%K.
Proof.
  intros Ha Hb Ma Mb Hin Hbc.
  assert (Hd : ndims b = ndims a).
  { pose proof (wf_rlen Ha) as L1. pose proof (wf_rlen Hb) as L2.
    rewrite <- (Forall_nth' _ _ 1 [] L1), <- (Forall_nth' _ _ 0 [] L2).
    - now rewrite Hin.
    - destruct (wf_kind Hb); lia.
    - apply Nat.eqb_eq in Ma. lia. }
  unfold tt_tt_matmul. rewrite Ma, Mb, Hbc, Hd, Nat.eqb_refl. cbn [negb orb].
  destruct (squeeze_entries a Ha) as (a' & Sa & Wa & Ra & Ka & Ba & Na & Ea). rewrite Sa. cbn [bind].
  destruct (squeeze_entries b Hb) as (b' & Sb & Wb & Rb & Kb & Bb & Nb & Eb). rewrite Sb. cbn [bind].
  assert (Ma' : is_tt_matrix a' = true) by (unfold is_tt_matrix in *; now rewrite Ra).
  assert (Mb' : is_tt_matrix b' = true) by (unfold is_tt_matrix in *; now rewrite Rb).
  assert (Hmode : forall i, mode a' 1 i = mode b' 0 i).
  { intros i. unfold mode. now rewrite Ra, Rb, Hin. }
  assert (Hbb : match bsz a', bsz b' with Some x, Some y => x = y | _, _ => True end).
  { rewrite Ba, Bb. unfold is_batch_broadcasting_possible in Hbc. unfold sqb.
    destruct (bsz a) as [[|[|x]]|], (bsz b) as [[|[|y]]|]; auto; cbn in Hbc;
      rewrite ?orb_false_r in Hbc; try discriminate; apply Nat.eqb_eq in Hbc; congruence. }
  pose proof (fun i H1 H2 => mm_einsum a' b' i Wa Wb Ma' Mb' (Hmode i) H1 H2 Hbb) as HE. cbv zeta in HE.
  assert (Hra : forall i, rk a' i = rk a i) by (intros; unfold rk; now rewrite Ka).
  assert (Hrb : forall i, rk b' i = rk b i) by (intros; unfold rk; now rewrite Kb).
  pose proof (wf_klen Ha) as La. pose proof (wf_klen Hb) as Lb.
  assert (Hnr : forall i, nth i (map2 Nat.mul (rks a) (rks b)) 0 = rk a i * rk b i).
  { intros. apply nth_map2_mul. lia. }
  assert (EBS : match bsz b' with Some x => Some x | None => bsz a' end = mm_bs a b).
  { unfold mm_bs. now rewrite Ba, Bb. }
  rewrite EBS in *.
  rewrite Ra, Rb, Ka, Kb.
  assert (HposB : Forall (fun n => 0 < n) (pre_of (mm_bs a b))).
  { pose proof (wf_bpos Wa) as P1. pose proof (wf_bpos Wb) as P2. unfold bpre in P1, P2.
    rewrite <- EBS. destruct (bsz b'); auto. }
  match goal with |- context [mapM ?f _] => destruct (build_ok K f
    (fun i c => forall o x y i' k' u v, (match mm_bs a b with Some B => o < B | None => True end) ->
      x < rk a i -> y < rk b i -> i' < mode a 0 i -> k' < mode b 1 i ->
      u < rk a (S i) -> v < rk b (S i) ->
      get c ((match mm_bs a b with Some _ => [o] | None => [] end) ++ (x * rk b i + y) :: [i'; k'] ++ [u * rk b (S i) + v]) =
      sumn (mode a 1 i) (fun j => coreG a' (match bsz a' with Some _ => [o] | None => [] end) i x [i'; j] u *
                                  coreG b' (match bsz b' with Some _ => [o] | None => [] end) i y [j; k'] v)%K)
    (ndims a) (mm_bs a b) [nth 0 (rshape a) []; nth 1 (rshape b) []] (map2 Nat.mul (rks a) (rks b)))
    as (cs & Hcs & Hl & Hcon & Hw & HP) end; auto.
  - apply Ha.
  - apply Nat.eqb_eq in Ma, Mb. repeat constructor; [apply (Forall_nth' _ _ 0 [] (wf_rlen Ha)); lia|].
    rewrite <- Hd. apply (Forall_nth' _ _ 1 [] (wf_rlen Hb)); lia.
  - rewrite map2_length_min; lia.
  - rewrite Hnr, (wf_first Ha), (wf_first Hb). reflexivity.
  - rewrite Hnr, (wf_last Ha). rewrite <- Hd, (wf_last Hb). reflexivity.
  - apply Nat.eqb_eq in Ma, Mb. repeat constructor.
    + apply (Forall_nth' _ _ 0 [] (wf_rpos Ha)); lia.
    + apply (Forall_nth' _ _ 1 [] (wf_rpos Hb)); lia.
  - apply Forall_map2_mul; [apply Ha|apply Hb].
  - intros i Hi. destruct (HE i ltac:(lia) ltac:(lia)) as (c & Hc & Hwc & Hsc & Hgc).
    rewrite Hc. cbn [bind].
    destruct (merge_reshape_exact K c (pre_of (mm_bs a b)) (rk a' i) (rk b' i)
      [mode a' 0 i; mode b' 1 i] (rk a' (S i)) (rk b' (S i)) Hsc Hwc) as (c' & Hc' & Hwc' & Hsc' & Hgc').
    exists c'. split; [|split; [exact Hwc'|split]].
    + rewrite <- Hc'. destruct (mm_bs a b); reflexivity.
    + rewrite Hsc'. rewrite !Hnr, !Hra, !Hrb. cbn [map]. unfold mode. now rewrite Ra, Rb.
    + intros o x y i' k' u v Ho Hx Hy Hi' Hk' Hu Hv.
      rewrite !Hrb in Hgc'. rewrite Hgc'; [|destruct (mm_bs a b); reflexivity|reflexivity].
      assert (Em : mode a 1 i = mode a' 1 i) by (unfold mode; now rewrite Ra). rewrite Em.
      apply Hgc; rewrite ?Hra, ?Hrb; auto; unfold mode in *; now rewrite ?Ra, ?Rb.
  - match goal with |- context [mapM ?f _] => rewrite Hcs end. cbn [bind].
    set (c := TT cs [nth 0 (rshape a) []; nth 1 (rshape b) []] (map2 Nat.mul (rks a) (rks b)) (mm_bs a b)) in *.
    exists c. split.
    { unfold construct in Hcon. destruct (mm_bs a b); exact Hcon. }
    repeat (split; [first [reflexivity|assumption]|]).
    intros o I Q Ho HI HQ.
    assert (LI : length I = ndims a).
    { rewrite (vidx_length _ _ HI). apply (Forall_nth' _ _ 0 [] (wf_rlen Ha)). destruct (wf_kind Ha); lia. }
    assert (LQ : length Q = ndims a).
    { rewrite (vidx_length _ _ HQ), <- Hd. apply (Forall_nth' _ _ 1 [] (wf_rlen Hb)). apply Nat.eqb_eq in Mb; lia. }
    assert (E1 : isum (nth 1 (rshape a) []) (fun J =>
        tt_entry a (bsel a o) (pairs I J) * tt_entry b (bsel b o) (pairs J Q))%K =
      isum (nth 1 (rshape a) []) (fun J =>
        chain (coreG a' (match bsz a' with Some _ => [o] | None => [] end)) (rk a) 0 (pairs I J) (fun _ => c1) 0 *
        chain (coreG b' (match bsz b' with Some _ => [o] | None => [] end)) (rk b) 0 (pairs J Q) (fun _ => c1) 0)%K).
    { assert (Hb1 : forall e, (exists x, bsz e = sqb x) -> bsel e o = match bsz e with Some _ => [o] | None => [] end).
      { intros e (x & Hx). unfold bsel. rewrite Hx. unfold sqb. destruct x as [[|[|x]]|]; reflexivity. }
      apply isum_ext. intros J HJ.
      destruct (pairs_valid a I J Ha Ma HI HJ) as [V1 V2].
      destruct (pairs_valid b J Q Hb Mb ltac:(now rewrite <- Hin) HQ) as [V3 V4].
      rewrite <- Ea, <- Eb by auto. rewrite !Hb1 by eauto. unfold tt_entry.
      rewrite (chain_ext_r _ _ (rk a') (rk a)) by auto. now rewrite (chain_ext_r _ _ (rk b') (rk b)) by auto. }
    rewrite E1. unfold tt_entry.
    pose proof (chain_matmul
      (coreG a' (match bsz a' with Some _ => [o] | None => [] end))
      (coreG b' (match bsz b' with Some _ => [o] | None => [] end))
      (coreG c (match mm_bs a b with Some _ => [o] | None => [] end)) (rk a) (rk b) (rk c)
      (mode a 0) (mode a 1) (mode b 1) 0 I Q (fun _ => c1) (fun _ => c1) (fun _ => c1) 0 0) as HC.
    cbn [Nat.mul Nat.add] in HC.
    assert (En : map (mode a 1) (seq 0 (length I)) = nth 1 (rshape a) []).
    { destruct (matrix_rows_len a Ha Ma) as [_ L1]. rewrite LI, <- L1. apply map_nth_seq. }
    rewrite En in HC. apply HC; auto.
    + lia.
    + apply (pairs_valid c I Q Hw); auto.
    + rewrite (wf_first Ha). lia.
    + rewrite (wf_first Hb). lia.
    + intros m Hm. apply Hnr.
    + intros m x y i' q u v Hm Hx Hy Hi' Hq Hu Hv. unfold coreG at 1, core. cbn [cores c]. apply HP; auto; [lia|].
      destruct (mm_bs a b); auto.
    + intros. ring.
Qed.

(** Dense elements of a TT-matrix and of a TT-tensor. *)
Lemma full_matrix t : wf t -> is_tt_matrix t = true ->
  exists d, full t = Ok d /\ wft d /\
    shape d = bpre t ++ [prodn (nth 0 (rshape t) []); prodn (nth 1 (rshape t) [])] /\
    forall pre i j, vidx (bpre t) pre -> i < prodn (nth 0 (rshape t) []) -> j < prodn (nth 1 (rshape t) []) ->
      get d (pre ++ [i; j]) =
      tt_entry t pre (pairs (unravel (nth 0 (rshape t) []) i) (unravel (nth 1 (rshape t) []) j)).
Proof.
  intros Hw Hm. destruct (full_correct K t Hw) as (d & Fd & Wd & Sd & Ed).
  exists d. repeat (split; [assumption|]).
  assert (Hi : ishape t = [prodn (nth 0 (rshape t) []); prodn (nth 1 (rshape t) [])]).
  { unfold ishape. rewrite Hm. apply Nat.eqb_eq in Hm. destruct (rshape t) as [|s0 [|s1 [|? ?]]]; cbn in Hm; try lia.
    reflexivity. }
  rewrite get_shape_ishape, Hi in *. split; auto.
  intros pre i j Hpre Hii Hj. rewrite Ed by (apply vidx_app; auto; vsolve).
  rewrite tt_at_entry by auto. unfold split_idx. now rewrite Hm.
Qed.

Lemma full_tensor t : wf t -> is_tt_matrix t = false ->
  exists d, full t = Ok d /\ wft d /\ shape d = bpre t ++ nth 0 (rshape t) [] /\
    forall pre I, vidx (bpre t) pre -> vidx (nth 0 (rshape t) []) I ->
      get d (pre ++ I) = tt_entry t pre (map (fun i => [i]) I).
Proof.
  intros Hw Hm. destruct (full_correct K t Hw) as (d & Fd & Wd & Sd & Ed).
  exists d. repeat (split; [assumption|]).
  assert (Hi : ishape t = nth 0 (rshape t) []).
  { unfold ishape. rewrite Hm. reflexivity. }
  rewrite get_shape_ishape, Hi in *. split; auto.
  intros pre I Hpre HI. rewrite Ed by (apply vidx_app; auto).
  rewrite tt_at_entry by auto. unfold split_idx. now rewrite Hm.
Qed.

Lemma matmul_full (a b : tt K) : wf a -> wf b -> is_tt_matrix a = true -> is_tt_matrix b = true ->
  nth 1 (rshape a) [] = nth 0 (rshape b) [] ->
  is_batch_broadcasting_possible a b = true ->
  exists c, tt_tt_matmul a b = Ok c /\ wf c /\ rshape c = [nth 0 (rshape a) []; nth 1 (rshape b) []] /\
    rks c = map2 Nat.mul (rks a) (rks b) /\ bsz c = mm_bs a b /\
    matrix_product a b c (prodn (nth 0 (rshape a) [])) (prodn (nth 1 (rshape a) [])) (prodn (nth 1 (rshape b) [])).
Proof.
  intros Ha Hb Ma Mb Hin Hbc.
  destruct (tt_tt_matmul_ok a b Ha Hb Ma Mb Hin Hbc) as (c & Hc & Hw & R & Kc & EB & N & E).
  exists c. repeat (split; [assumption|]).
  assert (Mc : is_tt_matrix c = true) by (unfold is_tt_matrix; now rewrite R).
  destruct (full_matrix a Ha Ma) as (da & Fa & Wa & Sa & Ea).
  destruct (full_matrix b Hb Mb) as (db & Fb & Wb & Sb & Eb).
  destruct (full_matrix c Hw Mc) as (dc & Fc & Wc & Sc & Ec).
  exists da, db, dc. repeat (split; [assumption|]).
  assert (HC : forall o, (match mm_bs a b with Some B => o < B | None => o = 0 end) ->
     vidx (bpre a) (bsel a o) /\ vidx (bpre b) (bsel b o)).
  { intros o Ho. pose proof (wf_bpos Ha) as P1. pose proof (wf_bpos Hb) as P2.
    unfold bpre, bsel, mm_bs, sqb, is_batch_broadcasting_possible in *.
    destruct (bsz a) as [[|[|x]]|], (bsz b) as [[|[|y]]|]; cbn in Hbc; try discriminate;
      repeat match goal with H : Forall _ (_ :: _) |- _ => apply Forall_cons_iff in H as [? ?] end; try lia;
      split; try apply vidx_nil; (apply vidx_cons; [|apply vidx_nil]); try lia.
    rewrite ?orb_false_r in Hbc. apply Nat.eqb_eq in Hbc. lia. }
  assert (HM : forall o i k, (match mm_bs a b with Some B => o < B | None => o = 0 end) ->
      i < prodn (nth 0 (rshape a) []) -> k < prodn (nth 1 (rshape b) []) ->
      get dc ((match mm_bs a b with Some _ => [o] | None => [] end) ++ [i; k]) =
      sumn (prodn (nth 1 (rshape a) [])) (fun j => (get da (opidx (bsz a) o [i; j]) * get db (opidx (bsz b) o [j; k]))%K)).
  { intros o i k Ho Hi Hk. destruct (HC o Ho) as [HC1 HC2]. rewrite Ec.
    - rewrite R. cbn [nth]. rewrite E; auto using unravel_valid.
      rewrite isum_unravel. apply sumn_ext. intros j Hj. rewrite !opidx_bsel.
      rewrite Ea by auto. rewrite Hin in Hj. rewrite Eb by auto. now rewrite Hin.
    - unfold bpre. rewrite EB. destruct (mm_bs a b); [vsolve|constructor].
    - now rewrite R.
    - now rewrite R. }
  unfold bpre in Sc. rewrite R, EB in Sc. cbn [nth] in Sc. rewrite EB.
  destruct (mm_bs a b) as [B|]; (split; [exact Sc|]).
  - intros o i k Ho Hi Hk. now apply (HM o).
  - intros i k Hi Hk. now apply (HM 0).
Qed.

(** Errors *)
Lemma mapM_err {A B} (f : A -> res B) l x (e0 : err) : In x l -> f x = Err e0 -> exists er, mapM f l = Err er.
Proof.
  intros Hx He. induction l as [|y l IH]; [destruct Hx|]. cbn [mapM]. destruct Hx as [->|Hx].
  - rewrite He. eexists. reflexivity.
  - destruct (f y); [|eexists; reflexivity]. destruct (IH Hx) as [e' ->]. eexists. reflexivity.
Qed.

Lemma matmul_kind_err (a b : tt K) : is_tt_matrix a = false \/ is_tt_matrix b = false ->
  tt_tt_matmul a b = Err ValueError.
Proof.
  intros H. unfold tt_tt_matmul. destruct H as [-> | ->]; cbn [negb orb]; auto. now rewrite orb_true_r.
Qed.

Lemma matmul_batch_err (a b : tt K) : is_batch_broadcasting_possible a b = false \/ ndims a <> ndims b ->
  tt_tt_matmul a b = Err ValueError.
Proof.
  intros H. unfold tt_tt_matmul. destruct (_ || _); auto.
  destruct H as [H|H]; [now rewrite H|]. destruct (negb _); auto.
  assert (E : Nat.eqb (ndims b) (ndims a) = false) by (apply Nat.eqb_neq; auto). now rewrite E.
Qed.

Lemma matmul_inner_err (a b : tt K) : wf a -> wf b -> is_tt_matrix a = true -> is_tt_matrix b = true ->
  nth 1 (rshape a) [] <> nth 0 (rshape b) [] -> exists er, tt_tt_matmul a b = Err er.
Proof.
  intros Ha Hb Ma Mb Hin.
  destruct (is_batch_broadcasting_possible a b) eqn:Hbc.
  2:{ exists ValueError. apply matmul_batch_err. auto. }
  destruct (Nat.eq_dec (ndims a) (ndims b)) as [Hd|Hd].
  2:{ exists ValueError. apply matmul_batch_err. auto. }
  unfold tt_tt_matmul. rewrite Ma, Mb, Hbc, <- Hd, Nat.eqb_refl. cbn [negb orb].
  destruct (squeeze_entries a Ha) as (a' & Sa & Wa & Ra & Ka & Ba & Na & Ea). rewrite Sa. cbn [bind].
  destruct (squeeze_entries b Hb) as (b' & Sb & Wb & Rb & Kb & Bb & Nb & Eb). rewrite Sb. cbn [bind].
  destruct (matrix_rows_len a Ha Ma) as [_ L1]. destruct (matrix_rows_len b Hb Mb) as [L2 _].
  assert (Hex : exists i, i < ndims a /\ mode a' 1 i <> mode b' 0 i).
  { unfold mode. rewrite Ra, Rb. rewrite Hd in *. clear - Hin L1 L2. revert L1 L2 Hin. generalize (ndims b).
    generalize (nth 1 (rshape a) []), (nth 0 (rshape b) []). intros l. induction l as [|x l IH]; intros [|y m] d H1 H2 H; cbn in *.
    - congruence.
    - lia.
    - lia.
    - destruct (Nat.eq_dec x y) as [->|Hn].
      + destruct d as [|d]; [lia|]. destruct (IH m d) as (i & Hi & Hne); try lia; [congruence|].
        exists (S i). split; auto; lia.
      + exists 0. split; [lia|exact Hn]. }
  destruct Hex as (i & Hi & Hne).
  match goal with |- context [mapM ?f ?l] => assert (HE : exists er, mapM f l = Err er) end.
  { apply (mapM_err _ _ i TFError); [apply in_seq; lia|].
    assert (EE : einsum ((if is_batch a' then "o" else "") ++ "aijb," ++ (if is_batch b' then "o" else "") ++ "cjkd->" ++
        (if is_batch a' || is_batch b' then "o" else "") ++ "acikbd")%string [core a' i; core b' i] = Err TFError).
    { pose proof (core_shape _ a' i Wa ltac:(lia)) as Ca. pose proof (core_shape _ b' i Wb ltac:(lia)) as Cb.
      destruct (wf_kind_cases _ a' Wa) as [(E & _)|(_ & _ & Hma)]; [unfold is_tt_matrix in *; rewrite Ra in E; congruence|].
      destruct (wf_kind_cases _ b' Wb) as [(E & _)|(_ & _ & Hmb)]; [unfold is_tt_matrix in *; rewrite Rb in E; congruence|].
      rewrite Hma in Ca. rewrite Hmb in Cb. apply Nat.eqb_neq in Hne.
      unfold bpre, is_batch in *. destruct (bsz a') as [x|], (bsz b') as [y|]; cbn [app] in Ca, Cb;
        einsum_step; try (destruct (Nat.eqb x y); [|reflexivity]); cbv beta iota; rewrite ?Hne; ecbv; rewrite ?Hne; reflexivity. }
    rewrite EE. reflexivity. }
  destruct HE as (e & ->). exists e. reflexivity.
Qed.

End WithK.
Arguments mm_bs {K} _ _.
