(** Left-to-right sweeps over trains: left products, sums over all physical indices, and
    which operand shapes make an einsum succeed. *)
From Coq Require Import String Ascii List Arith ZArith Lia Bool Ring.
From Verif Require Import Scalar Tensor TensorLemmas TensorLemmas2 Base Spec Chain BaseLemmas Ops
  FullProofs ResultLemmas Dense AddProofs MulProofs MatmulProofs DenseMatmul.
Import ListNotations.

Section WithK.
Variable K : cring.
Add Ring Kring : (cth K).
Implicit Types t : tt K.
Implicit Types (G Ga Gb Gc : nat -> nat -> list nat -> nat -> K) (r ra rb rc : nat -> nat).

Lemma jsum_app ms1 ms2 (f : list (list nat) -> K) :
  jsum (ms1 ++ ms2) f = jsum ms1 (fun J1 => jsum ms2 (fun J2 => f (J1 ++ J2))).
Proof.
  revert f; induction ms1 as [|m ms1 IH]; intros f; cbn [app jsum]; [reflexivity|].
  apply isum_ext. intros j _. now rewrite IH.
Qed.

Lemma jsum_one m (f : list (list nat) -> K) : jsum [m] f = isum m (fun j => f [j]).
Proof. reflexivity. Qed.

Lemma jsum_zero ms (f : list (list nat) -> K) : (forall J, vjdx ms J -> f J = c0) -> jsum ms f = c0.
Proof.
  revert f; induction ms as [|m ms IH]; intros f H; cbn [jsum]; [apply H; constructor|].
  apply isum_zero. intros j Hj. apply IH. intros J HJ. apply H. now constructor.
Qed.

Lemma vjdx_seq ms k n J : vjdx (map ms (seq k n)) J -> vchain ms k J /\ length J = n.
Proof.
  intros H. pose proof (vjdx_length _ _ H) as L. rewrite map_length, seq_length in L.
  split; auto. apply vchain_vjdx. now rewrite L.
Qed.

(** Left product of the cores 0 .. length J - 1. *)
Definition lv (G : nat -> nat -> list nat -> nat -> K) (r : nat -> nat) (J : list (list nat)) (b : nat) : K :=
  chain G r 0 J (delta b) 0.

Lemma lv_snoc G r J j b : 0 < r 0 -> b < r (S (length J)) ->
  lv G r (J ++ [j]) b = sumn (r (length J)) (fun a => lv G r J a * G (length J) a j b)%K.
Proof.
  intros H0 Hb. unfold lv. rewrite chain_app. rewrite chain_delta by auto.
  rewrite !Nat.add_0_l. apply sumn_ext. intros a Ha. f_equal. cbn [chain]. now rewrite sumn_deltar.
Qed.

Lemma lv_nil G r b : lv G r [] b = delta b 0.
Proof. reflexivity. Qed.

Lemma lv_last G r J : r (length J) = 1%nat -> 0 < r 0 ->
  lv G r J 0 = chain G r 0 J (fun _ => c1) 0.
Proof.
  intros H H0. unfold lv. rewrite (chain_delta _ G r 0 J (fun _ => c1) 0 H0).
  rewrite Nat.add_0_l, H. cbn [sumn]. ring.
Qed.

(** Sum over all physical indices of the first [k] cores of the product of two left products. *)
Definition penv (ms : nat -> list nat) Ga ra Gb rb (k b d : nat) : K :=
  jsum (map ms (seq 0 k)) (fun J => lv Ga ra J b * lv Gb rb J d)%K.

Lemma penv_S ms Ga ra Gb rb k b d : 0 < ra 0 -> 0 < rb 0 -> b < ra (S k) -> d < rb (S k) ->
  penv ms Ga ra Gb rb (S k) b d =
  sumn (ra k) (fun a => sumn (rb k) (fun c => isum (ms k) (fun j =>
    penv ms Ga ra Gb rb k a c * (Ga k a j b * Gb k c j d))))%K.
Proof.
  intros H1 H2 Hb Hd. unfold penv. rewrite seq_S, map_app, jsum_app. cbn [map Nat.add].
  rewrite (jsum_ext _ _ _ (fun J1 => sumn (ra k) (fun a => sumn (rb k) (fun c => isum (ms k) (fun j =>
     lv Ga ra J1 a * lv Gb rb J1 c * (Ga k a j b * Gb k c j d)))))%K).
  2:{ intros J HJ. apply vjdx_seq in HJ as [_ HL]. rewrite jsum_one.
      rewrite (isum_ext _ _ _ (fun j => sumn (ra k) (fun a => sumn (rb k) (fun c =>
        lv Ga ra J a * lv Gb rb J c * (Ga k a j b * Gb k c j d))))%K).
      2:{ intros j _. rewrite !lv_snoc by (rewrite ?HL; auto). rewrite HL.
          rewrite <- sumn_mul_r. apply sumn_ext. intros a _. rewrite <- sumn_mul_l. apply sumn_ext. intros c _. ring. }
      rewrite isum_sumn_swap. apply sumn_ext. intros a _. now rewrite isum_sumn_swap. }
  rewrite jsum_sumn_swap. apply sumn_ext. intros a _.
  rewrite jsum_sumn_swap. apply sumn_ext. intros c _.
  rewrite jsum_isum_swap. apply isum_ext. intros j _. now rewrite jsum_mul_r.
Qed.

Lemma penv_0 ms Ga ra Gb rb : penv ms Ga ra Gb rb 0 0 0 = c1.
Proof. unfold penv, lv. cbn. ring. Qed.

(** *** Sums over physical indices and sums over dense positions *)
Lemma isum_sing ns (F : list (list nat) -> K) :
  isum ns (fun I => F (map (fun i => [i]) I)) = jsum (map (fun n => [n]) ns) F.
Proof.
  revert F; induction ns as [|n ns IH]; intros F; cbn [isum map jsum]; [reflexivity|].
  apply sumn_ext. intros i _. apply (IH (fun J => F ([i] :: J))).
Qed.

Lemma isum_pairs ms ns (F : list (list nat) -> K) : length ms = length ns ->
  isum ms (fun I => isum ns (fun J => F (pairs I J))) = jsum (map2 (fun m n => [m; n]) ms ns) F.
Proof.
  revert ns F; induction ms as [|m ms IH]; intros [|n ns] F HL; cbn in HL; try lia; [reflexivity|].
  cbn [isum map2 jsum]. apply sumn_ext. intros i _.
  rewrite isum_sumn_swap. apply sumn_ext. intros j _.
  rewrite <- (IH ns (fun J => F ([i; j] :: J))) by lia. reflexivity.
Qed.

Lemma all_modes_eq t : wf t -> all_modes t =
  if is_tt_matrix t then map2 (fun m n => [m; n]) (nth 0 (rshape t) []) (nth 1 (rshape t) [])
  else map (fun n => [n]) (nth 0 (rshape t) []).
Proof.
  intros Hw. unfold all_modes. destruct (wf_kind_cases _ t Hw) as [(E & Hl & Hm)|(E & Hl & Hm)]; rewrite E.
  - rewrite (map_ext _ (fun k => [mode t 0 k])) by auto.
    assert (L : length (nth 0 (rshape t) []) = ndims t) by (apply (Forall_nth' _ _ 0 [] (wf_rlen Hw)); lia).
    rewrite <- L. unfold mode. generalize (nth 0 (rshape t) []). intros l.
    rewrite <- (map_map (fun k => nth k l 0%nat) (fun n => [n])). now rewrite map_nth_seq.
  - rewrite (map_ext _ (fun k => [mode t 0 k; mode t 1 k])) by auto.
    destruct (matrix_rows_len K t Hw E) as [L0 L1]. unfold mode. rewrite <- L0 in L1. rewrite <- L0. clear L0. revert L1.
    generalize (nth 0 (rshape t) []), (nth 1 (rshape t) []). clear. intros l. induction l as [|x l IH]; intros [|y m] H; cbn in H; try lia; auto.
    cbn [length seq map map2 nth]. f_equal. rewrite <- IH by lia. rewrite <- seq_shift, map_map. reflexivity.
Qed.

Lemma isum_split t (F : list (list nat) -> K) : wf t ->
  isum (ishape t) (fun idx => F (split_idx t idx)) = jsum (all_modes t) F.
Proof.
  intros Hw. rewrite all_modes_eq by auto. unfold ishape, split_idx.
  destruct (is_tt_matrix t) eqn:E.
  - destruct (matrix_rows_len K t Hw E) as [L0 L1]. rewrite <- isum_pairs by lia.
    cbn [isum nth]. rewrite isum_unravel. apply sumn_ext. intros i Hi. rewrite isum_unravel. reflexivity.
  - apply isum_sing.
Qed.

(** *** Operand shapes of a successful einsum *)
Lemma lookup_app_some l env x n : lookup l env = Some n -> lookup l (env ++ x) = Some n.
Proof. induction env as [|[l' m] env IH]; cbn; [discriminate|]. destruct (Ascii.eqb l l'); auto. Qed.
Lemma lookup_app_none l env n : lookup l env = None -> lookup l (env ++ [(l, n)]) = Some n.
Proof.
  induction env as [|[l' m] env IH]; cbn; [now rewrite Ascii.eqb_refl|].
  destruct (Ascii.eqb l l'); [discriminate|auto].
Qed.

Lemma bind_labels_ok ls sh env env' : bind_labels ls sh env = Ok env' ->
  (forall l n, lookup l env = Some n -> lookup l env' = Some n) /\
  Forall2 (fun l n => lookup l env' = Some n) ls sh.
Proof.
  revert sh env; induction ls as [|l ls IH]; intros [|n sh] env H; cbn in H; try discriminate.
  - injection H as <-. split; auto.
  - destruct (lookup l env) as [m|] eqn:E.
    + destruct (Nat.eqb_spec m n); [subst|discriminate]. apply IH in H as [H1 H2]. split; auto.
    + apply IH in H as [H1 H2]. split.
      * intros. apply H1. now apply lookup_app_some.
      * constructor; auto. apply H1. now apply lookup_app_none.
Qed.

Lemma bind_all_ok ins (ts : list (tensor K)) env env' : bind_all ins ts env = Ok env' ->
  (forall l n, lookup l env = Some n -> lookup l env' = Some n) /\
  Forall2 (fun ls (x : tensor K) => Forall2 (fun l n => lookup l env' = Some n) ls (shape x)) ins ts.
Proof.
  revert ts env; induction ins as [|ls ins IH]; intros [|x ts] env H; cbn in H; try discriminate.
  - injection H as <-. split; auto.
  - destruct (bind_labels ls (shape x) env) as [env1|] eqn:E; [|discriminate]. cbn in H.
    apply bind_labels_ok in E as [E1 E2]. apply IH in H as [H1 H2]. split; auto.
    constructor; auto. clear - E2 H1. induction E2; constructor; auto.
Qed.

Lemma einsum_ok_inv eq (ts : list (tensor K)) (r : tensor K) ins out : parse_eq eq [] [] = Some (ins, out) ->
  einsum eq ts = Ok r -> exists env, 
  Forall2 (fun ls (x : tensor K) => Forall2 (fun l n => lookup l env = Some n) ls (shape x)) ins ts.
Proof.
  intros Hp H. unfold einsum in H. rewrite Hp in H.
  destruct (bind_all ins ts []) as [env|] eqn:E; [|discriminate].
  apply bind_all_ok in E as [_ E]. eauto.
Qed.

Lemma foldM_ok_each {A S} (f : A -> S -> res S) l s s' x : foldM f l s = Ok s' -> In x l ->
  exists s1 s2, f x s1 = Ok s2.
Proof.
  revert s; induction l as [|y l IH]; intros s H Hx; [destruct Hx|]. cbn in H.
  destruct (f y s) as [s1|] eqn:E; [|discriminate]. cbn in H. destruct Hx as [->|Hx]; eauto.
Qed.

Lemma rshape_ext (a b : tt K) : wf a -> wf b -> is_tt_matrix a = is_tt_matrix b -> ndims a = ndims b ->
  (forall i, i < ndims a -> modes a i = modes b i) -> rshape a = rshape b.
Proof.
  intros Ha Hb Hm Hd H.
  assert (E : forall k, k < length (rshape a) -> nth k (rshape a) [] = nth k (rshape b) []).
  { assert (HL : length (rshape a) = length (rshape b)).
    { destruct (wf_kind_cases _ a Ha) as [(E & Hl & _)|(E & Hl & _)],
        (wf_kind_cases _ b Hb) as [(E' & Hl' & _)|(E' & Hl' & _)]; congruence. }
    intros k Hk. apply (nth_ext _ _ 0%nat 0%nat).
    - rewrite (Forall_nth' _ _ k [] (wf_rlen Ha)), (Forall_nth' _ _ k [] (wf_rlen Hb)) by lia. auto.
    - intros i Hi. rewrite (Forall_nth' _ _ k [] (wf_rlen Ha)) in Hi by lia.
      specialize (H i Hi). unfold modes in H.
      assert (HH := f_equal (fun l => nth k l 0%nat) H). cbn beta in HH.
      rewrite !(nth_map_default (fun s => nth i s 0%nat) _ k []) in HH by lia. exact HH. }
  apply (nth_ext _ _ [] []); auto.
  destruct (wf_kind_cases _ a Ha) as [(E1 & Hl & _)|(E1 & Hl & _)],
        (wf_kind_cases _ b Hb) as [(E' & Hl' & _)|(E' & Hl' & _)]; congruence.
Qed.

(** *** Several trains sharing their physical indices *)
Definition train : Type := ((nat -> nat -> list nat -> nat -> K) * (nat -> nat))%type.

Fixpoint lvs (Gs : list train) (J : list (list nat)) (bs : list nat) : K :=
  match Gs, bs with
  | g :: Gs', b :: bs' => (lv (fst g) (snd g) J b * lvs Gs' J bs')%K
  | _, _ => c1
  end.
Fixpoint gsp (Gs : list train) (k : nat) (xs : list nat) (j : list nat) (bs : list nat) : K :=
  match Gs, xs, bs with
  | g :: Gs', x :: xs', b :: bs' => (fst g k x j b * gsp Gs' k xs' j bs')%K
  | _, _, _ => c1
  end.
Definition rks_at (Gs : list train) (k : nat) : list nat := map (fun g => snd g k) Gs.
Definition env (ms : nat -> list nat) (Gs : list train) (k : nat) (bs : list nat) : K :=
  jsum (map ms (seq 0 k)) (fun J => lvs Gs J bs).

Lemma lvs_snoc Gs J j bs : Forall (fun n => 0 < n) (rks_at Gs 0) -> vidx (rks_at Gs (S (length J))) bs ->
  lvs Gs (J ++ [j]) bs = isum (rks_at Gs (length J)) (fun xs => lvs Gs J xs * gsp Gs (length J) xs j bs)%K.
Proof.
  revert bs; induction Gs as [|g Gs IH]; intros bs H0 Hb; cbn [rks_at map] in *.
  - inversion Hb; subst. cbn. ring.
  - apply vidx_cons_inv' in Hb as (b & bs' & -> & Hb & Hbs). inversion H0; subst.
    cbn [lvs isum]. rewrite lv_snoc by auto. rewrite IH by auto.
    rewrite <- sumn_mul_r. apply sumn_ext. intros x Hx. rewrite <- isum_mul_l. apply isum_ext. intros xs _.
    cbn [lvs gsp]. ring.
Qed.

Lemma env_S ms Gs k bs : Forall (fun n => 0 < n) (rks_at Gs 0) -> vidx (rks_at Gs (S k)) bs ->
  env ms Gs (S k) bs =
  isum (rks_at Gs k) (fun xs => isum (ms k) (fun j => env ms Gs k xs * gsp Gs k xs j bs))%K.
Proof.
  intros H0 Hb. unfold env. rewrite seq_S, map_app, jsum_app. cbn [map Nat.add].
  rewrite (jsum_ext _ _ _ (fun J => isum (rks_at Gs k) (fun xs => isum (ms k) (fun j =>
     lvs Gs J xs * gsp Gs k xs j bs)))%K).
  2:{ intros J HJ. apply vjdx_seq in HJ as [_ HL]. rewrite jsum_one, isum_swap. apply isum_ext. intros j _.
      rewrite lvs_snoc by (rewrite ?HL; auto). now rewrite HL. }
  rewrite jsum_isum_swap. apply isum_ext. intros xs _.
  rewrite jsum_isum_swap. apply isum_ext. intros j _. now rewrite jsum_mul_r.
Qed.

Lemma env_0 ms Gs : env ms Gs 0 (map (fun _ => 0) Gs) = c1.
Proof.
  unfold env. cbn [seq map jsum]. induction Gs as [|g Gs IH]; cbn [lvs map]; [reflexivity|].
  rewrite IH, lv_nil. unfold delta. cbn. ring.
Qed.

(** *** Transposing a family of multi-indices *)
Definition tcols (d : nat) (Is : list (list nat)) : list (list nat) :=
  map (fun m => map (fun I => nth m I 0) Is) (seq 0 d).

Lemma all_modes_tcols t : all_modes t = tcols (ndims t) (rshape t).
Proof. reflexivity. Qed.

Lemma tcols_S d Is : tcols (S d) Is = map (fun I => nth 0 I 0) Is :: tcols d (map (@tl nat) Is).
Proof.
  unfold tcols. cbn [seq map]. f_equal. rewrite <- seq_shift, map_map. apply map_ext. intros m.
  rewrite map_map. apply map_ext. intros [|x I]; [destruct m; reflexivity|reflexivity].
Qed.

Lemma jsum_heads shs (F : list (list nat) -> K) : Forall (fun s => s <> []) shs ->
  jsum shs F = isum (map (fun s => nth 0 s 0) shs) (fun h => jsum (map (@tl nat) shs) (fun Is => F (map2 cons h Is))).
Proof.
  revert F; induction shs as [|s shs IH]; intros F H; [reflexivity|]. inversion H as [|? ? Hs Hr]; subst.
  destruct s as [|n s]; [congruence|]. cbn [jsum isum map nth tl map2].
  apply sumn_ext. intros i _.
  rewrite (isum_ext _ _ _ (fun I => isum (map (fun s => nth 0 s 0) shs) (fun h =>
    jsum (map (@tl nat) shs) (fun Is => F ((i :: I) :: map2 cons h Is))))).
  2:{ intros I _. apply (IH (fun J => F ((i :: I) :: J)) Hr). }
  rewrite isum_swap. apply isum_ext. intros h _. reflexivity.
Qed.

Lemma jsum_transpose d shs (F : list (list nat) -> K) : Forall (fun s => length s = d) shs ->
  jsum shs (fun Is => F (tcols d Is)) = jsum (tcols d shs) F.
Proof.
  revert shs F; induction d as [|d IH]; intros shs F H.
  - unfold tcols. cbn [seq map jsum].
    assert (E : forall c : K, jsum shs (fun _ => c) = c).
    { intros c. induction H as [|s shs Hs HH IHs]; cbn [jsum]; auto. destruct s; [|discriminate]. cbn [isum]. auto. }
    apply E.
  - rewrite tcols_S. cbn [jsum]. rewrite jsum_heads.
    2:{ eapply Forall_impl; [|exact H]. intros [|x s] E; [discriminate|congruence]. }
    apply isum_ext. intros h Hh. apply vidx_length in Hh. rewrite map_length in Hh.
    rewrite <- (IH (map (@tl nat) shs) (fun J => F (h :: J))).
    2:{ rewrite Forall_map. eapply Forall_impl; [|exact H]. intros [|x s] E; cbn in *; lia. }
    apply jsum_ext. intros Is HI. apply vjdx_length in HI. rewrite map_length in HI. f_equal. rewrite tcols_S.
    rewrite <- Hh in HI. clear - HI. revert Is HI. induction h as [|x h IHh]; intros [|I Is] HI; cbn in HI; try lia.
    + reflexivity.
    + cbn [map2 map nth tl]. specialize (IHh Is ltac:(lia)). injection IHh as E1 E2. f_equal.
      * now rewrite E1.
      * f_equal. f_equal. clear - HI. revert Is HI. induction h; intros [|I' Is] HI; cbn in *; try lia; auto. f_equal. apply IHh. lia.
Qed.

End WithK.
Arguments lv {K} _ _ _ _. Arguments penv {K} _ _ _ _ _ _ _ _.
Arguments lvs {K} _ _ _. Arguments gsp {K} _ _ _ _ _. Arguments rks_at {K} _ _. Arguments env {K} _ _ _ _.
