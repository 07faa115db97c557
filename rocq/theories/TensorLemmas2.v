(** More characterising lemmas: transpose, matmul, squeeze, tile, getitem. *)
From Coq Require Import String Ascii List Arith ZArith Lia Bool Ring.
From Verif Require Import Scalar Tensor TensorLemmas.
Import ListNotations.

#[global] Arguments transpose : simpl never.
#[global] Arguments matmul : simpl never.
#[global] Arguments getitem : simpl never.
#[global] Arguments ewise : simpl never.
#[global] Arguments tile : simpl never.

Lemma nth_index_of j l : In j l -> nth (index_of j l) l 0 = j /\ index_of j l < length l.
Proof.
  induction l as [|x l IH]; cbn; [tauto|]. intros H.
  destruct (Nat.eqb_spec x j); [split; [auto|lia]|].
  destruct IH as [H1 H2]; [tauto|]. split; auto. lia.
Qed.

Lemma map_nth_seq {A} (l : list A) d : map (fun j => nth j l d) (seq 0 (length l)) = l.
Proof.
  induction l; cbn; auto. f_equal. rewrite <- seq_shift, map_map. exact IHl.
Qed.

Section WithK.
Variable K : cring.
Add Ring Kring : (cth K).
Implicit Types t a b : tensor K.

Lemma wft_reshaped t sh : wft t -> prodn sh = prodn (shape t) -> wft (Tensor sh (data t)).
Proof. unfold wft; cbn. congruence. Qed.

(** *** transpose *)
Lemma transpose_ok t perm : perm_ok perm (rank t) = true ->
  exists t', transpose t perm = Ok t' /\ wft t' /\
    shape t' = map (fun p => nth p (shape t) 0) perm /\
    forall idx, vidx (shape t) idx ->
      get t' (map (fun p => nth p idx 0) perm) = get t idx.
Proof.
  intros Hp. unfold transpose. rewrite Hp.
  eexists. split; [reflexivity|]. split; [apply wft_mk|]. split; [reflexivity|].
  intros idx Hidx. unfold perm_ok in Hp. apply andb_prop in Hp as [Hlen Hin].
  apply Nat.eqb_eq in Hlen. rewrite forallb_forall in Hin.
  assert (Hin' : forall j, j < rank t -> In j perm).
  { intros j Hj. specialize (Hin j). rewrite in_seq in Hin.
    specialize (Hin ltac:(lia)). apply existsb_exists in Hin as (x & Hx & E).
    apply Nat.eqb_eq in E. now subst. }
  pose proof (vidx_length _ _ Hidx) as HL.
  assert (Hperm : forall p, In p perm -> p < rank t).
  { (* perm is a permutation of seq 0 n: same length, contains all *)
    intros p Hpin.
    assert (HP : incl (seq 0 (rank t)) perm) by (intros j Hj; apply Hin'; apply in_seq in Hj; lia).
    assert (HQ : incl perm (seq 0 (rank t))).
    { apply NoDup_length_incl; auto using seq_NoDup. rewrite seq_length. lia. }
    apply HQ in Hpin. apply in_seq in Hpin. lia. }
  rewrite get_mk.
  - f_equal. transitivity (map (fun j => nth j idx 0) (seq 0 (length idx))); [|apply map_nth_seq].
    rewrite HL. apply map_ext_in.
    intros j Hj. apply in_seq in Hj. unfold rank in *.
    destruct (nth_index_of j perm) as [E1 E2]; [apply Hin'; lia|].
    rewrite (nth_indep _ 0 ((fun p => nth p idx 0) 0)) by (now rewrite map_length).
    rewrite (map_nth (fun p => nth p idx 0)). now rewrite E1.
  - clear Hin Hlen Hin'. unfold rank in *. unfold vidx in *.
    induction perm as [|p perm IH]; cbn; constructor; auto.
    + apply vidx_nth; auto. apply Hperm. now left.
    + apply IH. intros. apply Hperm. now right.
Qed.

Lemma transpose_err t perm : perm_ok perm (rank t) = false -> transpose t perm = Err TFError.
Proof. intros H. unfold transpose. now rewrite H. Qed.

(** *** matmul *)
Lemma matmul_ok2 a b m k n : shape a = [m; k] -> shape b = [k; n] ->
  exists t, matmul a b = Ok t /\ wft t /\ shape t = [m; n] /\
    forall i j, i < m -> j < n ->
      get t [i; j] = sumn k (fun l => (get a [i; l] * get b [l; j])%K).
Proof.
  intros Ha Hb. unfold matmul, rank. rewrite Ha, Hb. cbn [length Nat.sub firstn skipn].
  rewrite Nat.eqb_refl. cbn [bcast bcast_rev rev app].
  eexists. split; [reflexivity|]. split; [apply wft_mk|]. split; [reflexivity|].
  intros i j Hi Hj. rewrite get_mk by vsolve. reflexivity.
Qed.

Lemma matmul_err2 a b m k k' n : shape a = [m; k] -> shape b = [k'; n] -> k <> k' ->
  matmul a b = Err TFError.
Proof.
  intros Ha Hb Hk. unfold matmul, rank. rewrite Ha, Hb. cbn [length Nat.sub firstn skipn].
  apply Nat.eqb_neq in Hk. now rewrite Hk.
Qed.

(** Batched matmul with equal batch sizes. *)
Lemma matmul_ok3 a b N m k n : shape a = [N; m; k] -> shape b = [N; k; n] ->
  exists t, matmul a b = Ok t /\ wft t /\ shape t = [N; m; n] /\
    forall o i j, o < N -> i < m -> j < n ->
      get t [o; i; j] = sumn k (fun l => (get a [o; i; l] * get b [o; l; j])%K).
Proof.
  intros Ha Hb. unfold matmul, rank. rewrite Ha, Hb. cbn [length Nat.sub firstn skipn].
  rewrite Nat.eqb_refl. unfold bcast. cbn [bcast_rev rev app]. rewrite Nat.eqb_refl.
  eexists. split; [reflexivity|]. split; [apply wft_mk|]. split; [reflexivity|].
  intros o i j Ho Hi Hj. rewrite get_mk by vsolve. cbn [length firstn nth].
  apply sumn_ext. intros l Hl. unfold bidx. cbn [length Nat.sub skipn map2 app rev firstn nth].
  destruct (Nat.eqb_spec N 1); [|reflexivity].
  now replace o with 0 by lia.
Qed.

End WithK.
