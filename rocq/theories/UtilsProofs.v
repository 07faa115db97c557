(** Proofs about replace_tf_svd_with_np_svd (Utils.v). *)
From Coq Require Import List Arith ZArith Bool Reals Lia.
From Verif Require Import Scalar Tensor TensorLemmas TensorLemmas2 Base Spec OpsR DecompSpec Utils UtilsSpec.
Import ListNotations.
Local Open Scope nat_scope.

Lemma swapped_order_pre (pre : list nat) : swapped_order (length pre + 2) = Ok (seq 0 (length pre) ++ [S (length pre); length pre]).
Proof.
  unfold swapped_order. destruct (Nat.ltb_spec (length pre + 2) 2); [lia|]. f_equal. set (q := length pre).
  replace (q + 2 - 1) with (S q) by lia. replace (q + 2 - 2) with q by lia.
  rewrite !seq_nth by lia. cbn [Nat.add]. rewrite seq_app. cbn [seq Nat.add].
  assert (U : forall A (l : list A) x y r, upd (length l) x (l ++ y :: r) = l ++ x :: r).
  { intros A l. induction l; intros; cbn; [reflexivity|]. now rewrite IHl. }
  assert (L : length (seq 0 q) = q) by apply seq_length.
  assert (E1 : upd q (S q) (seq 0 q ++ [q; S q]) = seq 0 q ++ [S q; S q]). { rewrite <- L at 1. apply U. }
  rewrite E1. assert (L2 : length (seq 0 q ++ [S q]) = S q) by (rewrite app_length, L; cbn; lia).
  replace (seq 0 q ++ [S q; S q]) with ((seq 0 q ++ [S q]) ++ [S q]) by (rewrite <- app_assoc; reflexivity).
  rewrite <- L2 at 1. rewrite U, <- app_assoc. reflexivity.
Qed.

Lemma map_nth_seq (l r : list nat) : map (fun q => nth q (l ++ r) 0) (seq 0 (length l)) = l.
Proof.
  apply nth_ext with (d := 0) (d' := 0); [now rewrite map_length, seq_length|]. intros i Hi. rewrite map_length, seq_length in Hi.
  rewrite (nth_indep _ 0 (nth 0 (l ++ r) 0)) by now rewrite map_length, seq_length.
  rewrite (map_nth (fun q => nth q (l ++ r) 0)). rewrite seq_nth by lia. now rewrite app_nth1 by lia.
Qed.

Lemma swap_any pre (x : rtensor) m n : shape x = pre ++ [m; n] ->
  exists t, transpose x (seq 0 (length pre) ++ [S (length pre); length pre]) = Ok t /\ wft t /\ shape t = pre ++ [n; m] /\
    forall p i j, vidx pre p -> i < m -> j < n -> get t (p ++ [j; i]) = get x (p ++ [i; j]).
Proof.
  intros Hs. set (q := length pre).
  destruct (transpose_ok Rring x (seq 0 q ++ [S q; q])) as (t & E & W & Sh & G).
  { unfold perm_ok, rank. rewrite Hs, !app_length, seq_length. cbn [length]. fold q. rewrite Nat.eqb_refl. cbn [andb].
    apply forallb_forall. intros j Hj. apply in_seq in Hj. apply existsb_exists. exists j. split; [|apply Nat.eqb_refl].
    apply in_app_iff. destruct (Nat.lt_ge_cases j q); [left; apply in_seq; lia|right; cbn; lia]. }
  exists t. split; [exact E|]. split; [exact W|].
  assert (X : forall (l : list nat) a b, length l = q -> map (fun p => nth p (l ++ [a; b]) 0) (seq 0 q ++ [S q; q]) = l ++ [b; a]).
  { intros l a b L. rewrite map_app. rewrite <- L at 1. rewrite map_nth_seq. cbn [map]. rewrite !app_nth2 by lia.
    rewrite L, Nat.sub_diag. replace (S q - q) with 1 by lia. reflexivity. }
  split; [now rewrite Sh, Hs, X|]. intros p i j V Hi Hj. rewrite <- (X p i j) by now rewrite (vidx_length _ _ V). apply G. rewrite Hs.
  apply Forall2_app; [exact V|]. repeat constructor; auto.
Qed.

Section Np.
Variable np_uv : bool -> rtensor -> rtensor * rtensor * rtensor.
Variable np_vals : bool -> rtensor -> rtensor.

Lemma rank_pre (x : rtensor) pre m n : shape x = pre ++ [m; n] -> rank x = length pre + 2.
Proof. intros H. unfold rank. rewrite H, app_length. reflexivity. Qed.

Lemma my_svd_ok full pre m n x : np_svd_ok full np_uv -> wft x -> shape x = pre ++ [m; n] -> Forall (fun k => 0 < k) (pre ++ [m; n]) ->
  exists s u v, my_svd np_uv np_vals true x full true = Ok (SAll s u v) /\ tf_decomposes full pre m n x s u v.
Proof.
  intros Hn Hw Hs Hp. specialize (Hn pre m n x Hw Hs Hp). unfold my_svd. cbn [negb]. rewrite (rank_pre x pre m n Hs).
  destruct (Nat.ltb_spec (length pre + 2) 2); [lia|]. destruct (np_uv full x) as [[u s] vh]. cbn [bind]. rewrite swapped_order_pre. cbn [bind].
  destruct Hn as (Wu & Su & Ws & Ss & Wv & Sv & Hn). destruct (swap_any pre vh _ _ Sv) as (v & E & W & Sh & G). rewrite E. cbn [bind].
  exists s, u, v. split; [reflexivity|]. unfold tf_decomposes. repeat (split; [assumption|]). intros p V. destruct (Hn p V) as (H1 & H2 & H3 & H4 & H5).
  assert (KW : forall l, l < Nat.min m n -> l < width full n (Nat.min m n)). { intros l Hl. unfold width. destruct full; lia. }
  split; [|split; [exact H2|split; [|split; assumption]]].
  - intros i j Hi Hj. rewrite (H1 i j Hi Hj). apply sumn_ext. intros l Hl. now rewrite (G p l j V (KW l Hl) Hj).
  - intros a b Ha Hb. rewrite <- (H3 a b Ha Hb). apply sumn_ext. intros j Hj. now rewrite !G.
Qed.

Lemma my_svd_graph x full uv : my_svd np_uv np_vals false x full uv = Err NotImplementedError.
Proof. reflexivity. Qed.

Lemma my_svd_vals_raise full pre m n x : np_vals_ok np_vals -> wft x -> shape x = pre ++ [m; n] -> Forall (fun k => 0 < k) (pre ++ [m; n]) ->
  exists e, my_svd np_uv np_vals true x full false = Err e.
Proof.
  intros Hn Hw Hs Hp. destruct (Hn full pre m n x Hw Hs Hp) as [W Sh]. unfold my_svd. cbn [negb]. rewrite (rank_pre x pre m n Hs).
  destruct (Nat.ltb_spec (length pre + 2) 2); [lia|]. unfold unpack3. rewrite Sh.
  destruct (pre ++ [Nat.min m n]) as [|h r] eqn:E; [destruct pre; discriminate|].
  destruct (Nat.eq_dec h 3) as [->|N]; [|destruct h as [|[|[|[|h]]]]; try (eexists; reflexivity); now destruct N].
  cbn [bind].
  rewrite swapped_order_pre. cbn [bind]. unfold transpose.
  replace (perm_ok _ _) with false; [eexists; reflexivity|]. symmetry. unfold perm_ok. apply andb_false_intro1. apply Nat.eqb_neq.
  rewrite app_length, seq_length. cbn [length].
  apply (f_equal (@length nat)) in E. rewrite app_length in E. cbn in E. unfold rank. rewrite shape_mk. lia.
Qed.
End Np.

(** A function of the right kind exists: any decomposition in TensorFlow's conventions, with v transposed. *)
Lemma np_exists : (exists svd, svd_ok svd) -> exists np, np_svd_ok false np.
Proof.
  intros [svd H].
  exists (fun _ x => let '(s, u, v) := svd x in (u, s, match transpose v (seq 0 (rank x - 2) ++ [S (rank x - 2); rank x - 2]) with Ok t => t | Err _ => v end)).
  intros pre m n x Hw Hs Hp. specialize (H pre m n x Hw Hs Hp). rewrite (rank_pre x pre m n Hs). replace (length pre + 2 - 2) with (length pre) by lia.
  destruct (svd x) as [[s u] v]. destruct H as (Ws & Ss & Wu & Su & Wv & Sv & H). destruct (swap_any pre v _ _ Sv) as (t & E & W & Sh & G). rewrite E.
  unfold np_decomposes, width. repeat (split; [assumption|]). intros p V. destruct (H p V) as (H1 & H2 & H3 & H4 & H5).
  split; [|split; [exact H2|split; [|split; assumption]]].
  - intros i j Hi Hj. rewrite (H1 i j Hi Hj). apply sumn_ext. intros l Hl. now rewrite (G p j l V Hj Hl).
  - intros a b Ha Hb. rewrite <- (H3 a b Ha Hb). apply sumn_ext. intros j Hj. now rewrite !G.
Qed.
