(** [full]: the explicit TT-format sum, and batches element by element. *)
From Coq Require Import String List Arith ZArith Lia Bool Ring.
From Verif Require Import Scalar Tensor TensorLemmas TensorLemmas2 Base Spec Chain BaseLemmas Ops
  FullProofs ResultLemmas Dense.
Import ListNotations.

Section WithK.
Variable K : cring.
Add Ring Kring : (cth K).
Implicit Types t : tt K.
Local Open Scope k_scope.

(** The product of core elements along the rank indices [a = r_k, b = r_{k+1}, ...]. *)
Fixpoint path_prod (G : nat -> nat -> list nat -> nat -> K) (k a : nat) (J : list (list nat)) (bs : list nat) : K :=
  match J, bs with
  | j :: J', b :: bs' => G k a j b * path_prod G (S k) b J' bs'
  | _, _ => 1
  end.

Lemma chain_paths G (r : nat -> nat) k J a :
  chain G r k J (fun _ => 1) a = isum (map r (seq (S k) (length J))) (path_prod G k a J).
Proof.
  revert k a; induction J as [|j J IH]; intros k a; cbn [chain length seq map isum path_prod]; auto.
  apply sumn_ext. intros b Hb. rewrite IH. now rewrite <- isum_mul_l.
Qed.

Lemma rks_tail t : wf t -> map (rk t) (seq 1 (ndims t)) = tl (rks t).
Proof.
  intros H. unfold rk. rewrite <- seq_shift, map_map. pose proof (wf_klen H) as L.
  destruct (rks t) as [|x l]; cbn in L; [discriminate|]. injection L as L. rewrite <- L. cbn [tl].
  clear. induction l; cbn [length seq map]; auto. f_equal. rewrite <- seq_shift, map_map. exact IHl.
Qed.

(** C01 *)
Lemma full_sum t : wf t -> bsz t = None ->
  exists d, full t = Ok d /\ wft d /\ shape d = get_shape t /\
    forall idx, vidx (shape d) idx ->
      get d idx = isum (tl (rks t)) (path_prod (coreG t []) 0 0 (split_idx t idx)).
Proof.
  intros Hw Hb. destruct (full_correct K t Hw) as (d & Hd & Hwd & Hs & He).
  exists d. repeat (split; [assumption|]). intros idx Hi. rewrite Hs in Hi. rewrite He by auto.
  unfold tt_at. rewrite Hb. unfold tt_entry. rewrite chain_paths.
  rewrite get_shape_ishape in Hi. unfold bpre in Hi. rewrite Hb in Hi. cbn [app] in Hi.
  destruct (split_idx_valid _ t idx Hw Hi) as [_ Hl]. rewrite Hl. now rewrite rks_tail.
Qed.

(** C02 *)
Lemma full_batch t B : wf t -> bsz t = Some B ->
  exists d, full t = Ok d /\ wft d /\ shape d = get_shape t /\
  forall o, o < B -> exists e de, batch_dim_getitem t (IInt (Z.of_nat o)) = Ok e /\ wf e /\ bsz e = None /\
    full e = Ok de /\ shape d = B :: shape de /\
    forall idx, vidx (shape de) idx -> get d (o :: idx) = get de idx.
Proof.
  intros Hw Hb. destruct (full_correct K t Hw) as (d & Hd & Hwd & Hs & He).
  exists d. repeat (split; [assumption|]). intros o Ho.
  destruct (batch_getitem_int K t B (Z.of_nat o) Hw Hb ltac:(lia)) as (e & E1 & W1 & R1 & K1 & B1 & N1 & C1).
  destruct (full_correct K e W1) as (de & Hde & Hwde & Hse & Hee).
  exists e, de. repeat (split; [assumption|]).
  assert (Hsh : get_shape t = B :: get_shape e).
  { unfold get_shape, is_tt_matrix. now rewrite R1, B1, Hb. }
  split; [congruence|]. intros idx Hi. rewrite Hse in Hi.
  rewrite Hee, He by (rewrite ?Hsh; auto; apply vidx_cons; auto).
  unfold tt_at. rewrite Hb, B1. cbn [nth tl].
  assert (Es : split_idx e idx = split_idx t idx) by (unfold split_idx, is_tt_matrix; now rewrite R1).
  rewrite Es.
  assert (HI : vidx (ishape t) idx).
  { rewrite get_shape_ishape in Hi. unfold bpre in Hi. rewrite B1 in Hi. cbn [app] in Hi.
    unfold ishape, is_tt_matrix in *. now rewrite R1 in Hi. }
  destruct (split_idx_valid _ t idx Hw HI) as [V1 V2].
  unfold tt_entry. rewrite (chain_ext_r _ (coreG e []) (rk e) (rk t)) by (intros; unfold rk; now rewrite K1).
  symmetry. eapply chain_ext; eauto.
  - rewrite (wf_first Hw). lia.
  - intros. rewrite C1; auto; [|lia]. now rewrite Nat2Z.id.
Qed.

End WithK.
Arguments path_prod {K} _ _ _ _ _.
