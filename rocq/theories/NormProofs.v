(** [frobenius_norm_squared], differentiable branch. *)
From Coq Require Import String Ascii List Arith ZArith Lia Bool Ring.
From Verif Require Import Scalar Tensor TensorLemmas TensorLemmas2 Base Spec Chain BaseLemmas Ops
  FullProofs ResultLemmas Dense AddProofs MulProofs MatmulProofs DenseMatmul Sweep FlatProofs.
Import ListNotations.

Section WithK.
Variable K : cring.
Add Ring Kring : (cth K).
Implicit Types t : tt K.

(** Sum of the squares of the elements of [t] (of its batch element [o]). *)
Definition sum_squares (t : tt K) (d : tensor K) (o : nat) : K :=
  isum (ishape t) (fun i => get d (bo (bsz t) o ++ i) * get d (bo (bsz t) o ++ i))%K.

Lemma entry_squares t d o : wf t -> full t = Ok d -> inrange (bsz t) o ->
  sum_squares t d o = jsum (all_modes t) (fun J => tt_entry t (bo (bsz t) o) J * tt_entry t (bo (bsz t) o) J)%K.
Proof.
  intros Hw Fd Ho. destruct (full_correct K t Hw) as (d' & Fd' & _ & _ & Ed). assert (d' = d) by congruence. subst d'.
  unfold sum_squares. rewrite <- isum_split by auto. apply isum_ext. intros i Hi.
  assert (V : vidx (bpre t) (bo (bsz t) o)).
  { unfold bpre, bo, inrange in *. destruct (bsz t); [vsolve|apply vidx_nil]. }
  rewrite Ed by (rewrite get_shape_ishape; now apply vidx_app). now rewrite tt_at_entry.
Qed.

Section Frob.
Variable t : tt K.
Hypothesis Hw : wf t.
Definition fr_b : string := if is_batch t then "n" else "".
Definition fr_ax : string := if is_tt_matrix t then "ij" else "i".

Lemma fr_step i (r : tensor K) : i < ndims t -> shape r = bpre t ++ [rk t i; rk t i] ->
  exists r', einsum (fr_b ++ "ac," ++ fr_b ++ "a" ++ fr_ax ++ "b," ++ fr_b ++ "c" ++ fr_ax ++ "d->" ++ fr_b ++ "bd")%string
      [r; core t i; core t i] = Ok r' /\ wft r' /\ shape r' = bpre t ++ [rk t (S i); rk t (S i)] /\
    forall o u v, inrange (bsz t) o -> u < rk t (S i) -> v < rk t (S i) ->
      get r' (bo (bsz t) o ++ [u; v]) =
      sumn (rk t i) (fun x => sumn (rk t i) (fun y => isum (modes t i) (fun j =>
        get r (bo (bsz t) o ++ [x; y]) * (coreG t (bo (bsz t) o) i x j u * coreG t (bo (bsz t) o) i y j v))))%K.
Proof.
  intros Hi Sr. pose proof (core_shape _ t _ Hw Hi) as Sa.
  unfold fr_b, fr_ax, is_batch, bo, inrange, bpre, coreG in *.
  destruct (wf_kind_cases _ t Hw) as [(E & _ & Hm)|(E & _ & Hm)]; rewrite E, Hm in *; clear E Hm;
  destruct (bsz t) as [x|]; cbn [app] in *;
    einsum_step; eexists; (split; [reflexivity|]); (split; [apply wft_mk|]); (split; [reflexivity|]);
    intros; cbn [app isum]; rewrite get_mk by vsolve; ecbv; reflexivity.
Qed.

Lemma fr_init :
  exists r', einsum (fr_b ++ "a" ++ fr_ax ++ "b," ++ fr_b ++ "c" ++ fr_ax ++ "d->" ++ fr_b ++ "bd")%string
      [core t 0; core t 0] = Ok r' /\ wft r' /\ shape r' = bpre t ++ [rk t 1; rk t 1] /\
    forall o u v, inrange (bsz t) o -> u < rk t 1 -> v < rk t 1 ->
      get r' (bo (bsz t) o ++ [u; v]) =
      isum (modes t 0) (fun j => coreG t (bo (bsz t) o) 0 0 j u * coreG t (bo (bsz t) o) 0 0 j v)%K.
Proof.
  pose proof (wf_d Hw) as Hi. pose proof (core_shape _ t _ Hw Hi) as Sa. rewrite (wf_first Hw) in Sa.
  unfold fr_b, fr_ax, is_batch, bo, inrange, bpre, coreG in *.
  destruct (wf_kind_cases _ t Hw) as [(E & _ & Hm)|(E & _ & Hm)]; rewrite E, Hm in *; clear E Hm;
  destruct (bsz t) as [x|]; cbn [app] in *;
    einsum_step; eexists; (split; [reflexivity|]); (split; [apply wft_mk|]); (split; [reflexivity|]);
    intros; cbn [app isum]; rewrite get_mk by vsolve; ecbv; rewrite sumn_1;
    repeat (apply sumn_ext; intros ? _); rewrite sumn_1; reflexivity.
Qed.

Lemma frobenius_diff_full : exists r d, frobenius_norm_squared_diff t = Ok r /\ wft r /\ shape r = bpre t /\ full t = Ok d /\
  forall o, inrange (bsz t) o -> get r (bo (bsz t) o) = sum_squares t d o.
Proof.
  pose proof (wf_d Hw) as Hd0. assert (R0 : 0 < rk t 0) by (rewrite (wf_first Hw); lia).
  unfold frobenius_norm_squared_diff. fold fr_b fr_ax. cbv zeta.
  destruct fr_init as (r0 & E0 & W0 & S0 & G0). rewrite E0. cbn [bind].
  match goal with |- context [foldM ?f _ _] => destruct (foldM_seq f
    (fun i r => wft r /\ shape r = bpre t ++ [rk t i; rk t i] /\
       forall o u v, inrange (bsz t) o -> u < rk t i -> v < rk t i -> get r (bo (bsz t) o ++ [u; v]) =
         penv (modes t) (coreG t (bo (bsz t) o)) (rk t) (coreG t (bo (bsz t) o)) (rk t) i u v)
    (ndims t - 1) 1 r0) as (r & Er & Wr & Sr & Gr) end.
  - split; [exact W0|]. split; [exact S0|]. intros o u v Ho Hu Hv. rewrite G0 by auto.
    rewrite penv_S by auto. rewrite (wf_first Hw), !sumn_1. apply isum_ext. intros j _. rewrite penv_0. ring.
  - intros i r Hi (Wr & Sr & Gr).
    destruct (fr_step i r ltac:(lia) Sr) as (r' & E1 & W1 & S1 & G1).
    exists r'. split; [exact E1|]. split; [exact W1|]. split; [exact S1|].
    intros o u v Ho Hu Hv. rewrite G1, penv_S by auto.
    apply sumn_ext. intros x Hx. apply sumn_ext. intros y Hy. apply isum_ext. intros j _. now rewrite Gr.
  - rewrite Er. cbn [bind]. replace (1 + (ndims t - 1)) with (ndims t) in * by lia. rewrite (wf_last Hw) in *.
    destruct (full_correct K t Hw) as (d & Fd & _).
    assert (HS : exists r2, (do r1 <- squeeze_axis r (rank r - 1); squeeze_axis r1 (rank r1 - 1)) = Ok r2 /\
       shape r2 = bpre t /\ data r2 = data r).
    { unfold squeeze_axis, rank. rewrite Sr. unfold bpre. destruct (bsz t) as [B|]; cbn; eexists; (split; [reflexivity|]); split; reflexivity. }
    destruct HS as (r2 & E2 & S2 & D2). rewrite E2. exists r2, d. split; [reflexivity|].
    split; [unfold wft in *; rewrite D2, S2, Wr, Sr; pns; lia|]. split; [exact S2|]. split; [exact Fd|].
    intros o Ho. transitivity (get r (bo (bsz t) o ++ [0; 0])).
    { unfold get. rewrite S2, Sr, D2. f_equal. unfold bpre, bo. destruct (bsz t); cbn [app ravel]; pns; lia. }
    rewrite Gr by (auto; lia). rewrite (entry_squares t d o Hw Fd Ho). unfold penv. fold (all_modes t).
    apply jsum_ext. intros J HJ. apply vjdx_seq in HJ as [HJ HL]. unfold tt_entry.
    rewrite !lv_last; auto; rewrite HL; apply (wf_last Hw).
Qed.

End Frob.
End WithK.
Arguments sum_squares {K} _ _ _.
