(** C16, C13: the triangle inequality and the Cauchy-Schwarz inequality for frobenius_norm, add and flat_inner. *)
From Coq Require Import String List Arith ZArith Lia Lra Bool Reals.
From Verif Require Import Scalar Tensor TensorLemmas Base Spec BaseLemmas Chain Ops FullProofs ResultLemmas Dense FlatProofs NormProofs OpsR Decomp DecompSpec OrthProofs OrthNorm QRExists
  TutorialSpec DescentThms Samples Properties_Full_Add Properties_Inner Properties_Decomp.
Import ListNotations.
Local Open Scope nat_scope.
Local Notation get := (@get Rring).

Lemma sqrt_triangle s x y e : (0 <= x)%R -> (0 <= y)%R -> (0 <= e)%R -> (sqrt s <= sqrt x + sqrt y)%R -> (0 <= s)%R -> (sqrt (s + e) <= sqrt (x + e) + sqrt (y + e))%R.
Proof.
  intros Hx Hy He H Hs.
  assert (S : (s <= x + y + 2 * (sqrt x * sqrt y))%R).
  { rewrite <- (sqrt_sqrt s Hs), <- (sqrt_sqrt x Hx) at 1. rewrite <- (sqrt_sqrt y Hy) at 1. pose proof (sqrt_pos s). nra. }
  pose proof (sqrt_pos x). pose proof (sqrt_pos y). pose proof (sqrt_pos (x + e)). pose proof (sqrt_pos (y + e)).
  assert (X : (sqrt x <= sqrt (x + e))%R) by (apply sqrt_le_1_alt; lra). assert (Y : (sqrt y <= sqrt (y + e))%R) by (apply sqrt_le_1_alt; lra).
  apply Rsqr_incr_0_var; [|lra]. rewrite Rsqr_sqrt by lra. unfold Rsqr.
  pose proof (sqrt_sqrt (x + e) ltac:(lra)). pose proof (sqrt_sqrt (y + e) ltac:(lra)). nra.
Qed.

Theorem C16_triangle : forall qr (a b : rtt) eps differentiable, qr_ok qr -> wf a -> wf b -> rshape a = rshape b -> 2 <= ndims a ->
  bsz a = None -> bsz b = None -> (0 <= eps)%R ->
  exists s ra rb rs, add a b = Ok s /\ frobenius_norm qr a eps differentiable = Ok ra /\ frobenius_norm qr b eps differentiable = Ok rb /\
    frobenius_norm qr s eps differentiable = Ok rs /\ shape rs = [] /\ (get rs [] <= get ra [] + get rb [])%R.
Proof.
  intros qr a b eps df Hq Ha Hb R Hd Ba Bb He.
  destruct (C03_add Rring a b Ha Hb R Hd Ba Bb) as (s & Es & Ws & Rs & Bs & _ & HE).
  destruct (C16_frobenius_norm qr a eps df Hq Ha) as (ra & da & Ea & _ & _ & Fa & Ga). destruct (C16_frobenius_norm qr b eps df Hq Hb) as (rb & db & Eb & _ & _ & Fb & Gb).
  destruct (C16_frobenius_norm qr s eps df Hq Ws) as (rs & ds & Ers & _ & Srs & Fs & Gs).
  specialize (Ga 0). specialize (Gb 0). specialize (Gs 0). rewrite Ba in Ga. rewrite Bb in Gb. rewrite Bs in Gs. specialize (Ga I). specialize (Gb I). specialize (Gs I).
  exists s, ra, rb, rs. do 4 (split; [assumption|]). split; [rewrite Srs; unfold bpre; now rewrite Bs|].
  cbn [bo] in Ga, Gb, Gs. rewrite Ga, Gb, Gs.
  assert (Ia : ishape a = ishape s) by (unfold ishape, is_tt_matrix; now rewrite Rs).
  assert (Ib : ishape b = ishape s) by (unfold ishape, is_tt_matrix; now rewrite Rs, R).
  unfold sum_squares. rewrite Ba, Bb, Bs, Ia, Ib. cbn [bo app].
  destruct (full_correct Rring s Ws) as (ds' & Fs' & _ & Ss & _). rewrite Fs in Fs'. injection Fs' as <-. rewrite get_shape_ishape in Ss. unfold bpre in Ss. rewrite Bs in Ss. cbn [app] in Ss.
  destruct HE as (da' & db' & ds' & F1 & F2 & F3 & S1 & G). rewrite Bs in G. rewrite Fa in F1. rewrite Fb in F2. rewrite Fs in F3. injection F1 as <-. injection F2 as <-. injection F3 as <-.
  assert (G' : forall i, vidx (ishape s) i -> get ds i = (get da i + get db i)%R) by (intros i Hi; apply G; rewrite Ss; exact Hi).
  apply sqrt_triangle; auto.
  - apply (dot_pos (ishape s) (fun i => get da i)).
  - apply (dot_pos (ishape s) (fun i => get db i)).
  - eapply Rle_trans; [|apply (dot_triangle (ishape s) (fun i => get da i) (fun i => get db i))]. apply sqrt_le_1_alt. apply Req_le.
    apply (isum_ext Rring). intros i Hi. rewrite (G' i Hi). reflexivity.
  - apply (dot_pos (ishape s) (fun i => get ds i)).
Qed.
Print Assumptions C16_triangle.

Theorem C16_cauchy_schwarz : forall qr (a b : rtt) eps differentiable, qr_ok qr -> wf a -> wf b -> rshape a = rshape b ->
  bsz a = None -> bsz b = None -> (0 <= eps)%R ->
  exists r ra rb, flat_inner_any (ATT a) (ATT b) = Ok r /\ frobenius_norm qr a eps differentiable = Ok ra /\ frobenius_norm qr b eps differentiable = Ok rb /\
    shape r = [] /\ (Rabs (get r []) <= get ra [] * get rb [])%R.
Proof.
  intros qr a b eps df Hq Ha Hb Rab Ba Bb He.
  destruct (C13_flat_inner Rring a b Ha Hb Rab Ba Bb) as (da & db & r & Fa & Fb & Sab & Er & Sr & G).
  destruct (C16_frobenius_norm qr a eps df Hq Ha) as (ra & da' & Ea & _ & _ & Fa' & Ga). destruct (C16_frobenius_norm qr b eps df Hq Hb) as (rb & db' & Eb & _ & _ & Fb' & Gb).
  rewrite Fa in Fa'. rewrite Fb in Fb'. injection Fa' as <-. injection Fb' as <-.
  specialize (Ga 0). specialize (Gb 0). rewrite Ba in Ga. rewrite Bb in Gb. specialize (Ga I). specialize (Gb I). cbn [bo] in Ga, Gb.
  exists r, ra, rb. do 4 (split; [assumption|]). rewrite Ga, Gb, G. unfold sum_squares. rewrite Ba, Bb. cbn [bo app].
  destruct (full_correct Rring a Ha) as (da' & Fa' & _ & Sa & _). rewrite Fa in Fa'. injection Fa' as <-. rewrite get_shape_ishape in Sa. unfold bpre in Sa. rewrite Ba in Sa. cbn [app] in Sa.
  assert (Ib : ishape b = ishape a) by (unfold ishape, is_tt_matrix; now rewrite Rab). rewrite Sa, Ib.
  pose proof (dot_cauchy (ishape a) (fun i => get da i) (fun i => get db i)) as C. pose proof (dot_pos (ishape a) (fun i => get da i)) as P1. pose proof (dot_pos (ishape a) (fun i => get db i)) as P2.
  unfold dot in C, P1, P2. rewrite <- sqrt_mult_alt by (apply Rplus_le_le_0_compat; [exact P1|exact He]). rewrite <- sqrt_Rsqr_abs. apply sqrt_le_1_alt. unfold Rsqr.
  eapply Rle_trans; [exact C|].
  assert (L : forall u : R, (u <= u + eps)%R) by (intros; lra).
  apply Rmult_le_compat; [exact P1|exact P2|exact (L _)|exact (L _)].
Qed.
Print Assumptions C16_cauchy_schwarz.

(** Two 2 x 3 x 2 tensors of different TT-ranks. *)
Example C16_inequalities_ex : qr_ok gram_schmidt /\ wf (toR s_a) /\ wf (toR s_b) /\ rshape (toR s_a) = rshape (toR s_b) /\ 2 <= ndims (toR s_a) /\
  bsz (toR s_a) = None /\ bsz (toR s_b) = None /\ rks (toR s_a) <> rks (toR s_b).
Proof.
  split; [exact gram_schmidt_ok|]. split; [exact r_a_wf|]. split; [exact r_b_wf|]. split; [reflexivity|]. split; [cbn; lia|]. do 2 (split; [reflexivity|]). discriminate.
Qed.
