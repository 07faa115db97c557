(** renormalize_tt_cores over the extended reals. *)
From Coq Require Import String List Arith Lia Lra Bool Reals.
From Verif Require Import Scalar Tensor TensorLemmas TensorLemmas2 Base Spec Chain BaseLemmas Ops FullProofs ResultLemmas Dense FlatProofs GatherProofs NormProofs OpsR ScaleProofs Decomp DecompSpec OrthProofs OrthNorm XReal.
Import ListNotations.
Local Open Scope R_scope.
Local Notation get := (@get Rring).
Local Notation core0 := (core0 Rring).
Local Notation xc0 := (XCore [] (fun _ => NaN)).

(** *** Arithmetic *)
Lemma xadd_nan_l x : xadd NaN x = NaN.
Proof. destruct x; reflexivity. Qed.
Lemma xadd_nan_r x : xadd x NaN = NaN.
Proof. destruct x; reflexivity. Qed.
Lemma xmul_nan_l x : xmul NaN x = NaN.
Proof. destruct x; reflexivity. Qed.
Lemma xmul_nan_r x : xmul x NaN = NaN.
Proof. destruct x; reflexivity. Qed.
Lemma times_inf_0 : times_inf 0 = NaN.
Proof. unfold times_inf. destruct (Rlt_dec 0 0); [lra|]. reflexivity. Qed.
Lemma xdiv_fin a b : b <> 0 -> xdiv (Fin a) (Fin b) = Fin (a / b).
Proof. intros H. unfold xdiv. destruct (Req_EM_T b 0); [contradiction|reflexivity]. Qed.
Lemma xdiv_0 : xdiv (Fin 0) (Fin 0) = NaN.
Proof. unfold xdiv. destruct (Req_EM_T 0 0); [apply times_inf_0|contradiction]. Qed.

Lemma xnorm_eq eps s : 0 <= Rmax s eps -> xnorm eps s = Fin (sqrt (Rmax s eps)).
Proof. intros H. unfold xnorm, xmax, xsqrt. destruct (Rlt_dec (Rmax s eps) 0); [lra|reflexivity]. Qed.

Lemma fold_log_fin l : Forall (fun x => 0 < x) l -> forall a,
  fold_left (fun acc n => xadd acc (xlog n)) (map Fin l) (Fin a) = Fin (fold_left (fun acc n => acc + ln n) l a).
Proof.
  induction 1 as [|x l Hx _ IH]; intros a; [reflexivity|]. cbn [map fold_left]. unfold xlog at 2. destruct (Rlt_dec 0 x); [|lra]. cbn [xadd]. apply IH.
Qed.
Lemma fold_log_inf l : Forall (fun x => 0 <= x) l -> fold_left (fun acc n => xadd acc (xlog n)) (map Fin l) NInf = NInf.
Proof.
  induction 1 as [|x l Hx _ IH]; [reflexivity|]. cbn [map fold_left]. unfold xlog at 2. destruct (Rlt_dec 0 x); [exact IH|].
  destruct (Req_EM_T x 0); [exact IH|lra].
Qed.
Lemma fold_log_zero l : Forall (fun x => 0 <= x) l -> In 0 l -> forall a, fold_left (fun acc n => xadd acc (xlog n)) (map Fin l) (Fin a) = NInf.
Proof.
  induction 1 as [|x l Hx Hl IH]; intros Hin a; [destruct Hin|]. cbn [map fold_left]. unfold xlog at 2. destruct (Rlt_dec 0 x).
  - destruct Hin as [E|Hin]; [lra|]. cbn [xadd]. now apply IH.
  - destruct (Req_EM_T x 0); [|lra]. cbn [xadd]. now apply fold_log_inf.
Qed.
Lemma xfact_fin l : l <> [] -> Forall (fun x => 0 < x) l -> xfact (map Fin l) = Fin (exp (fold_left (fun acc n => acc + ln n) l 0 / INR (length l))).
Proof.
  intros Hne H. unfold xfact. rewrite fold_log_fin, map_length by auto. rewrite xdiv_fin; [reflexivity|].
  apply not_0_INR. destruct l; [congruence|discriminate].
Qed.
Lemma xfact_zero l : Forall (fun x => 0 <= x) l -> In 0 l -> xfact (map Fin l) = Fin 0.
Proof.
  intros H Hin. unfold xfact. rewrite fold_log_zero by auto. unfold xdiv. destruct (Rlt_dec _ 0) as [E|]; [|reflexivity].
  pose proof (pos_INR (length (map Fin l))). lra.
Qed.

(** *** The cores of the result *)
Lemma core_sumsq_nonneg (t : rtt) pre k : 0 <= core_sumsq t pre k.
Proof. unfold core_sumsq. apply (isum_nonneg). intros. apply Rle_0_sqr. Qed.

Lemma single_sumsq (t : rtt) k : wf t -> bsz t = None -> (k < ndims t)%nat ->
  reduce_sum_all (tmap (K := Rring) (fun e => e * e) (core t k)) = core_sumsq t [] k.
Proof.
  intros Hw Hb Hk. pose proof (core_wft _ t k Hw Hk) as W.
  rewrite reduce_sum_all_isum by now apply wft_tmap. unfold core_sumsq. cbn [tmap shape].
  rewrite (core_shape _ t k Hw Hk). unfold bpre. rewrite Hb. cbn [app]. apply (isum_ext Rring). intros I HI.
  rewrite get_tmap; auto. rewrite (core_shape _ t k Hw Hk). unfold bpre. now rewrite Hb.
Qed.
Lemma batch_sumsq (t : rtt) b o k : wf t -> bsz t = Some b -> (o < b)%nat -> (k < ndims t)%nat ->
  get (reduce_sum_tail (tmap (K := Rring) (fun e => e * e) (core t k))) (o :: repeat 0%nat (rank (core t k) - 1)) = core_sumsq t [o] k.
Proof.
  intros Hw Hb Ho Hk. pose proof (core_wft _ t k Hw Hk) as W. pose proof (core_shape _ t k Hw Hk) as Sh.
  unfold bpre in Sh. rewrite Hb in Sh. cbn [app] in Sh.
  set (sq := tmap (K := Rring) (fun e => e * e) (core t k)).
  set (s := rk t k :: modes t k ++ [rk t (S k)]) in *.
  assert (Er : reduce_sum_tail sq = mk (K := Rring) (b :: repeat 1%nat (length s)) (fun idx => isum (K := Rring) s (fun I => get sq (nth 0 idx O :: I)))).
  { unfold reduce_sum_tail, sq. cbn [tmap shape]. rewrite Sh. reflexivity. }
  rewrite Er. unfold rank. rewrite Sh. cbn [length]. rewrite Nat.sub_succ, Nat.sub_0_r.
  rewrite get_mk by (apply vidx_cons; [auto|apply vidx_zeros]). cbn [nth]. unfold core_sumsq. fold s. apply (isum_ext Rring). intros I HI. cbn [app].
  unfold sq. rewrite get_tmap; auto. rewrite Sh. now apply vidx_cons.
Qed.

Definition xnorms (t : rtt) eps pre := map (fun k => xnorm eps (core_sumsq t pre k)) (seq 0 (ndims t)).
Lemma cores_seq (t : rtt) : cores t = map (core t) (seq 0 (ndims t)).
Proof.
  apply nth_ext with (d := core0) (d' := core0); [now rewrite map_length, seq_length|]. intros k Hk.
  rewrite (nth_map_default _ (seq 0 (ndims t)) k O) by (rewrite seq_length; exact Hk). rewrite seq_nth by exact Hk. reflexivity.
Qed.

Lemma renorm_x_core (t : rtt) eps pre k I : wf t -> vidx (bpre t) pre -> (k < ndims t)%nat ->
  xshape (nth k (renormalize_x t eps) xc0) = shape (core t k) /\
  let g := Fin (get (core t k) (pre ++ I)) in let F := xfact (xnorms t eps pre) in let n := xnorm eps (core_sumsq t pre k) in
  (xget (nth k (renormalize_x t eps) xc0) (pre ++ I) = xdiv (xmul g F) n \/
   xget (nth k (renormalize_x t eps) xc0) (pre ++ I) = xmul g (xdiv F n)).
Proof.
  intros Hw Hp Hk. cbv zeta. set (g := Fin _). set (F := xfact _). set (n := xnorm _ _). unfold renormalize_x. unfold bpre in Hp. destruct (bsz t) as [b|] eqn:Hb.
  - apply vidx_1_inv in Hp as (o & -> & Ho).
    rewrite (nth_map_default _ (cores t) k core0) by exact Hk. cbn [xshape xget]. change (nth k (cores t) core0) with (core t k). split; [reflexivity|]. right.
    cbn [app nth]. rewrite (batch_sumsq t b) by auto. fold n. f_equal. f_equal. unfold F, xnorms. f_equal.
    rewrite cores_seq, map_map. apply map_ext_in. intros m Hm. apply in_seq in Hm. rewrite (batch_sumsq t b) by (auto; lia). reflexivity.
  - inversion Hp; subst pre. rewrite (nth_map2 _ _ _ _ _ core0 NaN) by (rewrite ?map_length; exact Hk). cbn [xshape xget].
    change (nth k (cores t) core0) with (core t k). split; [reflexivity|]. left. cbn [app].
    rewrite (nth_map_default _ (cores t) k core0) by exact Hk. change (nth k (cores t) core0) with (core t k). rewrite single_sumsq by auto. fold n. f_equal.
    unfold g. cbn [app]. f_equal. unfold F, xnorms. f_equal. rewrite cores_seq, map_map. apply map_ext_in. intros m Hm. apply in_seq in Hm. rewrite single_sumsq by (auto; lia). reflexivity.
Qed.

(** *** No zero norm: the extended reals are not left *)
Lemma renorm_x_finite (t : rtt) eps pre k I : wf t -> vidx (bpre t) pre -> (k < ndims t)%nat ->
  (forall m, (m < ndims t)%nat -> 0 < Rmax (core_sumsq t pre m) eps) ->
  xget (nth k (renormalize_x t eps) xc0) (pre ++ I) = Fin (rfact t eps pre / rnorm t eps pre k * get (core t k) (pre ++ I)).
Proof.
  intros Hw Hp Hk Hpos. pose proof (wf_d Hw) as Hd. destruct (renorm_x_core t eps pre k I Hw Hp Hk) as [_ H]. cbv zeta in H.
  assert (EN : xnorms t eps pre = map Fin (rnorms t eps pre)).
  { unfold xnorms, rnorms. rewrite map_map. apply map_ext_in. intros m Hm. apply in_seq in Hm. apply xnorm_eq. apply Rlt_le, Hpos. lia. }
  assert (NP : 0 < rnorm t eps pre k) by (apply sqrt_lt_R0, Hpos; auto).
  assert (EF : xfact (xnorms t eps pre) = Fin (rfact t eps pre)).
  { rewrite EN, xfact_fin.
    - unfold rfact, rnorms. now rewrite map_length, seq_length.
    - unfold rnorms. destruct (ndims t); [lia|discriminate].
    - apply Forall_forall. intros x Hx. apply in_map_iff in Hx as (m & <- & Hm). apply in_seq in Hm. apply sqrt_lt_R0, Hpos. lia. }
  rewrite EF, xnorm_eq in H by (apply Rlt_le, Hpos; auto). fold (rnorm t eps pre k) in H.
  destruct H as [-> | ->]; cbn [xmul]; rewrite xdiv_fin by lra; cbn [xmul]; f_equal; cbn; field; lra.
Qed.

(** *** A zero core and epsilon not positive *)
Lemma renorm_x_zero (t : rtt) eps pre k I : wf t -> vidx (bpre t) pre -> (k < ndims t)%nat -> eps <= 0 -> core_sumsq t pre k = 0 ->
  xget (nth k (renormalize_x t eps) xc0) (pre ++ I) = NaN.
Proof.
  intros Hw Hp Hk He Hz. destruct (renorm_x_core t eps pre k I Hw Hp Hk) as [_ H]. cbv zeta in H.
  assert (Rm : forall m, Rmax (core_sumsq t pre m) eps = core_sumsq t pre m) by (intros; apply Rmax_left; pose proof (core_sumsq_nonneg t pre m); lra).
  assert (EN : xnorms t eps pre = map Fin (map (fun m => sqrt (core_sumsq t pre m)) (seq 0 (ndims t)))).
  { unfold xnorms. rewrite map_map. apply map_ext. intros m. rewrite xnorm_eq; rewrite Rm; [reflexivity|apply core_sumsq_nonneg]. }
  assert (EF : xfact (xnorms t eps pre) = Fin 0).
  { rewrite EN. apply xfact_zero.
    - apply Forall_forall. intros x Hx. apply in_map_iff in Hx as (m & <- & _). apply sqrt_pos.
    - apply in_map_iff. exists k. split; [rewrite Hz; apply sqrt_0|apply in_seq; lia]. }
  rewrite EF, xnorm_eq, Rm, Hz, sqrt_0 in H by (rewrite Rm; apply core_sumsq_nonneg).
  destruct H as [-> | ->].
  - cbn [xmul]. rewrite Rmult_0_r. apply xdiv_0.
  - rewrite xdiv_0. apply xmul_nan_r.
Qed.

(** *** Elements of the tensor *)
Lemma xsum_S n f : xsum (S n) f = xadd (xsum n f) (f n).
Proof. unfold xsum. rewrite seq_S, fold_left_app. reflexivity. Qed.
Lemma xsum_nan n f : (0 < n)%nat -> (forall a, (a < n)%nat -> f a = NaN) -> xsum n f = NaN.
Proof. intros Hn H. destruct n as [|n]; [lia|]. rewrite xsum_S, H by lia. apply xadd_nan_r. Qed.
Lemma xsum_fin n f g : (forall a, (a < n)%nat -> f a = Fin (g a)) -> xsum n f = Fin (sumn (K := Rring) n g).
Proof. induction n as [|n IH]; intros H; [reflexivity|]. rewrite xsum_S, IH, H by (intros; try apply H; lia). reflexivity. Qed.

Lemma xrow_nan d r C pre J : (forall k, (k <= d)%nat -> (0 < r k)%nat) -> forall k v, (k + length J <= d)%nat -> (forall a, (a < r k)%nat -> v a = NaN) ->
  forall b, (b < r (k + length J))%nat -> xrow r C pre k J v b = NaN.
Proof.
  intros Hr. induction J as [|j J IH]; intros k v Hd Hv b Hb; cbn [xrow length] in *; [apply Hv; now rewrite Nat.add_0_r in Hb|].
  apply IH; [lia| |now replace (S k + length J)%nat with (k + S (length J))%nat by lia].
  intros a _. apply xsum_nan; [apply Hr; lia|]. intros c Hc. rewrite Hv by auto. apply xmul_nan_l.
Qed.
Lemma xrow_core_nan d r C pre ms J m : (forall k, (k <= d)%nat -> (0 < r k)%nat) ->
  (forall a j b, (a < r m)%nat -> vidx (ms m) j -> (b < r (S m))%nat -> xget (C m) (pre ++ a :: j ++ [b]) = NaN) ->
  forall k v, (k + length J <= d)%nat -> (k <= m < k + length J)%nat -> vchain ms k J -> forall b, (b < r (k + length J))%nat -> xrow r C pre k J v b = NaN.
Proof.
  intros Hr Hm. induction J as [|j J IH]; intros k v Hd Hk HJ b Hb; cbn [xrow length vchain] in *; [lia|]. destruct HJ as [Hj HJ].
  destruct (Nat.eq_dec k m) as [->|Hne].
  - apply (xrow_nan d); auto; [lia| |now replace (S m + length J)%nat with (m + S (length J))%nat by lia].
    intros a Ha. apply xsum_nan; [apply Hr; lia|]. intros c Hc. rewrite Hm by auto. apply xmul_nan_r.
  - apply IH; auto; [lia|lia|now replace (S k + length J)%nat with (k + S (length J))%nat by lia].
Qed.

(** Real rows. *)
Fixpoint rrow (r : nat -> nat) (G : nat -> nat -> list nat -> nat -> R) (k : nat) (J : list (list nat)) (v : nat -> R) : nat -> R :=
  match J with
  | [] => v
  | j :: J' => rrow r G (S k) J' (fun b => sumn (K := Rring) (r k) (fun a => v a * G k a j b))
  end.
Lemma xrow_fin d r C pre ms G J : (forall k a j b, (k < d)%nat -> (a < r k)%nat -> vidx (ms k) j -> (b < r (S k))%nat -> xget (C k) (pre ++ a :: j ++ [b]) = Fin (G k a j b)) ->
  forall k v w, (k + length J <= d)%nat -> vchain ms k J -> (forall a, (a < r k)%nat -> v a = Fin (w a)) -> forall b, (b < r (k + length J))%nat -> xrow r C pre k J v b = Fin (rrow r G k J w b).
Proof.
  intros HC. induction J as [|j J IH]; intros k v w Hd HJ Hv b Hb; cbn [xrow rrow length vchain] in *; [apply Hv; now rewrite Nat.add_0_r in Hb|]. destruct HJ as [Hj HJ].
  apply IH; auto; [lia| |now replace (S k + length J)%nat with (k + S (length J))%nat by lia].
  intros c Hc. apply xsum_fin. intros a Ha. rewrite Hv, HC by (auto; lia). reflexivity.
Qed.
Lemma rrow_chain r G J : forall k v w,
  sumn (K := Rring) (r (k + length J)%nat) (fun b => rrow r G k J v b * w b) = sumn (K := Rring) (r k) (fun a => v a * chain (K := Rring) G r k J w a).
Proof.
  induction J as [|j J IH]; intros k v w; cbn [rrow chain length]; [now rewrite Nat.add_0_r|].
  replace (k + S (length J))%nat with (S k + length J)%nat by lia. rewrite IH.
  rewrite (sumn_ext Rring _ _ (fun b => sumn (K := Rring) (r k) (fun a => v a * G k a j b * chain (K := Rring) G r (S k) J w b))).
  2:{ intros b Hb. symmetry. exact (sumn_mul_r Rring _ (chain (K := Rring) G r (S k) J w b) (fun a => v a * G k a j b)). }
  rewrite (sumn_swap Rring). apply (sumn_ext Rring). intros a Ha. etransitivity; [|exact (sumn_mul_l Rring _ (v a) (fun b => G k a j b * chain (K := Rring) G r (S k) J w b))]. apply (sumn_ext Rring). intros b Hb. apply Rmult_assoc.
Qed.

Lemma xentry_nan (t : rtt) eps pre J k : wf t -> vidx (bpre t) pre -> vchain (modes t) 0 J -> length J = ndims t ->
  (k < ndims t)%nat -> eps <= 0 -> core_sumsq t pre k = 0 -> xentry (rk t) (renormalize_x t eps) pre J = NaN.
Proof.
  intros Hw Hp HJ HL Hk He Hz. unfold xentry. apply (xrow_core_nan (ndims t) _ _ pre (modes t) J k); auto; try lia.
  - intros m Hm. now apply rk_pos.
  - intros a j b _ _ _. now apply renorm_x_zero.
  - cbn [Nat.add]. rewrite HL, (wf_last Hw). lia.
Qed.

Lemma xentry_fin (t : rtt) eps pre J : wf t -> vidx (bpre t) pre -> vchain (modes t) 0 J -> length J = ndims t ->
  (forall m, (m < ndims t)%nat -> 0 < Rmax (core_sumsq t pre m) eps) -> xentry (rk t) (renormalize_x t eps) pre J = Fin (tt_entry t pre J).
Proof.
  intros Hw Hp HJ HL Hpos. unfold xentry.
  assert (exists r, wf r /\ rshape r = rshape t /\ rks r = rks t /\ bsz r = bsz t /\
    forall pre k I, vidx (bpre t) pre -> (k < ndims t)%nat -> vidx (rk t k :: modes t k ++ [rk t (S k)]) I ->
      get (core r k) (pre ++ I) = rfact t eps pre / rnorm t eps pre k * get (core t k) (pre ++ I)) as (r & Wr & Rr & Kr & Br & G).
  { destruct (bsz t) as [b|] eqn:E; [destruct (renorm_batch t eps b Hw E) as (r & _ & H)|destruct (renorm_single t eps Hw E) as (r & _ & H)];
      rewrite E in H; exists r; exact H. }
  assert (Er : forall m, rk r m = rk t m) by (intros; unfold rk; now rewrite Kr).
  rewrite (xrow_fin (ndims t) (rk t) _ pre (modes t) (coreG r pre) J) with (w := fun _ => 1); auto; try lia.
  - f_equal. transitivity (tt_entry r pre J).
    + pose proof (rrow_chain (rk t) (coreG r pre) J 0 (fun _ => 1) (fun _ => 1)) as E. cbn [Nat.add] in E. rewrite HL, (wf_last Hw), (wf_first Hw) in E.
      rewrite !(sumn_1 Rring) in E. rewrite Rmult_1_r, Rmult_1_l in E. rewrite E. unfold tt_entry. unfold rk. now rewrite Kr.
    + rewrite (scaled_entry Rring t r (fun k => rfact t eps pre / rnorm t eps pre k) pre); auto.
      2:{ intros k a j b Hk Ha Hj Hb. unfold coreG. rewrite G; auto. apply vidx_cons; auto. apply vidx_app; auto. vsolve. }
      transitivity (1 * tt_entry t pre J)%R; [|apply Rmult_1_l]. apply (f_equal (fun z : R => (z * tt_entry t pre J)%R)).
      assert (Np : forall k, (k < ndims t)%nat -> 0 < rnorm t eps pre k) by (intros; now apply sqrt_lt_R0, Hpos).
      assert (F : Forall (fun k => 0 < rnorm t eps pre k) (seq 0 (ndims t))).
      { apply Forall_forall. intros k Hk. apply in_seq in Hk. apply Np; auto. lia. }
      pose proof (prod_ratio (rfact t eps pre) (seq 0 (ndims t)) (rnorm t eps pre) F) as P.
      assert (Q : Forall (fun x => 0 < x) (rnorms t eps pre)).
      { apply Forall_forall. intros x Hx. apply in_map_iff in Hx as (k & <- & Hk). apply in_seq in Hk. apply Np; auto. lia. }
      rewrite seq_length in P. unfold rfact at 2 in P. rewrite exp_mean_prod in P; auto; [|apply (wf_d Hw)|unfold rnorms; now rewrite map_length, seq_length].
      rewrite exp_0, Rmult_1_l in P. fold (rnorms t eps pre) in P. pose proof (fold_mult_pos _ Q).
      apply (Rmult_eq_reg_r (fold_right Rmult 1 (rnorms t eps pre))); [|lra]. etransitivity; [exact P|]. change (fold_right Rmult 1 (rnorms t eps pre) = 1 * fold_right Rmult 1 (rnorms t eps pre)). ring.
  - intros k a j b Hk Ha Hj Hb. rewrite renorm_x_finite by auto. unfold coreG. rewrite G; auto. apply vidx_cons; auto. apply vidx_app; auto. vsolve.
  - cbn [Nat.add]. rewrite HL, (wf_last Hw). lia.
Qed.
