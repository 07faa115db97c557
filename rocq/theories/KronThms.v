(** [t3f/kronecker.py]: the model computes what it should. *)
From Coq Require Import String List Arith ZArith Lia Lra Bool Reals.
From Verif Require Import Scalar Tensor TensorLemmas Base Spec Chain BaseLemmas Ops FullProofs ResultLemmas Dense GatherProofs OpsR ScaleProofs InitProofs
  Det DecompSpec KronSpec Kron DetProofs KronProofs.
Import ListNotations.
Local Open Scope nat_scope.
Local Notation get := (@get Rring).

(** ** Powers, signs, logarithms *)
Lemma Int_part_INR n : Int_part (INR n) = Z.of_nat n.
Proof. unfold Int_part. rewrite INR_IZR_INZ. rewrite <- (tech_up (IZR (Z.of_nat n)) (Z.of_nat n + 1)); [lia| |]; rewrite plus_IZR; lra. Qed.
Lemma even_pow n : (if Z.even (Z.of_nat n) then 1 else -1)%R = ((-1) ^ n)%R.
Proof.
  induction n as [|n IH]; [reflexivity|]. rewrite Nat2Z.inj_succ, Z.even_succ, <- Z.negb_even. cbn [pow]. rewrite <- IH.
  destruct (Z.even (Z.of_nat n)); cbn [negb]; lra.
Qed.
Lemma tf_pow_any_nat x n : tf_pow_any x (INR n) = (x ^ n)%R.
Proof.
  unfold tf_pow_any. destruct (Rlt_dec x 0) as [Hx|Hx].
  - rewrite Int_part_INR, <- INR_IZR_INZ. destruct (Req_EM_T (INR n) (INR n)); [|contradiction].
    rewrite even_pow, Rpower_pow by lra. rewrite <- Rpow_mult_distr. f_equal. lra.
  - unfold tf_pow. destruct (Req_EM_T x 0) as [->|Hn].
    + destruct (Req_EM_T (INR n) 0) as [E|E].
      * apply (INR_eq n 0) in E. subst. reflexivity.
      * destruct n; [now contradict E|]. rewrite pow_i by lia. reflexivity.
    + apply Rpower_pow. lra.
Qed.
Lemma tf_sign_mul x y : tf_sign (x * y) = (tf_sign x * tf_sign y)%R.
Proof.
  unfold tf_sign. destruct (Rtotal_order x 0) as [Hx|[->|Hx]], (Rtotal_order y 0) as [Hy|[->|Hy]];
    try (assert (0 < x * y)%R by nra); try (assert (x * y < 0)%R by nra);
    repeat (destruct (Rlt_dec _ _)); try lra; nra.
Qed.
Lemma tf_sign_pow x n : tf_sign (x ^ n) = (tf_sign x ^ n)%R.
Proof.
  induction n; cbn [pow]; [unfold tf_sign; destruct (Rlt_dec 0 1); lra|]. now rewrite tf_sign_mul, IHn.
Qed.
Lemma tf_log_mul x y : (0 <= x)%R -> (0 <= y)%R -> tf_log (x * y) = log_add (tf_log x) (tf_log y).
Proof.
  intros Hx Hy. unfold tf_log. destruct (Req_EM_T x 0) as [->|Nx].
  - destruct (Req_EM_T (0 * y) 0); [reflexivity|lra].
  - destruct (Req_EM_T y 0) as [->|Ny].
    + destruct (Req_EM_T (x * 0) 0); [reflexivity|lra].
    + destruct (Req_EM_T (x * y) 0) as [E|_]; [apply Rmult_integral in E; tauto|]. cbn. f_equal. apply ln_mult; lra.
Qed.
Lemma tf_log_pow x n : (0 <= x)%R -> 0 < n -> tf_log (x ^ n) = log_mul (tf_log x) (INR n).
Proof.
  intros Hx Hn. unfold tf_log. destruct (Req_EM_T x 0) as [->|Nx].
  - rewrite pow_i by lia. destruct (Req_EM_T 0 0); [reflexivity|lra].
  - destruct (Req_EM_T (x ^ n) 0) as [E|_]; [exfalso; revert E; now apply pow_nonzero|]. cbn. f_equal.
    rewrite <- Rpower_pow by lra. unfold Rpower. rewrite ln_exp. ring.
Qed.

(** ** The object *)
Lemma fold_max_one l : l <> [] -> Forall (fun n => 0 < n) l -> (fold_right Nat.max 0 l = 1 <-> forall k, k < length l -> nth k l 0 = 1).
Proof.
  intros Hl Hp. split.
  - intros H k Hk. assert (nth k l 0 <= fold_right Nat.max 0 l).
    { clear - Hk. revert k Hk. induction l; intros k Hk; cbn [length] in Hk; [lia|]. cbn [fold_right]. destruct k; cbn [nth]; [lia|]. specialize (IHl k ltac:(lia)). lia. }
    assert (0 < nth k l 0) by (apply (Forall_nth (fun n => 0 < n) l); auto). lia.
  - intros H. assert (G : forall l, (forall k, k < length l -> nth k l 0 = 1) -> l <> [] -> fold_right Nat.max 0 l = 1); [|auto].
    clear. induction l as [|x l IH]; intros H Hl; [congruence|]. cbn [fold_right]. pose proof (H 0 ltac:(cbn; lia)) as H0. cbn [nth] in H0. subst x.
    destruct l as [|y l]; [reflexivity|]. rewrite IH; [reflexivity| |discriminate]. intros k Hk. apply (H (S k)). cbn in *. lia.
Qed.
Lemma list_eqb_spec l m : list_eqb l m = true <-> l = m.
Proof.
  revert m. induction l as [|x l IH]; intros [|y m]; cbn [list_eqb]; split; intros H; try discriminate; auto.
  - apply andb_prop in H as [H1 H2]. apply Nat.eqb_eq in H1. apply IH in H2. congruence.
  - injection H as -> ->. rewrite Nat.eqb_refl. now apply IH.
Qed.
Lemma is_kron_iff t : wf t -> is_kron t = true <-> is_tt_matrix t = true /\ forall k, k <= ndims t -> rk t k = 1.
Proof.
  intros Hw. unfold is_kron. destruct (is_tt_matrix t); [|split; intros H; [discriminate|destruct H; discriminate]].
  assert (Hl := wf_klen Hw). rewrite Nat.eqb_eq, fold_max_one.
  - rewrite Hl. split; [intros H; split; auto; intros k Hk; apply H; lia|intros [_ H] k Hk; apply H; lia].
  - intros E. rewrite E in Hl. discriminate.
  - apply (wf_kpos Hw).
Qed.
Lemma check_kron_ok t ns : kronecker t ns -> check_kron t = Ok Datatypes.tt.
Proof.
  intros (Hw & Hr & Hk). unfold check_kron. assert (E : is_kron t = true).
  { apply is_kron_iff; auto. split; auto. unfold is_tt_matrix. now rewrite Hr. }
  rewrite E, Hr. cbn [negb nth]. assert (E2 : list_eqb ns ns = true) by now apply list_eqb_spec. now rewrite E2.
Qed.
Lemma check_kron_err t : wf t -> (forall ns, ~ kronecker t ns) -> check_kron t = Err ValueError.
Proof.
  intros Hw H. unfold check_kron. destruct (is_kron t) eqn:E; [|reflexivity]. cbn [negb].
  destruct (list_eqb _ _) eqn:E2; [|reflexivity]. exfalso. apply is_kron_iff in E as [Em Er]; auto. apply list_eqb_spec in E2.
  apply is_tt_matrix_true in Em. destruct (rshape t) as [|r [|c [|]]] eqn:Es; try discriminate. cbn [nth] in E2. subst c.
  apply (H r). split; auto.
Qed.

Section K.
Variables (t : rtt) (ns : list nat).
Hypothesis HK : kronecker t ns.
Let Hw : wf t := proj1 HK.
Let Hr : rshape t = [ns; ns] := proj1 (proj2 HK).
Let Hk := proj2 (proj2 HK).

Lemma k_len : length ns = ndims t.
Proof. pose proof (wf_rlen Hw) as H. rewrite Hr in H. now apply Forall_cons_iff in H as [H _]. Qed.
Lemma k_pos : Forall (fun n => 0 < n) ns.
Proof. pose proof (wf_rpos Hw) as H. rewrite Hr in H. now apply Forall_cons_iff in H as [H _]. Qed.
Lemma k_modes k : modes t k = [nth k ns 0; nth k ns 0].
Proof. unfold modes. now rewrite Hr. Qed.
Lemma k_matrix : is_tt_matrix t = true.
Proof. unfold is_tt_matrix. now rewrite Hr. Qed.
Lemma k_shape k : k < ndims t -> shape (core t k) = bpre t ++ [1; nth k ns 0; nth k ns 0; 1].
Proof. intros H. rewrite core_shape by auto. rewrite k_modes, !Hk by lia. reflexivity. Qed.

Lemma chain_kall (G : nat -> nat -> list nat -> nat -> R) r l k i j : (forall m, k < m <= k + length l -> r m = 1) ->
  chain (K := Rring) G r k (map2 (fun i j => [i; j]) (unravel l i) (unravel l j)) (fun _ => 1%R) 0 = kall l (fun m i j => G m 0 [i; j] 0) k i j.
Proof.
  revert k i j. induction l as [|n l IH]; intros k i j H; [reflexivity|].
  cbn [unravel map2 chain kall]. rewrite H by (cbn; lia). rewrite (sumn_1 Rring). rewrite IH; [reflexivity|]. intros m Hm. apply H. cbn. lia.
Qed.

Lemma k_full D p i j : full t = Ok D -> vidx (bpre t) p -> i < prodn ns -> j < prodn ns -> mat D p i j = kall ns (factor t p) 0 i j.
Proof.
  intros HD Hp Hi Hj. destruct (full_correct Rring t Hw) as (D' & E & _ & _ & G). rewrite HD in E. injection E as <-.
  unfold mat. rewrite G.
  - rewrite tt_at_entry by auto. unfold split_idx. rewrite k_matrix, Hr. cbn [nth]. unfold tt_entry.
    rewrite chain_kall; [reflexivity|]. rewrite k_len. intros m Hm. apply Hk. lia.
  - rewrite get_shape_ishape. apply vidx_app; auto. unfold ishape. rewrite k_matrix, Hr. cbn [nth]. vsolve.
Qed.
Lemma k_dense D : full t = Ok D -> shape D = bpre t ++ [prodn ns; prodn ns].
Proof.
  intros HD. destruct (full_correct Rring t Hw) as (D' & E & _ & S & _). rewrite HD in E. injection E as <-.
  rewrite S, get_shape_ishape. unfold ishape. now rewrite k_matrix, Hr.
Qed.

Lemma core_matrix_ok k : k < ndims t -> exists m, core_matrix t k = Ok m /\ wft m /\ shape m = bpre t ++ [nth k ns 0; nth k ns 0] /\
  forall p, vidx (bpre t) p -> meq (nth k ns 0) (mat m p) (factor t p k).
Proof.
  intros Hkk. unfold core_matrix. pose proof (k_shape k Hkk) as S. unfold factor, mat. unfold bpre in *. destruct (bsz t) as [b|]; cbn [app] in *.
  - destruct (getitem_sel Rring (core t k) [full_slice; IInt 0; full_slice; full_slice; IInt 0]
      [(seq 0 b, true); ([0], false); (seq 0 (nth k ns 0), true); (seq 0 (nth k ns 0), true); ([0], false)]) as (m & E & W & Sm & G).
    { rewrite S. cbn [resolve]. rewrite !resolve1_full, !resolve1_nat by lia. reflexivity. }
    exists m. split; [exact E|]. split; [exact W|]. cbn [sel_shape] in *. rewrite !seq_length in *. split; [exact Sm|].
    intros p Hp i j Hi Hj. apply vidx_1_inv in Hp as (o & -> & Ho). cbn [app]. rewrite G by vsolve. cbn [sel_idx nth]. now rewrite !seq_nth by lia.
  - destruct (getitem_sel Rring (core t k) [IInt 0; full_slice; full_slice; IInt 0]
      [([0], false); (seq 0 (nth k ns 0), true); (seq 0 (nth k ns 0), true); ([0], false)]) as (m & E & W & Sm & G).
    { rewrite S. cbn [resolve]. rewrite !resolve1_full, !resolve1_nat by lia. reflexivity. }
    exists m. split; [exact E|]. split; [exact W|]. cbn [sel_shape] in *. rewrite !seq_length in *. split; [exact Sm|].
    intros p Hp i j Hi Hj. inversion Hp; subst. cbn [app]. rewrite G by vsolve. cbn [sel_idx nth]. now rewrite !seq_nth by lia.
Qed.

Lemma core_pow_nat k : k < ndims t -> core_pow t k = INR (prodn ns / nth k ns 0) /\ 0 < prodn ns / nth k ns 0.
Proof.
  intros Hkk. unfold core_pow, mode. rewrite Hr. cbn [nth]. pose proof k_pos as HP. pose proof k_len as HL.
  assert (0 < nth k ns 0) by (apply (Forall_nth (fun n => 0 < n) ns); auto; lia).
  assert (D : exists q, prodn ns = q * nth k ns 0).
  { assert (Hkl : k < length ns) by lia. clear - Hkl. revert k Hkl. induction ns as [|x l IH]; intros k Hk; cbn [length] in Hk; [lia|]. rewrite prodn_cons. destruct k; cbn [nth].
    - exists (prodn l). lia.
    - destruct (IH k ltac:(lia)) as (q & ->). exists (x * q). lia. }
  destruct D as (q & Hq). rewrite Hq, Nat.div_mul by lia. split.
  - rewrite mult_INR. assert (INR (nth k ns 0) <> 0%R) by (apply not_0_INR; lia). field. auto.
  - pose proof (prodn_pos ns HP). rewrite Hq in *. destruct q; lia.
Qed.

Lemma tf_det_ok (m : rtensor) pre n : shape m = pre ++ [n; n] ->
  exists d, tf_det m = Ok d /\ wft d /\ shape d = pre /\ forall p, vidx pre p -> get d p = det n (mat m p).
Proof.
  intros S. unfold tf_det. rewrite S, rev_app_distr. cbn [rev app]. rewrite Nat.eqb_refl. eexists. split; [reflexivity|].
  split; [apply wft_mk|]. split; [cbn [shape mk]; apply rev_involutive|]. intros p Hp. rewrite get_mk by now rewrite rev_involutive. reflexivity.
Qed.

(** The determinants of the factors with their powers. *)
Definition dterm (p : list nat) (m : nat) : R := (det (nth m ns 0%nat) (factor t p m) ^ (prodn ns / nth m ns 0)%nat)%R.
Definition dprod (p : list nat) (k : nat) : R := rprod (map (dterm p) (seq 0 k)).
Lemma rprod_app l m : rprod (l ++ m) = (rprod l * rprod m)%R.
Proof. unfold rprod. induction l; cbn [app fold_right]; [lra|]. rewrite IHl. ring. Qed.
Lemma dprod_S p k : dprod p (S k) = (dprod p k * dterm p k)%R.
Proof. unfold dprod. rewrite seq_S, map_app, rprod_app. cbn [map rprod fold_right Nat.add]. lra. Qed.

Lemma det_core k : k < ndims t -> exists m d, core_matrix t k = Ok m /\ tf_det m = Ok d /\ wft d /\ shape d = bpre t /\
  forall p, vidx (bpre t) p -> get d p = det (nth k ns 0) (factor t p k).
Proof.
  intros Hkk. destruct (core_matrix_ok k Hkk) as (m & Em & Wm & Sm & Gm).
  destruct (tf_det_ok m _ _ Sm) as (d & Ed & Wd & Sd & Gd). exists m, d. do 4 (split; auto).
  intros p Hp. rewrite Gd by auto. apply det_ext. now apply Gm.
Qed.

(** One multiplication of an accumulator that starts as a scalar. *)
Definition acc (f : R -> R) (k : nat) (d : rtensor) : Prop :=
  wft d /\ (k = 0 -> d = Tensor (K := Rring) [] [1%R]) /\ (0 < k -> shape d = bpre t /\ forall p, vidx (bpre t) p -> get d p = f (dprod p k)).
Lemma acc_step f k d (x : rtensor) g : f 1%R = 1%R -> (forall x y, f (x * y)%R = (f x * f y)%R) ->
  acc f k d -> wft x -> shape x = bpre t -> (forall p, vidx (bpre t) p -> g (get x p) = f (dterm p k)) ->
  exists d', ewise (K := Rring) Rmult d (tmap (K := Rring) g x) = Ok d' /\ acc f (S k) d'.
Proof.
  intros f1 fm (Wd & H0 & H1) Wx Sx Gx. destruct k as [|k].
  - rewrite (H0 eq_refl). unfold ewise. cbn [shape tmap]. assert (E : bcast [] (shape x) = Some (shape x)).
    { unfold bcast. cbn [rev bcast_rev]. now rewrite rev_involutive. }
    rewrite E. eexists. split; [reflexivity|]. split; [apply wft_mk|]. split; [discriminate|]. intros _. cbn [shape mk]. split; [exact Sx|].
    intros p Hp. rewrite get_mk by now rewrite Sx. rewrite (bidx_self (shape x)) by now rewrite Sx. rewrite (get_tmap Rring) by (auto; now rewrite Sx).
    etransitivity; [apply f_equal, (Gx p Hp)|]. replace (bidx [] p) with (@nil nat) by (unfold bidx; destruct (skipn _ p); reflexivity).
    unfold Tensor.get. cbn [shape data ravel nth]. rewrite dprod_S. unfold dprod. cbn [seq map rprod fold_right]. rewrite fm, f1. reflexivity.
  - destruct (H1 ltac:(lia)) as (Sd & Gd). unfold ewise. cbn [shape tmap]. rewrite Sd, Sx. assert (E : bcast (bpre t) (bpre t) = Some (bpre t)).
    { unfold bcast, bpre. destruct (bsz t); cbn [rev app bcast_rev]; [now rewrite Nat.eqb_refl|reflexivity]. }
    rewrite E. eexists. split; [reflexivity|]. split; [apply wft_mk|]. split; [discriminate|]. intros _. cbn [shape mk]. split; [reflexivity|].
    intros p Hp. rewrite get_mk by auto. rewrite !bidx_self by auto. rewrite (get_tmap Rring) by (auto; now rewrite Sx).
    rewrite Gd by auto. etransitivity; [apply f_equal, (Gx p Hp)|]. rewrite (dprod_S p (S k)), fm. reflexivity.
Qed.

Lemma k_det D p : full t = Ok D -> vidx (bpre t) p -> det (prodn ns) (mat D p) = dprod p (ndims t).
Proof.
  intros HD Hp. etransitivity; [apply det_ext; intros i j Hi Hj; now apply k_full|].
  rewrite det_kall by apply k_pos. rewrite k_len. reflexivity.
Qed.

Theorem determinant_ok D : full t = Ok D ->
  exists v, determinant t = Ok v /\ wft v /\ shape v = bpre t /\ forall p, vidx (bpre t) p -> get v p = det (prodn ns) (mat D p).
Proof.
  intros HD. unfold determinant. rewrite (check_kron_ok t ns HK). cbn [bind].
  destruct (foldM_seq (fun i d => do m <- core_matrix t i; do cd <- tf_det m;
      ewise (K := Rring) Rmult d (tmap (K := Rring) (fun x => tf_pow_any x (core_pow t i)) cd)) (acc (fun x => x)) (ndims t) 0 (Tensor (K := Rring) [] [1%R])) as (v & Ev & Wv & _ & Hv).
  - split; [reflexivity|]. split; [reflexivity|lia].
  - intros k d Hkk Hacc. destruct (det_core k ltac:(lia)) as (m & x & Em & Ex & Wx & Sx & Gx). rewrite Em. cbn [bind]. rewrite Ex. cbn [bind].
    apply (acc_step (fun x => x) k d x); auto. intros p Hp. destruct (core_pow_nat k ltac:(lia)) as (-> & _). rewrite tf_pow_any_nat, Gx by auto. reflexivity.
  - rewrite Ev. exists v. split; [reflexivity|]. split; [exact Wv|]. cbn [Nat.add] in Hv. destruct (Hv (wf_d Hw)) as (Sv & Gv). split; [exact Sv|].
    intros p Hp. rewrite Gv, (k_det D) by auto. reflexivity.
Qed.

Lemma map2_nth_gen {A B C} (f : A -> B -> C) l m k a b c : k < length l -> k < length m -> nth k (map2 f l m) c = f (nth k l a) (nth k m b).
Proof. revert m k. induction l; intros [|y m] k H1 H2; cbn [length] in *; try lia. destruct k; cbn [map2 nth]; auto. apply IHl; lia. Qed.
Lemma map2_len_gen {A B C} (f : A -> B -> C) l m : length l = length m -> length (map2 f l m) = length l.
Proof. revert m. induction l; intros [|y m] H; cbn [length map2] in *; try lia. f_equal. apply IHl. lia. Qed.

Theorem slog_determinant_ok D : full t = Ok D ->
  exists s l, slog_determinant t = Ok (s, l) /\ wft s /\ shape s = bpre t /\ length l = prodn (bpre t) /\
    forall p, vidx (bpre t) p -> get s p = tf_sign (det (prodn ns) (mat D p)) /\
      nth (ravel (bpre t) p) l None = tf_log (Rabs (det (prodn ns) (mat D p))).
Proof.
  intros HD. unfold slog_determinant. rewrite (check_kron_ok t ns HK). cbn [bind].
  set (B := match bsz t with Some b => b | None => 1 end). assert (EB : B = prodn (bpre t)) by (unfold B, bpre, prodn; destruct (bsz t); cbn; lia).
  assert (s1 : tf_sign 1 = 1%R) by (unfold tf_sign; destruct (Rlt_dec 0 1); lra).
  destruct (foldM_seq (fun i '(s, l) => do m <- core_matrix t i; do cd <- tf_det m;
      let l' := map2 log_add l (map (fun x : R => log_mul (tf_log (Rabs x)) (core_pow t i)) (data cd)) in
      do s' <- ewise (K := Rring) Rmult s (tmap (K := Rring) (fun x => tf_pow_any (tf_sign x) (core_pow t i)) cd);
      Ok (s', l'))
    (fun k st => acc tf_sign k (fst st) /\ length (snd st) = B /\ forall p, vidx (bpre t) p -> nth (ravel (bpre t) p) (snd st) None = tf_log (Rabs (dprod p k)))
    (ndims t) 0 (Tensor (K := Rring) [] [1%R], repeat (Some 0%R) B)) as ((v & l) & Ev & (Wv & _ & Hv) & Ll & Gl).
  - split; [|split].
    + split; [reflexivity|]. split; [reflexivity|lia].
    + apply repeat_length.
    + intros p Hp. cbn [snd]. pose proof (ravel_lt _ _ Hp). rewrite (nth_indep _ None (Some 0%R)) by (rewrite repeat_length; lia). rewrite nth_repeat. unfold dprod. cbn [seq map rprod fold_right]. rewrite Rabs_R1. unfold tf_log.
      destruct (Req_EM_T 1 0); [lra|]. now rewrite ln_1.
  - intros k [d l] Hkk (Hacc & Ll & Gl). cbn [fst snd] in *. destruct (det_core k ltac:(lia)) as (m & x & Em & Ex & Wx & Sx & Gx). rewrite Em. cbn [bind]. rewrite Ex. cbn [bind].
    destruct (core_pow_nat k ltac:(lia)) as (EP & PP).
    destruct (acc_step tf_sign k d x (fun x => tf_pow_any (tf_sign x) (core_pow t k)) s1 tf_sign_mul Hacc Wx Sx) as (d' & Ed & Hd').
    { intros p Hp. rewrite EP, tf_pow_any_nat, Gx by auto. unfold dterm. now rewrite tf_sign_pow. }
    rewrite Ed. cbn [bind]. eexists. split; [reflexivity|]. cbn [fst snd]. split; [exact Hd'|].
    assert (Lx : length (map (fun x : R => log_mul (tf_log (Rabs x)) (core_pow t k)) (data x)) = B) by (rewrite map_length, EB, <- Sx; exact Wx).
    split; [rewrite map2_len_gen; auto; congruence|].
    intros p Hp. pose proof (ravel_lt _ _ Hp) as Hlt. rewrite (map2_nth_gen _ _ _ _ None None) by lia. rewrite Gl by auto.
    rewrite (nth_indep _ None (log_mul (tf_log (Rabs 0)) (core_pow t k))) by lia.
    rewrite (map_nth (fun x : R => log_mul (tf_log (Rabs x)) (core_pow t k))).
    assert (Eg : @nth R (ravel (bpre t) p) (data x) 0%R = det (nth k ns 0) (factor t p k)) by (rewrite <- Gx by auto; unfold Tensor.get; now rewrite Sx).
    match goal with |- context [Rabs (nth ?a ?b ?c)] => change (@nth R a b c) with (@nth R (ravel (bpre t) p) (data x) 0%R) end. rewrite Eg. rewrite dprod_S, Rabs_mult, tf_log_mul by apply Rabs_pos. f_equal. unfold dterm. rewrite <- RPow_abs, tf_log_pow by (auto using Rabs_pos).
    now rewrite EP.
  - cbn [fst snd Nat.add] in *. exists v, l. split; [exact Ev|]. destruct (Hv (wf_d Hw)) as (Sv & Gv). split; [exact Wv|]. split; [exact Sv|]. split; [lia|].
    intros p Hp. rewrite (k_det D) by auto. split; [now apply Gv|now apply Gl].
Qed.
End K.
