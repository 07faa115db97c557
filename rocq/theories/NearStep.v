(** One step of the TT-SVD with an inexact singular value decomposition, in terms of functions:
    [x] the tensor, [Lx] the left factor made of exactly orthonormal companions of the computed
    cores, [Lc] the computed left factor, [T] the computed remainder. *)
From Coq Require Import List Arith Lia Lra Reals.
From Verif Require Import Scalar Tensor OpsR DecompSpec QRExists Trunc FMat.
Import ListNotations.
Local Open Scope R_scope.

Lemma frob_swap_rows {A J B} (la : list A) (lj : list J) (lb : list B) (F : A -> J * B -> R) :
  frob2 la (list_prod lj lb) F = frob2 (list_prod la lj) lb (fun p b => F (fst p) (snd p, b)).
Proof.
  unfold frob2. rewrite lsum_prod. apply lsum_ext. intros a _. rewrite lsum_prod. reflexivity.
Qed.
Lemma frob_swap_rows' {A J B} (la : list A) (lj : list J) (lb : list B) (F : A -> J * B -> R) :
  frob la (list_prod lj lb) F = frob (list_prod la lj) lb (fun p b => F (fst p) (snd p, b)).
Proof. rewrite !frob_sqrt. now rewrite frob_swap_rows. Qed.

Section Step.
Context {A J B : Type} (La : list A) (Lj : list J) (Lb : list B).
Variables (ra K rr : nat) (x : A -> J -> B -> R).
Let x1 : A -> J * B -> R := fun a p => x a (fst p) (snd p).
Let x2 : A * J -> B -> R := fun p b => x (fst p) (snd p) b.
Let lr : list (nat * J) := list_prod (seq 0 ra) Lj.
Variables (Lx Lc : A -> nat -> R) (T : nat -> J * B -> R).
Let C := pr La Lx x1.
Let M : nat * J -> B -> R := fun p b => T (fst p) (snd p, b).
Let C' : nat * J -> B -> R := fun p b => C (fst p) (snd p, b).
Variables (u u' : nat * J -> nat -> R) (s : nat -> R) (v v' : B -> nat -> R) (M' : nat * J -> B -> R) (de g el : R).
Hypothesis Hde : 0 <= de.
Hypothesis Hel : 0 <= el.
Hypothesis HrK : (rr <= K)%nat.
Hypothesis OL : orth La ra Lx.
Hypothesis Hg : frob (seq 0 ra) (list_prod Lj Lb) (fun c p => T c p - C c p) <= g.
Hypothesis Hl : forall y : nat -> R, nrm La (fun a => rsum ra (fun c => (Lx a c - Lc a c) * y c)) <= el * nrm (seq 0 ra) y.
Hypothesis Hu : orth lr K u'.
Hypothesis Hv : orth Lb K v'.
Hypothesis Hs : forall a b, (a <= b)%nat -> (b < K)%nat -> 0 <= s b <= s a.
Hypothesis HM : forall p b, In p lr -> In b Lb -> M' p b = rsum K (fun l => u' p l * s l * v' b l).
Hypothesis NM : frob lr Lb (fun p b => M' p b - M p b) <= de * frob lr Lb M.
Hypothesis Nu : frob lr (seq 0 K) (fun p l => u p l - u' p l) <= de.
Hypothesis Nv : frob Lb (seq 0 K) (fun b l => v b l - v' b l) <= de.

Let N := frob La (list_prod Lj Lb) x1.
Let Lx2 : A * J -> nat -> R := fun p l => rsum ra (fun c => Lx (fst p) c * u' (c, snd p) l).
Let Lc2 : A * J -> nat -> R := fun p l => rsum ra (fun c => Lc (fst p) c * u (c, snd p) l).
Let T2 : nat -> B -> R := fun l b => s l * v b l.

Lemma lsum_lr F : lsum lr F = rsum ra (fun c => lsum Lj (fun j => F (c, j))).
Proof. unfold lr. now rewrite lsum_prod, lsum_seq. Qed.

Lemma near_orth : orth (list_prod La Lj) rr Lx2.
Proof.
  intros l l' Hl1 Hl2. rewrite <- (Hu l l') by lia. rewrite lsum_prod, lsum_lr, lsum_swap, <- lsum_rsum. apply lsum_ext. intros j _.
  unfold Lx2. cbn [fst snd].
  rewrite (lsum_ext La _ (fun a => rsum ra (fun c => rsum ra (fun c' => (u' (c, j) l * u' (c', j) l') * (Lx a c * Lx a c'))))).
  2:{ intros a _. rewrite <- rsum_mul_r. apply rsum_ext. intros c _. rewrite <- rsum_mul_l. apply rsum_ext. intros; ring. }
  rewrite lsum_rsum. apply rsum_ext. intros c Hc. rewrite lsum_rsum.
  rewrite (rsum_ext ra _ (fun c' => (u' (c, j) l * u' (c', j) l') * kron c c')) by (intros c' Hc'; now rewrite lsum_mul_l, OL).
  now rewrite rsum_kron_r.
Qed.

Lemma near_pr l b : pr (list_prod La Lj) Lx2 x2 l b = pr lr u' C' l b.
Proof.
  unfold pr. rewrite lsum_prod, lsum_lr, lsum_swap, <- lsum_rsum. apply lsum_ext. intros j _. unfold Lx2, x2, C', C, pr, x1. cbn [fst snd].
  rewrite (lsum_ext La _ (fun a => rsum ra (fun c => u' (c, j) l * (Lx a c * x a j b)))).
  2:{ intros a _. rewrite <- rsum_mul_r. apply rsum_ext. intros; ring. }
  rewrite lsum_rsum. apply rsum_ext. intros c _. now rewrite lsum_mul_l.
Qed.

Lemma N_x2 : frob (list_prod La Lj) Lb x2 = N.
Proof. unfold N. rewrite frob_swap_rows'. reflexivity. Qed.
Lemma C_le : frob lr Lb C' <= N.
Proof. unfold lr, C'. rewrite <- (frob_swap_rows' (seq 0 ra) Lj Lb C). apply pr_le, OL. Qed.
Lemma MC_le : frob lr Lb (fun p b => M p b - C' p b) <= g.
Proof. eapply Rle_trans; [|exact Hg]. rewrite frob_swap_rows'. apply Rle_refl. Qed.
Lemma M_le : frob lr Lb M <= N + g.
Proof. pose proof (frob_near lr Lb M C'). pose proof C_le. pose proof MC_le. lra. Qed.
Lemma M'_le : frob lr Lb M' <= (1 + de) * (N + g).
Proof.
  pose proof (frob_near lr Lb M' M). pose proof M_le. assert (de * frob lr Lb M <= de * (N + g)) by (apply Rmult_le_compat_l; lra). lra.
Qed.
Lemma CM'_le : frob lr Lb (fun p b => C' p b - M' p b) <= (1 + de) * (N + g) - N.
Proof.
  pose proof (frob_sub lr Lb C' M M'). rewrite (frob_sym lr Lb C' M), (frob_sym lr Lb M M') in H. pose proof MC_le. pose proof M_le.
  assert (de * frob lr Lb M <= de * (N + g)) by (apply Rmult_le_compat_l; lra). lra.
Qed.

Lemma rsum_term n f i : (i < n)%nat -> (forall j, (j < n)%nat -> 0 <= f j) -> f i <= rsum n f.
Proof.
  intros Hi Hf. replace (f i) with (rsum n (fun k => f k * kron i k)) by now rewrite rsum_kron_r. apply rsum_le. intros k Hk. specialize (Hf k Hk). unfold kron. destruct (Nat.eqb i k); lra.
Qed.

Lemma sv_le : frob (seq 0 rr) Lb (fun l b => s l * v b l - s l * v' b l) <= frob lr Lb M' * de.
Proof.
  apply frob_le_sq; [apply Rmult_le_pos; [apply frob_nonneg|auto]|].
  replace (frob lr Lb M' * de * (frob lr Lb M' * de)) with (frob2 lr Lb M' * (de * de)) by (rewrite <- frob_sq; ring).
  assert (D2 : frob2 Lb (seq 0 K) (fun b l => v b l - v' b l) <= de * de).
  { rewrite <- frob_sq. apply Rmult_le_compat; auto; apply frob_nonneg. }
  apply Rle_trans with (frob2 lr Lb M' * frob2 Lb (seq 0 K) (fun b l => v b l - v' b l)); [|apply Rmult_le_compat_l; [apply frob2_nonneg|auto]].
  rewrite (frob_cols Lb (seq 0 K)), lsum_seq. unfold frob2 at 1. rewrite lsum_seq, <- rsum_mul_l.
  apply Rle_trans with (rsum rr (fun l => frob2 lr Lb M' * lsum Lb (fun b => (v b l - v' b l) * (v b l - v' b l)))).
  - apply rsum_le. intros l Hlr.
    rewrite (lsum_ext Lb _ (fun b => (s l * s l) * ((v b l - v' b l) * (v b l - v' b l)))) by (intros; ring). rewrite lsum_mul_l.
    apply Rmult_le_compat_r; [apply sq_sum_nonneg|].
    rewrite (svd_frob2 lr Lb K u' s v' M') by auto. apply (rsum_term K (fun l => s l * s l)); [lia|]. intros; apply Rle_0_sqr.
  - replace K with (rr + (K - rr))%nat by lia. rewrite rsum_app_range.
    match goal with |- ?a <= ?a + ?b => assert (0 <= b); [|lra] end. apply rsum_nonneg. intros. apply Rmult_le_pos; [apply frob2_nonneg|apply sq_sum_nonneg].
Qed.

(** The computed remainder stays close to the exact projection. *)
Lemma near_rest : frob (seq 0 rr) Lb (fun l b => T2 l b - pr (list_prod La Lj) Lx2 x2 l b) <= (1 + de) * (1 + de) * (N + g) - N.
Proof.
  assert (Ou : orth lr rr u') by (eapply FMat.orth_le; eauto).
  eapply Rle_trans; [apply (frob_sub _ _ _ (fun l b => s l * v' b l))|].
  pose proof sv_le as H1. fold T2 in H1.
  rewrite (frob_ext (seq 0 rr) Lb (fun l b => s l * v' b l - pr (list_prod La Lj) Lx2 x2 l b) (pr lr u' (fun p b => M' p b - C' p b))).
  2:{ intros l b Hlr Hb. apply in_seq in Hlr. rewrite near_pr, pr_sub. f_equal. symmetry. apply (svd_pr lr Lb K u' s v' M'); auto. lia. }
  pose proof (pr_le lr Lb rr u' Ou (fun p b => M' p b - C' p b)) as H2. rewrite (frob_sym lr Lb M' C') in H2. pose proof CM'_le. pose proof M'_le.
  assert (frob lr Lb M' * de <= (1 + de) * (N + g) * de) by (apply Rmult_le_compat_r; lra).
  unfold T2. nra.
Qed.

(** What the step adds to the squared distance of [x] to the span of the left factor. *)
Definition near_added : R := frob2 lr Lb (fun p b => C' p b - mm rr u' (pr lr u' C') p b).

Lemma near_error : frob2 (list_prod La Lj) Lb (fun p b => x2 p b - mm rr Lx2 (pr (list_prod La Lj) Lx2 x2) p b) =
  frob2 La (list_prod Lj Lb) (fun a p => x1 a p - mm ra Lx C a p) + near_added.
Proof.
  pose proof (pythagoras La (list_prod Lj Lb) ra Lx OL x1) as H1. fold C in H1.
  pose proof (pythagoras (list_prod La Lj) Lb rr Lx2 near_orth x2) as H2.
  pose proof (pythagoras lr Lb rr u' (FMat.orth_le lr K rr u' Hu HrK) C') as H3. fold near_added in H3.
  rewrite (frob_swap_rows La Lj Lb x1) in H1. change (fun p b => x1 (fst p) (snd p, b)) with x2 in H1.
  rewrite (frob_swap_rows (seq 0 ra) Lj Lb C) in H1. fold C' lr in H1.
  rewrite (frob2_ext (seq 0 rr) Lb (pr (list_prod La Lj) Lx2 x2) (pr lr u' C')) in H2 by (intros; apply near_pr). lra.
Qed.

Lemma near_added_le bound q (P : A * J -> nat -> R) (Z : B -> nat -> R) : rr = Nat.min bound K -> (q <= bound)%nat ->
  sqrt near_added <= frob (list_prod La Lj) Lb (fun p b => x2 p b - rsum q (fun c => P p c * Z b c)) + 2 * ((1 + de) * (N + g) - N).
Proof.
  intros Hr Hq. unfold near_added. rewrite <- frob_sqrt. assert (Ou : orth lr rr u') by (eapply FMat.orth_le; eauto).
  set (PP := fun (p : nat * J) c => lsum La (fun a => Lx a (fst p) * P (a, snd p) c)).
  assert (E1 : frob lr Lb (fun p b => C' p b - mm rr u' (pr lr u' C') p b) <=
     frob lr Lb (fun p b => M' p b - mm rr u' (pr lr u' M') p b) + frob lr Lb (fun p b => (C' p b - M' p b) - mm rr u' (pr lr u' (fun p b => C' p b - M' p b)) p b)).
  { eapply Rle_trans; [|apply frob_tri]. apply Req_le, frob_ext. intros p b _ _.
    replace (mm rr u' (pr lr u' (fun p b => C' p b - M' p b)) p b) with (mm rr u' (pr lr u' C') p b - mm rr u' (pr lr u' M') p b); [ring|].
    unfold mm. rewrite <- rsum_sub. apply rsum_ext. intros l _. rewrite pr_sub. ring. }
  pose proof (rest_le lr Lb rr u' Ou (fun p b => C' p b - M' p b)) as E2.
  pose proof (eckart lr Lb K u' s v' M' Hu Hv Hs HM bound rr q PP Z Hr Hq) as E3.
  pose proof (frob_sub lr Lb M' C' (fun p b => rsum q (fun c => PP p c * Z b c))) as E4. rewrite (frob_sym lr Lb M' C') in E4.
  assert (E5 : frob lr Lb (fun p b => C' p b - rsum q (fun c => PP p c * Z b c)) <= frob (list_prod La Lj) Lb (fun p b => x2 p b - rsum q (fun c => P p c * Z b c))).
  { set (D := fun a (p : J * B) => x1 a p - rsum q (fun c => P (a, fst p) c * Z (snd p) c)).
    pose proof (pr_le La (list_prod Lj Lb) ra Lx OL D) as H. rewrite !frob_swap_rows' in H. fold lr in H.
    eapply Rle_trans; [|eapply Rle_trans; [exact H|]]; apply Req_le; apply frob_ext; [|intros [] ? _ _; reflexivity].
    intros [c j] b _ _. unfold C', C, D, PP. cbn [fst snd]. rewrite (pr_sub La Lx x1 (fun a p => rsum q (fun c => P (a, fst p) c * Z (snd p) c))). f_equal.
    unfold pr. cbn [fst snd]. rewrite (lsum_ext La _ (fun a => rsum q (fun c0 => Lx a c * P (a, j) c0 * Z b c0))).
    2:{ intros a _. rewrite <- rsum_mul_l. apply rsum_ext. intros; ring. }
    rewrite lsum_rsum. apply rsum_ext. intros c0 _. now rewrite lsum_mul_r. }
  pose proof CM'_le. lra.
Qed.

(** The computed left factor stays close to its companion. *)
Lemma near_left (y : nat -> R) :
  nrm (list_prod La Lj) (fun p => rsum rr (fun l => (Lx2 p l - Lc2 p l) * y l)) <= (el * (1 + de) + de) * nrm (seq 0 rr) y.
Proof.
  assert (Ou : orth lr rr u') by (eapply FMat.orth_le; eauto).
  set (w := fun c (j : J) => rsum rr (fun l => u (c, j) l * y l)). set (w' := fun c (j : J) => rsum rr (fun l => u' (c, j) l * y l)).
  assert (W1 : frob (seq 0 ra) Lj w' = nrm (seq 0 rr) y).
  { pose proof (orth_iso lr [Datatypes.tt] rr u' Ou (fun l _ => y l)) as H. rewrite !frob_sqrt in H.
    rewrite frob_sqrt. unfold nrm. unfold frob2 in *. unfold lr in H. rewrite lsum_prod in H. etransitivity; [|etransitivity; [exact H|]]; f_equal.
    - apply lsum_ext. intros c _. apply lsum_ext. intros j _. rewrite lsum_cons, lsum_nil. unfold mm. fold (w' c j). ring.
    - apply lsum_ext. intros l _. rewrite lsum_cons, lsum_nil. ring. }
  assert (W2 : frob (seq 0 ra) Lj (fun c j => w c j - w' c j) <= de * nrm (seq 0 rr) y).
  { assert (Nr : frob lr (seq 0 rr) (fun p l => u p l - u' p l) <= de).
    { eapply Rle_trans; [|exact Nu]. rewrite !frob_sqrt. apply sqrt_le_1_alt. unfold frob2. apply lsum_le. intros p _. rewrite !lsum_seq.
      replace K with (rr + (K - rr))%nat by lia. rewrite rsum_app_range. match goal with |- ?a <= ?a + ?b => assert (0 <= b); [|lra] end. apply rsum_nonneg. intros. apply Rle_0_sqr. }
    pose proof (mm_frob lr [Datatypes.tt] rr (fun p l => u p l - u' p l) (fun l _ => y l)) as H.
    replace (frob (seq 0 rr) [Datatypes.tt] (fun l _ => y l)) with (nrm (seq 0 rr) y) in H.
    2:{ rewrite frob_sqrt. unfold nrm, frob2. f_equal. apply lsum_ext. intros l _. rewrite lsum_cons, lsum_nil. ring. }
    apply Rle_trans with (frob lr (seq 0 rr) (fun p l => u p l - u' p l) * nrm (seq 0 rr) y); [|apply Rmult_le_compat_r; [apply nrm_nonneg|auto]].
    eapply Rle_trans; [|exact H]. apply Req_le. rewrite !frob_sqrt. f_equal. unfold frob2, lr. rewrite lsum_prod. apply lsum_ext. intros c _. apply lsum_ext. intros j _.
    rewrite lsum_cons, lsum_nil. unfold mm, w, w'. rewrite <- rsum_sub. rewrite (rsum_ext rr (fun i => _ - _) (fun b => (u (c, j) b - u' (c, j) b) * y b)) by (intros; ring). ring. }
  assert (E : nrm (list_prod La Lj) (fun p => rsum rr (fun l => (Lx2 p l - Lc2 p l) * y l)) =
    frob La Lj (fun a j => mm ra (fun a c => Lx a c - Lc a c) w a j + - mm ra Lx (fun c j => w c j - w' c j) a j)).
  { unfold frob. apply nrm_ext. intros [a j] _. cbn [fst snd]. unfold Lx2, Lc2, mm. cbn [fst snd].
    rewrite (rsum_ext rr _ (fun l => rsum ra (fun c => (Lx a c * (u' (c, j) l * y l) - Lc a c * (u (c, j) l * y l))))).
    2:{ intros l _. rewrite <- rsum_sub, <- rsum_mul_r. apply rsum_ext. intros; ring. }
    rewrite rsum_swap. replace (rsum ra (fun b => (Lx a b - Lc a b) * w b j) + - rsum ra (fun b => Lx a b * (w b j - w' b j))) with
      (rsum ra (fun b => (Lx a b - Lc a b) * w b j) - rsum ra (fun b => Lx a b * (w b j - w' b j))) by ring. rewrite <- rsum_sub. apply rsum_ext. intros c _.
    rewrite rsum_sub, !rsum_mul_l. fold (w c j) (w' c j). ring. }
  rewrite E. eapply Rle_trans; [apply frob_tri|]. rewrite frob_opp, (orth_iso La Lj ra Lx OL).
  pose proof (op_cols La Lj ra (fun a c => Lx a c - Lc a c) el Hel Hl w) as H1. pose proof (frob_near (seq 0 ra) Lj w w') as H2.
  assert (el * frob (seq 0 ra) Lj w <= el * ((1 + de) * nrm (seq 0 rr) y)) by (apply Rmult_le_compat_l; lra). lra.
Qed.
End Step.

(** The distance of [x] to what is represented at the end. *)
Lemma near_final {A B} (La : list A) (Lb : list B) (ra : nat) (x : A -> B -> R) (Lx Lc : A -> nat -> R) (T : nat -> B -> R) g el : 0 <= el ->
  orth La ra Lx ->
  frob (seq 0 ra) Lb (fun c p => T c p - pr La Lx x c p) <= g ->
  (forall y : nat -> R, nrm La (fun a => rsum ra (fun c => (Lx a c - Lc a c) * y c)) <= el * nrm (seq 0 ra) y) ->
  frob La Lb (fun a b => x a b - mm ra Lc T a b) <=
    frob La Lb (fun a b => x a b - mm ra Lx (pr La Lx x) a b) + ((1 + el) * (frob La Lb x + g) - frob La Lb x).
Proof.
  intros He OL Hg Hl. set (C := pr La Lx x) in *.
  eapply Rle_trans; [apply (frob_sub La Lb x (mm ra Lx C))|]. apply Rplus_le_compat_l.
  eapply Rle_trans; [apply (frob_sub La Lb (mm ra Lx C) (mm ra Lx T))|].
  rewrite (frob_ext La Lb (fun a b => mm ra Lx C a b - mm ra Lx T a b) (mm ra Lx (fun c b => C c b - T c b))).
  2:{ intros a b _ _. unfold mm. rewrite <- rsum_sub. apply rsum_ext. intros; ring. }
  rewrite (frob_ext La Lb (fun a b => mm ra Lx T a b - mm ra Lc T a b) (mm ra (fun a c => Lx a c - Lc a c) T)).
  2:{ intros a b _ _. unfold mm. rewrite <- rsum_sub. apply rsum_ext. intros; ring. }
  rewrite (orth_iso La Lb ra Lx OL), (frob_sym (seq 0 ra) Lb C T).
  pose proof (op_cols La Lb ra (fun a c => Lx a c - Lc a c) el He Hl T) as H1.
  pose proof (frob_near (seq 0 ra) Lb T C) as H2. pose proof (pr_le La Lb ra Lx OL x) as H3. fold C in H3.
  assert (el * frob (seq 0 ra) Lb T <= el * (frob La Lb x + g)) by (apply Rmult_le_compat_l; lra). lra.
Qed.
