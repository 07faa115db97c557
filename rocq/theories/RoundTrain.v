(** One step of the truncation sweep of [round] (right to left) with an inexact singular value
    decomposition, after an orthogonalization with an inexact QR decomposition.  Only trains here, no
    tensors or code: the sweep is the step of NearChain.v for the multi-indices in reverse order. *)
From Coq Require Import List Arith ZArith Lia Lra Bool Ring Reals.
From Verif Require Import Scalar Tensor TensorLemmas Base Spec Chain Sweep OpsR DecompSpec GaugeProofs QRExists Trunc TruncChain FMat NearStep NearChain NearTrain QRNearRL.
Import ListNotations.
Local Open Scope R_scope.

(** ** Matrices: transposition, composition *)
Lemma frob_transpose {A B} (la : list A) (lb : list B) F : frob la lb F = frob lb la (fun b a => F a b).
Proof. rewrite !frob_sqrt. f_equal. rewrite frob_cols. reflexivity. Qed.
Lemma orth_comp {A} (la : list A) n K (L U : _ -> nat -> R) : orth la n L -> orth (seq 0 n) K U -> orth la K (fun a l => rsum n (fun e => L a e * U e l)).
Proof.
  intros HL HU l l' Hl Hl'.
  rewrite (lsum_ext la _ (fun a => rsum n (fun e => rsum n (fun e' => (U e l * U e' l') * (L a e * L a e'))))).
  2:{ intros a _. rewrite <- rsum_mul_r. apply rsum_ext. intros e _. rewrite <- rsum_mul_l. apply rsum_ext. intros; ring. }
  rewrite lsum_rsum. rewrite <- (HU l l' Hl Hl'), lsum_seq. apply rsum_ext. intros e He. rewrite lsum_rsum.
  rewrite (rsum_ext n _ (fun e' => (U e l * U e' l') * kron e e')) by (intros e' He'; now rewrite lsum_mul_l, HL). now rewrite rsum_kron_r.
Qed.
(** A factor with orthonormal columns on the column side leaves the norm. *)
Lemma orth_iso_cols {A B} (la : list A) (lb : list B) n (L : B -> nat -> R) (f : A -> nat -> R) : orth lb n L ->
  frob la lb (fun a b => rsum n (fun e => L b e * f a e)) = frob la (seq 0 n) f.
Proof. intros HL. rewrite frob_transpose, (frob_transpose la (seq 0 n)). apply (orth_iso lb la n L HL (fun e a => f a e)). Qed.
(** Product with a matrix close to one with orthonormal columns. *)
Lemma mm_near_orth {A} (la : list A) n K (D : A -> nat -> R) (u u2 : nat -> nat -> R) de : 0 <= de -> orth (seq 0 n) K u2 ->
  frob (seq 0 n) (seq 0 K) (fun e l => u e l - u2 e l) <= de ->
  frob la (seq 0 K) (mm n D u) <= frob la (seq 0 n) D * (1 + de).
Proof.
  intros Hde HU HD.
  rewrite (frob_ext la (seq 0 K) (mm n D u) (fun a l => mm n D u2 a l + mm n D (fun e l => u e l - u2 e l) a l)).
  2:{ intros a l _ _. unfold mm. rewrite <- rsum_add. apply rsum_ext. intros; ring. }
  eapply Rle_trans; [apply frob_tri|].
  assert (E1 : frob la (seq 0 K) (mm n D u2) <= frob la (seq 0 n) D).
  { rewrite frob_transpose, (frob_transpose la (seq 0 n)).
    eapply Rle_trans; [|apply (pr_le (seq 0 n) la K u2 HU (fun e a => D a e))]. apply Req_le, frob_ext. intros l a _ _. unfold pr, mm. rewrite lsum_seq. apply rsum_ext. intros; ring. }
  pose proof (mm_frob la (seq 0 K) n D (fun e l => u e l - u2 e l)) as E2.
  assert (frob la (seq 0 n) D * frob (seq 0 n) (seq 0 K) (fun e l => u e l - u2 e l) <= frob la (seq 0 n) D * de) by (apply Rmult_le_compat_l; [apply frob_nonneg|exact HD]). lra.
Qed.

(** ** Reversed multi-indices *)
Lemma vjdx_rev X J : vjdx (rev X) J -> vjdx X (rev J).
Proof.
  revert J. induction X as [|m X IH]; intros J H; cbn [rev] in H.
  - inversion H; subst. constructor.
  - unfold vjdx in H. apply Forall2_app_inv_l in H as (J1 & J2 & H1 & H2 & ->). inversion H2 as [|? j ? ? Hj H3]; subst. inversion H3; subst.
    rewrite rev_app_distr. cbn [rev app]. constructor; [exact Hj|]. now apply IH.
Qed.
Lemma frob_rev A B (F : list (list nat) -> list (list nat) -> R) : frob (RJ (rev A)) (RJ (rev B)) F = frob (RJ A) (RJ B) (fun J1 J2 => F (rev J1) (rev J2)).
Proof. now rewrite (rei_rows' _ _ _ (rei_rev A)), (rei_cols' _ _ _ (rei_rev B)). Qed.

Section Sweep.
Variables (ms : nat -> list nat) (d : nat) (de : R) (Q Go : mtrain) (ro : nat -> nat) (m : nat -> nat).
Hypothesis Hde : 0 <= de.
Hypothesis O0 : ro 0%nat = 1%nat.
Hypothesis Od : ro d = 1%nat.
Hypothesis OP : forall k, (k <= d)%nat -> (0 < ro k)%nat.
Hypothesis OQ : forall k, (k < d - 1)%nat -> gorth ms ro Q k.
Hypothesis ON : forall k, (k < d - 1)%nat -> frob (grows ms ro k) (seq 0 (ro (S k))) (fun q b => gmat Go k q b - gmat Q k q b) <= de.
Let de2 := (1 + de) * (1 + de) - 1.

(** The tensor of the exactly orthonormal companions and the last core. *)
Definition ex (J : list (list nat)) : R := rchain (gmix (d - 1) Q Go) ro 0 J (fun _ => 1) 0.
Definition exN : R := nrm (RJ (map ms (seq 0 d))) ex.
Definition eF (J1 J2 : list (list nat)) : R := ex (rev (J1 ++ J2)).
(** Distance of its unfolding at cut [k] to a sum of [q] products. *)
Definition ecut (k q : nat) (P Z : list (list nat) -> nat -> R) : R :=
  frob (RJ (map ms (seq 0 k))) (RJ (map ms (seq k (d - k)))) (fun J1 J2 => ex (J1 ++ J2) - rsum q (fun c => P J1 c * Z J2 c)).

Let X i := rev (map ms (seq (S i) (d - S i))).
Let Y i := rev (map ms (seq 0 i)).
Definition wT (r : nat -> nat) (G : mtrain) (i c : nat) (J : list (list nat)) : R :=
  match J with [] => 0 | j :: J' => rsum (r i) (fun e => lvec Q ro (rev J') e * G i e j c) end.
Definition wR (r : nat -> nat) (G : mtrain) (i : nat) (J : list (list nat)) (b : nat) : R := rvec G r (S i) (rev J) b.

Record rtn (i : nat) (G : mtrain) (r : nat -> nat) (e : nat -> R) (Rx : list (list nat) -> nat -> R) : Prop := {
  rt_orth : orth (RJ (X i)) (r (S i)) Rx;
  rt_rest : frob (seq 0 (r (S i))) (RJ (Y (S i))) (fun c J => wT r G i c J - pr (RJ (X i)) Rx eF c J) <= ((1 + de2) ^ (2 * (d - 1 - i)) - 1) * exN;
  rt_near : forall y : nat -> R, nrm (RJ (X i)) (fun J => rsum (r (S i)) (fun c => (Rx J c - wR r G i J c) * y c)) <= ((1 + de2) ^ (d - 1 - i) - 1) * nrm (seq 0 (r (S i))) y;
  rt_err : frob2 (RJ (X i)) (RJ (Y (S i))) (fun J1 J2 => eF J1 J2 - mm (r (S i)) Rx (pr (RJ (X i)) Rx eF) J1 J2) = rsum (d - 1 - i) (fun x => e (S i + x)%nat);
  rt_cut : forall k, (i < k < d)%nat -> 0 <= e k /\ forall q P Z, (q <= m k)%nat -> sqrt (e k) <= ecut k q P Z + 2 * (((1 + de2) ^ (2 * (d - k) - 1) - 1) * exN) }.

Lemma Y_S i : Y (S i) = ms i :: Y i.
Proof. unfold Y. rewrite seq_S, map_app, rev_app_distr. reflexivity. Qed.
Lemma X_pred i : (i < d)%nat -> X i ++ [ms i] = rev (map ms (seq i (d - i))).
Proof. intros H. unfold X. replace (d - i)%nat with (S (d - S i)) by lia. reflexivity. Qed.
Lemma eF_norm i : (i < d)%nat -> frob (RJ (X i)) (RJ (ms i :: Y i)) eF = exN.
Proof.
  intros H. rewrite <- Y_S. unfold X, Y. rewrite frob_rev, frob_transpose. unfold exN. rewrite (seq_cut (S i) d) by lia.
  rewrite map_app, (rei_nrm _ _ _ (rei_app _ _)). unfold frob. apply nrm_ext. intros p _. unfold eF. now rewrite <- rev_app_distr, rev_involutive.
Qed.
Lemma ecut_rev k q P Z : (0 < k < d)%nat ->
  ecut k q P Z = frob (RJ (rev (map ms (seq k (d - k))))) (RJ (Y k)) (fun J1 J2 => eF J1 J2 - rsum q (fun c => Z (rev J1) c * P (rev J2) c)).
Proof.
  intros Hk. unfold Y. rewrite frob_rev, frob_transpose. unfold ecut. apply frob_ext. intros J1 J2 _ _. unfold eF. rewrite <- rev_app_distr, rev_involutive. f_equal.
  apply rsum_ext. intros c _. rewrite !rev_involutive. ring.
Qed.
Lemma L_orth i : (i <= d - 1)%nat -> (0 < d)%nat -> orth (RJ (Y i)) (ro i) (fun J e => lvec Q ro (rev J) e).
Proof.
  intros Hi Hd l l' Hl Hl'. unfold Y. rewrite (rei_rev (map ms (seq 0 i))).
  rewrite <- (lvec_orth ms ro Q i O0 ltac:(intros; apply OP; lia) ltac:(intros; apply OQ; lia) l l' Hl Hl'). apply lsum_ext. intros J _. now rewrite rev_involutive.
Qed.

Lemma rtn_init Gr : (0 < d)%nat -> (forall k a j b, (k < d)%nat -> (a < ro k)%nat -> vidx (ms k) j -> (b < ro (S k))%nat -> Gr k a j b = Go k a j b) ->
  rtn (d - 1) Gr ro (fun _ => 0) (fun _ _ => 1).
Proof.
  intros Hd HG. assert (EX : RJ (X (d - 1)) = [[]]) by (unfold X; replace (d - S (d - 1))%nat with 0%nat by lia; reflexivity).
  assert (E1 : S (d - 1) = d) by lia.
  assert (EP : forall c J, pr [[]] (fun _ _ => 1) eF c J = ex (rev J)) by (intros; unfold pr; rewrite lsum_cons, lsum_nil; unfold eF; cbn [app]; ring).
  constructor; rewrite ?EX, ?E1, ?Od, ?Nat.sub_diag.
  - intros b b' Hb Hb'. rewrite lsum_cons, lsum_nil. assert (b = 0)%nat by lia. assert (b' = 0)%nat by lia. subst. unfold kron. cbn. lra.
  - rewrite Nat.mul_0_r. cbn [pow]. apply Req_le. transitivity 0; [|ring]. rewrite frob_sqrt. unfold frob2. rewrite lsum_0; [apply sqrt_0|].
    intros c Hc. apply in_seq in Hc. assert (c = 0)%nat by lia. subst c. apply lsum_0. intros J HJ. rewrite EP. apply in_RJ in HJ.
    assert (E : wT ro Gr (d - 1) 0 J = ex (rev J)); [|rewrite E; ring].
    unfold Y in HJ. pose proof (vjdx_rev _ _ HJ) as HJ'. replace d with (S (d - 1)) in HJ' at 1 by lia. rewrite seq_S, map_app in HJ'. unfold vjdx in HJ'.
    apply Forall2_app_inv_l in HJ' as (J1 & J2 & H1 & H2 & E). inversion H2 as [|? j ? ? Hj H3]; subst. inversion H3; subst.
    assert (EJ : J = j :: rev J1) by (rewrite <- (rev_involutive J), E, rev_app_distr; reflexivity). subst J. cbn [wT rev]. rewrite rev_involutive.
    assert (L : length J1 = (d - 1)%nat) by (apply vjdx_length in H1; now rewrite map_length, seq_length in H1).
    unfold ex. rewrite cut by (rewrite O0; lia). rewrite L. apply rsum_ext. intros a Ha. f_equal.
    + unfold lvec, lv. apply vjdx_seq in H1 as [V _]. symmetry. apply (chain_ext2 Rring ms); auto.
      * rewrite O0; lia.
      * intros k a0 j0 b0 Hk _ _ _. unfold gmix. replace (Nat.ltb k (d - 1)) with true by (symmetry; apply Nat.ltb_lt; lia). reflexivity.
    + unfold rvec. rewrite rchain_cons. rewrite E1, Od. unfold rsum. rewrite (sumn_1 Rring). unfold gmix. rewrite Nat.ltb_irrefl.
      replace (rchain _ ro d [] (fun _ => 1) 0) with 1 by reflexivity. change (@eq R (Gr (d - 1)%nat a j 0%nat) (Go (d - 1)%nat a j 0%nat * 1)). rewrite HG; [ring|lia|exact Ha|exact Hj|rewrite E1, Od; lia].
  - intros y. cbn [pow]. apply Req_le. transitivity 0; [|ring]. unfold nrm. rewrite lsum_cons, lsum_nil. unfold rsum. rewrite (sumn_1 Rring).
    unfold wR. cbn [rev]. replace (rvec Gr ro (S (d - 1)) [] 0) with 1 by reflexivity. match goal with |- sqrt ?t = _ => replace t with 0 end; [apply sqrt_0|]. change (@eq R 0 ((1 - 1) * y 0%nat * ((1 - 1) * y 0%nat) + 0)). ring.
  - change (rsum 0 _) with 0. unfold frob2. rewrite lsum_cons, lsum_nil, lsum_0; [ring|]. intros J _. unfold mm. unfold rsum. rewrite (sumn_1 Rring). rewrite EP. unfold eF. cbn [app]. change (@eq R ((ex (rev J) - 1 * ex (rev J)) * (ex (rev J) - 1 * ex (rev J))) 0). ring.
  - intros; lia.
Qed.

(** One truncation: core [i] = S [i'] is replaced, core [i'] takes up the left factor. *)
Section OneStep.
Variables (i' : nat) (G G' : mtrain) (r r' : nat -> nat) (K rr : nat).
Variables (uf u2 : nat -> nat -> R) (sf : nat -> R) (vf v2 : list nat -> nat -> nat -> R) (xf : nat -> list nat -> nat -> R) (e : nat -> R) (Rx : list (list nat) -> nat -> R).
Let i := S i'.
Hypothesis Hi : (i < d)%nat.
Hypothesis Hr : forall k, k <> i -> r' k = r k.
Hypothesis Hri : r' i = rr.
Hypothesis Hrr : rr = Nat.min (m i) K.
Hypothesis Hlo : forall k, (k <= i)%nat -> r k = ro k.
Hypothesis Hsame : forall k a j b, (i < k < d)%nat -> (a < r k)%nat -> vidx (ms k) j -> (b < r (S k))%nat -> G' k a j b = G k a j b.
Hypothesis Hold : forall a j b, (a < r i')%nat -> vidx (ms i') j -> (b < r i)%nat -> G i' a j b = Go i' a j b.
Hypothesis Hcore : forall l j b, (l < rr)%nat -> vidx (ms i) j -> (b < r (S i))%nat -> G' i l j b = vf j b l.
Hypothesis Hnext : forall a j l, (a < r i')%nat -> vidx (ms i') j -> (l < rr)%nat -> G' i' a j l = rsum (r i) (fun b => G i' a j b * (uf b l * sf l)).
Hypothesis Hx : forall a j b, (a < r i)%nat -> vidx (ms i) j -> (b < r (S i))%nat -> xf a j b = rsum K (fun l => u2 a l * sf l * v2 j b l).
Hypothesis Hu : orth (seq 0 (r i)) K u2.
Hypothesis Hv : orth (grows (fun _ => ms i) (fun _ => r (S i)) i) K (fun p l => v2 (snd p) (fst p) l).
Hypothesis Hs : forall a b, (a <= b)%nat -> (b < K)%nat -> 0 <= sf b <= sf a.
Hypothesis Nx : frob (grows (fun _ => ms i) (fun _ => r (S i)) i) (seq 0 (r i)) (fun p a => xf a (snd p) (fst p) - G i a (snd p) (fst p)) <=
  de * frob (grows (fun _ => ms i) (fun _ => r (S i)) i) (seq 0 (r i)) (fun p a => G i a (snd p) (fst p)).
Hypothesis Nu : frob (seq 0 (r i)) (seq 0 K) (fun a l => uf a l - u2 a l) <= de.
Hypothesis Nv : frob (grows (fun _ => ms i) (fun _ => r (S i)) i) (seq 0 K) (fun p l => vf (snd p) (fst p) l - v2 (snd p) (fst p) l) <= de.
Hypothesis HI : rtn i G r e Rx.

Let lr := list_prod (seq 0 (r (S i))) (RI (ms i)).
Let L (J : list (list nat)) (a : nat) : R := lvec Q ro (rev J) a.
Let sM' (c : nat) (j : list nat) (J : list (list nat)) : R := rsum (r i) (fun a => L J a * xf a j c).
Let sv' (J : list (list nat)) (l : nat) : R := rsum (r i) (fun a => L J a * u2 a l).
Let sv (J : list (list nat)) (l : nat) : R := match J with [] => 0 | j :: J' => rsum (r i') (fun a => L J' a * rsum (r i) (fun b => G i' a j b * uf b l)) end.

Lemma de2_ge : de <= de2. Proof. unfold de2. nra. Qed.
Lemma de2_pos : 0 <= de2. Proof. pose proof de2_ge. lra. Qed.
Lemma st_HrK : (rr <= K)%nat. Proof. lia. Qed.
Lemma st_L : orth (RJ (Y i)) (r i) L.
Proof. unfold L. rewrite Hlo by lia. apply L_orth; lia. Qed.
Lemma st_T2 l J : (l < rr)%nat -> vjdx (Y i) J -> wT r' G' i' l J = sf l * sv J l.
Proof.
  intros Hl HJ. unfold i in HJ. rewrite Y_S in HJ. inversion HJ as [|? j ? J' Hj HJ']; subst. cbn [wT sv]. rewrite Hr by (unfold i; lia). rewrite <- rsum_mul_l. apply rsum_ext. intros a Ha.
  rewrite Hnext by auto. fold (L J' a). rewrite <- !Rmult_assoc, (Rmult_comm (sf l)), !Rmult_assoc. f_equal. rewrite <- rsum_mul_l. apply rsum_ext. intros; ring.
Qed.
Lemma st_R J j l : vjdx (X i) J -> vidx (ms i) j -> (l < rr)%nat -> wR r' G' i' (J ++ [j]) l = rsum (r (S i)) (fun a => wR r G i J a * vf j a l).
Proof.
  intros HJ Hj Hl. unfold wR. rewrite rev_app_distr. cbn [rev app]. unfold rvec at 1. rewrite rchain_cons. fold i. rewrite Hr by lia. apply rsum_ext. intros b Hb.
  rewrite Hcore by auto. rewrite Rmult_comm. f_equal. unfold X in HJ. apply vjdx_rev, vjdx_seq in HJ as [V Ln]. unfold rvec. symmetry. apply (chain_ext2 Rring ms); auto.
  - symmetry. apply Hr. lia.
  - intros k Hk. symmetry. apply Hr. lia.
  - intros k a0 j0 b0 Hk Ha0 Hb0 Hj0. symmetry. apply Hsame; auto; lia.
Qed.
Lemma st_v' : orth (RJ (Y i)) K sv'.
Proof. apply orth_comp; [apply st_L|exact Hu]. Qed.
Lemma st_M' c j J : (c < r (S i))%nat -> vidx (ms i) j -> vjdx (Y i) J -> sM' c j J = rsum K (fun l => v2 j c l * sf l * sv' J l).
Proof.
  intros Hc Hj HJ. unfold sM', sv'.
  rewrite (rsum_ext K _ (fun l => rsum (r i) (fun a => L J a * (u2 a l * sf l * v2 j c l)))).
  2:{ intros l _. rewrite <- rsum_mul_l. apply rsum_ext. intros; ring. }
  rewrite rsum_swap. apply rsum_ext. intros a Ha. now rewrite rsum_mul_l, <- Hx.
Qed.
Lemma st_NM : frob lr (RJ (Y i)) (fun p J => sM' (fst p) (snd p) J - wT r G i (fst p) (snd p :: J)) <= de2 * frob lr (RJ (Y i)) (fun p J => wT r G i (fst p) (snd p :: J)).
Proof.
  pose proof st_L as OL. change (grows (fun _ => ms i) (fun _ => r (S i)) i) with lr in Nx.
  assert (E1 : frob lr (RJ (Y i)) (fun p J => wT r G i (fst p) (snd p :: J)) = frob lr (seq 0 (r i)) (fun p a => G i a (snd p) (fst p))).
  { rewrite <- (orth_iso_cols lr (RJ (Y i)) (r i) L _ OL). apply frob_ext. intros p J _ _. cbn [wT]. reflexivity. }
  assert (E2 : frob lr (RJ (Y i)) (fun p J => sM' (fst p) (snd p) J - wT r G i (fst p) (snd p :: J)) = frob lr (seq 0 (r i)) (fun p a => xf a (snd p) (fst p) - G i a (snd p) (fst p))).
  { rewrite <- (orth_iso_cols lr (RJ (Y i)) (r i) L _ OL). apply frob_ext. intros p J _ _. cbn [wT]. unfold sM'. rewrite <- rsum_sub. apply rsum_ext. intros; unfold L; ring. }
  rewrite E1, E2. eapply Rle_trans; [exact Nx|]. apply Rmult_le_compat_r; [apply frob_nonneg|apply de2_ge].
Qed.
Lemma st_Nv : frob (RJ (Y i)) (seq 0 K) (fun J l => sv J l - sv' J l) <= de2.
Proof.
  unfold i. rewrite Y_S, (rei_rows' _ _ _ (rei_cons (ms i') (Y i'))).
  assert (OL : orth (RJ (Y i')) (r i') L) by (unfold L; rewrite Hlo by (unfold i; lia); apply L_orth; unfold i in *; lia).
  set (D := fun (p : nat * list nat) b => gmat Go i' p b - gmat Q i' p b).
  set (W := fun (p : nat * list nat) l => mm (r i) D uf p l + mm (r i) (gmat Q i') (fun b l => uf b l - u2 b l) p l).
  assert (EW : frob (list_prod (RI (ms i')) (RJ (Y i'))) (seq 0 K) (fun p l => sv (fst p :: snd p) l - sv' (fst p :: snd p) l) = frob (grows ms ro i') (seq 0 K) W).
  { rewrite frob_transpose, (frob_transpose (grows ms ro i')).
    transitivity (frob (list_prod (seq 0 K) (RI (ms i'))) (RJ (Y i')) (fun p J => rsum (r i') (fun a => L J a * W (a, snd p) (fst p)))).
    - transitivity (frob (seq 0 K) (list_prod (RI (ms i')) (RJ (Y i'))) (fun l p => rsum (r i') (fun a => L (snd p) a * W (a, fst p) l))); [|rewrite frob_swap_rows'; reflexivity].
      apply frob_ext. intros l [j J] Hl Hp. apply in_seq in Hl. apply in_prod_iff in Hp as [Hj HJ]. apply in_RI in Hj. apply in_RJ in HJ. cbn [fst snd sv].
      assert (E' : sv' (j :: J) l = rsum (r i') (fun a => L J a * rsum (r i) (fun b => Q i' a j b * u2 b l))).
      { unfold sv', L. cbn [rev]. pose proof (vjdx_length _ _ HJ) as LJ. unfold Y in LJ. rewrite rev_length, map_length, seq_length in LJ.
        rewrite (rsum_ext (r i) _ (fun b => rsum (r i') (fun a => lvec Q ro (rev J) a * (Q i' a j b * u2 b l)))).
        2:{ intros b Hb. rewrite lvec_snoc; [|rewrite O0; lia|rewrite rev_length, LJ; rewrite <- Hlo by (unfold i; lia); exact Hb].
            rewrite rev_length, LJ, <- Hlo by (unfold i; lia). rewrite <- rsum_mul_r. apply rsum_ext. intros; ring. }
        rewrite rsum_swap. apply rsum_ext. intros a _. now rewrite rsum_mul_l. }
      rewrite E', <- rsum_sub. apply rsum_ext. intros a Ha. unfold W, mm, D, gmat. cbn [fst snd]. rewrite <- rsum_add.
      rewrite <- Rmult_minus_distr_l. f_equal. rewrite <- rsum_sub. apply rsum_ext. intros b Hb. rewrite Hold by auto. ring.
    - rewrite (orth_iso_cols (list_prod (seq 0 K) (RI (ms i'))) (RJ (Y i')) (r i') L (fun p a => W (a, snd p) (fst p)) OL).
      unfold grows. rewrite Hlo by (unfold i; lia). rewrite !frob_sqrt. f_equal. unfold frob2. rewrite lsum_prod. apply lsum_ext. intros l _. rewrite lsum_prod. cbn [fst snd].
      rewrite lsum_swap. reflexivity. }
  rewrite EW. unfold W. eapply Rle_trans; [apply frob_tri|].
  assert (Hu' : orth (seq 0 (ro i)) K u2) by (rewrite <- Hlo by lia; exact Hu).
  assert (N1 : frob (grows ms ro i') (seq 0 (ro i)) D <= de) by (apply (ON i'); unfold i in *; lia).
  rewrite (Hlo i) by lia. rewrite (Hlo i) in Nu by lia.
  pose proof (mm_near_orth (grows ms ro i') (ro i) K D uf u2 de Hde Hu' Nu) as H1.
  assert (H2 : frob (grows ms ro i') (seq 0 K) (mm (ro i) (gmat Q i') (fun b l => uf b l - u2 b l)) <= de).
  { rewrite (orth_iso (grows ms ro i') (seq 0 K) (ro i) (gmat Q i') (OQ i' ltac:(unfold i in *; lia))). exact Nu. }
  assert (frob (grows ms ro i') (seq 0 (ro i)) D * (1 + de) <= de * (1 + de)) by (apply Rmult_le_compat_r; lra). unfold de2. lra.
Qed.

Let cu (c : nat) (j : list nat) (l : nat) : R := vf j c l.
Let cu' (c : nat) (j : list nat) (l : nat) : R := v2 j c l.
Let xr (J : list (list nat)) : R := ex (rev J).

Lemma rtn_step : exists e' Rx', rtn i' G' r' e' Rx'.
Proof.
  destruct HI as [IO IR IN IE IC]. pose proof de2_pos as Hd2. pose proof st_HrK as HrK.
  assert (P1 : 1 <= (1 + de2) ^ (d - 1 - i)) by (apply pow_R1_Rle; lra).
  assert (Nu' : frob lr (seq 0 K) (fun p l => cu (fst p) (snd p) l - cu' (fst p) (snd p) l) <= de2) by (eapply Rle_trans; [exact Nv|apply de2_ge]).
  rewrite Y_S in IR, IE.
  pose proof (c_orth (X i) (ms i) (r (S i)) K rr Rx cu' HrK IO Hv) as SL.
  pose proof (c_rest (X i) (Y i) (ms i) (r (S i)) K rr xr Rx (wT r G i) (wT r' G' i') cu' sf sv sv' sM' de2 _ Hd2 HrK st_T2 IO IR Hv st_v' st_M' st_NM st_Nv) as SR.
  pose proof (c_error (X i) (Y i) (ms i) (r (S i)) K rr xr Rx cu' HrK IO Hv) as SE.
  pose proof (c_added_le (X i) (Y i) (ms i) (r (S i)) K rr xr Rx (wT r G i) cu' sf sv' sM' de2 _ Hd2 HrK IO IR Hv st_v' Hs st_M' st_NM (m i)) as SB.
  pose proof (c_left (X i) (ms i) (r (S i)) K rr Rx (wR r G i) (wR r' G' i') cu cu' de2 ((1 + de2) ^ (d - 1 - i) - 1) ltac:(lra) HrK st_R IO IN Hv Nu') as SD.
  change (frob (RJ (X i)) (RJ (ms i :: Y i)) (fun J1 J2 => xr (J1 ++ J2))) with (frob (RJ (X i)) (RJ (ms i :: Y i)) eF) in SR, SB. rewrite eF_norm in SR, SB by lia.
  change (fun J1 J2 : list (list nat) => xr (J1 ++ J2)) with eF in SR, SE.
  set (Rx' := nx2 (r (S i)) Rx cu') in *.
  assert (EX : X i ++ [ms i] = X i') by (unfold X, i; replace (d - S i')%nat with (S (d - S (S i'))) by (unfold i in *; lia); reflexivity).
  assert (EE : (d - 1 - i' = S (d - 1 - i))%nat) by (unfold i in *; lia).
  exists (fun k => if Nat.eqb k i then c_added (X i) (Y i) (ms i) (r (S i)) rr xr Rx cu' else e k), Rx'.
  constructor; fold i; rewrite ?Hri; rewrite <- ?EX.
  - exact SL.
  - eapply Rle_trans; [exact SR|]. apply Req_le. rewrite EE. replace (2 * S (d - 1 - i))%nat with (2 * (d - 1 - i) + 2)%nat by lia. rewrite pow_add. cbn [pow]. ring.
  - intros w. eapply Rle_trans; [apply SD|]. apply Req_le. rewrite EE. cbn [pow]. ring.
  - rewrite SE, IE, EE. replace (S (d - 1 - i)) with (1 + (d - 1 - i))%nat by lia. rewrite rsum_app_range, Rplus_comm. f_equal.
    + unfold rsum. rewrite (sumn_1 Rring). rewrite Nat.add_0_r, Nat.eqb_refl. reflexivity.
    + apply rsum_ext. intros l Hl. destruct (Nat.eqb_spec (i + (1 + l)) i); [lia|]. f_equal. lia.
  - intros k Hk. destruct (Nat.eqb_spec k i) as [->|Hne].
    + split; [apply c_added_nonneg|]. intros q P Z Hq. rewrite ecut_rev by lia. rewrite <- X_pred by lia.
      eapply Rle_trans; [apply (SB q (fun J => Z (rev J)) (fun J => P (rev J)) Hrr Hq)|].
      apply Rplus_le_compat_l. apply Req_le. replace (2 * (d - i) - 1)%nat with (2 * (d - 1 - i) + 1)%nat by lia. rewrite pow_add. cbn [pow]. ring.
    + apply IC. unfold i in *. lia.
Qed.
End OneStep.

Lemma rtn_end G r e Rx : (0 < d)%nat -> r 0%nat = 1%nat -> rtn 0 G r e Rx ->
  nrm (RJ (map ms (seq 0 d))) (fun J => ex J - rchain G r 0 J (fun _ => 1) 0) <= sqrt (rsum (d - 1) (fun x => e (S x))) + ((1 + de2) ^ (3 * (d - 1)) - 1) * exN.
Proof.
  intros Hd R0 [IO IR IN IE _]. pose proof (de2_pos) as Hd2. rewrite Nat.sub_0_r in *.
  assert (P1 : 1 <= (1 + de2) ^ (d - 1)) by (apply pow_R1_Rle; unfold de2; nra).
  pose proof (near_final (RJ (X 0)) (RJ (Y 1)) (r 1%nat) eF Rx (wR r G 0) (wT r G 0) _ ((1 + de2) ^ (d - 1) - 1) ltac:(lra) IO IR IN) as NF.
  pose proof (eF_norm 0 Hd) as EN. rewrite <- Y_S in EN. rewrite EN in NF.
  rewrite (frob_sqrt _ _ (fun J1 J2 => eF J1 J2 - mm (r 1%nat) Rx _ J1 J2)), IE in NF.
  replace ((1 + ((1 + de2) ^ (d - 1) - 1)) * (exN + ((1 + de2) ^ (2 * (d - 1)) - 1) * exN) - exN) with (((1 + de2) ^ (3 * (d - 1)) - 1) * exN) in NF.
  2:{ replace (3 * (d - 1))%nat with ((d - 1) + 2 * (d - 1))%nat by lia. rewrite pow_add. ring. }
  eapply Rle_trans; [|exact NF]. apply Req_le. unfold X, Y. rewrite frob_rev, frob_transpose. rewrite (seq_cut 1 d) by lia.
  rewrite map_app, (rei_nrm _ _ _ (rei_app _ _)). unfold frob. apply nrm_ext. intros [J1 J2] Hp. cbn [fst snd]. apply in_prod_iff in Hp as [H1 H2]. apply in_RJ in H1.
  cbn [seq map] in H1. inversion H1 as [|? j ? ? Hj H3]; subst. inversion H3; subst. unfold eF. rewrite <- rev_app_distr, rev_involutive. f_equal.
  cbn [app]. rewrite rchain_cons. unfold mm, wR. cbn [rev app wT]. rewrite R0. apply rsum_ext. intros b Hb. rewrite rev_involutive. unfold rsum. rewrite (sumn_1 Rring). unfold rvec.
  replace (lvec Q ro [] 0) with 1 by (unfold lvec, lv; reflexivity). rewrite Rmult_comm. f_equal. symmetry. apply Rmult_1_l.
Qed.
End Sweep.

(** Sum over the cuts. *)
Lemma cuts_tri n (e c : nat -> R) h : 0 <= h -> (forall k, (k < n)%nat -> 0 <= e k /\ 0 <= c k /\ sqrt (e k) <= c k + h) ->
  sqrt (rsum n e) <= sqrt (rsum n (fun k => c k * c k)) + sqrt (INR n) * h.
Proof.
  intros Hh HB. pose proof (nrm_tri (seq 0 n) c (fun _ => h)) as NT.
  assert (E1 : nrm (seq 0 n) c = sqrt (rsum n (fun k => c k * c k))) by (unfold nrm; now rewrite lsum_seq).
  assert (E2 : nrm (seq 0 n) (fun _ => h) = sqrt (INR n) * h).
  { unfold nrm. rewrite lsum_seq. rewrite (rsum_ext n _ (fun _ => (h * h) * 1)) by (intros; ring).
    rewrite rsum_mul_l, rsum_1s, sqrt_mult_alt by (apply Rle_0_sqr). rewrite sqrt_square by auto. ring. }
  rewrite E1, E2 in NT. eapply Rle_trans; [|exact NT]. unfold nrm. rewrite lsum_seq. apply sqrt_le_1_alt. apply rsum_le. intros k Hk.
  destruct (HB k Hk) as (B1 & _ & B2). rewrite <- (sqrt_sqrt (e k)) by auto. pose proof (sqrt_pos (e k)). apply Rmult_le_compat; auto.
Qed.

(** The whole sweep, compared with the given train. *)
Section Total.
Variables (ms : nat -> list nat) (d : nat) (de : R) (G0 Q Go G : mtrain) (r0 ro r : nat -> nat) (m : nat -> nat) (e : nat -> R) (Rx : list (list nat) -> nat -> R).
Hypothesis Hde : 0 <= de.
Hypothesis Hd : (0 < d)%nat.
Hypothesis O0 : ro 0%nat = 1%nat.
Hypothesis Od : ro d = 1%nat.
Hypothesis OP : forall k, (k <= d)%nat -> (0 < ro k)%nat.
Hypothesis R0 : r 0%nat = 1%nat.
Hypothesis HL : lrn ms d de G0 r0 Go ro Q (d - 1).
Hypothesis HI : rtn ms d de Q Go ro m 0 G r e Rx.
Let P := rprod (gnorm ms r0 G0) 0 d.
Let gx (J : list (list nat)) : R := rchain G0 r0 0 J (fun _ => 1) 0.
Let de2 := (1 + de) * (1 + de) - 1.
Definition tcut (k q : nat) (P Z : list (list nat) -> nat -> R) : R :=
  frob (RJ (map ms (seq 0 k))) (RJ (map ms (seq k (d - k)))) (fun J1 J2 => gx (J1 ++ J2) - rsum q (fun c => P J1 c * Z J2 c)).

Lemma ex_norm : exN ms d Q Go ro <= (1 + de) ^ (d - 1) * P.
Proof.
  assert (Ed : d = S (d - 1)) by lia. unfold exN, ex. rewrite (done_norm ms d (d - 1) de G0 r0 Go ro Q Ed O0 Od OP HL).
  apply (done_last ms d (d - 1) de G0 r0 Go ro Q Ed HL).
Qed.
Lemma ex_dist : nrm (RJ (map ms (seq 0 d))) (fun J => ex d Q Go ro J - gx J) <= ((1 + de) ^ (d - 1) - 1) * P.
Proof. apply (ln_dist _ _ _ _ _ _ _ _ _ HL). Qed.
Lemma ecut_tcut k q P' Z : (k <= d)%nat -> ecut ms d Q Go ro k q P' Z <= tcut k q P' Z + ((1 + de) ^ (d - 1) - 1) * P.
Proof.
  intros Hk. unfold ecut, tcut. rewrite Rplus_comm. eapply Rle_trans; [apply (frob_sub _ _ _ (fun J1 J2 => gx (J1 ++ J2)))|]. apply Rplus_le_compat_r.
  eapply Rle_trans; [|apply ex_dist]. apply Req_le. rewrite (seq_cut k d) by auto. rewrite map_app, (rei_nrm _ _ _ (rei_app _ _)). reflexivity.
Qed.

Lemma train_round (q : nat -> nat) P' Z : (forall k, (0 < k < d)%nat -> (q k <= m k)%nat) ->
  nrm (RJ (map ms (seq 0 d))) (fun J => gx J - rchain G r 0 J (fun _ => 1) 0) <=
    sqrt (rsum (d - 1) (fun x => tcut (S x) (q (S x)) (P' (S x)) (Z (S x)) * tcut (S x) (q (S x)) (P' (S x)) (Z (S x)))) +
    (((1 + de2) ^ (3 * (d - 1)) - 1 + 2 * sqrt (INR (d - 1)) * ((1 + de2) ^ (2 * d - 3) - 1)) * (1 + de) ^ (d - 1) + (1 + sqrt (INR (d - 1))) * ((1 + de) ^ (d - 1) - 1)) * P.
Proof.
  intros Hq. pose proof (rtn_end ms d de Q Go ro m Hde O0 Od G r e Rx Hd R0 HI) as RE. fold de2 in RE.
  pose proof ex_norm as EN. pose proof ex_dist as ED. set (N := exN ms d Q Go ro) in *.
  assert (N0 : 0 <= N) by (unfold N, exN; apply nrm_nonneg).
  assert (PP : 0 <= P) by (apply rprod_nonneg; intros; apply gnorm_nonneg).
  assert (Pd : 0 <= de2) by (unfold de2; nra).
  set (f := (1 + de2) ^ (2 * d - 3) - 1) in *. set (h3 := (1 + de2) ^ (3 * (d - 1)) - 1) in *. set (eta := (1 + de) ^ (d - 1) - 1) in *.
  assert (F0 : 0 <= f) by (unfold f; assert (1 <= (1 + de2) ^ (2 * d - 3)) by (apply pow_R1_Rle; lra); lra).
  assert (H0 : 0 <= h3) by (unfold h3; assert (1 <= (1 + de2) ^ (3 * (d - 1))) by (apply pow_R1_Rle; lra); lra).
  assert (T0 : 0 <= eta) by (unfold eta; assert (1 <= (1 + de) ^ (d - 1)) by (apply pow_R1_Rle; lra); lra).
  replace ((1 + de) ^ (d - 1)) with (1 + eta) in * by (unfold eta; ring).
  assert (FN : 0 <= f * N) by now apply Rmult_le_pos. assert (TP : 0 <= eta * P) by now apply Rmult_le_pos.
  pose proof (cuts_tri (d - 1) (fun x => e (S x)) (fun x => tcut (S x) (q (S x)) (P' (S x)) (Z (S x))) (eta * P + 2 * (f * N)) ltac:(lra)) as CT.
  assert (B : forall k, (k < d - 1)%nat -> 0 <= e (S k) /\ 0 <= tcut (S k) (q (S k)) (P' (S k)) (Z (S k)) /\ sqrt (e (S k)) <= tcut (S k) (q (S k)) (P' (S k)) (Z (S k)) + (eta * P + 2 * (f * N))).
  { intros k Hk. destruct (rt_cut _ _ _ _ _ _ _ _ _ _ _ _ HI (S k) ltac:(lia)) as [B1 B2]. split; [exact B1|]. split; [apply frob_nonneg|].
    specialize (B2 (q (S k)) (P' (S k)) (Z (S k)) ltac:(apply Hq; lia)). fold de2 N in B2. pose proof (ecut_tcut (S k) (q (S k)) (P' (S k)) (Z (S k)) ltac:(lia)) as B3. fold eta in B3.
    assert (B4 : ((1 + de2) ^ (2 * (d - S k) - 1) - 1) * N <= f * N).
    { apply Rmult_le_compat_r; [auto|]. unfold f. assert ((1 + de2) ^ (2 * (d - S k) - 1) <= (1 + de2) ^ (2 * d - 3)) by (apply Rle_pow; [lra|lia]). lra. }
    lra. }
  specialize (CT B). set (S1 := sqrt (rsum (d - 1) (fun k => _ * _))) in *. set (sq := sqrt (INR (d - 1))) in *. assert (Sq : 0 <= sq) by apply sqrt_pos.
  assert (TR : nrm (RJ (map ms (seq 0 d))) (fun J => gx J - rchain G r 0 J (fun _ => 1) 0) <= eta * P + (sqrt (rsum (d - 1) (fun x => e (S x))) + h3 * N)).
  { eapply Rle_trans; [apply (nrm_tri' _ _ (ex d Q Go ro) _)|]. apply Rplus_le_compat; [|exact RE].
    eapply Rle_trans; [|exact ED]. apply Req_le. unfold nrm. f_equal. apply lsum_ext. intros; ring. }
  assert (A1 : h3 * N <= h3 * ((1 + eta) * P)) by (now apply Rmult_le_compat_l).
  assert (A2 : sq * (f * N) <= sq * (f * ((1 + eta) * P))) by (apply Rmult_le_compat_l; [auto|]; now apply Rmult_le_compat_l).
  eapply Rle_trans; [exact TR|]. eapply Rle_trans; [apply Rplus_le_compat_l, Rplus_le_compat; [exact CT|exact A1]|].
  replace ((h3 + 2 * sq * f) * (1 + eta) + (1 + sq) * eta) with (h3 * (1 + eta) + 2 * (sq * (f * (1 + eta))) + eta + sq * eta) by ring.
  assert (A3 : 2 * (sq * (f * N)) <= 2 * (sq * (f * (1 + eta))) * P) by lra. lra.
Qed.
End Total.
