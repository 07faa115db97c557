(** The step of NearStep.v for multi-indices. *)
From Coq Require Import List Arith ZArith Lia Lra Bool Ring Reals.
From Verif Require Import Scalar Tensor TensorLemmas Base Spec Chain Sweep OpsR DecompSpec GaugeProofs QRExists Trunc TruncChain FMat NearStep.
Import ListNotations.
Local Open Scope R_scope.

Definition RJ (X : list (list nat)) : list (list (list nat)) := map (jun X) (seq 0 (jsize X)).
Definition RI (m : list nat) : list (list nat) := map (unravel m) (seq 0 (prodn m)).
Lemma lsum_RJ X f : lsum (RJ X) f = rj X f.
Proof. unfold RJ. now rewrite lsum_map, lsum_seq, rj_rsum_all. Qed.
Lemma lsum_RI m f : lsum (RI m) f = ri m f.
Proof. unfold RI, ri. rewrite lsum_map, lsum_seq, (isum_unravel Rring). reflexivity. Qed.
Lemma in_RJ X J : In J (RJ X) -> vjdx X J.
Proof. unfold RJ. intros H. apply in_map_iff in H as (i & <- & H). apply in_seq in H. apply jun_valid. lia. Qed.
Lemma in_RI m j : In j (RI m) -> vidx m j.
Proof. unfold RI. intros H. apply in_map_iff in H as (i & <- & H). apply in_seq in H. apply unravel_valid. lia. Qed.

(** Renaming of indices. *)
Definition rei {A B} (la : list A) (lb : list B) (h : B -> A) : Prop := forall f, lsum la f = lsum lb (fun b => f (h b)).
Section Rei.
Context {A B C : Type} (la : list A) (lb : list B) (h : B -> A) (H : rei la lb h).
Lemma rei_nrm f : nrm la f = nrm lb (fun b => f (h b)).
Proof. unfold nrm. now rewrite H. Qed.
Lemma rei_rows (lc : list C) F : frob2 la lc F = frob2 lb lc (fun b => F (h b)).
Proof. unfold frob2. now rewrite H. Qed.
Lemma rei_cols (lc : list C) F : frob2 lc la F = frob2 lc lb (fun c b => F c (h b)).
Proof. unfold frob2. apply lsum_ext. intros. now rewrite H. Qed.
Lemma rei_rows' (lc : list C) F : frob la lc F = frob lb lc (fun b => F (h b)).
Proof. rewrite !frob_sqrt. now rewrite rei_rows. Qed.
Lemma rei_cols' (lc : list C) F : frob lc la F = frob lc lb (fun c b => F c (h b)).
Proof. rewrite !frob_sqrt. now rewrite rei_cols. Qed.
Lemma rei_pr U (X : A -> C -> R) l c : pr la U X l c = pr lb (fun b => U (h b)) (fun b => X (h b)) l c.
Proof. unfold pr. now rewrite H. Qed.
Lemma rei_orth k U : orth lb k (fun b => U (h b)) -> orth la k U.
Proof. intros O l l' Hl Hl'. rewrite H. now apply O. Qed.
End Rei.

Lemma rei_snoc X m : rei (RJ (X ++ [m])) (list_prod (RJ X) (RI m)) (fun p => fst p ++ [snd p]).
Proof.
  intros f. rewrite lsum_prod, !lsum_RJ, rj_app. apply rj_ext. intros J _. rewrite rj_cons, lsum_RI. apply ri_ext. intros j _. reflexivity.
Qed.
Lemma rei_cons m Y : rei (RJ (m :: Y)) (list_prod (RI m) (RJ Y)) (fun p => fst p :: snd p).
Proof.
  intros f. rewrite lsum_prod, lsum_RI, lsum_RJ, rj_cons. apply ri_ext. intros j _. now rewrite lsum_RJ.
Qed.
Lemma rei_app X Y : rei (RJ (X ++ Y)) (list_prod (RJ X) (RJ Y)) (fun p => fst p ++ snd p).
Proof. intros f. rewrite lsum_prod, !lsum_RJ, rj_app. apply rj_ext. intros J _. now rewrite lsum_RJ. Qed.

Section Step.
Variables (X Y : list (list nat)) (m : list nat) (ra K rr : nat).
Variables (A : list (list nat) -> R) (Lx Lc Lc2 : list (list nat) -> nat -> R) (T T2 : nat -> list (list nat) -> R).
Variables (u u' : nat -> list nat -> nat -> R) (s : nat -> R) (v v' : list (list nat) -> nat -> R) (M' : nat -> list nat -> list (list nat) -> R) (de g el : R).
Let lr := list_prod (seq 0 ra) (RI m).
Hypothesis Hde : 0 <= de.
Hypothesis Hel : 0 <= el.
Hypothesis HrK : (rr <= K)%nat.
Hypothesis HT2 : forall l J, (l < rr)%nat -> vjdx Y J -> T2 l J = s l * v J l.
Hypothesis HLc2 : forall J j l, vjdx X J -> vidx m j -> (l < rr)%nat -> Lc2 (J ++ [j]) l = rsum ra (fun a => Lc J a * u a j l).
Hypothesis OL : orth (RJ X) ra Lx.
Let F1 := fun J1 J2 => A (J1 ++ J2).
Hypothesis Hg : frob (seq 0 ra) (RJ (m :: Y)) (fun c J => T c J - pr (RJ X) Lx F1 c J) <= g.
Hypothesis Hl : forall y : nat -> R, nrm (RJ X) (fun a => rsum ra (fun c => (Lx a c - Lc a c) * y c)) <= el * nrm (seq 0 ra) y.
Hypothesis Hu : orth lr K (fun p => u' (fst p) (snd p)).
Hypothesis Hv : orth (RJ Y) K v'.
Hypothesis Hs : forall a b, (a <= b)%nat -> (b < K)%nat -> 0 <= s b <= s a.
Hypothesis HM : forall a j J, (a < ra)%nat -> vidx m j -> vjdx Y J -> M' a j J = rsum K (fun l => u' a j l * s l * v' J l).
Hypothesis NM : frob lr (RJ Y) (fun p J => M' (fst p) (snd p) J - T (fst p) (snd p :: J)) <= de * frob lr (RJ Y) (fun p J => T (fst p) (snd p :: J)).
Hypothesis Nu : frob lr (seq 0 K) (fun p l => u (fst p) (snd p) l - u' (fst p) (snd p) l) <= de.
Hypothesis Nv : frob (RJ Y) (seq 0 K) (fun b l => v b l - v' b l) <= de.
Let N := frob (RJ X) (RJ (m :: Y)) F1.
Definition nx2 (J : list (list nat)) (l : nat) : R := rsum ra (fun c => Lx (removelast J) c * u' c (last J []) l).
Let X' := X ++ [m].

Let sx := fun (J : list (list nat)) (j : list nat) (J2 : list (list nat)) => A (J ++ j :: J2).
Let sT := fun (c : nat) (p : list nat * list (list nat)) => T c (fst p :: snd p).
Let su := fun (p : nat * list nat) l => u (fst p) (snd p) l.
Let su' := fun (p : nat * list nat) l => u' (fst p) (snd p) l.
Let sM' := fun (p : nat * list nat) J => M' (fst p) (snd p) J.
Let sLx2 := fun (p : list (list nat) * list nat) l => rsum ra (fun c => Lx (fst p) c * su' (c, snd p) l).

Lemma nx2_snoc p l : nx2 (fst p ++ [snd p]) l = sLx2 p l.
Proof. unfold nx2. now rewrite removelast_last, last_last. Qed.
Lemma c_orth : orth (RJ X') rr nx2.
Proof.
  apply (rei_orth _ _ _ (rei_snoc X m)). intros l l' H1 H2.
  rewrite <- (near_orth (RJ X) (RI m) ra K rr Lx su' HrK OL Hu l l' H1 H2). apply lsum_ext. intros p _. now rewrite !nx2_snoc.
Qed.
Lemma c_Hg : frob (seq 0 ra) (list_prod (RI m) (RJ Y)) (fun c p => sT c p - pr (RJ X) Lx (fun a q => sx a (fst q) (snd q)) c p) <= g.
Proof. rewrite (rei_cols' _ _ _ (rei_cons m Y)) in Hg. exact Hg. Qed.
Lemma c_HM p b : In p lr -> In b (RJ Y) -> sM' p b = rsum K (fun l => su' p l * s l * v' b l).
Proof. intros Hp Hb. destruct p as [a j]. unfold lr in Hp. apply in_prod_iff in Hp as [H1 H2]. apply in_seq in H1. apply HM; [cbn; lia|now apply in_RI|now apply in_RJ]. Qed.
Lemma c_N : frob (RJ X) (list_prod (RI m) (RJ Y)) (fun a q => sx a (fst q) (snd q)) = N.
Proof. unfold N. rewrite (rei_cols' _ _ _ (rei_cons m Y)). reflexivity. Qed.
Lemma c_pr l J : pr (RJ X') nx2 F1 l J = pr (list_prod (RJ X) (RI m)) sLx2 (fun p b => sx (fst p) (snd p) b) l J.
Proof.
  unfold X'. rewrite (rei_pr _ _ _ (rei_snoc X m)). apply lsum_ext. intros p _. rewrite nx2_snoc. unfold F1, sx. now rewrite <- app_assoc.
Qed.

Lemma c_rest : frob (seq 0 rr) (RJ Y) (fun l J => T2 l J - pr (RJ X') nx2 F1 l J) <= (1 + de) * (1 + de) * (N + g) - N.
Proof.
  rewrite <- c_N. eapply Rle_trans; [|apply (near_rest (RJ X) (RI m) (RJ Y) ra K rr sx Lx sT su' s v v' sM' de g Hde HrK OL c_Hg Hu Hv c_HM NM Nv)].
  apply Req_le, frob_ext. intros l J H1 H2. apply in_seq in H1. rewrite c_pr, HT2; [reflexivity|lia|now apply in_RJ].
Qed.

Definition c_added : R := near_added (RJ X) (RI m) (RJ Y) ra rr sx Lx su'.
Lemma c_error : frob2 (RJ X') (RJ Y) (fun p b => F1 p b - mm rr nx2 (pr (RJ X') nx2 F1) p b) =
  frob2 (RJ X) (RJ (m :: Y)) (fun a p => F1 a p - mm ra Lx (pr (RJ X) Lx F1) a p) + c_added.
Proof.
  pose proof (near_error (RJ X) (RI m) (RJ Y) ra K rr sx Lx su' HrK OL Hu) as H. fold c_added in H.
  rewrite (rei_cols _ _ _ (rei_cons m Y)). etransitivity; [|etransitivity; [exact H|]].
  - unfold X'. rewrite (rei_rows _ _ _ (rei_snoc X m)). apply frob2_ext. intros p b _ _. f_equal.
    + unfold F1, sx. now rewrite <- app_assoc.
    + unfold mm. apply rsum_ext. intros l _. rewrite nx2_snoc. f_equal. apply c_pr.
  - reflexivity.
Qed.
Lemma c_added_nonneg : 0 <= c_added. Proof. apply frob2_nonneg. Qed.
Lemma c_added_le bound q (P : list (list nat) -> nat -> R) (Z : list (list nat) -> nat -> R) : rr = Nat.min bound K -> (q <= bound)%nat ->
  sqrt c_added <= frob (RJ X') (RJ Y) (fun J1 J2 => F1 J1 J2 - rsum q (fun c => P J1 c * Z J2 c)) + 2 * ((1 + de) * (N + g) - N).
Proof.
  intros Hr Hq. rewrite <- c_N.
  eapply Rle_trans; [apply (near_added_le (RJ X) (RI m) (RJ Y) ra K rr sx Lx sT su' s v' sM' de g Hde HrK OL c_Hg Hu Hv Hs c_HM NM bound q (fun p => P (fst p ++ [snd p])) Z Hr Hq)|].
  apply Rplus_le_compat_r, Req_le. unfold X'. rewrite (rei_rows' _ _ _ (rei_snoc X m)). apply frob_ext. intros p b _ _. unfold F1, sx. now rewrite <- app_assoc.
Qed.
Lemma c_left (y : nat -> R) : nrm (RJ X') (fun p => rsum rr (fun l => (nx2 p l - Lc2 p l) * y l)) <= (el * (1 + de) + de) * nrm (seq 0 rr) y.
Proof.
  unfold X'. rewrite (rei_nrm _ _ _ (rei_snoc X m)).
  eapply Rle_trans; [|apply (near_left (RJ X) (RI m) ra K rr Lx Lc su su' de el Hel HrK OL Hl Hu Nu y)].
  apply Req_le, nrm_ext. intros [J j] H. apply in_prod_iff in H as [H1 H2]. apply rsum_ext. intros l Hlr. rewrite nx2_snoc. cbn [fst snd].
  rewrite HLc2 by (try apply in_RJ; try apply in_RI; auto). reflexivity.
Qed.
End Step.
