(** The projector on the tangent space, on functions of the physical indices. *)
From Coq Require Import List Arith ZArith Lia Bool Ring.
From Verif Require Import Scalar Tensor TensorLemmas Base Spec Chain BaseLemmas Sweep.
Import ListNotations.

Section Frame.
Variable K : cring.
Add Ring Kring : (cth K).
Local Open Scope k_scope.
Local Notation train := (nat -> nat -> list nat -> nat -> K).
Local Notation fn := (list (list nat) -> K).
Variable ms : nat -> list nat.
Variable d : nat.

(** Sum over the indices of the cores m, ..., n - 1. *)
Definition js (m n : nat) (f : fn) : K := jsum (map ms (seq m (n - m))) f.
Definition vj (m n : nat) (J : list (list nat)) : Prop := vchain ms m J /\ length J = (n - m)%nat.

Lemma js_ext m n f g : (forall J, vj m n J -> f J = g J) -> js m n f = js m n g.
Proof. intros H. apply jsum_ext. intros J HJ. apply H. now apply vjdx_seq in HJ. Qed.
Lemma js_split m n p f : m <= n <= p -> js m p f = js m n (fun I => js n p (fun J => f (I ++ J))).
Proof.
  intros H. unfold js. replace (p - m)%nat with ((n - m) + (p - n))%nat by lia. rewrite seq_app, map_app, jsum_app.
  replace (m + (n - m))%nat with n by lia. reflexivity.
Qed.
Lemma js_nil m f : js m m f = f [].
Proof. unfold js. now rewrite Nat.sub_diag. Qed.
Lemma js_one m f : js m (S m) f = isum (ms m) (fun j => f [j]).
Proof. unfold js. replace (S m - m)%nat with 1%nat by lia. reflexivity. Qed.
Lemma js_add m n f g : js m n (fun J => f J + g J) = js m n f + js m n g. Proof. apply jsum_add. Qed.
Lemma js_sub m n f g : js m n (fun J => f J - g J) = js m n f - js m n g.
Proof.
  replace (js m n f - js m n g) with (js m n f + (- (1)) * js m n g) by ring. unfold js at 3. rewrite <- jsum_mul_l.
  unfold js. rewrite <- jsum_add. apply jsum_ext. intros. ring.
Qed.
Lemma js_mul_l m n c f : js m n (fun J => c * f J) = c * js m n f. Proof. apply jsum_mul_l. Qed.
Lemma js_mul_r m n c f : js m n (fun J => f J * c) = js m n f * c. Proof. apply jsum_mul_r. Qed.
Lemma js_sumn m n p (f : list (list nat) -> nat -> K) : js m n (fun J => sumn p (f J)) = sumn p (fun i => js m n (fun J => f J i)).
Proof. apply jsum_sumn_swap. Qed.
Lemma js_zero m n f : (forall J, vj m n J -> f J = 0) -> js m n f = 0.
Proof. intros H. apply jsum_zero. intros J HJ. apply H. now apply vjdx_seq in HJ. Qed.
Lemma js_isum m n ns (f : list (list nat) -> list nat -> K) : js m n (fun J => isum ns (f J)) = isum ns (fun i => js m n (fun J => f J i)).
Proof. apply jsum_isum_swap. Qed.
Lemma js_swap m n m' n' (f : list (list nat) -> list (list nat) -> K) :
  js m n (fun I => js m' n' (fun J => f I J)) = js m' n' (fun J => js m n (fun I => f I J)).
Proof.
  unfold js. generalize (map ms (seq m (n - m))) (map ms (seq m' (n' - m'))). intros l k. revert f.
  induction l as [|x l IH]; intros f; cbn [jsum]; [reflexivity|]. rewrite jsum_isum_swap. apply isum_ext. intros j _. apply IH.
Qed.

Lemma vj_app m n p I J : m <= n <= p -> vj m n I -> vj n p J -> vj m p (I ++ J).
Proof.
  intros H [H1 L1] [H2 L2]. split; [|rewrite app_length; lia]. apply vchain_app. split; auto. rewrite L1. now replace (m + (n - m))%nat with n by lia.
Qed.
Lemma vj_inv m n p J : m <= n <= p -> vj m p J -> exists I I', J = I ++ I' /\ vj m n I /\ vj n p I'.
Proof.
  intros H [HJ L]. exists (firstn (n - m) J), (skipn (n - m) J). split; [now rewrite firstn_skipn|].
  rewrite <- (firstn_skipn (n - m) J) in HJ. apply vchain_app in HJ as [H1 H2]. rewrite firstn_length in H2.
  replace (m + Nat.min (n - m) (length J))%nat with n in H2 by lia.
  repeat split; auto; rewrite ?firstn_length, ?skipn_length; lia.
Qed.
Lemma vj_first m p J : m < p -> vj m p J -> exists j J', J = j :: J' /\ vidx (ms m) j /\ vj (S m) p J'.
Proof.
  intros H [HJ L]. destruct J as [|j J]; cbn in L; [lia|]. destruct HJ as [H1 H2]. exists j, J. repeat split; auto. lia.
Qed.
Lemma vj_one m j : vidx (ms m) j -> vj m (S m) [j].
Proof. intros H. split; [cbn; auto|cbn [length]; lia]. Qed.
Lemma vj_one_inv m J : vj m (S m) J -> exists j, J = [j] /\ vidx (ms m) j.
Proof. intros H. apply vj_first in H as (j & J' & -> & Hj & [_ L]); [|lia]. destruct J'; cbn in L; [|lia]. eauto. Qed.

(** Right product of the cores k, ..., d - 1. *)
Definition rv (G : train) (r : nat -> nat) (k : nat) (J : list (list nat)) (c : nat) : K := chain G r k J (fun _ => 1) c.

Lemma rv_cons G r k j J a : rv G r k (j :: J) a = sumn (r (S k)) (fun b => G k a j b * rv G r (S k) J b).
Proof. reflexivity. Qed.

Lemma lv_split (G : train) r I J b : (0 < r 0)%nat ->
  lv G r (I ++ J) b = sumn (r (length I)) (fun a => lv G r I a * chain G r (length I) J (delta b) a).
Proof. intros H. unfold lv. rewrite chain_app, chain_delta by auto. reflexivity. Qed.

Lemma entry_split (G : train) r I J : (0 < r 0)%nat ->
  chain G r 0 (I ++ J) (fun _ => 1) 0 = sumn (r (length I)) (fun a => lv G r I a * rv G r (length I) J a).
Proof. intros H. unfold lv. rewrite chain_app, chain_delta by auto. reflexivity. Qed.

(** Suffix environments. *)
Definition senv (Ga : train) ra (Gb : train) rb (k b c : nat) : K := js k d (fun J => rv Ga ra k J b * rv Gb rb k J c).
Lemma senv_S Ga ra Gb rb k b c : k < d ->
  senv Ga ra Gb rb k b c = isum (ms k) (fun j => sumn (ra (S k)) (fun a => sumn (rb (S k)) (fun e =>
    Ga k b j a * Gb k c j e * senv Ga ra Gb rb (S k) a e))).
Proof.
  intros H. unfold senv. rewrite (js_split k (S k) d) by lia. rewrite js_one. apply isum_ext. intros j _.
  rewrite (js_ext _ _ _ (fun J => sumn (ra (S k)) (fun a => sumn (rb (S k)) (fun e => Ga k b j a * Gb k c j e * (rv Ga ra (S k) J a * rv Gb rb (S k) J e))))).
  2:{ intros J _. cbn [app]. rewrite !rv_cons. rewrite <- sumn_mul_r. apply sumn_ext. intros a _. rewrite <- sumn_mul_l. apply sumn_ext. intros. ring. }
  rewrite js_sumn. apply sumn_ext. intros a _. rewrite js_sumn. apply sumn_ext. intros e _. now rewrite js_mul_l.
Qed.
Lemma senv_d Ga ra Gb rb b c : senv Ga ra Gb rb d b c = 1.
Proof. unfold senv. rewrite js_nil. unfold rv. cbn [chain]. ring. Qed.
Lemma penv_js Ga ra Gb rb k b c : penv ms Ga ra Gb rb k b c = js 0 k (fun J => lv Ga ra J b * lv Gb rb J c).
Proof. unfold penv, js. now rewrite Nat.sub_0_r. Qed.

Variables (U V : train) (l q : nat -> nat).
Hypothesis Hd : 0 < d.
Hypothesis Hl0 : l 0 = 1%nat.
Hypothesis Hld : l d = 1%nat.
Hypothesis Hqd : q d = 1%nat.
Local Notation lU := (lv U l).
Local Notation rV := (rv V q).

Hypothesis HU : forall m a b, m < d -> a < l m -> b < l m -> js 0 m (fun I => lU I a * lU I b) = delta a b.
Hypothesis HV : forall n a b, 0 < n <= d -> a < q n -> b < q n -> js n d (fun I => rV n I a * rV n I b) = delta a b.

(** ** Elements of the tangent space in the frame U, V *)
Definition tterm (m : nat) (D : nat -> list nat -> nat -> K) (J : list (list nat)) : K :=
  sumn (l m) (fun a => sumn (q (S m)) (fun c => lU (firstn m J) a * D a (nth m J []) c * rV (S m) (skipn (S m) J) c)).

Lemma tterm_at m D I j I' : length I = m ->
  tterm m D (I ++ j :: I') = sumn (l m) (fun a => sumn (q (S m)) (fun c => lU I a * D a j c * rV (S m) I' c)).
Proof.
  intros L. unfold tterm. rewrite <- L, firstn_app, Nat.sub_diag, firstn_all, app_nil_r, nth_middle.
  replace (skipn (S (length I)) (I ++ j :: I')) with I'; [reflexivity|].
  rewrite skipn_app, skipn_all2 by lia. replace (S (length I) - length I)%nat with 1%nat by lia. reflexivity.
Qed.

Lemma tterm_ext m D D' J : m < d -> vj 0 d J -> (forall a j c, a < l m -> vidx (ms m) j -> c < q (S m) -> D a j c = D' a j c) -> tterm m D J = tterm m D' J.
Proof.
  intros Hm HJ H. destruct (vj_inv 0 m d J ltac:(lia) HJ) as (I & J1 & -> & HI & HJ1).
  destruct (vj_first m d J1 Hm HJ1) as (j & J2 & -> & Hj & _). destruct HI as [_ L]. rewrite !tterm_at by lia.
  apply sumn_ext. intros a Ha. apply sumn_ext. intros c Hc. now rewrite H.
Qed.

Lemma tterm_add m D D' J : tterm m (fun a j c => D a j c + D' a j c) J = tterm m D J + tterm m D' J.
Proof.
  unfold tterm. rewrite <- sumn_add. apply sumn_ext. intros a _. rewrite <- sumn_add. apply sumn_ext. intros. ring.
Qed.
Lemma tterm_scale m k D J : tterm m (fun a j c => k * D a j c) J = k * tterm m D J.
Proof.
  unfold tterm. rewrite <- sumn_mul_l. apply sumn_ext. intros a _. rewrite <- sumn_mul_l. apply sumn_ext. intros. ring.
Qed.

(** ** The operators *)
Definition cf (m n : nat) (F : fn) (a c : nat) (M : list (list nat)) : K :=
  js 0 m (fun I => js n d (fun I' => lU I a * rV n I' c * F (I ++ M ++ I'))).
Definition ab (m n : nat) (F : fn) (J : list (list nat)) : K :=
  sumn (l m) (fun a => sumn (q n) (fun c =>
    lU (firstn m J) a * rV n (skipn n J) c * cf m n F a c (firstn (n - m) (skipn m J)))).

Lemma ab_at m n F I M I' : length I = m -> length M = (n - m)%nat -> m <= n ->
  ab m n F (I ++ M ++ I') = sumn (l m) (fun a => sumn (q n) (fun c => lU I a * rV n I' c * cf m n F a c M)).
Proof.
  intros L1 L2 H. unfold ab. replace (firstn m (I ++ M ++ I')) with I.
  2:{ rewrite firstn_app, <- L1, Nat.sub_diag, firstn_all. now rewrite app_nil_r. }
  replace (skipn m (I ++ M ++ I')) with (M ++ I').
  2:{ rewrite skipn_app, <- L1, Nat.sub_diag, skipn_all. reflexivity. }
  replace (skipn n (I ++ M ++ I')) with I'.
  2:{ rewrite app_assoc, skipn_app, skipn_all2 by (rewrite app_length; lia). rewrite app_length. replace (n - (length I + length M))%nat with 0%nat by lia. reflexivity. }
  replace (firstn (n - m) (M ++ I')) with M; [reflexivity|].
  rewrite firstn_app, <- L2, Nat.sub_diag, firstn_all. now rewrite app_nil_r.
Qed.

Lemma cf_ext m n F G a c M : m <= n <= d -> vj m n M -> (forall J, vj 0 d J -> F J = G J) -> cf m n F a c M = cf m n G a c M.
Proof.
  intros H HM HF. apply js_ext. intros I HI. apply js_ext. intros I' HI'. rewrite HF; [reflexivity|].
  apply (vj_app 0 m d); [lia|auto|]. apply (vj_app m n d); auto.
Qed.
Lemma ab_ext m n F G J : m <= n <= d -> vj 0 d J -> (forall J, vj 0 d J -> F J = G J) -> ab m n F J = ab m n G J.
Proof.
  intros H HJ HF. destruct (vj_inv 0 m d J ltac:(lia) HJ) as (I & J1 & -> & HI & HJ1).
  destruct (vj_inv m n d J1 ltac:(lia) HJ1) as (M & I' & -> & HM & HI').
  rewrite !ab_at by (try apply HI; try apply HM; try (destruct HI as [_ L]; lia); lia).
  apply sumn_ext. intros a _. apply sumn_ext. intros c _. f_equal. now apply cf_ext.
Qed.

Lemma cf_lin m n F G x y a c M : cf m n (fun J => x * F J + y * G J) a c M = x * cf m n F a c M + y * cf m n G a c M.
Proof.
  unfold cf. rewrite <- !js_mul_l. rewrite <- js_add. apply js_ext. intros I _.
  rewrite <- !js_mul_l. rewrite <- js_add. apply js_ext. intros. ring.
Qed.
Lemma ab_lin m n F G x y J : ab m n (fun J => x * F J + y * G J) J = x * ab m n F J + y * ab m n G J.
Proof.
  unfold ab. rewrite <- !sumn_mul_l, <- sumn_add. apply sumn_ext. intros a _.
  rewrite <- !sumn_mul_l, <- sumn_add. apply sumn_ext. intros c _. rewrite cf_lin. ring.
Qed.

(** Self-adjoint. *)
Lemma ab_inner m n F G : m <= n <= d ->
  js 0 d (fun J => ab m n F J * G J) = js m n (fun M => sumn (l m) (fun a => sumn (q n) (fun c => cf m n F a c M * cf m n G a c M))).
Proof.
  intros H. rewrite (js_split 0 m d) by lia.
  rewrite (js_ext 0 m _ (fun I => js m n (fun M => js n d (fun I' => sumn (l m) (fun a => sumn (q n) (fun c => cf m n F a c M * (lU I a * rV n I' c * G (I ++ M ++ I')))))))).
  2:{ intros I HI. rewrite (js_split m n d) by lia. apply js_ext. intros M HM. apply js_ext. intros I' HI'.
      rewrite ab_at by (try (destruct HI as [_ L]; lia); try (destruct HM as [_ L]; lia); lia).
      rewrite <- sumn_mul_r. apply sumn_ext. intros a _. rewrite <- sumn_mul_r. apply sumn_ext. intros c _. ring. }
  rewrite js_swap. apply js_ext. intros M HM.
  rewrite (js_ext 0 m _ (fun I => sumn (l m) (fun a => sumn (q n) (fun c => js n d (fun I' => cf m n F a c M * (lU I a * rV n I' c * G (I ++ M ++ I'))))))).
  2:{ intros I HI. rewrite js_sumn. apply sumn_ext. intros a _. now rewrite js_sumn. }
  rewrite js_sumn. apply sumn_ext. intros a _. rewrite js_sumn. apply sumn_ext. intros c _.
  unfold cf at 3. rewrite <- js_mul_l. apply js_ext. intros I _. now rewrite js_mul_l.
Qed.
Lemma ab_sym m n F G : m <= n <= d -> js 0 d (fun J => ab m n F J * G J) = js 0 d (fun J => F J * ab m n G J).
Proof.
  intros H. rewrite ab_inner by auto. rewrite (js_ext 0 d (fun J => F J * ab m n G J) (fun J => ab m n G J * F J)) by (intros; ring).
  rewrite ab_inner by auto. apply js_ext. intros M _. apply sumn_ext. intros a _. apply sumn_ext. intros c _. ring.
Qed.

(** Functions in the range. *)
Definition in_left (m : nat) (F : fn) : Prop := exists h : nat -> fn, forall I J, vj 0 m I -> vj m d J -> F (I ++ J) = sumn (l m) (fun a => lU I a * h a J).
Definition in_right (n : nat) (F : fn) : Prop := exists h : list (list nat) -> nat -> K, forall J I, vj 0 n J -> vj n d I -> F (J ++ I) = sumn (q n) (fun c => h J c * rV n I c).

Lemma lU_nil : lU [] 0 = 1. Proof. unfold lv. cbn [chain]. unfold delta. cbn. reflexivity. Qed.
Lemma rV_nil k : rV k [] 0 = 1. Proof. reflexivity. Qed.

Lemma ab_left m n F J : m <= n <= d -> m < d -> vj 0 d J -> in_left m F -> ab m n F J = ab 0 n F J.
Proof.
  intros H Hm HJ [h Hh]. destruct (vj_inv 0 m d J ltac:(lia) HJ) as (I & J1 & -> & HI & HJ1).
  destruct (vj_inv m n d J1 ltac:(lia) HJ1) as (M & I' & -> & HM & HI').
  destruct HI as [HI LI]. destruct HM as [HM LM]. rewrite Nat.sub_0_r in LI.
  rewrite ab_at by (auto; lia). rewrite app_assoc. change ((I ++ M) ++ I') with ([] ++ (I ++ M) ++ I').
  rewrite ab_at by (rewrite ?app_length; cbn [length]; lia). rewrite Hl0, sumn_1, lU_nil.
  transitivity (sumn (l m) (fun a => sumn (q n) (fun c => lU I a * rV n I' c * js n d (fun I'' => rV n I'' c * h a (M ++ I''))))).
  - apply sumn_ext. intros a Ha. apply sumn_ext. intros c Hc. f_equal. unfold cf. rewrite js_swap. apply js_ext. intros I'' HI''.
    rewrite (js_ext 0 m _ (fun I0 => sumn (l m) (fun b => lU I0 a * lU I0 b * (rV n I'' c * h b (M ++ I''))))).
    2:{ intros I0 HI0. rewrite Hh; [|auto|apply (vj_app m n d); [lia|split; auto|auto]]. rewrite <- sumn_mul_l. apply sumn_ext. intros. ring. }
    rewrite js_sumn. rewrite (sumn_ext K (l m) _ (fun b => delta a b * (rV n I'' c * h b (M ++ I'')))).
    2:{ intros b Hb. rewrite js_mul_r, HU by auto. reflexivity. }
    rewrite sumn_deltal by auto. ring.
  - rewrite sumn_swap. apply sumn_ext. intros c Hc. unfold cf. rewrite js_nil. cbn [app].
    rewrite (js_ext n d (fun I'' => lU [] 0 * rV n I'' c * F ((I ++ M) ++ I'')) (fun I'' => sumn (l m) (fun a => lU I a * (rV n I'' c * h a (M ++ I''))))).
    2:{ intros I'' HI''. rewrite lU_nil, <- app_assoc. rewrite Hh; [|split; auto; lia|apply (vj_app m n d); [lia|split; auto|auto]].
        rewrite <- sumn_mul_l. apply sumn_ext. intros. ring. }
    rewrite js_sumn. rewrite <- sumn_mul_l. apply sumn_ext. intros a _. rewrite js_mul_l. ring.
Qed.

Lemma ab_right m n F J : m <= n <= d -> 0 < n -> vj 0 d J -> in_right n F -> ab m n F J = ab m d F J.
Proof.
  intros H Hn HJ [h Hh]. destruct (vj_inv 0 m d J ltac:(lia) HJ) as (I & J1 & -> & HI & HJ1).
  destruct (vj_inv m n d J1 ltac:(lia) HJ1) as (M & I' & -> & HM & HI').
  destruct HI as [HI LI]. destruct HM as [HM LM]. destruct HI' as [HI' LI']. rewrite Nat.sub_0_r in LI.
  rewrite ab_at by (auto; lia). rewrite <- (app_nil_r (M ++ I')).
  rewrite ab_at by (rewrite ?app_length; cbn [length]; lia).
  apply sumn_ext. intros a Ha. rewrite Hqd, sumn_1, rV_nil.
  transitivity (sumn (q n) (fun c => lU I a * rV n I' c * js 0 m (fun I0 => lU I0 a * h (I0 ++ M) c))).
  - apply sumn_ext. intros c Hc. f_equal. unfold cf. apply js_ext. intros I0 HI0.
    rewrite (js_ext n d _ (fun I'' => sumn (q n) (fun e => (lU I0 a * h (I0 ++ M) e) * (rV n I'' c * rV n I'' e)))).
    2:{ intros I'' HI''. rewrite app_assoc. rewrite Hh; [|apply (vj_app 0 m n); [lia|auto|split; auto]|auto]. rewrite <- sumn_mul_l. apply sumn_ext. intros. ring. }
    rewrite js_sumn. rewrite (sumn_ext K (q n) _ (fun e => (lU I0 a * h (I0 ++ M) e) * delta c e)).
    2:{ intros b Hb. rewrite js_mul_l, HV by (auto; lia). reflexivity. }
    rewrite sumn_deltar by auto. ring.
  - unfold cf. rewrite (js_ext 0 m (fun I0 => js d d _) (fun I0 => sumn (q n) (fun c => rV n I' c * (lU I0 a * h (I0 ++ M) c)))).
    2:{ intros I0 HI0. rewrite js_nil, app_nil_r, app_assoc, rV_nil. rewrite Hh; [|apply (vj_app 0 m n); [lia|auto|split; auto]|split; auto].
        rewrite <- sumn_mul_l. apply sumn_ext. intros. ring. }
    rewrite js_sumn. rewrite <- sumn_mul_l. apply sumn_ext. intros c _. rewrite js_mul_l. ring.
Qed.

Lemma ab_id F J : vj 0 d J -> ab 0 d F J = F J.
Proof.
  intros [HJ L]. change J with ([] ++ J) at 1. rewrite <- (app_nil_r J) at 1. rewrite ab_at by (cbn [length]; lia).
  rewrite Hl0, Hqd, !sumn_1. unfold cf. rewrite !js_nil. cbn [app]. rewrite lU_nil, rV_nil, app_nil_r. ring.
Qed.

Lemma tterm_left k m D : k < d -> m <= k -> in_left m (tterm k D).
Proof.
  intros Hk Hm. exists (fun b J => sumn (l k) (fun a => sumn (q (S k)) (fun c => chain U l m (firstn (k - m) J) (delta a) b * D a (nth (k - m) J []) c * rV (S k) (skipn (S (k - m)) J) c))).
  intros I J [HI LI] HJ. destruct (vj_inv m k d J ltac:(lia) HJ) as (M & J1 & -> & [HM LM] & HJ1).
  destruct (vj_first k d J1 Hk HJ1) as (j & J2 & -> & Hj & HJ2). rewrite app_assoc. rewrite tterm_at by (rewrite app_length; lia).
  replace (firstn (k - m) (M ++ j :: J2)) with M by (rewrite <- LM, firstn_app, Nat.sub_diag, firstn_all; now rewrite app_nil_r).
  replace (nth (k - m) (M ++ j :: J2) []) with j by (now rewrite <- LM, nth_middle).
  replace (skipn (S (k - m)) (M ++ j :: J2)) with J2.
  2:{ rewrite <- LM, skipn_app, skipn_all2 by lia. replace (S (length M) - length M)%nat with 1%nat by lia. reflexivity. }
  rewrite (sumn_ext K (l k) _ (fun a => sumn (l m) (fun b => sumn (q (S k)) (fun c => lU I b * (chain U l m M (delta a) b * D a j c * rV (S k) J2 c))))).
  2:{ intros a Ha. rewrite sumn_swap. apply sumn_ext. intros c Hc. rewrite lv_split by (rewrite Hl0; lia). replace (length I) with m by lia.
      rewrite <- !sumn_mul_r. apply sumn_ext. intros. ring. }
  rewrite sumn_swap. apply sumn_ext. intros b _. rewrite <- sumn_mul_l. apply sumn_ext. intros a _. now rewrite sumn_mul_l.
Qed.

Lemma rV_split k I J a : (a < q k)%nat -> rV k (I ++ J) a = sumn (q (k + length I)) (fun b => chain V q k I (delta b) a * rV (k + length I) J b).
Proof. intros H. unfold rv. rewrite chain_app, chain_delta by auto. reflexivity. Qed.

Lemma tterm_right k n D : k < n <= d -> in_right n (tterm k D).
Proof.
  intros Hk. exists (fun J e => sumn (l k) (fun a => sumn (q (S k)) (fun c => lU (firstn k J) a * D a (nth k J []) c * chain V q (S k) (skipn (S k) J) (delta e) c))).
  intros J I HJ [HI LI]. destruct (vj_inv 0 k n J ltac:(lia) HJ) as (I0 & J1 & -> & [HI0 LI0] & HJ1).
  destruct (vj_first k n J1 ltac:(lia) HJ1) as (j & M & -> & Hj & [HM LM]). rewrite <- app_assoc. cbn [app]. rewrite tterm_at by lia.
  replace (firstn k (I0 ++ j :: M)) with I0 by (replace k with (length I0) by lia; rewrite firstn_app, Nat.sub_diag, firstn_all; now rewrite app_nil_r).
  replace (nth k (I0 ++ j :: M) []) with j by (replace k with (length I0) by lia; now rewrite nth_middle).
  replace (skipn (S k) (I0 ++ j :: M)) with M.
  2:{ replace k with (length I0) by lia. rewrite skipn_app, skipn_all2 by lia. replace (S (length I0) - length I0)%nat with 1%nat by lia. reflexivity. }
  rewrite (sumn_ext K (l k) _ (fun a => sumn (q n) (fun e => sumn (q (S k)) (fun c => lU I0 a * D a j c * chain V q (S k) M (delta e) c * rV n I e)))).
  2:{ intros a Ha. rewrite sumn_swap. apply sumn_ext. intros c Hc. rewrite rV_split by auto. replace (S k + length M)%nat with n by lia.
      rewrite <- !sumn_mul_l. apply sumn_ext. intros. ring. }
  rewrite sumn_swap. apply sumn_ext. intros b _. rewrite <- sumn_mul_r. apply sumn_ext. intros a _. now rewrite sumn_mul_r.
Qed.

(** ** The projector *)
Definition last0 (m : nat) (x : K) : K := if Nat.eqb (S m) d then 0 else x.
Definition proj (F : fn) (J : list (list nat)) : K := sumn d (fun m => ab m (S m) F J - last0 m (ab (S m) (S m) F J)).

Lemma proj_ext F G J : vj 0 d J -> (forall J, vj 0 d J -> F J = G J) -> proj F J = proj G J.
Proof.
  intros HJ H. apply sumn_ext. intros m Hm. rewrite (ab_ext m (S m) F G) by (auto; lia). unfold last0.
  destruct (Nat.eqb_spec (S m) d); auto. now rewrite (ab_ext (S m) (S m) F G) by (auto; lia).
Qed.
Lemma proj_lin F G x y J : proj (fun J => x * F J + y * G J) J = x * proj F J + y * proj G J.
Proof.
  unfold proj. rewrite <- !sumn_mul_l, <- sumn_add. apply sumn_ext. intros m _. rewrite !ab_lin. unfold last0.
  destruct (Nat.eqb (S m) d); ring.
Qed.
Lemma ab_ext0 m n F G J : (forall J, F J = G J) -> ab m n F J = ab m n G J.
Proof.
  intros H. unfold ab. apply sumn_ext. intros a _. apply sumn_ext. intros c _. f_equal. unfold cf.
  apply js_ext. intros ? _. apply js_ext. intros ? _. now rewrite H.
Qed.
Lemma proj_ext0 F G J : (forall J, F J = G J) -> proj F J = proj G J.
Proof. intros H. unfold proj. apply sumn_ext. intros m _. rewrite (ab_ext0 m _ F G), (ab_ext0 (S m) _ F G) by auto. reflexivity. Qed.
Lemma proj_sum n (F : nat -> fn) J : proj (fun J => sumn n (fun i => F i J)) J = sumn n (fun i => proj (F i) J).
Proof.
  induction n; cbn [sumn].
  - transitivity (proj (fun J => 0 * F 0%nat J + 0 * F 0%nat J) J); [|rewrite proj_lin; ring]. apply proj_ext0. intros. ring.
  - transitivity (proj (fun J => 1 * sumn n (fun i => F i J) + 1 * F n J) J).
    2:{ rewrite proj_lin. rewrite IHn. ring. }
    apply proj_ext0. intros. ring.
Qed.
Lemma proj_sym F G : js 0 d (fun J => proj F J * G J) = js 0 d (fun J => F J * proj G J).
Proof.
  unfold proj. transitivity (sumn d (fun m => js 0 d (fun J => ab m (S m) F J * G J) - last0 m (js 0 d (fun J => ab (S m) (S m) F J * G J)))).
  - rewrite (js_ext 0 d _ (fun J => sumn d (fun m => ab m (S m) F J * G J - last0 m (ab (S m) (S m) F J * G J)))).
    2:{ intros J _. rewrite <- sumn_mul_r. apply sumn_ext. intros m _. unfold last0. destruct (Nat.eqb (S m) d); ring. }
    rewrite js_sumn. apply sumn_ext. intros m _. rewrite js_sub. f_equal. unfold last0. destruct (Nat.eqb (S m) d); auto. now apply js_zero.
  - rewrite (js_ext 0 d (fun J => F J * _) (fun J => sumn d (fun m => F J * ab m (S m) G J - last0 m (F J * ab (S m) (S m) G J)))).
    2:{ intros J _. rewrite <- sumn_mul_l. apply sumn_ext. intros m _. unfold last0. destruct (Nat.eqb (S m) d); ring. }
    rewrite js_sumn. apply sumn_ext. intros m Hm. rewrite js_sub. f_equal; [apply ab_sym; lia|]. f_equal. unfold last0.
    destruct (Nat.eqb_spec (S m) d); [symmetry; now apply js_zero|]. apply ab_sym. lia.
Qed.

Lemma sumn_cut n k (f : nat -> K) : (k <= n)%nat -> sumn n f = sumn k f + sumn (n - k) (fun i => f (k + i)%nat).
Proof. intros H. rewrite <- sumn_split. now replace (k + (n - k))%nat with n by lia. Qed.

(** Every tangent element is fixed. *)
Lemma proj_tterm k D J : k < d -> vj 0 d J -> proj (tterm k D) J = tterm k D J.
Proof.
  intros Hk HJ. set (t := tterm k D).
  assert (LL : forall m n, (m <= n <= d)%nat -> (m <= k)%nat -> ab m n t J = ab 0 n t J) by (intros; apply ab_left; auto; try lia; apply tterm_left; auto).
  assert (RR : forall m n, (m <= n <= d)%nat -> (k < n)%nat -> ab m n t J = ab m d t J) by (intros; apply ab_right; auto; try lia; apply tterm_right; lia).
  unfold proj. rewrite (sumn_cut d k) by lia.
  rewrite (sumn_ext K k _ (fun _ => 0)).
  2:{ intros m Hm. unfold last0. destruct (Nat.eqb_spec (S m) d); [lia|]. rewrite (LL m (S m)), (LL (S m) (S m)) by lia. ring. }
  rewrite sumn_0. replace (d - k)%nat with (S (d - S k)) by lia. rewrite sumn_S_l. rewrite Nat.add_0_r.
  rewrite (LL k (S k)) by lia. rewrite (RR 0%nat (S k)) by lia. rewrite ab_id by auto.
  assert (T : forall n, (k < n)%nat -> (n <= d)%nat -> last0 k (ab (S k) (S k) t J) = sumn (n - S k) (fun i => ab (k + S i) (S (k + S i)) t J - last0 (k + S i) (ab (S (k + S i)) (S (k + S i)) t J)) + last0 (n - 1) (ab n n t J)).
  { intros n. induction n as [|n IH]; [lia|]. intros H1 H2. destruct (Nat.eq_dec n k) as [->|Hn].
    - rewrite Nat.sub_diag. cbn [sumn]. replace (S k - 1)%nat with k by lia. ring.
    - rewrite IH by lia. replace (S n - S k)%nat with (S (n - S k)) by lia. cbn [sumn]. replace (k + S (n - S k))%nat with n by lia.
      replace (S n - 1)%nat with n by lia. rewrite (RR n n), (RR n (S n)) by lia.
      replace (last0 (n - 1) (ab n d t J)) with (ab n d t J); [ring|]. unfold last0. destruct (Nat.eqb_spec (S (n - 1)) d); [lia|reflexivity]. }
  specialize (T d Hk (le_n d)). rewrite T. unfold last0 at 2. replace (S (d - 1)) with d by lia. rewrite Nat.eqb_refl. ring.
Qed.

Lemma proj_sum_terms D J : vj 0 d J -> proj (fun J => sumn d (fun k => tterm k (D k) J)) J = sumn d (fun k => tterm k (D k) J).
Proof. intros HJ. rewrite proj_sum. apply sumn_ext. intros k Hk. now apply proj_tterm. Qed.

(** The projection of a function is a tangent element. *)
Definition delta_of (F : fn) (m a : nat) (j : list nat) (c : nat) : K :=
  cf m (S m) F a c [j] - last0 m (sumn (l (S m)) (fun b => U m a j b * cf (S m) (S m) F b c [])).

Lemma proj_terms F J : vj 0 d J -> proj F J = sumn d (fun m => tterm m (delta_of F m) J).
Proof.
  intros HJ. apply sumn_ext. intros m Hm.
  destruct (vj_inv 0 m d J ltac:(lia) HJ) as (I & J1 & -> & [HI LI] & HJ1).
  destruct (vj_first m d J1 Hm HJ1) as (j & I' & -> & Hj & HI'). rewrite tterm_at by lia.
  change (I ++ j :: I') with (I ++ [j] ++ I'). rewrite ab_at by (cbn [length]; lia).
  unfold last0, delta_of. destruct (Nat.eqb_spec (S m) d) as [e|e].
  - unfold last0. destruct (Nat.eqb_spec (S m) d); [|lia].
    transitivity (sumn (l m) (fun a => sumn (q (S m)) (fun c => lU I a * rV (S m) I' c * cf m (S m) F a c [j]))); [ring|].
    apply sumn_ext. intros a _. apply sumn_ext. intros c _. ring.
  - rewrite app_assoc. change ((I ++ [j]) ++ I') with ((I ++ [j]) ++ [] ++ I').
    rewrite ab_at by (rewrite ?app_length; cbn [length]; lia).
    transitivity (sumn (l m) (fun a => sumn (q (S m)) (fun c => lU I a * rV (S m) I' c * cf m (S m) F a c [j])) -
                  sumn (l m) (fun a => sumn (q (S m)) (fun c => lU I a * rV (S m) I' c * sumn (l (S m)) (fun b => U m a j b * cf (S m) (S m) F b c [])))).
    + f_equal. rewrite (sumn_ext K (l (S m)) _ (fun b => sumn (l m) (fun a => sumn (q (S m)) (fun c => lU I a * rV (S m) I' c * (U m a j b * cf (S m) (S m) F b c []))))).
      2:{ intros b Hb. rewrite lv_snoc by (rewrite ?Hl0; try lia; replace (length I) with m by lia; auto). replace (length I) with m by lia.
          rewrite sumn_swap. apply sumn_ext. intros c _. rewrite <- !sumn_mul_r. apply sumn_ext. intros. ring. }
      rewrite sumn_swap. apply sumn_ext. intros a _. rewrite sumn_swap. apply sumn_ext. intros c _. now rewrite sumn_mul_l.
    + replace (sumn (l m) (fun a => sumn (q (S m)) (fun c => lU I a * rV (S m) I' c * cf m (S m) F a c [j])) -
                  sumn (l m) (fun a => sumn (q (S m)) (fun c => lU I a * rV (S m) I' c * sumn (l (S m)) (fun b => U m a j b * cf (S m) (S m) F b c []))))
       with (sumn (l m) (fun a => sumn (q (S m)) (fun c => lU I a * rV (S m) I' c * cf m (S m) F a c [j]) - sumn (q (S m)) (fun c => lU I a * rV (S m) I' c * sumn (l (S m)) (fun b => U m a j b * cf (S m) (S m) F b c [])))) by (now rewrite sumn_sub).
      apply sumn_ext. intros a _. rewrite <- sumn_sub. apply sumn_ext. intros c _. unfold last0. destruct (Nat.eqb_spec (S m) d); [lia|]. ring.
Qed.

Lemma proj_idem F J : vj 0 d J -> proj (proj F) J = proj F J.
Proof.
  intros HJ. rewrite (proj_ext (proj F) (fun J => sumn d (fun m => tterm m (delta_of F m) J))) by (auto; intros; now apply proj_terms).
  rewrite proj_sum_terms by auto. symmetry. now apply proj_terms.
Qed.

Lemma proj_orth F D : js 0 d (fun J => proj F J * sumn d (fun k => tterm k (D k) J)) = js 0 d (fun J => F J * sumn d (fun k => tterm k (D k) J)).
Proof. rewrite proj_sym. apply js_ext. intros J HJ. now rewrite proj_sum_terms. Qed.

(** The object itself is a tangent element. *)
Lemma frame_entry J : vj 0 d J -> chain U l 0 J (fun _ => 1) 0 = tterm (d - 1) (fun a j c => U (d - 1) a j c) J.
Proof.
  intros HJ. destruct (vj_inv 0 (d - 1) d J ltac:(lia) HJ) as (I & J1 & -> & [HI LI] & HJ1).
  destruct (vj_first (d - 1) d J1 ltac:(lia) HJ1) as (j & I' & -> & Hj & [_ L']). destruct I'; cbn in L'; [|lia].
  rewrite tterm_at by lia. rewrite entry_split by (rewrite Hl0; lia). replace (length I) with (d - 1)%nat by lia.
  apply sumn_ext. intros a _. replace (S (d - 1)) with d by lia. rewrite Hqd, sumn_1. unfold rv. cbn [chain]. replace (S (d - 1)) with d by lia.
  rewrite Hld, sumn_1. ring.
Qed.

(** ** The deltas of a train *)
Lemma cf_train (G : train) r m a c j : (0 < r 0)%nat -> m < d ->
  cf m (S m) (fun J => chain G r 0 J (fun _ => 1) 0) a c [j] =
  sumn (r m) (fun b => sumn (r (S m)) (fun e => penv ms U l G r m a b * G m b j e * senv G r V q (S m) e c)).
Proof.
  intros H0 Hm. unfold cf.
  rewrite (js_ext 0 m _ (fun I => sumn (r m) (fun b => sumn (r (S m)) (fun e => lU I a * lv G r I b * (G m b j e * senv G r V q (S m) e c))))).
  2:{ intros I [HI LI]. rewrite (js_ext (S m) d _ (fun I' => sumn (r m) (fun b => sumn (r (S m)) (fun e => lU I a * lv G r I b * G m b j e * (rv G r (S m) I' e * rV (S m) I' c))))).
      2:{ intros I' HI'. rewrite entry_split by auto. replace (length I) with m by lia. rewrite <- sumn_mul_l. apply sumn_ext. intros b _.
          cbn [app]. rewrite rv_cons, <- !sumn_mul_l. apply sumn_ext. intros e _. ring. }
      rewrite js_sumn. apply sumn_ext. intros b _. rewrite js_sumn. apply sumn_ext. intros e _. rewrite js_mul_l. unfold senv. ring. }
  rewrite js_sumn. apply sumn_ext. intros b _. rewrite js_sumn. apply sumn_ext. intros e _. rewrite js_mul_r, penv_js. ring.
Qed.
Lemma cf_train0 (G : train) r m a c : (0 < r 0)%nat -> m <= d ->
  cf m m (fun J => chain G r 0 J (fun _ => 1) 0) a c [] = sumn (r m) (fun e => penv ms U l G r m a e * senv G r V q m e c).
Proof.
  intros H0 Hm. unfold cf.
  rewrite (js_ext 0 m _ (fun I => sumn (r m) (fun b => lU I a * lv G r I b * senv G r V q m b c))).
  2:{ intros I [HI LI]. rewrite (js_ext m d _ (fun I' => sumn (r m) (fun b => lU I a * lv G r I b * (rv G r m I' b * rV m I' c)))).
      2:{ intros I' HI'. cbn [app]. rewrite entry_split by auto. replace (length I) with m by lia. rewrite <- sumn_mul_l. apply sumn_ext. intros b _. ring. }
      rewrite js_sumn. apply sumn_ext. intros b _. rewrite js_mul_l. reflexivity. }
  rewrite js_sumn. apply sumn_ext. intros b _. now rewrite js_mul_r, penv_js.
Qed.

(** ** Trains of blocks *)
Fixpoint tch (D : train) (k : nat) (J : list (list nat)) (a : nat) : K :=
  match J with
  | [] => 0
  | j :: J' => sumn (q (S k)) (fun b => D k a j b * rV (S k) J' b) + sumn (l (S k)) (fun b => U k a j b * tch D (S k) J' b)
  end.

Lemma tch_terms D k J a : a < l k -> tch D k J a =
  sumn (length J) (fun i => chain U l k (firstn i J) (fun b => sumn (q (S (k + i))) (fun c => D (k + i)%nat b (nth i J []) c * rV (S (k + i)) (skipn (S i) J) c)) a).
Proof.
  revert k a. induction J as [|j J IH]; intros k a Ha; [reflexivity|]. cbn [tch length]. rewrite sumn_S_l. f_equal.
  - cbn [firstn chain nth skipn]. now rewrite Nat.add_0_r.
  - rewrite (sumn_ext K (l (S k)) _ (fun b => sumn (length J) (fun i => U k a j b * chain U l (S k) (firstn i J) (fun e => sumn (q (S (S k + i))) (fun c => D (S k + i)%nat e (nth i J []) c * rV (S (S k + i)) (skipn (S i) J) c)) b))).
    2:{ intros b Hb. rewrite IH by auto. now rewrite <- sumn_mul_l. }
    rewrite sumn_swap. apply sumn_ext. intros i Hi. cbn [firstn chain]. apply sumn_ext. intros b Hb. f_equal.
    replace (k + S i)%nat with (S k + i)%nat by lia. reflexivity.
Qed.

Lemma tch_tterms D J : vj 0 d J -> tch D 0 J 0 = sumn d (fun m => tterm m (D m) J).
Proof.
  intros [HJ L]. rewrite tch_terms by (rewrite Hl0; lia). rewrite L, Nat.sub_0_r. apply sumn_ext. intros m Hm. unfold tterm.
  rewrite chain_delta by (rewrite Hl0; lia). rewrite firstn_length. replace (0 + Nat.min m (length J))%nat with m by lia.
  apply sumn_ext. intros a _. rewrite <- sumn_mul_l. apply sumn_ext. intros c _. cbn [Nat.add]. unfold lv. ring.
Qed.

Section Blocks.
Variables (D B : train) (r : nat -> nat).
Hypothesis Hd2 : 2 <= d.
Hypothesis Hr0 : r 0 = 1%nat.
Hypothesis Hrd : r d = 1%nat.
Hypothesis Hr : forall k, 0 < k < d -> r k = (q k + l k)%nat.
Hypothesis B0l : forall j b, vidx (ms 0) j -> b < q 1 -> B 0%nat 0%nat j b = D 0%nat 0%nat j b.
Hypothesis B0r : forall j b, vidx (ms 0) j -> b < l 1 -> B 0%nat 0%nat j (q 1 + b)%nat = U 0%nat 0%nat j b.
Hypothesis Bul : forall k a j b, 0 < k < d - 1 -> vidx (ms k) j -> a < q k -> b < q (S k) -> B k a j b = V k a j b.
Hypothesis Bur : forall k a j b, 0 < k < d - 1 -> vidx (ms k) j -> a < q k -> b < l (S k) -> B k a j (q (S k) + b)%nat = 0.
Hypothesis Bll : forall k a j b, 0 < k < d - 1 -> vidx (ms k) j -> a < l k -> b < q (S k) -> B k (q k + a)%nat j b = D k a j b.
Hypothesis Blr : forall k a j b, 0 < k < d - 1 -> vidx (ms k) j -> a < l k -> b < l (S k) -> B k (q k + a)%nat j (q (S k) + b)%nat = U k a j b.
Hypothesis Bdu : forall a j, vidx (ms (d - 1)) j -> a < q (d - 1) -> B (d - 1)%nat a j 0%nat = V (d - 1)%nat a j 0%nat.
Hypothesis Bdl : forall a j, vidx (ms (d - 1)) j -> a < l (d - 1) -> B (d - 1)%nat (q (d - 1) + a)%nat j 0%nat = D (d - 1)%nat a j 0%nat.

Lemma block_up J : forall k, 0 < k -> k < d -> vj k d J -> forall a, a < q k -> chain B r k J (fun _ => 1) a = rV k J a.
Proof.
  induction J as [|j J IH]; intros k H1 H2 HJ a Ha; [destruct HJ as [_ L]; cbn in L; lia|].
  destruct (vj_first k d _ H2 HJ) as (j' & J' & E & Hj & HJ'). injection E as <- <-. rewrite rv_cons. cbn [chain].
  destruct (Nat.eq_dec (S k) d) as [e|e].
  - assert (k = d - 1)%nat by lia. subst k. rewrite e, Hrd, Hqd, !sumn_1. rewrite Bdu by auto. destruct HJ' as [_ L]. destruct J; cbn in L; [|lia]. reflexivity.
  - rewrite Hr by lia. rewrite sumn_split. rewrite (sumn_zero K (l (S k))).
    2:{ intros b Hb. rewrite Bur by (auto; lia). ring. }
    rewrite (sumn_ext K (q (S k)) _ (fun b => V k a j b * rV (S k) J b)); [ring|]. intros b Hb. rewrite Bul by (auto; lia). f_equal. apply IH; auto; lia.
Qed.
Lemma block_low J : forall k, 0 < k -> k < d -> vj k d J -> forall a, a < l k -> chain B r k J (fun _ => 1) (q k + a) = tch D k J a.
Proof.
  induction J as [|j J IH]; intros k H1 H2 HJ a Ha; [destruct HJ as [_ L]; cbn in L; lia|].
  destruct (vj_first k d _ H2 HJ) as (j' & J' & E & Hj & HJ'). injection E as <- <-. cbn [chain tch].
  destruct (Nat.eq_dec (S k) d) as [e|e].
  - assert (k = d - 1)%nat by lia. subst k. rewrite e, Hrd, Hqd, Hld, !sumn_1. rewrite Bdl by auto. destruct HJ' as [_ L]. destruct J; cbn in L; [|lia]. unfold rv. cbn [chain tch]. ring.
  - rewrite Hr by lia. rewrite sumn_split. f_equal; apply sumn_ext; intros b Hb.
    + rewrite Bll by (auto; lia). f_equal. apply block_up; auto; lia.
    + rewrite Blr by (auto; lia). f_equal. apply IH; auto; lia.
Qed.
Lemma block_chain J : vj 0 d J -> chain B r 0 J (fun _ => 1) 0 = sumn d (fun m => tterm m (D m) J).
Proof.
  intros HJ. rewrite <- tch_tterms by auto. destruct (vj_first 0 d J ltac:(lia) HJ) as (j & J' & -> & Hj & HJ'). cbn [chain tch].
  rewrite Hr by lia. rewrite sumn_split. f_equal; apply sumn_ext; intros b Hb.
  - rewrite B0l by auto. f_equal. apply block_up; auto; lia.
  - rewrite B0r by auto. f_equal. apply block_low; auto; lia.
Qed.
End Blocks.

(** ** Gauge conditions and inner products *)
Definition gauge (D : train) : Prop := forall m b c, S m < d -> b < l (S m) -> c < q (S m) ->
  sumn (l m) (fun a => isum (ms m) (fun j => U m a j b * D m a j c)) = 0.

Hypothesis HU1 : forall m b b', S m < d -> b < l (S m) -> b' < l (S m) -> sumn (l m) (fun a => isum (ms m) (fun j => U m a j b * U m a j b')) = delta b b'.

Lemma cf_step F m b c : S m < d -> b < l (S m) ->
  cf (S m) (S m) F b c [] = sumn (l m) (fun a => isum (ms m) (fun j => U m a j b * cf m (S m) F a c [j])).
Proof.
  intros Hm Hb. unfold cf at 1. rewrite (js_split 0 m (S m)) by lia.
  rewrite (js_ext 0 m _ (fun I => sumn (l m) (fun a => isum (ms m) (fun j => U m a j b * js (S m) d (fun I' => lU I a * rV (S m) I' c * F (I ++ [j] ++ I')))))).
  2:{ intros I [HI LI]. rewrite js_one. rewrite <- isum_sumn_swap. apply isum_ext. intros j _.
      rewrite (js_ext (S m) d _ (fun I' => sumn (l m) (fun a => U m a j b * (lU I a * rV (S m) I' c * F (I ++ [j] ++ I'))))).
      2:{ intros I' _. cbn [app]. rewrite <- app_assoc. cbn [app]. rewrite lv_snoc by (rewrite ?Hl0; try lia; replace (length I) with m by lia; auto).
          replace (length I) with m by lia. rewrite <- !sumn_mul_r. apply sumn_ext. intros. ring. }
      rewrite js_sumn. apply sumn_ext. intros a _. now rewrite js_mul_l. }
  rewrite js_sumn. apply sumn_ext. intros a _. rewrite js_isum. apply isum_ext. intros j _. now rewrite js_mul_l.
Qed.

Lemma delta_gauge F : gauge (delta_of F).
Proof.
  intros m b c Hm Hb Hc. unfold delta_of, last0. destruct (Nat.eqb_spec (S m) d); [lia|].
  transitivity (sumn (l m) (fun a => isum (ms m) (fun j => U m a j b * cf m (S m) F a c [j])) -
                sumn (l m) (fun a => isum (ms m) (fun j => U m a j b * sumn (l (S m)) (fun e => U m a j e * cf (S m) (S m) F e c [])))).
  - rewrite <- sumn_sub. apply sumn_ext. intros a _. rewrite <- isum_sub. apply isum_ext. intros. ring.
  - rewrite <- cf_step by auto.
    rewrite (sumn_ext K (l m) _ (fun a => sumn (l (S m)) (fun e => isum (ms m) (fun j => U m a j b * U m a j e) * cf (S m) (S m) F e c []))).
    2:{ intros a _. rewrite (isum_ext K (ms m) _ (fun j => sumn (l (S m)) (fun e => U m a j b * U m a j e * cf (S m) (S m) F e c []))).
        2:{ intros j _. rewrite <- sumn_mul_l. apply sumn_ext. intros. ring. }
        rewrite isum_sumn_swap. apply sumn_ext. intros e _. now rewrite isum_mul_r. }
    rewrite sumn_swap. rewrite (sumn_ext K (l (S m)) _ (fun e => delta b e * cf (S m) (S m) F e c [])).
    2:{ intros e He. rewrite sumn_mul_r, HU1 by auto. reflexivity. }
    rewrite sumn_deltal by auto. ring.
Qed.

(** Inner product with one tangent term. *)
Lemma inner_tterm F m E : m < d ->
  js 0 d (fun J => F J * tterm m E J) = sumn (l m) (fun a => sumn (q (S m)) (fun c => isum (ms m) (fun j => cf m (S m) F a c [j] * E a j c))).
Proof.
  intros Hm. rewrite (js_split 0 m d) by lia.
  rewrite (js_ext 0 m _ (fun I => sumn (l m) (fun a => sumn (q (S m)) (fun c => isum (ms m) (fun j => js (S m) d (fun I' => lU I a * rV (S m) I' c * F (I ++ [j] ++ I')) * E a j c))))).
  2:{ intros I [HI LI]. rewrite (js_split m (S m) d) by lia. rewrite js_one.
      rewrite (isum_ext K (ms m) _ (fun j => sumn (l m) (fun a => sumn (q (S m)) (fun c => js (S m) d (fun I' => lU I a * rV (S m) I' c * F (I ++ [j] ++ I')) * E a j c)))).
      2:{ intros j _. rewrite (js_ext (S m) d _ (fun I' => sumn (l m) (fun a => sumn (q (S m)) (fun c => lU I a * rV (S m) I' c * F (I ++ [j] ++ I') * E a j c)))).
          2:{ intros I' _. cbn [app]. rewrite tterm_at by lia. rewrite <- sumn_mul_l. apply sumn_ext. intros a _. rewrite <- sumn_mul_l. apply sumn_ext. intros. ring. }
          rewrite js_sumn. apply sumn_ext. intros a _. rewrite js_sumn. apply sumn_ext. intros c _. now rewrite js_mul_r. }
      rewrite isum_sumn_swap. apply sumn_ext. intros a _. now rewrite isum_sumn_swap. }
  rewrite js_sumn. apply sumn_ext. intros a _. rewrite js_sumn. apply sumn_ext. intros c _. rewrite js_isum. apply isum_ext. intros j _.
  now rewrite js_mul_r.
Qed.

(** cf of a tangent term at the same or another place. *)
Lemma cf_same m E a c j : m < d -> a < l m -> c < q (S m) -> cf m (S m) (tterm m E) a c [j] = E a j c.
Proof.
  intros Hm Ha Hc. unfold cf.
  rewrite (js_ext 0 m _ (fun I => sumn (l m) (fun a' => lU I a * lU I a' * E a' j c))).
  2:{ intros I [HI LI]. rewrite (js_ext (S m) d _ (fun I' => sumn (l m) (fun a' => sumn (q (S m)) (fun c' => lU I a * lU I a' * E a' j c' * (rV (S m) I' c * rV (S m) I' c'))))).
      2:{ intros I' _. cbn [app]. rewrite tterm_at by lia. rewrite <- sumn_mul_l. apply sumn_ext. intros a' _. rewrite <- sumn_mul_l. apply sumn_ext. intros. ring. }
      rewrite js_sumn. apply sumn_ext. intros a' _. rewrite js_sumn.
      rewrite (sumn_ext K (q (S m)) _ (fun c' => lU I a * lU I a' * E a' j c' * delta c c')).
      2:{ intros c' Hc'. rewrite js_mul_l, HV by (auto; lia). reflexivity. }
      now rewrite sumn_deltar. }
  rewrite js_sumn. rewrite (sumn_ext K (l m) _ (fun a' => delta a a' * E a' j c)).
  2:{ intros a' Ha'. rewrite js_mul_r, HU by auto. reflexivity. }
  now rewrite sumn_deltal.
Qed.

Lemma cf_other m k D a c j : k < m < d -> gauge D -> a < l m -> c < q (S m) -> cf m (S m) (tterm k (D k)) a c [j] = 0.
Proof.
  intros Hk HG Ha Hc. unfold cf. rewrite js_swap. apply js_zero. intros I' HI'.
  rewrite (js_split 0 k m) by lia.
  rewrite (js_ext 0 k _ (fun I => sumn (l k) (fun b => js (S k) m (fun M => sumn (l (S k)) (fun e => sumn (l k) (fun b' => sumn (q (S k)) (fun c' => lU I b' * lU I b *
     (isum (ms k) (fun j0 => U k b' j0 e * D k b j0 c') * (chain U l (S k) M (delta a) e * rV (S m) I' c * rV (S k) (M ++ [j] ++ I') c'))))))))).
  2:{ intros I [HI LI]. rewrite (js_split k (S k) m) by lia. rewrite js_one. rewrite <- js_sumn.
      rewrite <- js_isum. apply js_ext. intros M [HM LM].
      rewrite (isum_ext K (ms k) _ (fun j0 => sumn (l k) (fun b => sumn (l (S k)) (fun e => sumn (l k) (fun b' => sumn (q (S k)) (fun c' =>
          lU I b' * lU I b * (U k b' j0 e * D k b j0 c' * (chain U l (S k) M (delta a) e * rV (S m) I' c * rV (S k) (M ++ [j] ++ I') c')))))))).
      2:{ intros j0 _. rewrite <- !app_assoc. cbn [app]. rewrite tterm_at by lia.
          rewrite lv_split by (rewrite Hl0; lia). replace (length I) with k by lia. cbn [chain]. cbn [Nat.add].
          rewrite <- sumn_mul_l. apply sumn_ext. intros b Hb.
          rewrite (sumn_swap K (l (S k)) (l k)).
          set (S0 := sumn (q (S k)) (fun c0 => lU I b * D k b j0 c0 * rV (S k) (M ++ j :: I') c0)).
          rewrite <- !sumn_mul_r. apply sumn_ext. intros b' Hb'.
          rewrite <- sumn_mul_l. rewrite <- !sumn_mul_r. apply sumn_ext. intros e He. unfold S0. rewrite <- !sumn_mul_l. apply sumn_ext. intros c' Hc'. ring. }
      rewrite isum_sumn_swap. apply sumn_ext. intros b _. rewrite isum_sumn_swap. apply sumn_ext. intros e _. rewrite isum_sumn_swap. apply sumn_ext. intros b' _.
      rewrite isum_sumn_swap. apply sumn_ext. intros c' _. rewrite isum_mul_l, isum_mul_r. reflexivity. }
  rewrite js_sumn.
  rewrite (sumn_ext K (l k) _ (fun b => js (S k) m (fun M => sumn (l (S k)) (fun e => sumn (q (S k)) (fun c' => 
     (isum (ms k) (fun j0 => U k b j0 e * D k b j0 c') * (chain U l (S k) M (delta a) e * rV (S m) I' c * rV (S k) (M ++ [j] ++ I') c'))))))).
  2:{ intros b Hb. rewrite js_swap. apply js_ext. intros M HM. rewrite js_sumn. apply sumn_ext. intros e He. rewrite js_sumn.
      rewrite (sumn_ext K (l k) _ (fun b' => delta b b' * sumn (q (S k)) (fun c' => isum (ms k) (fun j0 => U k b' j0 e * D k b j0 c') * (chain U l (S k) M (delta a) e * rV (S m) I' c * rV (S k) (M ++ [j] ++ I') c')))).
      2:{ intros b' Hb'. rewrite js_sumn. rewrite <- sumn_mul_l. apply sumn_ext. intros c' _. rewrite js_mul_r. rewrite HU by (auto; lia). rewrite delta_sym. reflexivity. }
      now rewrite sumn_deltal. }
  rewrite <- js_sumn. apply js_zero. intros M HM. rewrite sumn_swap. apply sumn_zero. intros e He. rewrite sumn_swap. apply sumn_zero. intros c' Hc'.
  rewrite sumn_mul_r. rewrite HG by (auto; lia). ring.
Qed.
End Frame.
