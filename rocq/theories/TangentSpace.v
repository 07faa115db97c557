(** The span of the terms of a frame is the tangent space (for full TT-ranks). *)
From Coq Require Import String Ascii List Arith ZArith Lia Lra Bool Ring Reals.
From Verif Require Import Scalar Tensor TensorLemmas TensorLemmas2 Base Spec Chain BaseLemmas Ops
  FullProofs ResultLemmas Dense Sweep FlatProofs OpsR Decomp DecompSpec GaugeProofs OrthProofs OrthNorm KronSpec DetProofs QRExists Trunc SvdExists
  TangentProofs Riem RiemBlock RiemProofs RiemThms RiemSpec.
Import ListNotations.
Local Open Scope nat_scope.
Local Notation train := (nat -> nat -> list nat -> nat -> Rring).
Local Notation fn := (list (list nat) -> Rring).
Add Ring Rring3 : (cth Rring).

(** ** Linear algebra *)
Lemma injective_inverse n (A : nat -> nat -> R) :
  (forall c : nat -> R, (forall i, i < n -> sumn (K := Rring) n (fun j => A i j * c j)%R = 0%R) -> forall j, j < n -> c j = 0%R) ->
  exists B, right_inverse n A B.
Proof.
  intros H. destruct (svd_exists n n A) as (U & s & V & HA & HU & HV & _). rewrite Nat.min_id in *.
  assert (Hs : forall k, k < n -> s k <> 0%R).
  { intros k Hk Hz. assert (Z : forall j, j < n -> V j k = 0%R).
    { apply (H (fun j => V j k)). intros i Hi.
      transitivity (rsum n (fun j => rsum n (fun l => (U i l * s l) * (V j l * V j k))))%R.
      - apply rsum_ext. intros j Hj. rewrite HA by auto. unfold expan. rewrite <- rsum_mul_r. apply rsum_ext. intros. ring.
      - rewrite rsum_swap. apply rsum_0. intros l Hl. rewrite rsum_mul_l. rewrite HV by auto. unfold kron.
        destruct (Nat.eqb_spec l k); [subst; rewrite Hz; ring|ring]. }
    pose proof (HV k k Hk Hk) as E. rewrite kron_same in E. rewrite (rsum_0 n) in E; [lra|]. intros i Hi. rewrite Z by auto. ring. }
  exists (fun i j => rsum n (fun l => V i l * / s l * U j l)%R). intros i j Hi Hj. unfold mmul.
  transitivity (rsum n (fun k => rsum n (fun l => rsum n (fun l' => (U i l * s l * / s l' * U j l') * (V k l * V k l')))))%R.
  { apply rsum_ext. intros k Hk. rewrite HA by auto. unfold expan. rewrite <- rsum_mul_r. apply rsum_ext. intros l Hl.
    rewrite <- rsum_mul_l. apply rsum_ext. intros. ring. }
  rewrite rsum_swap. rewrite <- (complete n U HU i j) by auto. apply rsum_ext. intros l Hl. rewrite rsum_swap.
  transitivity (rsum n (fun l' => (U i l * s l * / s l' * U j l') * kron l l'))%R.
  - apply rsum_ext. intros l' Hl'. rewrite rsum_mul_l. rewrite HV by auto. reflexivity.
  - rewrite rsum_kron_r by auto. field. auto.
Qed.

Lemma isum_zero_each sh (f : list nat -> Rring) : (forall i, vidx sh i -> 0 <= f i)%R -> (0 <= isum sh f)%R /\ (isum sh f = 0%R -> forall i, vidx sh i -> f i = 0%R).
Proof.
  revert f. induction sh as [|n sh IH]; intros f H; cbn [isum].
  - split; [apply H; constructor|]. intros E i Hi. inversion Hi; subst. exact E.
  - assert (P : forall x, x < n -> (0 <= isum sh (fun i => f (x :: i)))%R) by (intros x Hx; apply IH; intros i Hi; apply H; now constructor).
    split; [exact (rsum_nonneg n _ P)|]. intros E i Hi. destruct i as [|x i']; [inversion Hi|]. apply vidx_cons_inv in Hi as [Hx Hi'].
    apply (IH (fun i => f (x :: i))); auto. { intros j Hj. apply H. now constructor. }
    exact (rsum_zero_each n _ P E x Hx).
Qed.
Lemma jsum_zero_each ss (f : fn) : (forall J, vjdx ss J -> 0 <= f J)%R -> (0 <= jsum ss f)%R /\ (jsum ss f = 0%R -> forall J, vjdx ss J -> f J = 0%R).
Proof.
  revert f. induction ss as [|s ss IH]; intros f H; cbn [jsum].
  - split; [apply H; constructor|]. intros E i Hi. inversion Hi; subst. exact E.
  - assert (P : forall x, vidx s x -> (0 <= jsum ss (fun i => f (x :: i)))%R) by (intros x Hx; apply IH; intros i Hi; apply H; now constructor).
    destruct (isum_zero_each s _ P) as [P1 P2]. split; [exact P1|]. intros E i Hi. destruct i as [|x i']; [inversion Hi|]. assert (Hx : vidx s x) by now inversion Hi. assert (Hi' : vjdx ss i') by now inversion Hi.
    apply (IH (fun i => f (x :: i))); auto. intros j Hj. apply H. now constructor.
Qed.
Lemma js_zero_each ms m n (f : fn) : js Rring ms m n (fun J => f J * f J)%K = 0%R -> forall J, vj ms m n J -> f J = 0%R.
Proof.
  intros E J [HJ LJ]. destruct (jsum_zero_each (map ms (seq m (n - m))) (fun J => f J * f J)%K) as [_ P].
  - intros. apply Rle_0_sqr.
  - assert (X : vjdx (map ms (seq m (n - m))) J) by (rewrite <- LJ; now apply vchain_vjdx).
    specialize (P E J X). cbn in P. destruct (Rmult_integral _ _ P); auto.
Qed.

Section Coords.
Variable ms : nat -> list nat.
Definition indep (m n r : nat) (f : list (list nat) -> nat -> Rring) : Prop :=
  forall c : nat -> Rring, (forall J, vj ms m n J -> sumn r (fun a => f J a * c a)%K = 0%R) -> forall a, a < r -> c a = 0%R.

Lemma gram_inverse m n r f : indep m n r f -> exists H : nat -> nat -> Rring, forall a b, a < r -> b < r ->
  sumn r (fun e => js Rring ms m n (fun J => f J a * f J e) * H e b)%K = delta a b.
Proof.
  intros Hf. destruct (injective_inverse r (fun a b => js Rring ms m n (fun J => f J a * f J b)%K)) as (H & HH).
  - intros c Hc. change (nat -> Rring) in c. apply Hf. intros J HJ. pattern J. revert J HJ. apply (js_zero_each ms m n).
    transitivity (sumn (K := Rring) r (fun a => c a * sumn r (fun b => js Rring ms m n (fun J => f J a * f J b) * c b)))%K.
    + rewrite (js_ext Rring ms m n _ (fun J => sumn r (fun a => sumn r (fun b => c a * (f J a * f J b * c b)))))%K.
      * rewrite js_sumn. apply sumn_ext. intros a Ha. rewrite js_sumn. rewrite <- sumn_mul_l. apply sumn_ext. intros b Hb.
        rewrite js_mul_l, js_mul_r. reflexivity.
      * intros J _. rewrite <- sumn_mul_r. apply sumn_ext. intros a Ha. rewrite <- sumn_mul_l. apply sumn_ext. intros b Hb. ring.
    + apply sumn_zero. intros a Ha. change (c a * sumn r (fun b => js Rring ms m n (fun J => f J a * f J b)%K * c b)%K = c0)%K. 
      etransitivity; [apply f_equal; exact (Hc a Ha)|]. change (c a * c0 = c0)%K. ring.
  - exists H. intros a b Ha Hb. rewrite <- kron_delta. exact (HH a b Ha Hb).
Qed.

Lemma coords m n m' n' r l (f g p s : list (list nat) -> nat -> Rring) :
  (forall I I', vj ms m n I -> vj ms m' n' I' -> sumn r (fun a => f I a * p I' a)%K = sumn l (fun e => g I e * s I' e)%K) ->
  indep m' n' r p -> exists M : nat -> nat -> Rring, forall I a, vj ms m n I -> a < r -> f I a = sumn l (fun e => g I e * M e a)%K.
Proof.
  intros E Hp. destruct (gram_inverse m' n' r p Hp) as (H & HH).
  exists (fun e a => sumn r (fun b => js Rring ms m' n' (fun I' => s I' e * p I' b) * H b a))%K. intros I a HI Ha.
  transitivity (sumn r (fun b => js Rring ms m' n' (fun I' => sumn r (fun a => f I a * p I' a) * p I' b) * H b a))%K.
  - transitivity (sumn r (fun c => f I c * delta a c))%K.
    + rewrite sumn_deltar by auto. reflexivity.
    + rewrite (sumn_ext Rring r _ (fun c => sumn r (fun b => f I c * (js Rring ms m' n' (fun J => p J c * p J b) * H b a))))%K.
      2:{ intros c Hc. rewrite delta_sym, <- (HH c a Hc Ha). rewrite sumn_mul_l. reflexivity. }
      rewrite sumn_swap. apply sumn_ext. intros b Hb.
      rewrite (js_ext Rring ms m' n' _ (fun I' => sumn r (fun c => f I c * (p I' c * p I' b))))%K.
      2:{ intros J _. rewrite <- sumn_mul_r. apply sumn_ext. intros. ring. }
      rewrite js_sumn, <- sumn_mul_r. apply sumn_ext. intros c Hc. rewrite js_mul_l. ring.
  - rewrite (sumn_ext Rring l _ (fun e => sumn r (fun b => g I e * (js Rring ms m' n' (fun I' => s I' e * p I' b) * H b a))))%K by (intros; now rewrite sumn_mul_l).
    rewrite sumn_swap. apply sumn_ext. intros b Hb.
    rewrite (js_ext Rring ms m' n' _ (fun I' => sumn l (fun e => g I e * (s I' e * p I' b))))%K.
    2:{ intros J HJ. rewrite E by auto. rewrite <- sumn_mul_r. apply sumn_ext. intros. ring. }
    rewrite js_sumn, <- sumn_mul_r. apply sumn_ext. intros c Hc. rewrite js_mul_l. ring.
Qed.

Lemma coords_inv m n r l (f g : list (list nat) -> nat -> Rring) (M : nat -> nat -> Rring) : l <= r -> indep m n r f ->
  (forall I a, vj ms m n I -> a < r -> f I a = sumn l (fun e => g I e * M e a)%K) ->
  exists N : nat -> nat -> Rring, forall I e, vj ms m n I -> e < l -> g I e = sumn r (fun a => f I a * N a e)%K.
Proof.
  intros Hl Hf HM. destruct (injective_inverse r (fun e a => if Nat.ltb e l then M e a else 0%R)) as (N & HN).
  - intros c Hc. change (nat -> Rring) in c. apply Hf. intros I HI.
    rewrite (sumn_ext Rring r _ (fun a => sumn l (fun e => g I e * (M e a * c a))))%K.
    2:{ intros a Ha. rewrite HM by auto. rewrite <- sumn_mul_r. apply sumn_ext. intros. ring. }
    rewrite sumn_swap. apply sumn_zero. intros e He. rewrite sumn_mul_l. specialize (Hc e ltac:(lia)). cbv beta in Hc.
    destruct (Nat.ltb_spec e l); [|lia]. etransitivity; [apply f_equal; exact Hc|]. change (g I e * c0 = c0)%K. ring.
  - exists N. intros I e HI He.
    rewrite (sumn_ext Rring r _ (fun a => sumn l (fun e' => g I e' * (M e' a * N a e))))%K.
    2:{ intros a Ha. rewrite HM by auto. rewrite <- sumn_mul_r. apply sumn_ext. intros. ring. }
    rewrite sumn_swap. rewrite (sumn_ext Rring l _ (fun e' => g I e' * delta e e'))%K.
    2:{ intros e' He'. rewrite sumn_mul_l. f_equal. specialize (HN e' e ltac:(lia) ltac:(lia)). unfold mmul in HN.
        destruct (Nat.ltb_spec e' l); [|lia]. rewrite delta_sym, <- kron_delta. exact HN. }
    rewrite sumn_deltar by auto. reflexivity.
Qed.
End Coords.

(** ** Change of frame *)
Lemma tterm_at' (U V : train) l q m D I j I' : length I = m ->
  tterm Rring U V l q m D (I ++ j :: I') = sumn (l m) (fun a => sumn (q (S m)) (fun c => lv U l I a * D a j c * rv Rring V q (S m) I' c))%K.
Proof.
  intros L. unfold tterm. rewrite <- L, firstn_app, Nat.sub_diag, firstn_all, app_nil_r, nth_middle.
  replace (skipn (S (length I)) (I ++ j :: I')) with I'; [reflexivity|].
  replace (I ++ j :: I') with ((I ++ [j]) ++ I') by now rewrite <- app_assoc.
  replace (S (length I)) with (length (I ++ [j])) by (rewrite app_length; cbn; lia).
  rewrite skipn_app, skipn_all, Nat.sub_diag. reflexivity.
Qed.
Lemma tterm_change ms d m (U V U' V' : train) (l q l' q' : nat -> nat) (M S' : nat -> nat -> Rring) D J : m < d -> vj ms 0 d J ->
  (forall I a, vj ms 0 m I -> a < l m -> lv U l I a = sumn (l' m) (fun e => lv U' l' I e * M e a)%K) ->
  (forall I c, vj ms (S m) d I -> c < q (S m) -> rv Rring V q (S m) I c = sumn (q' (S m)) (fun f => rv Rring V' q' (S m) I f * S' f c)%K) ->
  tterm Rring U V l q m D J = tterm Rring U' V' l' q' m (fun e j f => sumn (l m) (fun a => sumn (q (S m)) (fun c => M e a * D a j c * S' f c)))%K J.
Proof.
  intros Hm HJ HL HR. destruct (vj_inv ms 0 m d J ltac:(lia) HJ) as (I & J1 & -> & HI & HJ1).
  destruct (vj_first ms m d J1 Hm HJ1) as (j & I' & -> & Hj & HI'). rewrite !tterm_at' by (destruct HI; lia).
  transitivity (sumn (l m) (fun a => sumn (q (S m)) (fun c => sumn (l' m) (fun e => sumn (q' (S m)) (fun f => lv U' l' I e * (M e a * D a j c * S' f c) * rv Rring V' q' (S m) I' f)))))%K.
  - apply sumn_ext. intros a Ha. apply sumn_ext. intros c Hc. rewrite HL, HR by auto. rewrite <- !sumn_mul_r. apply sumn_ext. intros e He.
    rewrite <- sumn_mul_l. apply sumn_ext. intros f Hf. ring.
  - transitivity (sumn (l' m) (fun e => sumn (q' (S m)) (fun f => sumn (l m) (fun a => sumn (q (S m)) (fun c => lv U' l' I e * (M e a * D a j c * S' f c) * rv Rring V' q' (S m) I' f)))))%K.
    + transitivity (sumn (l m) (fun a => sumn (l' m) (fun e => sumn (q' (S m)) (fun f => sumn (q (S m)) (fun c => lv U' l' I e * (M e a * D a j c * S' f c) * rv Rring V' q' (S m) I' f)))))%K.
      * apply sumn_ext. intros a Ha. rewrite sumn_swap. apply sumn_ext. intros e He. apply sumn_swap.
      * rewrite sumn_swap. apply sumn_ext. intros e He. apply sumn_swap.
    + apply sumn_ext. intros e He. apply sumn_ext. intros f Hf. rewrite <- sumn_mul_l, <- sumn_mul_r. apply sumn_ext. intros a Ha.
      rewrite <- sumn_mul_l, <- sumn_mul_r. apply sumn_ext. intros c Hc. ring.
Qed.

(** A train with one core replaced. *)
Lemma chain_replaced ms d (X : train) (r : nat -> nat) m D J : m < d -> 0 < r 0 -> vj ms 0 d J ->
  chain (fun k => if Nat.eqb k m then D else X k) r 0 J (fun _ => 1%K) 0 = tterm Rring X X r r m D J.
Proof.
  intros Hm R0 HJ. destruct (vj_inv ms 0 m d J ltac:(lia) HJ) as (I & J1 & -> & [HI LI] & HJ1).
  destruct (vj_first ms m d J1 Hm HJ1) as (j & I' & -> & Hj & [HI' LI']). rewrite tterm_at' by lia. rewrite Nat.sub_0_r in LI.
  set (G := fun k => if Nat.eqb k m then D else X k).
  rewrite (entry_split Rring G r) by auto. rewrite LI.
  apply sumn_ext. intros a Ha. rewrite rv_cons. rewrite <- sumn_mul_l. apply sumn_ext. intros c Hc.
  assert (E1 : lv G r I a = lv X r I a).
  { unfold lv. apply (chain_ext Rring ms); auto. intros k ? ? ? Hk _ _ _. unfold G. destruct (Nat.eqb_spec k m); [lia|reflexivity]. }
  assert (E2 : rv Rring G r (S m) I' c = rv Rring X r (S m) I' c).
  { unfold rv. apply (chain_ext Rring ms); auto. intros k ? ? ? Hk _ _ _. unfold G. destruct (Nat.eqb_spec k m); [lia|reflexivity]. }
  rewrite E1, E2. unfold G at 1. rewrite Nat.eqb_refl. ring.
Qed.

Section TS.
Variables (x l r : rtt).
Hypothesis Hx : wf x.
Hypothesis Bx : bsz x = None.
Hypothesis HF : is_frame x l r.
Hypothesis Hd : 2 <= ndims x.
Hypothesis Hr : full_tt_ranks x.
Local Notation d := (ndims x).
Local Notation ms := (modes x).
Local Notation X := (coreG x []).
Local Notation U := (coreG l []).
Local Notation V := (coreG r []).

Lemma lk_le k : k < d -> rk l k <= rk x k.
Proof.
  intros Hk. destruct k as [|k]; [rewrite (fr_l0 x l r HF), (wf_first Hx); lia|]. rewrite (fr_lk x l r HF k) by lia. lia.
Qed.
Lemma qk_le k : 0 < k -> k <= d -> rk r k <= rk x k.
Proof.
  intros H0 Hk. destruct (Nat.eq_dec k d) as [->|Hne]; [rewrite (fr_qd x l r HF), (wf_last Hx); lia|].
  rewrite (fr_rk x l r HF k) by lia. pose proof (lk_le k ltac:(lia)). lia.
Qed.
Lemma x_indep_l k : 0 < k < d -> indep ms 0 k (rk x k) (fun I a => lv X (rk x) I a).
Proof.
  intros Hk c Hc. destruct (Hr k Hk) as [H _]. apply H. intros J HJ LJ. rewrite <- (Hc J) by (split; auto; lia).
  apply sumn_ext. intros a Ha. change (left_part x J a * c a = lv X (rk x) J a * c a)%R. f_equal. unfold left_part, lv. apply (chain_ext Rring ms); auto; [rewrite (wf_first Hx); lia|].
  intros b Hb. unfold delta. rewrite Nat.eqb_sym. reflexivity.
Qed.
Lemma x_indep_r k : 0 < k < d -> indep ms k d (rk x k) (fun I a => rv Rring X (rk x) k I a).
Proof.
  intros Hk c Hc. destruct (Hr k Hk) as [_ H]. apply H. intros J HJ LJ. rewrite <- (Hc J) by (split; auto; lia).
  apply sumn_ext. intros a Ha. unfold right_part, rv. apply Rmult_comm.
Qed.
Lemma split_entry (t : rtt) I I' k : wf t -> rk t 0 = 1 -> vj ms 0 k I -> tt_entry t [] (I ++ I') = sumn (rk t k) (fun a => lv (coreG t []) (rk t) I a * rv Rring (coreG t []) (rk t) k I' a)%K.
Proof.
  intros Ht H0 [HI LI]. unfold tt_entry. rewrite entry_split by (rewrite H0; lia). replace (length I) with k by lia. reflexivity.
Qed.

Lemma frame_left k : k < d -> exists M N : nat -> nat -> Rring,
  (forall I a, vj ms 0 k I -> a < rk x k -> lv X (rk x) I a = sumn (rk l k) (fun e => lv U (rk l) I e * M e a)%K) /\
  (forall I e, vj ms 0 k I -> e < rk l k -> lv U (rk l) I e = sumn (rk x k) (fun a => lv X (rk x) I a * N a e)%K).
Proof.
  intros Hk. destruct (Nat.eq_dec k 0) as [->|H0].
  - exists (fun _ _ => 1%K), (fun _ _ => 1%K). rewrite (fr_l0 x l r HF), (wf_first Hx).
    split; intros I a [_ LI] Ha; destruct I; cbn in LI; try lia; rewrite sumn_1; replace a with 0 by lia; unfold lv, delta; cbn [chain Nat.eqb]; ring.
  - destruct (coords ms 0 k k d (rk x k) (rk l k) (fun I a => lv X (rk x) I a) (fun I e => lv U (rk l) I e)
      (fun I a => rv Rring X (rk x) k I a) (fun I e => rv Rring U (rk l) k I e)) as (M & HM).
    + intros I I' HI HI'. rewrite <- (split_entry x I I' k), <- (split_entry l I I' k); auto; try apply HF; try apply (wf_first Hx); try apply (fr_l0 x l r HF).
      symmetry. apply (fr_ent x l r HF). apply (vj_app ms 0 k d); auto; lia.
    + apply x_indep_r. lia.
    + destruct (coords_inv ms 0 k (rk x k) (rk l k) (fun I a => lv X (rk x) I a) (fun I e => lv U (rk l) I e) M) as (N & HN); auto.
      * now apply lk_le.
      * apply x_indep_l. lia.
      * exists M, N. auto.
Qed.
Lemma frame_right k : 0 < k -> k <= d -> exists M N : nat -> nat -> Rring,
  (forall I a, vj ms k d I -> a < rk x k -> rv Rring X (rk x) k I a = sumn (rk r k) (fun e => rv Rring V (rk r) k I e * M e a)%K) /\
  (forall I e, vj ms k d I -> e < rk r k -> rv Rring V (rk r) k I e = sumn (rk x k) (fun a => rv Rring X (rk x) k I a * N a e)%K).
Proof.
  intros H0 Hk. destruct (Nat.eq_dec k d) as [->|Hne].
  - exists (fun _ _ => 1%K), (fun _ _ => 1%K). rewrite (fr_qd x l r HF), (wf_last Hx).
    split; intros I a [_ LI] Ha; destruct I; cbn in LI; try lia; rewrite sumn_1; unfold rv; cbn [chain]; ring.
  - destruct (coords ms k d 0 k (rk x k) (rk r k) (fun I a => rv Rring X (rk x) k I a) (fun I e => rv Rring V (rk r) k I e)
      (fun I a => lv X (rk x) I a) (fun I e => lv V (rk r) I e)) as (M & HM).
    + intros I' I HI' HI. rewrite (sumn_ext Rring (rk x k) _ (fun a => lv X (rk x) I a * rv Rring X (rk x) k I' a)%K) by (intros; ring).
      rewrite (sumn_ext Rring (rk r k) _ (fun a => lv V (rk r) I a * rv Rring V (rk r) k I' a)%K) by (intros; ring).
      rewrite <- (split_entry x I I' k), <- (split_entry r I I' k); auto; try apply HF; try apply (wf_first Hx); try apply (fr_q0 x l r HF).
      symmetry. apply (fr_entr x l r HF). apply (vj_app ms 0 k d); auto; lia.
    + apply x_indep_l. lia.
    + destruct (coords_inv ms k d (rk x k) (rk r k) (fun I a => rv Rring X (rk x) k I a) (fun I e => rv Rring V (rk r) k I e) M) as (N & HN); auto.
      * now apply qk_le.
      * apply x_indep_r. lia.
      * exists M, N. auto.
Qed.

Lemma choose_terms (A B : nat -> (nat -> list nat -> nat -> Rring) -> Prop) n : (forall m, m < n -> exists D, A m D) -> 
  exists D : train, forall m, m < n -> A m (D m).
Proof.
  induction n as [|n IH]; intros H; [exists (fun _ _ _ _ => 0%K); intros; lia|].
  destruct IH as (D & HD); [intros; apply H; lia|]. destruct (H n ltac:(lia)) as (E & HE).
  exists (fun m => if Nat.eqb m n then E else D m). intros m Hm. destruct (Nat.eqb_spec m n); [now subst|]. apply HD. lia.
Qed.

(** The tangent space is the span of the terms of the frame. *)
Lemma tangent_terms (T : list nat -> R) : tangent x T <->
  exists D : train, forall i, vidx (ishape x) i -> T i = sumn (K := Rring) d (fun m => tterm Rring U V (rk l) (rk r) m (D m) (split_idx x i)).
Proof.
  assert (vs : forall i, vidx (ishape x) i -> vj ms 0 d (split_idx x i)).
  { intros i Hi. destruct (split_idx_valid _ x i Hx Hi) as [H1 H2]. split; auto. lia. }
  split.
  - intros (dG & HT).
    destruct (choose_terms (fun m D => forall J, vj ms 0 d J -> tterm Rring X X (rk x) (rk x) m (dG m) J = tterm Rring U V (rk l) (rk r) m D J) (fun _ _ => True) d) as (D & HD).
    + intros m Hm. destruct (frame_left m Hm) as (M & N & HM & _). destruct (frame_right (S m) ltac:(lia) ltac:(lia)) as (M' & N' & HM' & _).
      eexists. intros J HJ. apply (tterm_change ms d m X X U V (rk x) (rk x) (rk l) (rk r) M M'); auto.
    + exists D. intros i Hi. rewrite HT by auto. apply (sumn_ext Rring). intros m Hm. etransitivity; [|apply HD; auto].
      apply (chain_replaced ms d); auto. rewrite (wf_first Hx). lia.
  - intros (D & HT).
    destruct (choose_terms (fun m dG => forall J, vj ms 0 d J -> tterm Rring U V (rk l) (rk r) m (D m) J = tterm Rring X X (rk x) (rk x) m dG J) (fun _ _ => True) d) as (dG & HG).
    + intros m Hm. destruct (frame_left m Hm) as (M & N & _ & HN). destruct (frame_right (S m) ltac:(lia) ltac:(lia)) as (M' & N' & _ & HN').
      eexists. intros J HJ. apply (tterm_change ms d m U V X X (rk l) (rk r) (rk x) (rk x) N N'); auto.
    + exists dG. intros i Hi. rewrite HT by auto. apply (sumn_ext Rring). intros m Hm. etransitivity; [apply HG; auto|]. symmetry.
      apply (chain_replaced ms d); auto. rewrite (wf_first Hx). lia.
Qed.
End TS.
