(** How many arrays of observations have no repeated row. *)
From Coq Require Import List Arith Lia Lra Bool Reals.
Import ListNotations.
Local Open Scope nat_scope.

(** All words of length [n] over the letters [xs]: what n independent draws can give. *)
Fixpoint words {A} (xs : list A) (n : nat) : list (list A) :=
  match n with 0 => [[]] | S n' => flat_map (fun w => map (fun x => x :: w) xs) (words xs n') end.

Section Count.
Context {A : Type} (dec : forall x y : A, {x = y} + {x <> y}).
Implicit Types xs w : list A.
Definition memb (x : A) (w : list A) : bool := if in_dec dec x w then true else false.
Fixpoint distinct (w : list A) : bool := match w with [] => true | x :: w' => negb (memb x w') && distinct w' end.
Lemma distinct_NoDup w : distinct w = true <-> NoDup w.
Proof.
  induction w as [|x w IH]; cbn; [split; auto; constructor|]. unfold memb. rewrite andb_true_iff, IH. destruct (in_dec dec x w) as [I|I]; cbn; split.
  - intros [? _]; discriminate.
  - intros N. inversion N; contradiction.
  - intros [_ N]. now constructor.
  - intros N. inversion N; auto.
Qed.
Lemma words_length xs n : length (words xs n) = length xs ^ n.
Proof.
  induction n as [|n IH]; cbn [words Nat.pow]; auto. rewrite <- IH. clear IH. induction (words xs n) as [|w l H]; cbn; [lia|]. rewrite app_length, map_length, H. lia.
Qed.
Lemma in_words xs n w : In w (words xs n) <-> length w = n /\ incl w xs.
Proof.
  revert w. induction n as [|n IH]; intros w; cbn [words].
  - split; [intros [<-|[]]; split; auto; intros ? []|]. intros [L _]. destruct w; [now left|discriminate].
  - rewrite in_flat_map. split.
    + intros (v & Hv & Hw). apply in_map_iff in Hw as (x & <- & Hx). apply IH in Hv as [L I]. split; [cbn; auto|]. intros y [<-|Hy]; auto.
    + intros [L I]. destruct w as [|x w]; [discriminate|]. exists w. split; [apply IH; split; [now injection L|intros y Hy; apply I; now right]|]. apply in_map_iff. exists x. split; auto. apply I. now left.
Qed.
Lemma absent_count xs w : NoDup xs -> NoDup w -> incl w xs -> length (filter (fun x => negb (memb x w)) xs) + length w = length xs.
Proof.
  intros Nx Nw I. assert (E : length (filter (fun x => memb x w) xs) = length w).
  { apply Nat.le_antisymm.
    - apply NoDup_incl_length; [now apply NoDup_filter|]. intros y Hy. apply filter_In in Hy as [_ Hy]. unfold memb in Hy. destruct (in_dec dec y w); auto; discriminate.
    - apply NoDup_incl_length; auto. intros y Hy. apply filter_In. split; auto. unfold memb. destruct (in_dec dec y w); auto. }
  rewrite <- E. clear. induction xs as [|x xs IH]; cbn; auto. destruct (memb x w); cbn; lia.
Qed.
Lemma distinct_step xs n : NoDup xs -> length (filter distinct (words xs (S n))) = length (filter distinct (words xs n)) * (length xs - n).
Proof.
  intros Nx. cbn [words]. assert (H : forall w, In w (words xs n) -> length w = n /\ incl w xs) by (intros w; apply in_words). induction (words xs n) as [|w l IH]; cbn [flat_map filter]; auto.
  rewrite filter_app, app_length, IH by (intros v Hv; apply H; now right). destruct (H w (or_introl eq_refl)) as [L I].
  assert (E : length (filter distinct (map (fun x => x :: w) xs)) = if distinct w then length xs - n else 0).
  { destruct (distinct w) eqn:D.
    - rewrite <- L. pose proof (absent_count xs w Nx (proj1 (distinct_NoDup w) D) I) as P. enough (length (filter distinct (map (fun x => x :: w) xs)) = length (filter (fun x => negb (memb x w)) xs)) by lia.
      clear -D. induction xs as [|x xs IH]; auto. cbn [map filter]. cbn [distinct]. rewrite D, andb_true_r. destruct (negb (memb x w)); cbn [length]; rewrite IH; auto.
    - clear -D. induction xs as [|x xs IH]; auto. cbn [map filter distinct]. rewrite D, andb_false_r. exact IH. }
  rewrite E. destruct (distinct w); cbn [length]; lia.
Qed.
Lemma distinct_bound xs n : NoDup xs -> 0 < length xs ->
  (INR (length (filter distinct (words xs n))) <= exp (- (INR n * (INR n - 1) / (2 * INR (length xs)))) * INR (length (words xs n)))%R.
Proof.
  intros Nx Hx. set (N := INR (length xs)). assert (HN : (0 < N)%R) by (apply lt_0_INR; auto). induction n as [|n IH].
  - cbn [words filter distinct length]. replace (INR 0 * (INR 0 - 1) / (2 * N))%R with 0%R by (cbn; field; lra). rewrite Ropp_0, exp_0. cbn. lra.
  - rewrite distinct_step by auto. rewrite words_length in *. cbn [Nat.pow]. rewrite !mult_INR. fold N. assert (S1 : (INR (length xs - n) <= N * exp (- (INR n / N)))%R).
    { destruct (le_dec n (length xs)) as [L|L].
      - rewrite minus_INR by auto. fold N. pose proof (exp_ineq1_le (- (INR n / N))) as Q. apply Rmult_le_compat_l with (r := N) in Q; [|lra]. replace (N * (1 + - (INR n / N)))%R with (N - INR n)%R in Q by (field; lra). exact Q.
      - replace (length xs - n) with 0 by lia. cbn. apply Rmult_le_pos; [lra|]. left. apply exp_pos. }
    replace (- (INR (S n) * (INR (S n) - 1) / (2 * N)))%R with (- (INR n * (INR n - 1) / (2 * N)) + - (INR n / N))%R by (rewrite S_INR; field; lra). rewrite exp_plus.
    eapply Rle_trans; [apply Rmult_le_compat; [apply pos_INR|apply pos_INR|exact IH|exact S1]|]. right. ring.
Qed.
End Count.

Lemma exp_bound : (exp (- (10000 * (10000 - 1) / (2 * 10000000))) <= / 100)%R.
Proof.
  rewrite exp_Ropp. apply Rinv_le_contravar; [lra|]. set (x := (10000 * (10000 - 1) / (2 * 10000000))%R).
  assert (D : forall y c, (c <= exp (y / 2) -> 0 <= c -> c * c <= exp y)%R).
  { intros y c H Hc. replace y with (y / 2 + y / 2)%R by field. rewrite exp_plus. apply Rmult_le_compat; auto. }
  assert (B0 : (103905 / 100000 <= exp (x / 2 / 2 / 2 / 2 / 2 / 2 / 2))%R). { eapply Rle_trans; [|apply exp_ineq1_le]. unfold x. lra. }
  assert (B1 := D _ _ B0 ltac:(lra)). assert (C1 : (107961 / 100000 <= exp (x / 2 / 2 / 2 / 2 / 2 / 2))%R) by lra.
  assert (B2 := D _ _ C1 ltac:(lra)). assert (C2 : (11655 / 10000 <= exp (x / 2 / 2 / 2 / 2 / 2))%R) by lra.
  assert (B3 := D _ _ C2 ltac:(lra)). assert (C3 : (13583 / 10000 <= exp (x / 2 / 2 / 2 / 2))%R) by lra.
  assert (B4 := D _ _ C3 ltac:(lra)). assert (C4 : (1844 / 1000 <= exp (x / 2 / 2 / 2))%R) by lra.
  assert (B5 := D _ _ C4 ltac:(lra)). assert (C5 : (340 / 100 <= exp (x / 2 / 2))%R) by lra.
  assert (B6 := D _ _ C5 ltac:(lra)). assert (C6 : (115 / 10 <= exp (x / 2))%R) by lra.
  assert (B7 := D _ _ C6 ltac:(lra)). lra.
Qed.
