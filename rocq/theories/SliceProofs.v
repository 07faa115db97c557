(** Slicing: [TensorTrain.__getitem__] and [TensorTrainBatch.__getitem__]. *)
From Coq Require Import String Ascii List Arith ZArith Lia Bool Ring.
From Verif Require Import Scalar Tensor TensorLemmas TensorLemmas2 Base Spec Chain BaseLemmas Ops
  FullProofs ResultLemmas Dense AddProofs MulProofs MatmulProofs DenseMatmul Sweep GatherProofs.
Import ListNotations.

(** The TT-ranks of a slice: axes indexed by an integer disappear, and with each of them the rank
    after it; the last rank is 1 again.  [ranks]: r_0, ..., r_d. *)
Definition slice_ranks (spec : list pyindex) (ranks : list nat) : list nat :=
  1 :: removelast (map snd (filter (fun p => is_slice (fst p)) (combine spec (tl ranks)))) ++ [1].

Lemma kept_flat spec : forall rs, length rs = length spec ->
  map snd (filter (fun p : pyindex * nat => is_slice (fst p)) (combine spec rs)) =
  flat_map (fun k => if is_slice (nth k spec full_slice) then [nth k rs 0] else []) (seq 0 (length spec)).
Proof.
  induction spec as [|x spec IH]; intros [|r rs] L; try discriminate; auto. injection L as L.
  cbn [combine filter fst length seq flat_map nth]. rewrite <- seq_shift, flat_map_concat_map, map_map, <- flat_map_concat_map.
  destruct (is_slice x); cbn [map snd app]; now rewrite (IH rs L).
Qed.

(** *** Python indices *)
Lemma slice_positions_range n a b s l : slice_positions n a b s = Some l -> Forall (fun x => x < n) l.
Proof.
  unfold slice_positions. cbv zeta. set (st := match s with Some s => s | None => 1%Z end).
  destruct (Z.eqb_spec st 0) as [|Hst]; [discriminate|].
  destruct (Z.ltb_spec 0 st) as [Hp|Hp]; intros E; injection E as <-; apply Forall_forall; intros x Hx;
    apply in_map_iff in Hx as (k & <- & Hk); apply in_seq in Hk; destruct Hk as [_ Hk].
  - set (A := match a with Some z => clampZ 0 (Z.of_nat n) (if (z <? 0)%Z then (z + Z.of_nat n)%Z else z) | None => 0%Z end) in *.
    set (B := match b with Some z => clampZ 0 (Z.of_nat n) (if (z <? 0)%Z then (z + Z.of_nat n)%Z else z) | None => Z.of_nat n end) in *.
    assert (HA : (0 <= A)%Z) by (unfold A, clampZ; destruct a; lia).
    assert (HB : (B <= Z.of_nat n)%Z) by (unfold B, clampZ; destruct b; lia).
    assert (H : (A + Z.of_nat k * st < B)%Z).
    { pose proof (Z.mul_div_le (B - A + st - 1) st Hp) as M. clearbody A B st.
      set (q := ((B - A + st - 1) / st)%Z) in *. clearbody q.
      assert (Hk' : (Z.of_nat k + 1 <= q)%Z) by lia. nia. }
    assert (0 <= Z.of_nat k * st)%Z by (clearbody st; nia). clearbody A B st. lia.
  - set (A := match a with Some z => clampZ (-1) (Z.of_nat n - 1) (if (z <? 0)%Z then (z + Z.of_nat n)%Z else z) | None => (Z.of_nat n - 1)%Z end) in *.
    set (B := match b with Some z => clampZ (-1) (Z.of_nat n - 1) (if (z <? 0)%Z then (z + Z.of_nat n)%Z else z) | None => (-1)%Z end) in *.
    assert (HA : (A <= Z.of_nat n - 1)%Z) by (unfold A, clampZ; destruct a; lia).
    assert (HB : (-1 <= B)%Z) by (unfold B, clampZ; destruct b; lia).
    assert (H : (B < A + Z.of_nat k * st)%Z).
    { clearbody A B st. pose proof (Z.mul_div_ge (B - A + st + 1) st ltac:(lia)) as M.
      set (q := ((B - A + st + 1) / st)%Z) in *. clearbody q.
      assert (Hk' : (Z.of_nat k + 1 <= q)%Z) by lia. nia. }
    clearbody A B st. assert (Z.of_nat k * st <= 0)%Z by nia. lia.
Qed.

Lemma resolve1_range i n l k : resolve1 i n = Ok (l, k) -> Forall (fun x => x < n) l /\ k = is_slice i /\ (k = false -> length l = 1).
Proof.
  destruct i as [z|a b s]; cbn [resolve1].
  - set (z' := if (z <? 0)%Z then (z + Z.of_nat n)%Z else z).
    destruct ((0 <=? z')%Z && (z' <? Z.of_nat n)%Z)%bool eqn:E; [|discriminate]. intros H. injection H as <- <-.
    apply andb_prop in E as [E1 E2]. apply Z.leb_le in E1. apply Z.ltb_lt in E2.
    repeat split; auto. constructor; [lia|constructor].
  - destruct (slice_positions n a b s) eqn:E; [|discriminate]. intros H. injection H as <- <-.
    apply slice_positions_range in E. repeat split; auto. discriminate.
Qed.

Lemma resolve_each spec sh ps : resolve spec sh = Ok ps ->
  length spec = length sh /\ length ps = length sh /\
  forall i, i < length sh -> resolve1 (nth i spec full_slice) (nth i sh 0) = Ok (nth i ps ([], false)).
Proof.
  revert sh ps; induction spec as [|x spec IH]; intros [|n sh] ps H; cbn [resolve] in H; try discriminate.
  - injection H as <-. cbn. repeat split; auto. intros; lia.
  - destruct (resolve1 x n) as [p|] eqn:E1; [|discriminate]. cbn [bind] in H.
    destruct (resolve spec sh) as [ps'|] eqn:E2; [|discriminate]. cbn [bind] in H. injection H as <-.
    destruct (IH _ _ E2) as (L1 & L2 & L3). cbn [length]. repeat split; try congruence.
    intros [|i] Hi; cbn [nth]; [exact E1|]. apply L3. lia.
Qed.

(** Positions of [sel_idx] are inside the shape. *)
Lemma sel_idx_valid spec sh ps idx : resolve spec sh = Ok ps -> vidx (sel_shape ps) idx -> vidx sh (sel_idx ps idx).
Proof.
  revert sh ps idx; induction spec as [|x spec IH]; intros [|n sh] ps idx H Hi; cbn [resolve] in H; try discriminate.
  - injection H as <-. apply vidx_nil.
  - destruct (resolve1 x n) as [[l k]|] eqn:E1; [|discriminate]. cbn [bind] in H.
    destruct (resolve spec sh) as [ps'|] eqn:E2; [|discriminate]. cbn [bind] in H. injection H as <-.
    destruct (resolve1_range _ _ _ _ E1) as (R & _ & L). destruct k; cbn [sel_shape sel_idx] in *.
    + destruct idx as [|i idx]; [inversion Hi|]. apply vidx_cons_inv in Hi as [Hi1 Hi2].
      apply vidx_cons; [|now apply (IH sh)]. now apply (Forall_nth' (fun y => y < n)).
    + apply vidx_cons; [|now apply (IH sh)]. apply (Forall_nth' (fun y => y < n)); auto. rewrite L; auto.
Qed.

Lemma sel_shape_app p q : sel_shape (p ++ q) = sel_shape p ++ sel_shape q.
Proof. induction p as [|[l [|]] p IH]; cbn [app sel_shape]; auto. now rewrite IH. Qed.
Lemma sel_idx_app p q i j : length i = length (sel_shape p) -> sel_idx (p ++ q) (i ++ j) = sel_idx p i ++ sel_idx q j.
Proof.
  revert i; induction p as [|[l [|]] p IH]; intros i H; cbn [app sel_shape sel_idx length] in *.
  - destruct i; [reflexivity|cbn in H; lia].
  - destruct i; cbn [length app] in *; [lia|]. now rewrite IH by lia.
  - now rewrite IH.
Qed.

Lemma firstn_S_nth {A} (l : list A) i d : i < length l -> firstn (S i) l = firstn i l ++ [nth i l d].
Proof. revert i; induction l; intros [|i] H; cbn in *; try lia; auto. f_equal. apply IHl. lia. Qed.

Lemma foldM_app {A S} (f : A -> S -> res S) l1 l2 s : foldM f (l1 ++ l2) s = do s' <- foldM f l1 s; foldM f l2 s'.
Proof. revert s; induction l1 as [|x l1 IH]; intros s; cbn [app foldM bind]; [reflexivity|]. destruct (f x s); cbn [bind]; auto. Qed.

Lemma sel_nil_all ps p : sel_shape ps = [] -> In p ps -> snd p = false.
Proof. induction ps as [|[l [|]] q IH]; cbn; intros He H; try easy. destruct H as [<-|H]; auto. Qed.

Section WithK.
Variable K : cring.
Add Ring Kring : (cth K).

Lemma shaped_snoc P ms rr (news : list (tensor K)) c m r' :
  shaped P [ms] rr news -> length ms = length news -> length rr = S (length news) ->
  shape c = P ++ [nth (length news) rr 0; m; r'] -> shaped P [ms ++ [m]] (rr ++ [r']) (news ++ [c]).
Proof.
  intros H Hm Hr Hc k Hk. rewrite app_length in Hk. cbn [length] in Hk.
  destruct (Nat.eq_dec k (length news)) as [->|Hne].
  - rewrite app_nth2, Nat.sub_diag by lia. cbn [nth map]. rewrite Hc.
    rewrite (app_nth1 rr) by lia. rewrite (app_nth2 ms) by lia. rewrite (app_nth2 rr) by lia.
    rewrite Hm, Hr, !Nat.sub_diag. reflexivity.
  - rewrite app_nth1 by lia. rewrite H by lia. cbn [map]. rewrite (app_nth1 ms) by lia.
    now rewrite !(app_nth1 rr) by lia.
Qed.

(** Left products of a list of cores. *)
Definition LN (news : list (tensor K)) (rr : list nat) (pre idx : list nat) (b : nat) : K :=
  lv (fun k a j b => get (nth k news (core0 K)) (pre ++ a :: j ++ [b])) (fun k => nth k rr 0) (map (fun i => [i]) idx) b.

Lemma chain_ext' G G' r r' k J v a :
  (forall m a j b, k <= m < k + length J -> G m a j b = G' m a j b :> K) ->
  (forall m, k < m <= k + length J -> r m = r' m) -> chain G r k J v a = chain G' r' k J v a.
Proof.
  revert k a; induction J as [|j J IH]; intros k a H1 H2; [reflexivity|]. cbn [chain length] in *.
  rewrite <- H2 by lia. apply sumn_ext. intros b _. rewrite H1 by lia. f_equal.
  apply IH; intros; [apply H1|apply H2]; lia.
Qed.

Lemma LN_snoc (news : list (tensor K)) rr c r' pre idx j b : length idx = length news -> length rr = S (length news) -> 0 < nth 0 rr 0 ->
  b < r' -> LN (news ++ [c]) (rr ++ [r']) pre (idx ++ [j]) b =
  sumn (nth (length news) rr 0) (fun a => LN news rr pre idx a * get c (pre ++ [a; j; b]))%K.
Proof.
  intros Hi Hr H0 Hb. unfold LN at 1. rewrite map_app. cbn [map]. rewrite lv_snoc; rewrite ?map_length, ?Hi.
  - rewrite app_nth1 by lia. apply sumn_ext. intros a _. rewrite app_nth2, Nat.sub_diag by lia. cbn [nth app].
    f_equal. unfold LN, lv. apply chain_ext'; rewrite map_length, Hi; intros.
    + now rewrite app_nth1 by lia.
    + now rewrite app_nth1 by lia.
  - now rewrite app_nth1 by lia.
  - rewrite app_nth2 by lia. rewrite Hr, Nat.sub_diag. exact Hb.
Qed.

(** The three variants of combining a collapsed remainder with a core. *)
Inductive variant (P : list nat) (offb bcol : bool) : Prop :=
| VTT : P = [] -> offb = false -> variant P offb bcol
| VInt : P = [] -> offb = true -> bcol = true -> variant P offb bcol
| VSlice B : P = [B] -> offb = true -> bcol = false -> variant P offb bcol.

Lemma collapse_mul P offb bcol (R S : tensor K) x y z : variant P offb bcol -> shape R = P ++ [x; y] -> shape S = P ++ [y; z] ->
  exists R', (if offb then (if bcol then einsum "ab,bd->ad" [R; S] else einsum "oab,obd->oad" [R; S]) else matmul R S) = Ok R' /\
    wft R' /\ shape R' = P ++ [x; z] /\
    forall pre a b, vidx P pre -> a < x -> b < z ->
      get R' (pre ++ [a; b]) = sumn y (fun l => get R (pre ++ [a; l]) * get S (pre ++ [l; b]))%K.
Proof.
  intros V SR SS. destruct V as [HP Ho|HP Ho Hb|B HP Ho Hb]; subst.
  - destruct (matmul_ok2 K R S x y z SR SS) as (R' & E & W & S' & G). exists R'. repeat (split; [assumption|]).
    intros pre a b Hp Ha Hb. inversion Hp; subst. now apply G.
  - cbn [app] in *. einsum_step. eexists. split; [reflexivity|]. split; [apply wft_mk|]. split; [reflexivity|].
    intros pre a b Hp Ha Hb. inversion Hp; subst. cbn [app]. rewrite get_mk by vsolve. ecbv. reflexivity.
  - cbn [app] in *. einsum_step. eexists. split; [reflexivity|]. split; [apply wft_mk|]. split; [reflexivity|].
    intros pre a b Hp Ha Hb. apply vidx_1_inv in Hp as (o & -> & Ho). cbn [app]. rewrite get_mk by vsolve. ecbv. reflexivity.
Qed.

Lemma keep_mul P offb bcol (R S : tensor K) x y m z : variant P offb bcol -> shape R = P ++ [x; y] -> shape S = P ++ [y; m; z] ->
  exists R', (if offb && negb bcol then einsum "oab,obid->oaid" [R; S] else einsum "ab,bid->aid" [R; S]) = Ok R' /\
    wft R' /\ shape R' = P ++ [x; m; z] /\
    forall pre a i b, vidx P pre -> a < x -> i < m -> b < z ->
      get R' (pre ++ [a; i; b]) = sumn y (fun l => get R (pre ++ [a; l]) * get S (pre ++ [l; i; b]))%K.
Proof.
  intros V SR SS.
  assert (H : (P = [] /\ offb && negb bcol = false) \/ exists B, P = [B] /\ offb && negb bcol = true).
  { destruct V as [HP Ho|HP Ho Hb|B HP Ho Hb]; subst; eauto. }
  destruct H as [[-> ->]|(B & -> & ->)]; cbn [app] in *.
  - einsum_step. eexists. split; [reflexivity|]. split; [apply wft_mk|]. split; [reflexivity|].
    intros pre a i b Hp Ha Hi Hb. inversion Hp; subst. cbn [app]. rewrite get_mk by vsolve. ecbv. reflexivity.
  - einsum_step. eexists. split; [reflexivity|]. split; [apply wft_mk|]. split; [reflexivity|].
    intros pre a i b Hp Ha Hi Hb. apply vidx_1_inv in Hp as (o & -> & Ho). cbn [app]. rewrite get_mk by vsolve. ecbv. reflexivity.
Qed.

Definition last_eq (offb bcol : bool) : string := if offb && negb bcol then "oaib,obd->oaid" else "aib,bd->aid".

Lemma last_mul P offb bcol (S R : tensor K) x m y z : variant P offb bcol -> shape S = P ++ [x; m; y] -> shape R = P ++ [y; z] ->
  exists R', einsum (last_eq offb bcol) [S; R] = Ok R' /\
    wft R' /\ shape R' = P ++ [x; m; z] /\
    forall pre a i b, vidx P pre -> a < x -> i < m -> b < z ->
      get R' (pre ++ [a; i; b]) = sumn y (fun l => get S (pre ++ [a; i; l]) * get R (pre ++ [l; b]))%K.
Proof.
  intros V SS SR. unfold last_eq.
  assert (H : (P = [] /\ offb && negb bcol = false) \/ exists B, P = [B] /\ offb && negb bcol = true).
  { destruct V as [HP Ho|HP Ho Hb|B HP Ho Hb]; subst; eauto. }
  destruct H as [[-> ->]|(B & -> & ->)]; cbn [app] in *.
  - einsum_step. eexists. split; [reflexivity|]. split; [apply wft_mk|]. split; [reflexivity|].
    intros pre a i b Hp Ha Hi Hb. inversion Hp; subst. cbn [app]. rewrite get_mk by vsolve. ecbv. reflexivity.
  - einsum_step. eexists. split; [reflexivity|]. split; [apply wft_mk|]. split; [reflexivity|].
    intros pre a i b Hp Ha Hi Hb. apply vidx_1_inv in Hp as (o & -> & Ho). cbn [app]. rewrite get_mk by vsolve. ecbv. reflexivity.
Qed.

(** *** The loop *)
Section Loop.
Variable t : tt K.
Hypothesis Hw : wf t.
Variables (P : list nat) (op : list nat -> list nat) (offb bcol : bool).
Hypothesis V : variant P offb bcol.
Variable ps : list (list nat * bool).
Hypothesis Lps : length ps = ndims t.
Variable sl : nat -> tensor K.
Definition pk (i : nat) : list nat * bool := nth i ps ([], false).
Hypothesis Wsl : forall i, i < ndims t -> wft (sl i).
Hypothesis Ssl : forall i, i < ndims t ->
  shape (sl i) = P ++ rk t i :: (if snd (pk i) then [length (fst (pk i)); rk t (S i)] else [rk t (S i)]).
Hypothesis Gsl : forall i pre a j b, i < ndims t -> vidx P pre -> a < rk t i -> j < length (fst (pk i)) -> b < rk t (S i) ->
  (snd (pk i) = false -> j = 0) ->
  get (sl i) (pre ++ a :: (if snd (pk i) then [j; b] else [b])) = coreG t (op pre) i a [nth j (fst (pk i)) 0] b.
Hypothesis Lone : forall i, i < ndims t -> snd (pk i) = false -> length (fst (pk i)) = 1.

Definition LT (i : nat) (pre idx : list nat) (b : nat) : K :=
  lv (coreG t (op pre)) (rk t) (map (fun i => [i]) (sel_idx (firstn i ps) idx)) b.

Lemma sel_len i idx : i <= ndims t -> vidx (sel_shape (firstn i ps)) idx -> length (sel_idx (firstn i ps) idx) = i.
Proof.
  intros Hi Hv. assert (L : length (firstn i ps) = i) by (rewrite firstn_length; lia).
  apply vidx_length in Hv. rewrite <- L at 2. revert idx Hv. generalize (firstn i ps). intros p.
  induction p as [|[l [|]] p IH]; intros idx Hv; cbn [sel_shape sel_idx length] in *; auto.
  destruct idx; cbn [length] in *; [lia|]. rewrite IH; lia.
Qed.

Lemma LT_keep i pre idx j b : i < ndims t -> snd (pk i) = true -> vidx (sel_shape (firstn i ps)) idx -> b < rk t (S i) ->
  LT (S i) pre (idx ++ [j]) b = sumn (rk t i) (fun a => LT i pre idx a * coreG t (op pre) i a [nth j (fst (pk i)) 0%nat] b)%K.
Proof.
  intros Hi Hk Hv Hb. unfold LT. rewrite (firstn_S_nth ps i ([], false)) by lia. fold (pk i).
  rewrite sel_idx_app by now apply vidx_length. destruct (pk i) as [l k]. cbn [fst snd] in *. subst k. cbn [sel_idx].
  rewrite map_app. cbn [map]. pose proof (sel_len i idx ltac:(lia) Hv) as L.
  rewrite lv_snoc; rewrite ?map_length, ?L; auto. rewrite (wf_first Hw). lia.
Qed.

Lemma LT_drop i pre idx b : i < ndims t -> snd (pk i) = false -> vidx (sel_shape (firstn i ps)) idx -> b < rk t (S i) ->
  LT (S i) pre idx b = sumn (rk t i) (fun a => LT i pre idx a * coreG t (op pre) i a [nth 0%nat (fst (pk i)) 0%nat] b)%K.
Proof.
  intros Hi Hk Hv Hb. unfold LT at 1. rewrite (firstn_S_nth ps i ([], false)) by lia. fold (pk i).
  rewrite <- (app_nil_r idx) at 1. rewrite sel_idx_app by now apply vidx_length.
  destruct (pk i) as [l k]. cbn [fst snd] in *. subst k. cbn [sel_idx].
  rewrite map_app. cbn [map]. pose proof (sel_len i idx ltac:(lia) Hv) as L.
  rewrite lv_snoc; rewrite ?map_length, ?L; auto. rewrite (wf_first Hw). lia.
Qed.

(** The ranks after the kept cores among the first [i]. *)
Definition kp (i : nat) : list nat := flat_map (fun k => if snd (pk k) then [rk t (S k)] else []) (seq 0 i).
Lemma kp_S i : kp (S i) = kp i ++ (if snd (pk i) then [rk t (S i)] else []).
Proof. unfold kp. rewrite seq_S, flat_map_app. cbn [flat_map Nat.add]. now rewrite app_nil_r. Qed.

Definition Inv (i : nat) (st : list (tensor K) * option (tensor K)) : Prop :=
  let '(news, rem) := st in let ms := sel_shape (firstn i ps) in
  exists rr, shaped P [ms] rr news /\ length ms = length news /\ length rr = S (length news) /\ nth 0 rr 0 = 1 /\
    Forall wft news /\ Forall (fun n => 0 < n) rr /\ rr = 1 :: kp i /\
    match rem with
    | None => nth (length news) rr 0 = rk t i /\
        forall pre idx b, vidx P pre -> vidx ms idx -> b < rk t i -> LN news rr pre idx b = LT i pre idx b
    | Some R => shape R = P ++ [nth (length news) rr 0; rk t i] /\
        forall pre idx b, vidx P pre -> vidx ms idx -> b < rk t i ->
          sumn (nth (length news) rr 0) (fun a => LN news rr pre idx a * get R (pre ++ [a; b]))%K = LT i pre idx b
    end.

Lemma Inv0 : Inv 0 ([], None).
Proof.
  cbn [Inv firstn sel_shape]. exists [1]. split; [intros k Hk; cbn in Hk; lia|]. do 3 (split; [reflexivity|]).
  split; [constructor|]. split; [repeat constructor|]. split; [reflexivity|]. cbn [length nth]. split; [now rewrite (wf_first Hw)|].
  intros pre idx b Hp Hi Hb. inversion Hi; subst. unfold LN, LT. cbn [firstn sel_idx map]. now rewrite !lv_nil.
Qed.

Lemma Inv_step i st : i < ndims t -> Inv i st ->
  exists st', getitem_step offb st (core t i) (negb (snd (pk i))) bcol (sl i) = Ok st' /\ Inv (S i) st'.
Proof.
  intros Hi HI. destruct st as [news rem]. cbn [Inv] in HI. unfold getitem_step.
  destruct HI as (rr & H1 & H2 & H3 & H4 & H5 & H6 & HK & H7).
  specialize (Ssl i Hi). specialize (Gsl i). specialize (Lone i Hi).
  assert (Prk : 0 < rk t (S i)) by (apply (Forall_nth' (fun n => 0 < n)); [apply (wf_kpos Hw)|rewrite (wf_klen Hw); lia]).
  assert (ES : firstn (S i) ps = firstn i ps ++ [pk i]) by (unfold pk; apply firstn_S_nth; lia).
  assert (P0 : 0 < nth 0 rr 0) by lia.
  pose proof (kp_S i) as KS.
  destruct (snd (pk i)) eqn:Ek; cbn [negb].
  - (* kept *)
    assert (EM : sel_shape (firstn (S i) ps) = sel_shape (firstn i ps) ++ [length (fst (pk i))]).
    { rewrite ES, sel_shape_app. destruct (pk i) as [l k]. cbn [fst snd] in *. now subst k. }
    assert (Fin : forall c, wft c -> shape c = P ++ [nth (length news) rr 0; length (fst (pk i)); rk t (S i)] ->
      (forall pre idx j b, vidx P pre -> vidx (sel_shape (firstn i ps)) idx -> j < length (fst (pk i)) -> b < rk t (S i) ->
        sumn (nth (length news) rr 0) (fun a => LN news rr pre idx a * get c (pre ++ [a; j; b]))%K =
        sumn (rk t i) (fun a => LT i pre idx a * coreG t (op pre) i a [nth j (fst (pk i)) 0%nat] b)%K) ->
      Inv (S i) (news ++ [c], None)).
    { intros c Wc Sc Gc. cbn [Inv]. rewrite EM. exists (rr ++ [rk t (S i)]).
      split; [now apply shaped_snoc|]. split; [rewrite !app_length; cbn; lia|]. split; [rewrite !app_length; cbn; lia|].
      split; [now rewrite app_nth1 by lia|]. split; [apply Forall_app; split; auto|].
      split; [apply Forall_app; split; auto|]. split; [now rewrite KS, HK|]. rewrite app_length. cbn [length].
      split; [rewrite app_nth2 by lia; now rewrite H3, Nat.add_1_r, Nat.sub_diag|].
      intros pre idx' b Hp Hidx Hb. apply vidx_app_inv in Hidx as (idx & j' & -> & Hidx & Hj).
      apply vidx_1_inv in Hj as (j & -> & Hj).
      rewrite LN_snoc; auto; [|apply vidx_length in Hidx; congruence]. rewrite LT_keep by auto. now apply Gc. }
    destruct rem as [R|].
    + destruct H7 as [SR GR].
      destruct (keep_mul P offb bcol R (sl i) _ _ (length (fst (pk i))) (rk t (S i)) V SR Ssl) as (c & E & Wc & Sc & Gc).
      rewrite E. cbn [bind]. eexists. split; [reflexivity|]. apply Fin; auto.
      intros pre idx j b Hp Hidx Hj Hb.
      rewrite (sumn_ext _ _ _ (fun a => sumn (rk t i) (fun l => LN news rr pre idx a * get R (pre ++ [a; l]) * get (sl i) (pre ++ [l; j; b])))%K).
      2:{ intros a Ha. rewrite Gc by auto. rewrite <- sumn_mul_l. apply sumn_ext. intros; ring. }
      rewrite sumn_swap. apply sumn_ext. intros l Hl. rewrite sumn_mul_r, GR by auto. f_equal.
      apply (Gsl pre l j b); auto. discriminate.
    + destruct H7 as [Hlast GR]. eexists. split; [reflexivity|]. apply Fin; auto.
      { now rewrite Hlast. }
      intros pre idx j b Hp Hidx Hj Hb. rewrite Hlast. apply sumn_ext. intros a Ha. rewrite GR by auto. f_equal.
      apply (Gsl pre a j b); auto. discriminate.
  - (* collapsed *)
    assert (EM : sel_shape (firstn (S i) ps) = sel_shape (firstn i ps)).
    { rewrite ES, sel_shape_app. destruct (pk i) as [l k]. cbn [fst snd] in *. subst k. cbn [sel_shape]. apply app_nil_r. }
    destruct rem as [R|].
    + destruct H7 as [SR GR].
      destruct (collapse_mul P offb bcol R (sl i) _ _ (rk t (S i)) V SR Ssl) as (c & E & Wc & Sc & Gc).
      rewrite E. cbn [bind]. eexists. split; [reflexivity|]. cbn [Inv]. rewrite EM. exists rr. rewrite app_nil_r in KS. rewrite <- KS in HK.
      repeat (split; [assumption|]). intros pre idx b Hp Hidx Hb.
      rewrite (sumn_ext _ _ _ (fun a => sumn (rk t i) (fun l => LN news rr pre idx a * get R (pre ++ [a; l]) * get (sl i) (pre ++ [l; b])))%K).
      2:{ intros a Ha. rewrite Gc by auto. rewrite <- sumn_mul_l. apply sumn_ext. intros; ring. }
      rewrite sumn_swap, LT_drop by auto. apply sumn_ext. intros l Hl. rewrite sumn_mul_r, GR by auto. f_equal.
      apply (Gsl pre l 0 b); auto. rewrite Lone; auto.
    + destruct H7 as [Hlast GR]. eexists. split; [reflexivity|]. cbn [Inv]. rewrite EM. exists rr. rewrite app_nil_r in KS. rewrite <- KS in HK.
      repeat (split; [assumption|]). split; [now rewrite Hlast|]. intros pre idx b Hp Hidx Hb.
      rewrite Hlast, LT_drop by auto. apply sumn_ext. intros a Ha. rewrite GR by auto. f_equal.
      apply (Gsl pre a 0 b); auto. rewrite Lone; auto.
Qed.

Lemma removelast_app1 {A} (l : list A) x : removelast (l ++ [x]) = l.
Proof. rewrite removelast_app by discriminate. cbn. apply app_nil_r. Qed.

(** After the loop: the remaining cores represent the selected part. *)
Lemma Inv_final st : Inv (ndims t) st -> 0 < length (sel_shape ps) ->
  exists news rr, absorb_last (last_eq offb bcol) (fst st) (snd st) = Ok news /\
    shaped P [sel_shape ps] rr news /\ length (sel_shape ps) = length news /\ length rr = S (length news) /\
    nth 0 rr 0 = 1 /\ nth (length news) rr 0 = 1 /\ Forall wft news /\ Forall (fun n => 0 < n) rr /\
    rr = 1 :: removelast (kp (ndims t)) ++ [1] /\
    forall pre idx, vidx P pre -> vidx (sel_shape ps) idx ->
      LN news rr pre idx 0 = tt_entry t (op pre) (map (fun i => [i]) (sel_idx ps idx)).
Proof.
  destruct st as [news rem]. cbn [Inv fst snd]. rewrite firstn_all2 by lia.
  intros (rr & H1 & H2 & H3 & H4 & H5 & H6 & HK & H7) Hpos.
  assert (HL : forall pre idx, vidx (sel_shape ps) idx -> LT (ndims t) pre idx 0 = tt_entry t (op pre) (map (fun i => [i]) (sel_idx ps idx))).
  { intros pre idx Hidx. unfold LT, tt_entry.
    assert (L : length (sel_idx (firstn (ndims t) ps) idx) = ndims t).
    { apply sel_len; auto. now rewrite firstn_all2 by lia. }
    rewrite firstn_all2 in * by lia. apply lv_last; rewrite ?map_length, ?L; [apply (wf_last Hw)|rewrite (wf_first Hw); lia]. }
  destruct rem as [R|].
  - destruct H7 as [SR GR].
    destruct (exists_last (l := news)) as (news0 & c0 & ->); [intros ->; cbn in *; lia|].
    rewrite app_length in *. cbn [length] in *. rewrite Nat.add_1_r in *.
    destruct (exists_last (l := rr)) as (rr0 & r1 & ->); [intros ->; cbn in *; lia|].
    rewrite app_length in H3. cbn [length] in H3.
    destruct (exists_last (l := sel_shape ps)) as (ms0 & m1 & EM); [intros E; rewrite E in *; cbn in *; lia|].
    rewrite EM in *. rewrite app_length in H2. cbn [length] in H2.
    assert (Lr : length rr0 = S (length news0)) by lia.
    assert (Er : nth (S (length news0)) (rr0 ++ [r1]) 0 = r1) by (rewrite <- Lr, app_nth2, Nat.sub_diag by lia; reflexivity).
    rewrite Er in *. rewrite (wf_last Hw) in *.
    assert (Sc0 : shape c0 = P ++ [nth (length news0) rr0 0; m1; r1]).
    { specialize (H1 (length news0)). rewrite app_length in H1. specialize (H1 ltac:(cbn; lia)).
      rewrite app_nth2, Nat.sub_diag in H1 by lia. cbn [nth map] in H1. rewrite H1, Er.
      rewrite (app_nth1 rr0) by lia. rewrite app_nth2 by lia. replace (length news0 - length ms0) with 0 by lia. reflexivity. }
    destruct (last_mul P offb bcol c0 R _ _ _ 1 V Sc0 SR) as (c & E & Wc & Sc & Gc).
    exists (news0 ++ [c]), (rr0 ++ [1]). cbn [absorb_last]. rewrite lastr_app. cbn [bind]. rewrite E. cbn [bind].
    rewrite removelast_app1. split; [reflexivity|].
    assert (H1' : shaped P [ms0] rr0 news0).
    { intros k Hk. specialize (H1 k). rewrite app_length in H1. cbn [length] in H1. specialize (H1 ltac:(lia)).
      rewrite app_nth1 in H1 by lia. rewrite H1. cbn [map]. rewrite (app_nth1 ms0) by lia. now rewrite !(app_nth1 rr0) by lia. }
    apply Forall_app in H5 as [H5 _]. apply Forall_app in H6 as [H6 _].
    rewrite app_nth1 in H4 by lia.
    split; [apply shaped_snoc; auto; lia|]. rewrite !app_length. cbn [length].
    split; [lia|]. split; [lia|]. split; [now rewrite app_nth1 by lia|].
    split; [rewrite app_nth2 by lia; now replace (length news0 + 1 - length rr0) with 0 by lia|].
    split; [apply Forall_app; auto|]. split; [apply Forall_app; split; auto|].
    split; [destruct rr0 as [|r0 rr0]; [cbn in Lr; lia|]; injection HK as -> HK; rewrite <- HK, removelast_app1; reflexivity|].
    intros pre idx Hp Hidx. rewrite <- HL by auto. rewrite <- GR by (auto; lia).
    apply vidx_app_inv in Hidx as (idx0 & j' & -> & Hidx & Hj). apply vidx_1_inv in Hj as (j & -> & Hj).
    assert (Li : length idx0 = length news0) by (apply vidx_length in Hidx; lia).
    rewrite LN_snoc by (auto; lia).
    rewrite (sumn_ext _ _ _ (fun a => sumn r1 (fun l => LN news0 rr0 pre idx0 a * get c0 (pre ++ [a; j; l]) * get R (pre ++ [l; 0%nat])))%K).
    2:{ intros a Ha. rewrite Gc by (auto; lia). rewrite <- sumn_mul_l. apply sumn_ext. intros; ring. }
    rewrite sumn_swap. apply sumn_ext. intros l Hl. rewrite LN_snoc by (auto; lia). now rewrite sumn_mul_r.
  - destruct H7 as [Hlast GR]. exists news, rr. cbn [absorb_last]. rewrite (wf_last Hw) in *.
    assert (KR : rr = 1 :: removelast (kp (ndims t)) ++ [1]).
    { rewrite HK in H3, Hlast |- *. cbn [length] in H3. injection H3 as H3. f_equal.
      destruct (exists_last (l := kp (ndims t))) as (l0 & x0 & E0); [intros E0; rewrite E0 in H3; cbn in H3; lia|].
      rewrite E0 in *. rewrite app_length in H3. cbn [length] in H3. rewrite removelast_app1. do 2 f_equal.
      rewrite <- H3 in Hlast. rewrite Nat.add_1_r in Hlast. cbn [nth] in Hlast. now rewrite app_nth2, Nat.sub_diag in Hlast by lia. }
    repeat (split; [first [assumption|reflexivity]|]). intros pre idx Hp Hidx. rewrite GR by (auto; lia). now apply HL.
Qed.

(** Everything collapsed: [new_tt_cores[-1]] fails. *)
Lemma Inv_none st : Inv (ndims t) st -> sel_shape ps = [] ->
  absorb_last (last_eq offb bcol) (fst st) (snd st) = Err IndexError \/ fst st = [].
Proof.
  destruct st as [news rem]. cbn [Inv fst snd]. rewrite firstn_all2 by lia.
  intros (rr & H1 & H2 & _) E. right. rewrite E in H2. destruct news; auto. cbn in H2. lia.
Qed.
End Loop.

(** *** Whole functions *)
Definition okor (d : tensor K) (r : res (tensor K)) : tensor K := match r with Ok x => x | Err _ => d end.

Lemma core_tensor_shape (t : tt K) i : wf t -> is_tt_matrix t = false -> i < ndims t ->
  wft (core t i) /\ shape (core t i) = bpre t ++ [rk t i; nth i (nth 0 (rshape t) []) 0; rk t (S i)].
Proof.
  intros Hw Hm Hi. destruct (wf_core Hw i Hi) as [W S]. split; [exact W|]. rewrite S. unfold modes.
  destruct (wf_kind Hw) as [L|L]; [|unfold is_tt_matrix in Hm; now rewrite L in Hm].
  destruct (rshape t) as [|x [|? ?]]; try discriminate L. reflexivity.
Qed.

Lemma rshape0_len (t : tt K) : wf t -> length (nth 0 (rshape t) []) = ndims t.
Proof.
  intros Hw. apply (Forall_nth' (fun s => length s = ndims t)); [apply (wf_rlen Hw)|].
  destruct (wf_kind Hw); lia.
Qed.

Lemma nth_seq0 j n : j < n -> nth j (seq 0 n) 0 = j.
Proof. intros. now rewrite seq_nth. Qed.

Lemma wf_of_cores bs (news : list (tensor K)) rr ms : shaped (pre_of bs) [ms] rr news -> length ms = length news -> length rr = S (length news) ->
  nth 0 rr 0 = 1 -> nth (length news) rr 0 = 1 -> Forall wft news -> Forall (fun n => 0 < n) rr ->
  0 < length ms -> Forall (fun n => 0 < n) ms -> Forall (fun n => 0 < n) (pre_of bs) ->
  wf (TT news [ms] rr bs).
Proof.
  intros. apply wf_intro; auto; try lia. intros k Hk. now apply (Forall_nth' wft).
Qed.

Lemma entry_LN bs (news : list (tensor K)) rr ms pre idx : length idx = length news -> nth 0 rr 0 = 1 -> nth (length news) rr 0 = 1 ->
  tt_entry (TT news [ms] rr bs) pre (map (fun i => [i]) idx) = LN news rr pre idx 0.
Proof.
  intros Hi H0 H1. unfold LN, tt_entry. symmetry. apply (lv_last K _ (fun k => nth k rr 0)); rewrite ?map_length, ?Hi; [exact H1|lia].
Qed.

Lemma mod_nil_conv (t : tt K) : wf t -> is_tt_matrix t = false -> get_shape t = bpre t ++ nth 0 (rshape t) [].
Proof. intros _ Hm. unfold get_shape, bpre. rewrite Hm. now destruct (bsz t). Qed.

Section Tensor.
Variables (t : tt K) (spec : list pyindex) (ps : list (list nat * bool)).
Hypothesis Hw : wf t.
Hypothesis Hm : is_tt_matrix t = false.
Hypothesis Hps : resolve spec (nth 0 (rshape t) []) = Ok ps.

Let ns := nth 0 (rshape t) [].

Lemma ps_len : length ps = ndims t /\ length spec = ndims t.
Proof. destruct (resolve_each _ _ _ Hps) as (A & B & _). rewrite rshape0_len in * by auto. lia. Qed.

Lemma ps_each i : i < ndims t -> resolve1 (nth i spec full_slice) (nth i ns 0) = Ok (nth i ps ([], false)) /\
  is_slice (nth i spec full_slice) = snd (nth i ps ([], false)) /\
  (snd (nth i ps ([], false)) = false -> length (fst (nth i ps ([], false))) = 1).
Proof.
  intros Hi. destruct (resolve_each _ _ _ Hps) as (A & B & C). rewrite rshape0_len in C by auto. specialize (C i Hi).
  split; [exact C|]. destruct (nth i ps ([], false)) as [l k]. apply resolve1_range in C as (_ & E & L). now split.
Qed.

Lemma kp_slice_ranks : 1 :: removelast (kp t ps (ndims t)) ++ [1] = slice_ranks spec (rks t).
Proof.
  destruct ps_len as [L1 L2]. unfold slice_ranks. do 3 f_equal.
  assert (Lk : length (tl (rks t)) = length spec) by (pose proof (wf_klen Hw); destruct (rks t); cbn in *; lia).
  rewrite (kept_flat spec _ Lk), L2. unfold kp. rewrite !flat_map_concat_map. f_equal. apply map_ext_in. intros k Hk. apply in_seq in Hk.
  destruct (ps_each k ltac:(lia)) as (_ & E & _). rewrite E. unfold pk, rk. destruct (rks t) eqn:Er; [|reflexivity].
  pose proof (wf_klen Hw) as X. rewrite Er in X. discriminate X.
Qed.

(** the sliced core *)
Lemma slice_core bspec bl bk i : i < ndims t -> resolve bspec (bpre t) = Ok [(bl, bk)] \/ (bspec = [] /\ bpre t = [] /\ bl = [] /\ bk = false) ->
  exists s, getitem (core t i) (bspec ++ [full_slice; nth i spec full_slice; full_slice]) = Ok s /\ wft s /\
    shape s = (if bk then [length bl] else []) ++ rk t i ::
       (if snd (pk ps i) then [length (fst (pk ps i)); rk t (S i)] else [rk t (S i)]) /\
    forall pre a j b, vidx (if bk then [length bl] else []) pre -> a < rk t i -> j < length (fst (pk ps i)) -> b < rk t (S i) ->
      (snd (pk ps i) = false -> j = 0) ->
      get s (pre ++ a :: (if snd (pk ps i) then [j; b] else [b])) =
      coreG t (match bspec with [] => [] | _ => [nth (if bk then nth 0 pre 0%nat else 0%nat) bl 0%nat] end) i a [nth j (fst (pk ps i)) 0%nat] b.
Proof.
  intros Hi HB. destruct (core_tensor_shape t i Hw Hm Hi) as [W S]. destruct (ps_each i Hi) as (E1 & E2 & E3).
  unfold pk. set (p := nth i ps ([], false)) in *. destruct p as [l k]. cbn [fst snd] in *.
  set (bp := match bspec with [] => [] | _ => [(bl, bk)] end).
  assert (R : resolve (bspec ++ [full_slice; nth i spec full_slice; full_slice]) (shape (core t i)) =
              Ok (bp ++ [(seq 0 (rk t i), true); (l, k); (seq 0 (rk t (Datatypes.S i)), true)])).
  { rewrite S. unfold bp. destruct HB as [HB|(-> & -> & _)].
    - unfold bpre in *. destruct bspec as [|b0 [|? ?]], (bsz t) as [B|]; cbn [resolve] in HB; try discriminate.
      + destruct (resolve1 b0 B) eqn:E0; [|discriminate]. cbn [bind] in HB. injection HB as ->.
        cbn [app resolve]. rewrite E0. cbn [bind]. rewrite resolve1_full. cbn [bind]. unfold ns in E1. rewrite E1. cbn [bind].
        now rewrite resolve1_full.
      + destruct (resolve1 b0 B); [|discriminate]. cbn [bind] in HB. discriminate.
    - cbn [app resolve]. rewrite resolve1_full. cbn [bind]. unfold ns in E1. rewrite E1. cbn [bind]. now rewrite resolve1_full. }
  destruct (getitem_sel K _ _ _ R) as (s & E & Ws & Ss & Gs). exists s. split; [exact E|]. split; [exact Ws|].
  assert (HS : sel_shape (bp ++ [(seq 0 (rk t i), true); (l, k); (seq 0 (rk t (Datatypes.S i)), true)]) =
    (if bk then [length bl] else []) ++ rk t i :: (if k then [length l; rk t (Datatypes.S i)] else [rk t (Datatypes.S i)])).
  { rewrite sel_shape_app. unfold bp. destruct HB as [HB|(-> & _ & -> & ->)].
    - destruct bspec as [|b0 ?]; [unfold bpre in HB; destruct (bsz t); discriminate|].
      destruct bk, k; cbn [sel_shape app]; rewrite ?seq_length; reflexivity.
    - destruct k; cbn [sel_shape app]; rewrite ?seq_length; reflexivity. }
  rewrite HS in *. split; [exact Ss|]. intros pre a j b Hp Ha Hj Hb Hk. rewrite Gs.
  2:{ apply vidx_app; [exact Hp|]. apply vidx_cons; [exact Ha|]. destruct k; vsolve. }
  unfold coreG. destruct HB as [HB|(-> & _ & -> & ->)]; unfold bp.
  - destruct bspec as [|b0 ?]; [unfold bpre in HB; destruct (bsz t); discriminate|].
    destruct bk.
    + apply vidx_1_inv in Hp as (o & -> & Ho). destruct k; cbn [app sel_idx nth]; rewrite !nth_seq0 by lia; [reflexivity|].
      now rewrite Hk.
    + inversion Hp; subst pre. destruct k; cbn [app sel_idx nth]; rewrite !nth_seq0 by lia; [reflexivity|]. now rewrite Hk.
  - inversion Hp; subst pre. destruct k; cbn [app sel_idx nth]; rewrite !nth_seq0 by lia; [reflexivity|]. now rewrite Hk.
Qed.

Lemma Lone' i : i < ndims t -> snd (pk ps i) = false -> length (fst (pk ps i)) = 1.
Proof. intros Hi. now destruct (ps_each i Hi) as (_ & _ & L). Qed.

Lemma sel_valid' idx : vidx (sel_shape ps) idx -> vidx ns (sel_idx ps idx).
Proof. now apply (sel_idx_valid spec). Qed.

(** [TensorTrain.__getitem__] *)
Hypothesis Hpos : Forall (fun n => 0 < n) (sel_shape ps).

Lemma tt_getitem_fold : bsz t = None ->
  exists st, foldM (fun i st =>
      if is_tt_matrix t then Err NotImplementedError else
      do ix <- nthr spec i;
      do sliced <- getitem (core t i) [full_slice; ix; full_slice];
      getitem_step false st (core t i) (negb (is_slice ix)) false sliced)
    (seq 0 (ndims t)) ([], None) = Ok st /\ Inv t [] (fun _ => []) ps (ndims t) st.
Proof.
  intros Hb. destruct ps_len as [L1 L2].
  assert (Bp : bpre t = []) by (unfold bpre; now rewrite Hb).
  set (sl := fun i => okor (core t i) (getitem (core t i) ([] ++ [full_slice; nth i spec full_slice; full_slice]))).
  assert (HS : forall i, i < ndims t -> _) by (intros i Hi; exact (slice_core [] [] false i Hi (or_intror (conj eq_refl (conj Bp (conj eq_refl eq_refl)))))).
  assert (V : variant [] false false) by now apply VTT.
  apply (foldM_seq _ (Inv t [] (fun _ => []) ps) (ndims t) 0); [now apply Inv0|].
  intros i st Hi HI. cbn [Nat.add] in *. rewrite Hm. rewrite (nthr_nth spec i full_slice) by lia. cbn [bind].
  destruct (HS i ltac:(lia)) as (s & Es & _). cbn [app] in Es. rewrite Es. cbn [bind].
  destruct (ps_each i ltac:(lia)) as (_ & E2 & _). rewrite E2.
  destruct (Inv_step t Hw [] (fun _ => []) false false V ps L1 sl) with (i := i) (st := st) as (st' & E & I'); auto; try lia.
  - intros k Hk. destruct (HS k Hk) as (s' & Es' & Ws & Ss & Gs). unfold sl. rewrite Es'. exact Ws.
  - intros k Hk. destruct (HS k Hk) as (s' & Es' & Ws & Ss & Gs). unfold sl. rewrite Es'. exact Ss.
  - intros k pre a j b Hk Hp Ha Hj Hbb Hz. destruct (HS k Hk) as (s' & Es' & Ws & Ss & Gs). unfold sl. rewrite Es'.
    now apply Gs.
  - exact Lone'.
  - unfold sl in E at 1. cbn [app] in E. rewrite Es in E. exists st'. now split.
Qed.

Lemma tt_getitem_full : bsz t = None -> sel_shape ps <> [] ->
  exists c d dc, tt_getitem t spec = Ok c /\ wf c /\ bsz c = None /\ rshape c = [sel_shape ps] /\
    rks c = slice_ranks spec (rks t) /\ full t = Ok d /\ full c = Ok dc /\ getitem d spec = Ok dc.
Proof.
  intros Hb Hne. destruct ps_len as [L1 L2]. destruct (tt_getitem_fold Hb) as (st & Est & HI).
  unfold tt_getitem. rewrite L2, Nat.eqb_refl. cbn [negb]. rewrite Est. cbn [bind].
  assert (V : variant [] false false) by now apply VTT.
  assert (Lp : 0 < length (sel_shape ps)) by (destruct (sel_shape ps); [contradiction|cbn; lia]).
  destruct (Inv_final t Hw [] (fun _ => []) false false V ps L1 st HI Lp)
    as (news & rr & E & S1 & S2 & S3 & S4 & S5 & S6 & S7 & SK & S8).
  rewrite kp_slice_ranks in SK.
  unfold last_eq in E. cbn [andb] in E. rewrite E. cbn [bind].
  rewrite (TensorTrain_infer_ok K news [sel_shape ps] rr); auto; [|lia].
  set (c := TT news [sel_shape ps] rr None).
  assert (Wc : wf c) by (apply (wf_of_cores None); auto; constructor).
  destruct (full_tensor K t Hw Hm) as (d & Fd & Wd & Sd & Gd).
  destruct (full_tensor K c Wc eq_refl) as (dc & Fc & Wdc & Sdc & Gdc).
  exists c, d, dc. repeat (split; [first [assumption|reflexivity]|]).
  unfold bpre in Sd. rewrite Hb in Sd. cbn [app] in Sd.
  unfold getitem. rewrite Sd, Hps. cbn [bind]. f_equal. symmetry. apply tensor_ext; [exact Wdc|apply wft_mk|exact Sdc|].
  intros idx Hi. rewrite Sdc in Hi. change (vidx (sel_shape ps) idx) in Hi.
  rewrite get_mk by exact Hi. pose proof (Gdc [] idx (vidx_nil) Hi) as G1. cbn [app] in G1. rewrite G1.
  assert (Bt : vidx (bpre t) []) by (unfold bpre; rewrite Hb; constructor).
  pose proof (Gd [] (sel_idx ps idx) Bt (sel_valid' idx Hi)) as G2. cbn [app] in G2. rewrite G2.
  unfold c. rewrite entry_LN by (auto; apply vidx_length in Hi; lia). apply S8; [constructor|exact Hi].
Qed.

Lemma all_int_news st P op : Inv t P op ps (ndims t) st -> sel_shape ps = [] -> fst st = [].
Proof.
  destruct ps_len as [L1 L2]. destruct st as [news rem]. cbn [Inv fst]. rewrite firstn_all2 by lia.
  intros (rr & _ & H2 & _) E. rewrite E in H2. destruct news; auto. cbn in H2. lia.
Qed.

(** all indices are numbers *)
Lemma tt_getitem_ints : bsz t = None -> sel_shape ps = [] -> tt_getitem t spec = Err IndexError.
Proof.
  intros Hb He. destruct ps_len as [L1 L2]. destruct (tt_getitem_fold Hb) as (st & Est & HI).
  unfold tt_getitem. rewrite L2, Nat.eqb_refl. cbn [negb]. rewrite Est. cbn [bind].
  pose proof (all_int_news st _ _ HI He) as N. destruct st as [news rem]. cbn [fst snd] in *. subst news.
  destruct rem as [r|]; [reflexivity|]. exfalso.
  (* the last core was collapsed, so there is a remainder *)
  clear HI. assert (Q : forall n st', n <= ndims t -> foldM (fun i st =>
      if is_tt_matrix t then Err NotImplementedError else
      do ix <- nthr spec i;
      do sliced <- getitem (core t i) [full_slice; ix; full_slice];
      getitem_step false st (core t i) (negb (is_slice ix)) false sliced)
    (seq 0 n) ([], None) = Ok st' -> 0 < n -> snd st' <> None).
  { intros [|n] st' Hn Hf Hp; [lia|]. rewrite seq_S in Hf. cbn [Nat.add] in Hf. rewrite foldM_app in Hf.
    destruct (foldM _ (seq 0 n) _) as [[nw rm]|]; [|discriminate]. cbn [bind foldM] in Hf. rewrite Hm in Hf.
    rewrite (nthr_nth spec n full_slice) in Hf by lia. cbn [bind] in Hf.
    destruct (getitem (core t n) _); [|discriminate]. cbn [bind] in Hf.
    destruct (ps_each n ltac:(lia)) as (_ & E2 & _). rewrite E2 in Hf.
    assert (Ez : snd (nth n ps ([], false)) = false).
    { apply (sel_nil_all ps); auto. apply nth_In. lia. }
    rewrite Ez in Hf. cbn [getitem_step negb] in Hf. destruct rm; cbn [bind] in Hf.
    - destruct (matmul _ _); [|discriminate]. cbn [bind] in Hf. injection Hf as <-. discriminate.
    - injection Hf as <-. discriminate. }
  apply (Q (ndims t) ([], None)); auto. apply (wf_d Hw).
Qed.

(** [TensorTrainBatch.__getitem__] with one index per axis *)
Variables (b0 : pyindex) (B : nat) (bl : list nat) (bk : bool).
Hypothesis HB : bsz t = Some B.
Hypothesis Hb0 : resolve1 b0 B = Ok (bl, bk).
Hypothesis Hbpos : bk = true -> 0 < length bl.

Let P := if bk then [length bl] else @nil nat.
Let op (pre : list nat) : list nat := [nth (if bk then nth 0 pre 0%nat else 0%nat) bl 0%nat].

Lemma bres : resolve [b0] (bpre t) = Ok [(bl, bk)].
Proof. unfold bpre. rewrite HB. cbn [resolve]. now rewrite Hb0. Qed.

Lemma bvar : variant P true (negb bk).
Proof. clear Hbpos. unfold P. destruct bk; [now apply (VSlice _ _ _ (length bl))|now apply VInt]. Qed.

Lemma full_getitem_fold :
  exists st, foldM (fun i st =>
      if is_tt_matrix t then Err NotImplementedError else
      do ix <- nthr (b0 :: spec) (S i);
      do sliced <- getitem (core t i) [b0; full_slice; ix; full_slice];
      getitem_step true st (core t i) (negb (is_slice ix)) (negb bk) sliced)
    (seq 0 (ndims t)) ([], None) = Ok st /\ Inv t P op ps (ndims t) st.
Proof.
  clear Hbpos.
  destruct ps_len as [L1 L2].
  set (sl := fun i => okor (core t i) (getitem (core t i) ([b0] ++ [full_slice; nth i spec full_slice; full_slice]))).
  assert (HS : forall i, i < ndims t -> _) by (intros i Hi; exact (slice_core [b0] bl bk i Hi (or_introl bres))).
  apply (foldM_seq _ (Inv t P op ps) (ndims t) 0); [now apply Inv0|].
  intros i st Hi HI. cbn [Nat.add] in *. rewrite Hm.
  change (nthr (b0 :: spec) (S i)) with (nthr spec i). rewrite (nthr_nth spec i full_slice) by lia. cbn [bind].
  destruct (HS i ltac:(lia)) as (s & Es & _). cbn [app] in Es. rewrite Es. cbn [bind].
  destruct (ps_each i ltac:(lia)) as (_ & E2 & _). rewrite E2.
  destruct (Inv_step t Hw P op true (negb bk) bvar ps L1 sl) with (i := i) (st := st) as (st' & E & I'); auto; try lia.
  - intros k Hk. destruct (HS k Hk) as (s' & Es' & Ws & Ss & Gs). unfold sl. rewrite Es'. exact Ws.
  - intros k Hk. destruct (HS k Hk) as (s' & Es' & Ws & Ss & Gs). unfold sl. rewrite Es'. exact Ss.
  - intros k pre a j b Hk Hp Ha Hj Hbb Hz. destruct (HS k Hk) as (s' & Es' & Ws & Ss & Gs). unfold sl. rewrite Es'.
    now apply Gs.
  - exact Lone'.
  - unfold sl in E at 1. cbn [app] in E. rewrite Es in E. exists st'. now split.
Qed.

Lemma full_getitem_full : sel_shape ps <> [] ->
  exists c d dc, ttb_getitem t (b0 :: spec) = Ok c /\ wf c /\ bsz c = (if bk then Some (length bl) else None) /\
    rshape c = [sel_shape ps] /\ rks c = slice_ranks spec (rks t) /\ full t = Ok d /\ full c = Ok dc /\ getitem d (b0 :: spec) = Ok dc.
Proof.
  intros Hne. destruct ps_len as [L1 L2]. destruct full_getitem_fold as (st & Est & HI).
  pose proof (wf_d Hw) as Hd.
  unfold ttb_getitem. cbn [length]. rewrite L2. destruct (Nat.eqb_spec (S (ndims t)) 1); [lia|]. rewrite Nat.eqb_refl.
  unfold full_getitem. cbn [length]. rewrite L2, Nat.eqb_refl. change (nthr (b0 :: spec) 0) with (Ok b0). cbn [negb bind]. cbv zeta.
  destruct (resolve1_range _ _ _ _ Hb0) as (Rb & Ebk & Lb). rewrite <- Ebk. rewrite Est. cbn [bind].
  assert (Lp : 0 < length (sel_shape ps)) by (destruct (sel_shape ps); [contradiction|cbn; lia]).
  destruct (Inv_final t Hw P op true (negb bk) bvar ps L1 st HI Lp)
    as (news & rr & E & S1 & S2 & S3 & S4 & S5 & S6 & S7 & SK & S8).
  rewrite kp_slice_ranks in SK.
  assert (E' : absorb_last (if negb bk then "aib,bd->aid" else "oaib,obd->oaid") (fst st) (snd st) = Ok news).
  { rewrite <- E. unfold last_eq. now destruct bk. }
  rewrite E'. cbn [bind]. set (bs := if bk then Some (length bl) else None).
  set (c := TT news [sel_shape ps] rr bs).
  assert (Ec : (if negb bk then TensorTrain news SNone None else TensorTrainBatch news SNone None None) = Ok c).
  { unfold c, bs, P in *. destruct bk; cbn [negb].
    - rewrite (TensorTrainBatch_infer_ok K news [sel_shape ps] rr (length bl)); auto. lia.
    - rewrite (TensorTrain_infer_ok K news [sel_shape ps] rr); auto. lia. }
  rewrite Ec. assert (HP : pre_of bs = P) by (unfold bs, P; now destruct bk).
  assert (Wc : wf c).
  { apply wf_of_cores; auto; rewrite HP; auto. unfold P. destruct bk; constructor; auto. }
  destruct (full_tensor K t Hw Hm) as (d & Fd & Wd & Sd & Gd).
  destruct (full_tensor K c Wc eq_refl) as (dc & Fc & Wdc & Sdc & Gdc).
  exists c, d, dc. repeat (split; [first [assumption|reflexivity]|]).
  assert (Bc : bpre c = P) by (rewrite <- HP; reflexivity).
  unfold bpre in Sd. rewrite HB in Sd. cbn [app] in Sd.
  assert (R : resolve (b0 :: spec) (shape d) = Ok ((bl, bk) :: ps)) by (rewrite Sd; cbn [resolve]; rewrite Hb0; cbn [bind]; now rewrite Hps).
  unfold getitem. rewrite R. cbn [bind]. f_equal. symmetry.
  assert (Sc' : shape dc = sel_shape ((bl, bk) :: ps)).
  { rewrite Sdc, Bc. unfold P. now destruct bk. }
  apply tensor_ext; [exact Wdc|apply wft_mk|exact Sc'|].
  intros idx' Hi'. rewrite Sdc, Bc in Hi'. apply vidx_app_inv in Hi' as (pre & idx & -> & Hp & Hi).
  cbn [c rshape nth] in Hi.
  rewrite get_mk. 2:{ rewrite <- Sc', Sdc, Bc. now apply vidx_app. }
  rewrite Gdc by (rewrite ?Bc; auto). unfold c. rewrite entry_LN by (auto; apply vidx_length in Hi; lia).
  rewrite S8 by auto.
  assert (Hop : vidx (bpre t) (op pre)).
  { unfold bpre. rewrite HB. apply vidx_cons; [|constructor]. unfold P in Hp. apply (Forall_nth' (fun y => y < B)); auto.
    destruct bk; [apply vidx_1_inv in Hp as (o & -> & Ho); exact Ho|rewrite Lb; auto]. }
  rewrite <- (Gd (op pre) (sel_idx ps idx) Hop (sel_valid' idx Hi)). f_equal. unfold op, P in *.
  destruct bk; [apply vidx_1_inv in Hp as (o & -> & Ho)|inversion Hp]; reflexivity.
Qed.

Lemma full_getitem_ints : sel_shape ps = [] -> ttb_getitem t (b0 :: spec) = Err IndexError.
Proof.
  clear Hbpos. intros He. destruct ps_len as [L1 L2]. destruct full_getitem_fold as (st & Est & HI).
  pose proof (wf_d Hw) as Hd.
  unfold ttb_getitem. cbn [length]. rewrite L2. destruct (Nat.eqb_spec (S (ndims t)) 1) as [?|_]; [lia|]. rewrite Nat.eqb_refl.
  unfold full_getitem. cbn [length]. rewrite L2, Nat.eqb_refl. change (nthr (b0 :: spec) 0) with (Ok b0). cbn [negb bind]. cbv zeta.
  destruct (resolve1_range _ _ _ _ Hb0) as (Rb & Ebk & Lb). rewrite <- Ebk. rewrite Est. cbn [bind].
  pose proof (all_int_news st _ _ HI He) as N. destruct st as [news rem]. cbn [fst snd] in *. subst news.
  destruct rem as [r|]; [reflexivity|]. exfalso.
  destruct (ndims t) as [|n] eqn:En; [lia|].
  rewrite seq_S in Est. cbn [Nat.add] in Est. rewrite foldM_app in Est.
  destruct (foldM _ (seq 0 n) _) as [[nw rm]|]; [|discriminate]. cbn [bind foldM] in Est. rewrite Hm in Est.
  change (nthr (b0 :: spec) (S n)) with (nthr spec n) in Est.
  rewrite (nthr_nth spec n full_slice) in Est by lia. cbn [bind] in Est.
  destruct (getitem (core t n) _); [|discriminate]. cbn [bind] in Est.
  destruct (ps_each n ltac:(lia)) as (_ & E2 & _). rewrite E2 in Est.
  assert (Ez : snd (nth n ps ([], false)) = false) by (apply (sel_nil_all ps); auto; apply nth_In; lia).
  rewrite Ez in Est. cbn [getitem_step negb] in Est. destruct rm; cbn [bind] in Est; [|discriminate].
  destruct bk; cbn [negb] in Est; destruct (einsum _ _); discriminate.
Qed.

End Tensor.

Lemma resolve_fulls sh : resolve (repeat full_slice (length sh)) sh = Ok (map (fun n => (seq 0 n, true)) sh).
Proof. induction sh as [|n sh IH]; [reflexivity|]. cbn [length repeat resolve map]. rewrite resolve1_full. cbn [bind]. now rewrite IH. Qed.
Lemma sel_shape_fulls sh : sel_shape (map (fun n => (seq 0 n, true)) sh) = sh.
Proof. induction sh as [|n sh IH]; [reflexivity|]. cbn [map sel_shape]. now rewrite seq_length, IH. Qed.
Lemma sel_idx_fulls sh idx : vidx sh idx -> sel_idx (map (fun n => (seq 0 n, true)) sh) idx = idx.
Proof. induction 1 as [|i n idx sh Hi Hv IH]; [reflexivity|]. cbn [map sel_idx]. now rewrite nth_seq0, IH. Qed.

(** [t[ix]] (only the batch axis), for TT-tensors and TT-matrices *)
Lemma batch_dim_getitem_full (t : tt K) ix B bl bk : wf t -> bsz t = Some B -> resolve1 ix B = Ok (bl, bk) ->
  (bk = true -> 0 < length bl) ->
  exists c d dc, batch_dim_getitem t ix = Ok c /\ wf c /\ bsz c = (if bk then Some (length bl) else None) /\
    rshape c = rshape t /\ rks c = rks t /\ full t = Ok d /\ full c = Ok dc /\
    getitem d (ix :: repeat full_slice (length (shape d) - 1)) = Ok dc.
Proof.
  intros Hw HB Hr Hbp. destruct (resolve1_range _ _ _ _ Hr) as (Rb & Ebk & Lb).
  set (P := if bk then [length bl] else @nil nat).
  set (op := fun pre : list nat => [nth (if bk then nth 0 pre 0%nat else 0%nat) bl 0%nat]).
  set (bs := if bk then Some (length bl) else None).
  assert (HP : pre_of bs = P) by (unfold bs, P; now destruct bk).
  destruct (build_ok K (fun i =>
      if is_tt_matrix t
      then getitem (core t i) [ix; full_slice; full_slice; full_slice; full_slice]
      else getitem (core t i) [ix; full_slice; full_slice; full_slice])
    (fun i c => forall pre a j b, vidx P pre -> a < rk t i -> vidx (modes t i) j -> b < rk t (S i) ->
      get c (pre ++ a :: j ++ [b]) = coreG t (op pre) i a j b)
    (ndims t) bs (rshape t) (rks t)) as (cs & Hcs & Hl & Hcon & Hwc & HG); try apply Hw.
  - rewrite HP. unfold P. destruct bk; constructor; auto.
  - intros i Hi. pose proof (core_shape _ t i Hw Hi) as Hs. unfold bpre in Hs. rewrite HB in Hs. cbn [app] in Hs.
    set (rest := rk t i :: modes t i ++ [rk t (S i)]) in *.
    assert (R : resolve (ix :: repeat full_slice (length rest)) (shape (core t i)) = Ok ((bl, bk) :: map (fun n => (seq 0 n, true)) rest)).
    { rewrite Hs. cbn [resolve]. rewrite Hr. cbn [bind]. now rewrite resolve_fulls. }
    destruct (getitem_sel K _ _ _ R) as (c & E & Wc & Sc & Gc). exists c.
    assert (Ss : sel_shape ((bl, bk) :: map (fun n => (seq 0 n, true)) rest) = P ++ rest).
    { unfold P. destruct bk; cbn [sel_shape app]; now rewrite sel_shape_fulls. }
    rewrite Ss in *. split; [|split; [exact Wc|split; [rewrite HP; exact Sc|]]].
    + rewrite <- E. unfold rest. cbn [length]. rewrite app_length, modes_length. cbn [length].
      destruct (wf_kind_cases _ t Hw) as [(E' & Hl & Hm)|(E' & Hl & Hm)]; rewrite E', Hl; reflexivity.
    + intros pre a j b Hp Ha Hj Hb.
      assert (Hv : vidx rest (a :: j ++ [b])) by (apply vidx_cons; auto; apply vidx_app; auto; vsolve).
      rewrite Gc by now apply vidx_app. unfold coreG, op, P in *.
      destruct bk; [apply vidx_1_inv in Hp as (o & -> & Ho)|inversion Hp; subst pre];
        cbn [app sel_idx nth]; now rewrite sel_idx_fulls.
  - set (c := TT cs (rshape t) (rks t) bs) in *.
    assert (Ec : batch_dim_getitem t ix = Ok c).
    { unfold batch_dim_getitem. rewrite Hcs. cbn [bind]. rewrite <- Ebk. unfold construct, bs in Hcon.
      destruct bk; [|exact Hcon]. rewrite (nthr_nth cs 0 (core0 K)) by (rewrite Hl; apply (wf_d Hw)). cbn [bind].
      destruct (wf_core Hwc 0 ltac:(unfold ndims; cbn [c cores]; rewrite Hl; apply (wf_d Hw))) as [_ S0].
      unfold core, c, bpre in S0. cbn [cores bsz] in S0. unfold bs in S0.
      change (core0 K) with (@Tensor K [] []). rewrite S0. cbn [nthr nth_error bind app]. exact Hcon. }
    destruct (full_correct K t Hw) as (d & Fd & Wd & Sd & Gd).
    destruct (full_correct K c Hwc) as (dc & Fc & Wdc & Sdc & Gdc).
    assert (Et : get_shape t = B :: ishape t) by (rewrite get_shape_ishape; unfold bpre; now rewrite HB).
    assert (Eci : ishape c = ishape t) by reflexivity.
    assert (Bc : bpre c = P) by (rewrite <- HP; reflexivity).
    assert (Ecs : get_shape c = P ++ ishape t) by (rewrite get_shape_ishape, Bc; reflexivity).
    exists c, d, dc. repeat (split; [first [assumption|reflexivity]|]).
    assert (R : resolve (ix :: repeat full_slice (length (shape d) - 1)) (shape d) = Ok ((bl, bk) :: map (fun n => (seq 0 n, true)) (ishape t))).
    { rewrite Sd, Et. cbn [length resolve]. rewrite Hr. cbn [bind]. rewrite Nat.sub_succ, Nat.sub_0_r. now rewrite resolve_fulls. }
    unfold getitem. rewrite R. cbn [bind]. f_equal. symmetry.
    assert (Ss : sel_shape ((bl, bk) :: map (fun n => (seq 0 n, true)) (ishape t)) = P ++ ishape t).
    { unfold P. destruct bk; cbn [sel_shape app]; now rewrite sel_shape_fulls. }
    apply tensor_ext; [exact Wdc|apply wft_mk|rewrite Sdc, Ecs, <- Ss; reflexivity|].
    intros idx' Hi'. rewrite Sdc, Ecs in Hi'. rewrite get_mk by (rewrite Ss; exact Hi').
    rewrite Gdc by (rewrite Ecs; exact Hi'). apply vidx_app_inv in Hi' as (pre & I & -> & Hp & HI).
    assert (Hop : nth (if bk then nth 0 pre 0%nat else 0%nat) bl 0 < B).
    { apply (Forall_nth' (fun y => y < B)); auto. unfold P in Hp. destruct bk.
      - apply vidx_1_inv in Hp as (o & -> & Ho); exact Ho.
      - rewrite Lb; auto. }
    assert (E1 : sel_idx ((bl, bk) :: map (fun n => (seq 0 n, true)) (ishape t)) (pre ++ I) = op pre ++ I).
    { unfold op, P in *. destruct bk; [apply vidx_1_inv in Hp as (o & -> & Ho)|inversion Hp; subst pre];
        cbn [app sel_idx nth]; now rewrite sel_idx_fulls. }
    rewrite E1, Gd by (rewrite Et; apply vidx_cons; auto).
    rewrite tt_at_entry by (rewrite Bc; auto).
    rewrite tt_at_entry by (unfold bpre; rewrite HB; apply vidx_cons; [exact Hop|constructor]).
    change (split_idx c I) with (split_idx t I). destruct (split_idx_valid _ t I Hw HI) as [V1 V2].
    unfold tt_entry. eapply (chain_ext _ (modes t)); eauto.
    + change (rk c 0) with (rk t 0). rewrite (wf_first Hw). lia.
    + intros m a j b Hmm Ha Hb Hj. unfold coreG at 1, core. cbn [c cores]. apply HG; auto. lia.
Qed.

(** Errors. *)
Lemma tt_getitem_len_err (t : tt K) spec : length spec <> ndims t -> tt_getitem t spec = Err ValueError.
Proof. intros H. unfold tt_getitem. now rewrite (proj2 (Nat.eqb_neq _ _) H). Qed.
Lemma tt_getitem_matrix_err (t : tt K) spec : wf t -> is_tt_matrix t = true -> length spec = ndims t -> tt_getitem t spec = Err NotImplementedError.
Proof.
  intros Hw Hm L. unfold tt_getitem. rewrite L, Nat.eqb_refl. cbn [negb]. pose proof (wf_d Hw) as Hd.
  destruct (ndims t); [lia|]. cbn [seq foldM]. now rewrite Hm.
Qed.
Lemma ttb_getitem_len_err (t : tt K) spec : length spec <> 1 -> length spec <> S (ndims t) -> ttb_getitem t spec = Err ValueError.
Proof. intros H1 H2. unfold ttb_getitem. now rewrite (proj2 (Nat.eqb_neq _ _) H1), (proj2 (Nat.eqb_neq _ _) H2). Qed.
Lemma ttb_getitem_matrix_err (t : tt K) spec : wf t -> is_tt_matrix t = true -> length spec = S (ndims t) -> ttb_getitem t spec = Err NotImplementedError.
Proof.
  intros Hw Hm L. unfold ttb_getitem, full_getitem. pose proof (wf_d Hw) as Hd. rewrite L.
  destruct (Nat.eqb_spec (S (ndims t)) 1); [lia|]. rewrite Nat.eqb_refl. cbn [negb].
  destruct spec as [|b0 spec]; [discriminate|]. cbn [nthr nth_error bind].
  destruct (ndims t); [lia|]. cbn [seq foldM]. now rewrite Hm.
Qed.

End WithK.
