(** Proofs about the text of objects (Str.v). *)
From Coq Require Import String Ascii List Arith Bool Lia DecimalString DecimalNat.
From Verif Require Import Scalar Tensor Base Static StaticSpec Str StrSpec.
Import ListNotations.
Local Open Scope string_scope.
Local Open Scope list_scope.

(** ** Numerals *)
Lemma digits_uint : forall d acc, digits acc (NilEmpty.string_of_uint d) = Some (Nat.of_uint_acc d acc).
Proof.
  induction d; intros acc; cbn [NilEmpty.string_of_uint digits Nat.of_uint_acc]; try reflexivity;
    match goal with |- context [digit ?c] => let x := eval compute in (digit c) in change (digit c) with x end; cbv iota;
    rewrite IHd, Nat.tail_mul_spec; f_equal; f_equal; lia.
Qed.

Lemma str_nat_digits n : digits 0 (str_nat n) = Some n.
Proof. unfold str_nat. rewrite digits_uint. change (Some (Nat.of_uint (Nat.to_uint n)) = Some n). now rewrite Unsigned.of_to. Qed.

Lemma str_nat_numeral n : numeral n (str_nat n).
Proof.
  split; [|apply str_nat_digits]. unfold str_nat. intros E.
  destruct (Nat.to_uint n) eqn:U; try discriminate E.
  destruct n; [discriminate U|]. 
  assert (X : Nat.of_uint (Nat.to_uint (S n)) = 0) by now rewrite U. rewrite Unsigned.of_to in X. discriminate.
Qed.

Lemma str_nat_inj n m : str_nat n = str_nat m -> n = m.
Proof. intros E. pose proof (str_nat_digits n) as A. rewrite E, str_nat_digits in A. congruence. Qed.

(** ** Texts without a given character *)
Fixpoint lacks (c : ascii) (s : string) : Prop :=
  match s with EmptyString => True | String x r => x <> c /\ lacks c r end.

Lemma digits_lacks c : digit c = None -> forall s acc n, digits acc s = Some n -> lacks c s.
Proof.
  intros Hc s. induction s as [|x r IH]; intros acc n E; cbn in *; [exact I|].
  destruct (digit x) eqn:D; [|discriminate]. split; [congruence|]. eauto.
Qed.
Lemma str_nat_lacks c n : digit c = None -> lacks c (str_nat n).
Proof. intros H. eapply digits_lacks; eauto. apply str_nat_digits. Qed.
Lemma str_dim_lacks c d : digit c = None -> lacks c "None" -> lacks c (str_dim d).
Proof. intros H H'. destruct d; cbn [str_dim]; [now apply str_nat_lacks|exact H']. Qed.
Lemma lacks_app c s r : lacks c s -> lacks c r -> lacks c (s ++ r)%string.
Proof. induction s; cbn; intuition. Qed.

(** Texts that lack [c] are delimited by [c]. *)
Lemma delimited c : forall s1 s2 r1 r2, lacks c s1 -> lacks c s2 ->
  (s1 ++ String c r1 = s2 ++ String c r2)%string -> s1 = s2 /\ r1 = r2.
Proof.
  induction s1 as [|x s1 IH]; intros [|y s2] r1 r2 H1 H2 E; cbn in *.
  - injection E; auto.
  - injection E as E1 E2. now destruct H2 as [[] _].
  - injection E as E1 E2. now destruct H1 as [[] _].
  - injection E as E1 E2. destruct H1 as [_ H1], H2 as [_ H2]. destruct (IH _ _ _ H1 H2 E2) as [<- <-]. subst. auto.
Qed.
Lemma app_assoc_s (a b c : string) : ((a ++ b) ++ c = a ++ b ++ c)%string.
Proof. induction a; cbn; congruence. Qed.

(** ** Shapes *)
Lemma str_dim_inj d e : str_dim d = str_dim e -> d = e.
Proof.
  destruct d as [n|], e as [m|]; cbn [str_dim]; intros E; auto.
  - f_equal. now apply str_nat_inj.
  - pose proof (str_nat_digits n) as A. rewrite E in A. discriminate.
  - pose proof (str_nat_digits m) as A. rewrite <- E in A. discriminate.
Qed.

Definition shape_body (l : list dim) : string :=
  match l with [d] => (str_dim d ++ ",")%string | _ => commas (map str_dim l) end.
Lemma str_shape_body l r : (str_shape l ++ r = String "(" (shape_body l ++ String ")" r))%string.
Proof. destruct l as [|d [|e l]]; cbn [str_shape shape_body]; cbn [append]; f_equal; rewrite !app_assoc_s; reflexivity. Qed.

Lemma commas_lacks c l : c <> ","%char -> c <> " "%char -> (forall s, In s l -> lacks c s) -> lacks c (commas l).
Proof.
  intros H1 H2. induction l as [|x [|y l] IH]; intros H; [exact I|apply H; now left|].
  cbn [commas] in *. apply lacks_app; [apply H; now left|]. apply lacks_app; [cbn; repeat split; congruence|].
  apply IH. intros s Hs. apply H. now right.
Qed.
Lemma body_lacks l : lacks ")"%char (shape_body l).
Proof.
  assert (D : forall d, lacks ")"%char (str_dim d)). { intros d. apply str_dim_lacks; [reflexivity|cbn; repeat split; discriminate]. }
  destruct l as [|d [|e l]]; cbn [shape_body]; [exact I| |].
  - apply lacks_app; [auto|]. cbn. split; [discriminate|exact I].
  - apply commas_lacks; try discriminate. intros s Hs. apply in_map_iff in Hs as (x & <- & _). auto.
Qed.
Lemma dim_comma d : lacks ","%char (str_dim d).
Proof. apply str_dim_lacks; [reflexivity|cbn; repeat split; discriminate]. Qed.

Lemma dim_not_comma d s r : (str_dim d = s ++ String "," r)%string -> False.
Proof.
  intros E. pose proof (dim_comma d) as H. rewrite E in H. clear E. induction s; cbn in H; tauto.
Qed.

Lemma commas_inj : forall l1 l2, commas (map str_dim l1) = commas (map str_dim l2) -> 0 < length l1 -> 0 < length l2 -> l1 = l2.
Proof.
  induction l1 as [|d l1 IH]; intros l2 E H1 H2; [cbn in H1; lia|]. destruct l2 as [|e l2]; [cbn in H2; lia|].
  destruct l1 as [|d' l1], l2 as [|e' l2].
  - cbn [commas map] in E. now rewrite (str_dim_inj _ _ E).
  - cbn [commas map] in E. cbn [append] in E. now apply dim_not_comma in E.
  - cbn [commas map] in E. cbn [append] in E. symmetry in E. now apply dim_not_comma in E.
  - change ((str_dim d ++ String "," (String " " (commas (map str_dim (d' :: l1)))) = str_dim e ++ String "," (String " " (commas (map str_dim (e' :: l2)))))%string) in E.
    apply delimited in E as [E1 E2]; try apply dim_comma. injection E2 as E2. rewrite (str_dim_inj _ _ E1). f_equal. apply IH; [exact E2|cbn; lia|cbn; lia].
Qed.

Lemma body_inj l1 l2 : shape_body l1 = shape_body l2 -> l1 = l2.
Proof.
  assert (NE : forall d, str_dim d <> ""). { intros [n|]; cbn [str_dim]; [apply str_nat_numeral|discriminate]. }
  assert (A : forall l, shape_body [] = shape_body l -> l = []).
  { intros [|d [|e l]] E; auto; exfalso; cbn [shape_body map commas] in E; destruct (str_dim d) eqn:X; try discriminate E; now apply (NE d). }
  assert (B : forall d x y l, shape_body [d] = shape_body (x :: y :: l) -> False).
  { intros d x y l E. change ((str_dim d ++ String "," "" = str_dim x ++ String "," (String " " (commas (map str_dim (y :: l)))))%string) in E.
    apply delimited in E as [_ E]; try apply dim_comma. discriminate. }
  intros E. destruct l1 as [|d [|d' l1]]; [symmetry; now apply A| |].
  - destruct l2 as [|e [|e' l2]]; [now apply A| |now apply B in E].
    cbn [shape_body] in E. apply delimited in E as [E _]; try apply dim_comma. f_equal. now apply str_dim_inj.
  - destruct l2 as [|e [|e' l2]]; [now apply A|symmetry in E; now apply B in E|].
    cbn [shape_body] in E. apply commas_inj; [exact E|cbn; lia|cbn; lia].
Qed.

Lemma shape_inj l1 l2 r1 r2 : (str_shape l1 ++ r1 = str_shape l2 ++ r2)%string -> l1 = l2 /\ r1 = r2.
Proof.
  rewrite !str_shape_body. intros E. injection E as E. apply delimited in E as [E1 E2]; try apply body_lacks. split; [now apply body_inj|exact E2].
Qed.
Lemma shape_inj' l1 l2 : str_shape l1 = str_shape l2 -> l1 = l2.
Proof. intros E. apply (shape_inj l1 l2 "" ""). now rewrite E. Qed.

(** ** The text meets the specification *)
Lemma str_dim_text d : dim_text d (str_dim d).
Proof. destruct d; cbn [dim_text str_dim]; [apply str_nat_numeral|reflexivity]. Qed.
Lemma commas_entries : forall l, l <> [] -> entries l (commas (map str_dim l)).
Proof.
  induction l as [|d [|e l] IH]; intros H; [contradiction| |].
  - cbn. constructor. apply str_dim_text.
  - change (commas (map str_dim (d :: e :: l))) with (str_dim d ++ ", " ++ commas (map str_dim (e :: l)))%string.
    constructor; [apply str_dim_text|apply IH; discriminate].
Qed.
Lemma str_shape_text l : shape_text l (str_shape l).
Proof.
  destruct l as [|d [|e l]]; cbn [str_shape]; [constructor|constructor; apply str_dim_text|].
  apply st_more; [discriminate|]. apply commas_entries. discriminate.
Qed.

(** ** Sizes *)
Lemma foldM_dim_mul : forall (l : list nat) a, foldM (fun d acc => dim_mul acc d) (map Some l) (Some a) = Ok (Some (a * prodn l)).
Proof.
  induction l as [|x l IH]; intros a; cbn [foldM map dim_mul]; [unfold prodn; cbn; now rewrite Nat.mul_1_r|].
  cbn [bind]. rewrite IH. unfold prodn. cbn [fold_right]. now rewrite Nat.mul_assoc.
Qed.
Lemma dim_prod_known (l : list nat) : l <> [] -> dim_prod (map Some l) = Ok (Some (prodn l)).
Proof. destruct l as [|x l]; [contradiction|]. intros _. cbn [map dim_prod]. rewrite foldM_dim_mul. reflexivity. Qed.
Lemma foldM_unknown : forall (l : list dim) a, foldM (fun d acc => dim_mul acc d) l None = match l with [] => Ok None | _ => Err TypeError end /\
  (In None l -> foldM (fun d acc => dim_mul acc d) l a = Err TypeError).
Proof.
  induction l as [|x l IH]; intros a; cbn [foldM]; [split; [reflexivity|intros []]|]. split; [reflexivity|].
  intros [->|H]; [destruct a; reflexivity|]. destruct a as [a|], x as [x|]; cbn [dim_mul bind]; try reflexivity. now apply IH.
Qed.
Lemma dim_prod_unknown (l : list dim) : In None l -> (dim_prod l = Err TypeError \/ dim_prod l = Ok None).
Proof.
  destruct l as [|x l]; [intros []|]. intros [->|H]; cbn [dim_prod].
  - destruct (foldM_unknown l None) as [E _]. rewrite E. destruct l; auto.
  - left. now apply (foldM_unknown l x).
Qed.
Lemma dim_prod_some (l : list dim) m : dim_prod l = Ok (Some m) -> exists ns, l = map Some ns /\ m = prodn ns.
Proof.
  destruct l as [|x l]; [discriminate|]. cbn [dim_prod]. revert x m. induction l as [|y l IH]; intros x m E; cbn [foldM] in E.
  - injection E as ->. exists [m]. split; [reflexivity|]. unfold prodn. cbn. lia.
  - destruct x as [x|], y as [y|]; cbn [dim_mul bind] in E; try discriminate.
    destruct (IH _ _ E) as (ns & E1 & ->). destruct ns as [|z ns]; [discriminate|]. injection E1 as <- ->. exists (x :: y :: ns). split; [reflexivity|].
    unfold prodn. cbn [fold_right]. lia.
Qed.

(** The shapes of the two kinds of objects. *)
Lemma get_shape_tensor o a : srshape o = [a] -> s_get_shape o = Ok (match sbsz o with None => a | Some b => b :: a end).
Proof. intros E. unfold s_get_shape, s_is_tt_matrix. rewrite E. reflexivity. Qed.
Lemma get_shape_matrix o a b : srshape o = [a; b] ->
  s_get_shape o = do m <- dim_prod a; do n <- dim_prod b; Ok (match sbsz o with None => [m; n] | Some x => [x; m; n] end).
Proof.
  intros E. unfold s_get_shape, s_is_tt_matrix. rewrite E. cbn [length Nat.eqb nthr nth_error bind].
  destruct (dim_prod a); [|reflexivity]. cbn [bind]. destruct (dim_prod b); reflexivity.
Qed.

(** The text of the four kinds of objects. *)
Definition matrix_tail (m n : nat) (a b ranks : list dim) : string :=
  (" of size " ++ str_nat m ++ " x " ++ str_nat n ++ ", underlying tensor shape: " ++ str_shape a ++ " x " ++ str_shape b
   ++ ", TT-ranks: " ++ str_shape ranks)%string.
Definition tensor_tail (a ranks : list dim) : string := (" of shape " ++ str_shape a ++ ", TT-ranks: " ++ str_shape ranks)%string.
Definition head_tt (v m : bool) : string :=
  ((if m then "A TT-Matrix" else "A Tensor Train") ++ if v then " variable" else "")%string.
Definition head_ttb (v m : bool) (b : dim) : string :=
  ("A " ++ match b with None => "(?)" | Some b => str_nat b end ++ " element batch of "
   ++ if m then (if v then "TT-matrix variables" else "TT-matrices") else (if v then "Tensor Train variables" else "Tensor Trains"))%string.
Definition head (v m : bool) (b : option dim) : string := match b with None => head_tt v m | Some b => head_ttb v m b end.

Lemma str_tensor v o a : srshape o = [a] -> to_str v o = Ok (head v false (sbsz o) ++ tensor_tail a (srks o))%string.
Proof.
  intros E. pose proof (get_shape_tensor o a E) as G. unfold to_str, str_tt, str_ttb, s_is_tt_matrix. rewrite E, G. cbn [length Nat.eqb bind].
  destruct (sbsz o) as [b|]; cbn [head tl]; unfold head_tt, head_ttb, tensor_tail; rewrite ?app_assoc_s; reflexivity.
Qed.
Lemma str_matrix v o a b s : srshape o = [a; b] -> to_str v o = Ok s ->
  exists m n, a = map Some m /\ b = map Some n /\ m <> [] /\ n <> [] /\ s = (head v true (sbsz o) ++ matrix_tail (prodn m) (prodn n) a b (srks o))%string.
Proof.
  intros E H. pose proof (get_shape_matrix o a b E) as G. unfold to_str, str_tt, str_ttb, s_is_tt_matrix in H. rewrite E, G in H. cbn [length Nat.eqb] in H.
  destruct (dim_prod a) as [pa|] eqn:EA; [|destruct (sbsz o); discriminate H]. cbn [bind] in H.
  destruct (dim_prod b) as [pb|] eqn:EB; [|destruct (sbsz o); discriminate H]. cbn [bind] in H.
  destruct pa as [pa|]; [|destruct (sbsz o); discriminate H]. destruct pb as [pb|]; [|destruct (sbsz o); discriminate H].
  destruct (dim_prod_some _ _ EA) as (m & -> & ->). destruct (dim_prod_some _ _ EB) as (n & -> & ->).
  exists m, n. split; [reflexivity|]. split; [reflexivity|]. split; [intros ->; discriminate EA|]. split; [intros ->; discriminate EB|].
  destruct (sbsz o) as [x|]; cbn [nthr nth_error bind format_d head] in *; injection H as <-;
    unfold head_tt, head_ttb, matrix_tail; rewrite ?app_assoc_s; reflexivity.
Qed.
Lemma str_matrix_known v o m n : srshape o = [map Some m; map Some n] -> m <> [] -> n <> [] -> exists s, to_str v o = Ok s.
Proof.
  intros E Hm Hn. pose proof (get_shape_matrix o _ _ E) as G. unfold to_str, str_tt, str_ttb, s_is_tt_matrix. rewrite E, G, !dim_prod_known by assumption.
  cbn [length Nat.eqb bind]. destruct (sbsz o); cbn; eauto.
Qed.
Lemma str_matrix_unknown v o a b : srshape o = [a; b] -> a <> [] -> b <> [] -> In None a \/ In None b -> to_str v o = Err TypeError.
Proof.
  intros E Ha Hb H. pose proof (get_shape_matrix o a b E) as G. unfold to_str, str_tt, str_ttb, s_is_tt_matrix. rewrite E, G. cbn [length Nat.eqb].
  assert (T : forall l, l <> [] -> dim_prod l = Err TypeError \/ exists d, dim_prod l = Ok d).
  { intros [|x l] Hl; [contradiction|]. cbn [dim_prod]. clear. revert x. induction l as [|y l IH]; intros x; cbn [foldM]; [eauto|].
    destruct x, y; cbn [dim_mul bind]; auto. }
  destruct (T a Ha) as [EA|[da EA]]; rewrite EA; [destruct (sbsz o); reflexivity|].
  destruct (T b Hb) as [EB|[db EB]]; rewrite EB; [destruct (sbsz o); reflexivity|]. cbn [bind].
  destruct H as [H|H].
  - destruct (dim_prod_unknown a H) as [X|X]; [congruence|]. assert (da = None) by congruence. subst. destruct (sbsz o); reflexivity.
  - destruct (dim_prod_unknown b H) as [X|X]; [congruence|]. assert (db = None) by congruence. subst. destruct (sbsz o), da; reflexivity.
Qed.

(** ** Different objects have different texts *)
Lemma matrix_tail_inj m n a b r m' n' a' b' r' : matrix_tail m n a b r = matrix_tail m' n' a' b' r' -> a = a' /\ b = b' /\ r = r'.
Proof.
  unfold matrix_tail. cbn [append]. intros E. injection E as E.
  apply delimited in E as [_ E]; [|now apply str_nat_lacks|now apply str_nat_lacks]. injection E as E.
  apply delimited in E as [_ E]; [|now apply str_nat_lacks|now apply str_nat_lacks]. injection E as E.
  apply shape_inj in E as [-> E]. injection E as E. apply shape_inj in E as [-> E]. injection E as E. apply shape_inj' in E as ->. auto.
Qed.

Lemma tensor_tail_inj a r a' r' : tensor_tail a r = tensor_tail a' r' -> a = a' /\ r = r'.
Proof.
  unfold tensor_tail. cbn [append]. intros E. injection E as E. apply shape_inj in E as [-> E]. injection E as E. apply shape_inj' in E as ->. auto.
Qed.

Lemma batch_text b : lacks " "%char (match b with None => "(?)" | Some b => str_nat b end) /\
  forall r x, (match b with None => "(?)" | Some b => str_nat b end ++ String " " r)%string <> String "T" x.
Proof.
  destruct b as [b|]; split; try (cbn; repeat split; discriminate); [now apply str_nat_lacks|].
  intros r x E. pose proof (str_nat_lacks "T" b eq_refl) as L. destruct (str_nat b); cbn in E; injection E as E; [discriminate E|]. cbn in L. tauto.
Qed.
Lemma batch_text_inj b b' : match b with None => "(?)" | Some b => str_nat b end = match b' with None => "(?)" | Some b => str_nat b end -> b = b'.
Proof.
  destruct b as [b|], b' as [b'|]; intros E; auto.
  - f_equal. now apply str_nat_inj.
  - pose proof (str_nat_digits b) as A. rewrite E in A. discriminate.
  - pose proof (str_nat_digits b') as A. rewrite <- E in A. discriminate.
Qed.

(** The two ends of a text: what comes after the head starts with " of s". *)
Lemma heads v m b v' m' b' r r' : (head v m b ++ " of s" ++ r = head v' m' b' ++ " of s" ++ r')%string ->
  b = b' /\ m = m' /\ v = v' /\ r = r'.
Proof.
  destruct b as [b|], b' as [b'|]; cbn [head]; unfold head_tt, head_ttb; rewrite ?app_assoc_s; intros E.
  - cbn [append] in E. injection E as E. destruct (batch_text b) as [L _], (batch_text b') as [L' _].
    apply delimited in E as [E1 E2]; auto. apply batch_text_inj in E1 as ->. split; [reflexivity|].
    destruct m, m', v, v'; cbn [append] in E2; try discriminate E2; injection E2 as E2; auto.
  - exfalso. destruct m', v'; cbn [append] in E; injection E as E; now apply (proj2 (batch_text b)) in E.
  - exfalso. destruct m, v; cbn [append] in E; injection E as E; symmetry in E; now apply (proj2 (batch_text b')) in E.
  - destruct m, m', v, v'; cbn [append] in E; try discriminate E; injection E as E; auto.
Qed.

Lemma str_inj v1 o1 v2 o2 s : length (srshape o1) = 1 \/ length (srshape o1) = 2 -> length (srshape o2) = 1 \/ length (srshape o2) = 2 ->
  to_str v1 o1 = Ok s -> to_str v2 o2 = Ok s -> sbsz o1 = sbsz o2 /\ v1 = v2 /\ srshape o1 = srshape o2 /\ srks o1 = srks o2.
Proof.
  intros H1 H2 E1 E2.
  assert (C : forall o, length (srshape o) = 1 \/ length (srshape o) = 2 -> (exists a, srshape o = [a]) \/ exists a b, srshape o = [a; b]).
  { intros o. destruct (srshape o) as [|a [|b [|c l]]]; cbn; intros [H|H]; try discriminate; eauto. }
  apply C in H1, H2. clear C.
  destruct H1 as [[a H1]|(a & b & H1)], H2 as [[a' H2]|(a' & b' & H2)].
  - rewrite (str_tensor _ _ _ H1) in E1. rewrite (str_tensor _ _ _ H2) in E2. injection E1 as <-. injection E2 as E. symmetry in E.
    pose proof E as E'. unfold tensor_tail in E'. apply heads in E' as (Eb & _ & -> & _). rewrite <- Eb in E.
    assert (T : tensor_tail a (srks o1) = tensor_tail a' (srks o2)).
    { apply heads in E as (_ & _ & _ & E). unfold tensor_tail. cbn [append] in *. now rewrite E. }
    apply tensor_tail_inj in T as [-> ->]. rewrite H1, H2. auto.
  - rewrite (str_tensor _ _ _ H1) in E1. injection E1 as <-. destruct (str_matrix _ _ _ _ _ H2 E2) as (m & n & _ & _ & _ & _ & E).
    unfold tensor_tail, matrix_tail in E. exfalso. apply heads in E as (_ & E & _). discriminate.
  - rewrite (str_tensor _ _ _ H2) in E2. injection E2 as <-. destruct (str_matrix _ _ _ _ _ H1 E1) as (m & n & _ & _ & _ & _ & E).
    unfold tensor_tail, matrix_tail in E. exfalso. apply heads in E as (_ & E & _). discriminate.
  - destruct (str_matrix _ _ _ _ _ H1 E1) as (m & n & _ & _ & _ & _ & X1). destruct (str_matrix _ _ _ _ _ H2 E2) as (m' & n' & _ & _ & _ & _ & X2).
    rewrite X1 in X2. pose proof X2 as E'. unfold matrix_tail in E'. apply heads in E' as (Eb & _ & -> & _). rewrite <- Eb in X2.
    assert (T : matrix_tail (prodn m) (prodn n) a b (srks o1) = matrix_tail (prodn m') (prodn n') a' b' (srks o2)).
    { apply heads in X2 as (_ & _ & _ & X2). unfold matrix_tail. cbn [append] in *. now rewrite X2. }
    apply matrix_tail_inj in T as (-> & -> & ->). rewrite H1, H2. auto.
Qed.

Lemma str_same v o1 o2 : sbsz o1 = sbsz o2 -> srshape o1 = srshape o2 -> srks o1 = srks o2 -> to_str v o1 = to_str v o2.
Proof. intros E1 E2 E3. unfold to_str, str_tt, str_ttb, s_is_tt_matrix, s_get_shape, s_is_tt_matrix. now rewrite E1, E2, E3. Qed.
