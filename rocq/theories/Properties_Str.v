(** C63: the text of an object (__str__).  C64: replacing tf.linalg.svd by NumPy's. *)
From Coq Require Import String Ascii List Arith ZArith Bool Reals Lia.
From Verif Require Import Scalar Tensor TensorLemmas Base Spec BaseLemmas Ops OpsR Decomp DecompSpec SvdSpec RankArgs Utils UtilsSpec UtilsProofs Static StaticSpec Str StrSpec StrProofs.
From Verif Require Properties_Svd.
Import ListNotations.
Local Open Scope string_scope.
Local Open Scope list_scope.

(** ** C63 *)
(** A TT-tensor or a batch of TT-tensors: the text names the class, whether it is a variable, the batch size
    ("(?)" if unknown), the shape and the TT-ranks; unknown dimensions are printed as None. *)
Theorem C63_tensor_text : forall variable o a, srshape o = [a] -> exists s sa sr, to_str variable o = Ok s /\
  shape_text a sa /\ shape_text (srks o) sr /\
  match sbsz o with
  | None => s = ((if variable then "A Tensor Train variable of shape " else "A Tensor Train of shape ") ++ sa ++ ", TT-ranks: " ++ sr)%string
  | Some b => exists sb, match b with None => sb = "(?)" | Some n => numeral n sb end /\
      s = ("A " ++ sb ++ (if variable then " element batch of Tensor Train variables of shape " else " element batch of Tensor Trains of shape ")
           ++ sa ++ ", TT-ranks: " ++ sr)%string
  end.
Proof.
  intros v o a E. exists (head v false (sbsz o) ++ tensor_tail a (srks o))%string, (str_shape a), (str_shape (srks o)).
  split; [now apply str_tensor|]. split; [apply str_shape_text|]. split; [apply str_shape_text|].
  destruct (sbsz o) as [b|]; cbn [head]; unfold head_tt, head_ttb, tensor_tail.
  - exists (match b with None => "(?)" | Some b => str_nat b end). split; [destruct b; [apply str_nat_numeral|reflexivity]|].
    rewrite !app_assoc_s. destruct v; reflexivity.
  - rewrite !app_assoc_s. destruct v; reflexivity.
Qed.
Print Assumptions C63_tensor_text.

(** A TT-matrix or a batch of TT-matrices with known modes: also the numbers of rows and of columns. *)
Theorem C63_matrix_text : forall variable o rows cols, srshape o = [map Some rows; map Some cols] -> rows <> [] -> cols <> [] ->
  exists s sm sn sa sb sr, to_str variable o = Ok s /\ numeral (prodn rows) sm /\ numeral (prodn cols) sn /\
  shape_text (map Some rows) sa /\ shape_text (map Some cols) sb /\ shape_text (srks o) sr /\
  let tail := (" of size " ++ sm ++ " x " ++ sn ++ ", underlying tensor shape: " ++ sa ++ " x " ++ sb ++ ", TT-ranks: " ++ sr)%string in
  match sbsz o with
  | None => s = ((if variable then "A TT-Matrix variable" else "A TT-Matrix") ++ tail)%string
  | Some b => exists st, match b with None => st = "(?)" | Some n => numeral n st end /\
      s = ("A " ++ st ++ (if variable then " element batch of TT-matrix variables" else " element batch of TT-matrices") ++ tail)%string
  end.
Proof.
  intros v o m n E Hm Hn. destruct (str_matrix_known v o m n E Hm Hn) as [s H]. destruct (str_matrix v o _ _ s E H) as (m' & n' & Em & En & _ & _ & Es).
  assert (I : forall l l' : list nat, map Some l = map Some l' -> l = l').
  { induction l as [|x l IH]; intros [|y l'] X; try discriminate; auto. injection X as -> X. f_equal. auto. }
  apply I in Em as <-. apply I in En as <-.
  exists s, (str_nat (prodn m)), (str_nat (prodn n)), (str_shape (map Some m)), (str_shape (map Some n)), (str_shape (srks o)).
  split; [exact H|]. split; [apply str_nat_numeral|]. split; [apply str_nat_numeral|]. do 3 (split; [apply str_shape_text|]).
  rewrite Es. cbv zeta. destruct (sbsz o) as [b|]; cbn [head]; unfold head_tt, head_ttb, matrix_tail.
  - exists (match b with None => "(?)" | Some b => str_nat b end). split; [destruct b; [apply str_nat_numeral|reflexivity]|].
    rewrite !app_assoc_s. destruct v; reflexivity.
  - rewrite !app_assoc_s. destruct v; reflexivity.
Qed.
Print Assumptions C63_matrix_text.

(** Two objects have the same text exactly when they have the same class, batch size, shape and TT-ranks and
    both or none are variables. *)
Theorem C63_same_text : forall v1 o1 v2 o2 s1 s2, length (srshape o1) = 1 \/ length (srshape o1) = 2 -> length (srshape o2) = 1 \/ length (srshape o2) = 2 ->
  to_str v1 o1 = Ok s1 -> to_str v2 o2 = Ok s2 ->
  (s1 = s2 <-> sbsz o1 = sbsz o2 /\ v1 = v2 /\ srshape o1 = srshape o2 /\ srks o1 = srks o2).
Proof.
  intros v1 o1 v2 o2 s1 s2 H1 H2 E1 E2. split.
  - intros <-. eapply str_inj; eauto.
  - intros (Eb & <- & Es & Er). rewrite (str_same v1 o1 o2 Eb Es Er) in E1. congruence.
Qed.
Print Assumptions C63_same_text.

(** For objects whose shapes are known the text always exists; the values of the cores do not matter. *)
Theorem C63_known : forall (K : cring) dt v (t : Base.tt K), wf t -> exists s, to_str v (static_tt dt t) = Ok s.
Proof.
  intros K dt v t H. assert (C : exists a, rshape t = [a] \/ exists b, rshape t = [a; b]).
  { destruct (wf_kind H) as [E|E]; destruct (rshape t) as [|a [|b [|c l]]]; try discriminate E; eauto. }
  destruct C as (a & [E|(b & E)]).
  - eexists. apply (str_tensor v _ (map Some a)). unfold static_tt. cbn [srshape]. now rewrite E.
  - pose proof (wf_rlen H) as L. rewrite E in L. rewrite Forall_forall in L. pose proof (wf_d H) as D.
    apply (str_matrix_known v _ a b); [unfold static_tt; cbn [srshape]; now rewrite E| |]; intros ->;
      [specialize (L [] (or_introl eq_refl))|specialize (L [] (or_intror (or_introl eq_refl)))]; cbn [length] in L; lia.
Qed.
Print Assumptions C63_known.

(** A TT-matrix (or a batch) with an unknown mode has no text: TypeError. *)
Theorem C63_unknown_mode_raises : forall v o a b, srshape o = [a; b] -> a <> [] -> b <> [] -> In None a \/ In None b -> to_str v o = Err TypeError.
Proof. exact str_matrix_unknown. Qed.
Print Assumptions C63_unknown_mode_raises.
Theorem C63_unknown_mode_refuted : exists o, length (srshape o) = 2 /\ to_str false o = Err TypeError.
Proof. exists (SObj [SCore 0 (Some [Some 1; None; Some 2; Some 1])] [[None]; [Some 2]] [Some 1; Some 1] None). vm_compute. auto. Qed.
Print Assumptions C63_unknown_mode_refuted.

Example C63_ex1 : to_str true (SObj [] [[Some 2; Some 10; None]] [Some 1; Some 3; Some 5; Some 1] None)
  = Ok "A Tensor Train variable of shape (2, 10, None), TT-ranks: (1, 3, 5, 1)".
Proof. reflexivity. Qed.
Example C63_ex2 : to_str false (SObj [] [[Some 2; Some 10]; [Some 3; Some 4]] [Some 1; Some 3; Some 1] (Some None))
  = Ok "A (?) element batch of TT-matrices of size 20 x 12, underlying tensor shape: (2, 10) x (3, 4), TT-ranks: (1, 3, 1)".
Proof. reflexivity. Qed.
Example C63_ex3 : to_str false (SObj [] [[Some 105]] [Some 1; Some 1] (Some (Some 20)))
  = Ok "A 20 element batch of Tensor Trains of shape (105,), TT-ranks: (1, 1)".
Proof. reflexivity. Qed.
Example C63_ex_unknown : to_str false (SObj [] [[Some 2; None]; [Some 3; Some 4]] [Some 1; Some 3; Some 1] None) = Err TypeError.
Proof. apply (C63_unknown_mode_raises false _ [Some 2; None] [Some 3; Some 4]); try discriminate; auto. left. right. now left. Qed.

(** ** C64 *)
(** After the replacement [tf.linalg.svd] is a singular value decomposition in TensorFlow's conventions, for
    either value of full_matrices and any number of batch axes. *)
Theorem C64_decomposes : forall np_uv np_vals full t pre m n x, np_svd_ok full np_uv -> original_svd t = None ->
  wft x -> shape x = pre ++ [m; n] -> Forall (fun k => 0 < k) (pre ++ [m; n]) ->
  exists s u v, linalg_svd (replace_tf_svd_with_np_svd np_uv np_vals t) true x full true = Ok (SAll s u v) /\ tf_decomposes full pre m n x s u v.
Proof.
  intros np_uv np_vals full t pre m n x Hn Ht Hw Hs Hp. unfold replace_tf_svd_with_np_svd. rewrite Ht. cbn [linalg_svd]. now apply my_svd_ok.
Qed.
Print Assumptions C64_decomposes.

(** So everything proved about to_tt_tensor and round for a routine that meets [svd_ok] holds after the
    replacement. *)
Theorem C64_meets_the_contract : forall np_uv np_vals t, np_svd_ok false np_uv -> original_svd t = None ->
  svd_ok (svd_call (replace_tf_svd_with_np_svd np_uv np_vals t)).
Proof.
  intros np_uv np_vals t Hn Ht pre m n x Hw Hs Hp. unfold svd_call.
  destruct (C64_decomposes np_uv np_vals false t pre m n x Hn Ht Hw Hs Hp) as (s & u & v & E & H). rewrite E. exact H.
Qed.
Print Assumptions C64_meets_the_contract.

(** For example TT-SVD without a binding bound on the ranks is exact. *)
Theorem C64_to_tt_tensor : forall np_uv np_vals t (x : rtensor) a eps m, np_svd_ok false np_uv -> original_svd t = None ->
  wft x -> 2 <= length (shape x) -> Forall (fun n => 0 < n) (shape x) -> rank_limits false a eps (length (shape x)) m ->
  (forall k, 0 < k < length (shape x) -> Nat.min (prodn (firstn k (shape x))) (prodn (skipn k (shape x))) <= m k) ->
  exists z dz, to_tt_tensor (svd_call (replace_tf_svd_with_np_svd np_uv np_vals t)) x a eps = Ok z /\
    full z = Ok dz /\ shape dz = shape x /\ forall i, vidx (shape x) i -> get dz i = get x i.
Proof.
  intros np_uv np_vals t x a eps m Hn Ht Wx Hd Hp Hm Hk.
  destruct (Properties_Svd.C29_exact _ x a eps m (C64_meets_the_contract np_uv np_vals t Hn Ht) Wx Hd Hp Hm Hk) as (z & dz & E & _ & _ & _ & H). eauto.
Qed.
Print Assumptions C64_to_tt_tensor.

(** Calling it again, any number of times, changes nothing; the routine replaced is kept. *)
Theorem C64_repeated_calls : forall np_uv np_vals t n, original_svd t = None ->
  let r := Nat.iter (S n) (replace_tf_svd_with_np_svd np_uv np_vals) t in
  r = replace_tf_svd_with_np_svd np_uv np_vals t /\ original_svd r = Some (linalg_svd t).
Proof.
  intros np_uv np_vals t n Ht. assert (E : Nat.iter (S n) (replace_tf_svd_with_np_svd np_uv np_vals) t = TF (my_svd np_uv np_vals) (Some (linalg_svd t))).
  { induction n; cbn [Nat.iter nat_rect] in *; [|unfold Nat.iter in IHn; cbn [nat_rect] in IHn; rewrite IHn; reflexivity].
    unfold replace_tf_svd_with_np_svd. now rewrite Ht. }
  cbv zeta. rewrite E. unfold replace_tf_svd_with_np_svd. rewrite Ht. auto.
Qed.
Print Assumptions C64_repeated_calls.

(** Asking for the singular values alone raises, for every matrix and batch of matrices. *)
Theorem C64_values_only_raises : forall np_uv np_vals full t pre m n x, np_vals_ok np_vals -> original_svd t = None ->
  wft x -> shape x = pre ++ [m; n] -> Forall (fun k => 0 < k) (pre ++ [m; n]) ->
  exists e, linalg_svd (replace_tf_svd_with_np_svd np_uv np_vals t) true x full false = Err e.
Proof.
  intros np_uv np_vals full t pre m n x Hn Ht Hw Hs Hp. unfold replace_tf_svd_with_np_svd. rewrite Ht. cbn [linalg_svd]. eapply my_svd_vals_raise; eauto.
Qed.
Print Assumptions C64_values_only_raises.
(** ... so the replacement is not a full substitute: a routine that returns the values, replaced, no longer does. *)
Theorem C64_values_only_refuted : exists np_uv np_vals t x s, np_vals_ok np_vals /\ linalg_svd t true x false false = Ok (SVals s) /\
  linalg_svd (replace_tf_svd_with_np_svd np_uv np_vals t) true x false false = Err ValueError.
Proof.
  set (vals := fun (_ : bool) (x : rtensor) => mk (K := Rring) (firstn (rank x - 2) (shape x) ++ [Nat.min (nth (rank x - 2) (shape x) 0) (nth (rank x - 1) (shape x) 0)]) (fun _ => 0%R)).
  exists (fun _ x => (x, x, x)), vals, (TF (fun _ x f uv => Ok (SVals (vals f x))) None), (ones [1; 1]). eexists. split; [|split; [reflexivity|reflexivity]].
  intros full pre m n x Hw Hs Hp. unfold vals. split; [apply wft_mk|]. rewrite shape_mk. unfold rank. rewrite Hs, app_length. cbn [length].
  replace (length pre + 2 - 2) with (length pre + 0) by lia. rewrite firstn_app_2, app_nth2 by lia. cbn [firstn]. rewrite app_nil_r.
  rewrite app_nth2 by lia. replace (length pre + 0 - length pre) with 0 by lia. replace (length pre + 2 - 1 - length pre) with 1 by lia. reflexivity.
Qed.
Print Assumptions C64_values_only_refuted.

(** In graph mode every call after the replacement raises. *)
Theorem C64_graph_mode_raises : forall np_uv np_vals t x full uv, original_svd t = None ->
  linalg_svd (replace_tf_svd_with_np_svd np_uv np_vals t) false x full uv = Err NotImplementedError.
Proof. intros. unfold replace_tf_svd_with_np_svd. rewrite H. reflexivity. Qed.
Print Assumptions C64_graph_mode_raises.

(** The contract of NumPy's routine can be met. *)
Theorem C64_contract_satisfiable : exists np_uv, np_svd_ok false np_uv.
Proof. apply np_exists. exact Properties_Svd.C29_svd_exists. Qed.
Print Assumptions C64_contract_satisfiable.
Example C64_ex : exists np_uv np_vals t (x : rtensor), np_svd_ok false np_uv /\ original_svd t = None /\ wft x /\ shape x = [2] ++ [3; 4] /\
  svd_ok (svd_call (replace_tf_svd_with_np_svd np_uv np_vals t)).
Proof.
  destruct C64_contract_satisfiable as [np H]. exists np, (fun _ x => x), (TF (fun _ _ _ _ => Err ValueError) None), (ones [2; 3; 4]).
  split; [exact H|]. split; [reflexivity|]. split; [apply wft_mk|]. split; [reflexivity|]. now apply C64_meets_the_contract.
Qed.
