(** C49: variable scopes whose names end with a slash. *)
From Coq Require Import String Ascii List Arith ZArith Lia Bool.
From Verif Require Import Scalar Tensor TensorLemmas Base Spec Chain BaseLemmas Ops Dense Vars VarSpec VarProofs VarThms AssignProofs Samples Properties_Vars.
Import ListNotations.
Local Open Scope nat_scope.
Local Open Scope string_scope.
Local Open Scope list_scope.

(** What the hypothesis [last_is_slash (sname sc) = false] of the theorems on reuse says. *)
Theorem C49_trailing_slash : forall s, last_is_slash s = true <-> exists p, s = (p ++ "/")%string.
Proof.
  intros s. induction s as [|c s IH].
  - cbn. split; [discriminate|]. intros [[|] E]; discriminate.
  - destruct s as [|c' s].
    + cbn. rewrite Ascii.eqb_eq. split.
      * intros ->. exists "". reflexivity.
      * intros [[|x [|y p]] E]; cbn in E; try discriminate. now injection E.
    + change (last_is_slash (String c (String c' s))) with (last_is_slash (String c' s)). rewrite IH. split.
      * intros [p E]. exists (String c p). cbn. now rewrite E.
      * intros [[|x p] E]; cbn in E; [discriminate|]. injection E as _ E. exists p. exact E.
Qed.
Print Assumptions C49_trailing_slash.

Lemma append_slash p name : ((p ++ "/") ++ name)%string = (p ++ "/" ++ name)%string.
Proof. induction p as [|c p IH]; cbn; [reflexivity|]. now rewrite IH. Qed.

(** In such a scope reuse looks for the name with one slash, while variables are created with two. *)
Theorem C49_slash_scope_raises : forall (K : cring) (loss : Type) sc p name dt init regularizer (s : store K loss),
  sreuse sc <> NoReuse -> sname sc = (p ++ "/")%string -> (forall o, In o (coll s) -> obj_name (heap s) o <> (p ++ "/" ++ name)%string) ->
  get_variable false sc name dt init regularizer s = (s, Err ValueError).
Proof.
  intros K loss sc p name dt init reg s HN HP HC. unfold get_variable. replace (truthy (sreuse sc)) with true by (destruct (sreuse sc); auto; contradiction). cbn [orb negb andb].
  replace (last_is_slash (sname sc)) with true by (symmetry; apply C49_trailing_slash; exists p; exact HP). rewrite andb_false_r, HP, append_slash.
  destruct (find _ (coll s)) as [o|] eqn:E; [|reflexivity]. apply find_some in E as [E1 E2]. apply String.eqb_eq in E2. now destruct (HC o E1).
Qed.
Print Assumptions C49_slash_scope_raises.

(** Hence a variable created in such a scope is not found again by reuse in the same scope. *)
Theorem C49_slash_scope_refuted : exists (init : vobj Zring) s1 v, wf (deref [] init) /\
  get_variable false (Scope "net/" NoReuse) "x" None (Some init) no_reg empty_store = (s1, Ok v) /\
  get_variable false (Scope "net/" Reuse) "x" None None no_reg s1 = (s1, Err ValueError) /\
  get_variable false (Scope "net/" AutoReuse) "x" None (Some init) no_reg s1 = (s1, Err ValueError) /\
  (forall o, In o (coll s1) -> obj_name (heap s1) o <> ("net" ++ "/" ++ "x")%string).
Proof.
  exists c_a. do 2 eexists. split; [exact s_a_wf|]. split; [vm_compute; reflexivity|]. split; [vm_compute; reflexivity|]. split; [vm_compute; reflexivity|].
  intros o Ho. destruct Ho as [<-|[]]. vm_compute. discriminate.
Qed.
Print Assumptions C49_slash_scope_refuted.
