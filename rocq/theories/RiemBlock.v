(** The block structure of the results of riemannian.py. *)
From Coq Require Import String Ascii List Arith ZArith Lia Bool Ring Reals.
From Verif Require Import Scalar Tensor TensorLemmas TensorLemmas2 Base Spec Chain BaseLemmas Ops
  FullProofs ResultLemmas Dense AddProofs Sweep FlatProofs OpsR Decomp DecompSpec GaugeProofs OrthProofs TangentProofs Riem.
Import ListNotations.
Local Open Scope nat_scope.
Local Notation get := (@get Rring).
Local Notation core0 := (core0 Rring).
Local Notation train := (nat -> nat -> list nat -> nat -> Rring).
Add Ring Rring' : (cth Rring).

Definition blockG (D U V : train) (q : nat -> nat) (d k a : nat) (j : list nat) (b : nat) : Rring :=
  if Nat.eqb k 0 then (if Nat.ltb b (q 1) then D 0 a j b else U 0 a j (b - q 1))
  else if Nat.eqb k (d - 1) then (if Nat.ltb a (q k) then V k a j b else D k (a - q k) j b)
  else if Nat.ltb a (q k) then (if Nat.ltb b (q (S k)) then V k a j b else 0%K)
  else if Nat.ltb b (q (S k)) then D k (a - q k) j b else U k (a - q k) j (b - q (S k)).

Definition brank (q l : nat -> nat) (d m : nat) : nat := if Nat.eqb m 0 then 1 else if Nat.eqb m d then 1 else q m + l m.

(** Value of a train of blocks. *)
Lemma blockG_chain ms d (D U V : train) (l q r : nat -> nat) J : 2 <= d -> l 0 = 1 -> l d = 1 -> q d = 1 ->
  (forall k, k <= d -> r k = brank q l d k) -> vj ms 0 d J ->
  chain (blockG D U V q d) r 0 J (fun _ => 1%K) 0 = sumn (K := Rring) d (fun m => tterm Rring U V l q m (D m) J).
Proof.
  intros Hd Hl0 Hld Hqd Hr HJ. unfold brank in Hr.
  apply (block_chain Rring ms d U V l q) ; auto; try lia; unfold blockG.
  - rewrite Hr by lia. reflexivity.
  - rewrite Hr by lia. rewrite Nat.eqb_refl. now destruct (d =? 0).
  - intros k Hk. rewrite Hr by lia. destruct (Nat.eqb_spec k 0); [lia|]. destruct (Nat.eqb_spec k d); [lia|]. reflexivity.
  - intros j b Hj Hb. cbn [Nat.eqb]. destruct (Nat.ltb_spec b (q 1)); [reflexivity|lia].
  - intros j b Hj Hb. cbn [Nat.eqb]. destruct (Nat.ltb_spec (q 1 + b) (q 1)); [lia|]. f_equal. lia.
  - intros k a j b Hk Hj Ha Hb. destruct (Nat.eqb_spec k 0); [lia|]. destruct (Nat.eqb_spec k (d - 1)); [lia|].
    destruct (Nat.ltb_spec a (q k)); [|lia]. destruct (Nat.ltb_spec b (q (S k))); [reflexivity|lia].
  - intros k a j b Hk Hj Ha Hb. destruct (Nat.eqb_spec k 0); [lia|]. destruct (Nat.eqb_spec k (d - 1)); [lia|].
    destruct (Nat.ltb_spec a (q k)); [|lia]. destruct (Nat.ltb_spec (q (S k) + b) (q (S k))); [lia|reflexivity].
  - intros k a j b Hk Hj Ha Hb. destruct (Nat.eqb_spec k 0); [lia|]. destruct (Nat.eqb_spec k (d - 1)); [lia|].
    destruct (Nat.ltb_spec (q k + a) (q k)); [lia|]. destruct (Nat.ltb_spec b (q (S k))); [|lia]. f_equal. lia.
  - intros k a j b Hk Hj Ha Hb. destruct (Nat.eqb_spec k 0); [lia|]. destruct (Nat.eqb_spec k (d - 1)); [lia|].
    destruct (Nat.ltb_spec (q k + a) (q k)); [lia|]. destruct (Nat.ltb_spec (q (S k) + b) (q (S k))); [lia|]. f_equal; lia.
  - intros a j Hj Ha. destruct (Nat.eqb_spec (d - 1) 0); [lia|]. rewrite Nat.eqb_refl. destruct (Nat.ltb_spec a (q (d - 1))); [reflexivity|lia].
  - intros a j Hj Ha. destruct (Nat.eqb_spec (d - 1) 0); [lia|]. rewrite Nat.eqb_refl. destruct (Nat.ltb_spec (q (d - 1) + a) (q (d - 1))); [lia|]. f_equal. lia.
Qed.

Lemma dims_of (w : rtt) ob : wf w -> left_dim ob = length (pre_of ob) /\ right_dim ob w = length (pre_of ob) + S (length (rshape w)).
Proof.
  intros Hw. unfold left_dim, right_dim. destruct (wf_kind_cases _ w Hw) as [(-> & -> & _)|(-> & -> & _)]; destruct ob; cbn; auto.
Qed.

Lemma modes_list (w : rtt) i : wf w -> (if is_tt_matrix w then [mode w 0 i; mode w 1 i] else [mode w 0 i]) = modes w i.
Proof. intros Hw. destruct (wf_kind_cases _ w Hw) as [(-> & _ & ->)|(-> & _ & ->)]; reflexivity. Qed.

(** One core of the result. *)
Lemma tangent_core_ok (w : rtt) ob i (l q : nat -> nat) (p el er : rtensor) (D U V : list nat -> train) :
  wf w -> 2 <= ndims w -> i < ndims w -> l 0 = 1 -> l (ndims w) = 1 -> q (ndims w) = 1 ->
  shape p = pre_of ob ++ l i :: modes w i ++ [q (S i)] ->
  shape el = pre_of ob ++ l i :: modes w i ++ [l (S i)] ->
  shape er = pre_of ob ++ q i :: modes w i ++ [q (S i)] ->
  (forall o a j b, vidx (pre_of ob) o -> a < l i -> vidx (modes w i) j -> b < q (S i) -> get p (o ++ a :: j ++ [b]) = D o i a j b) ->
  (forall o a j b, vidx (pre_of ob) o -> a < l i -> vidx (modes w i) j -> b < l (S i) -> get el (o ++ a :: j ++ [b]) = U o i a j b) ->
  (forall o a j b, vidx (pre_of ob) o -> a < q i -> vidx (modes w i) j -> b < q (S i) -> get er (o ++ a :: j ++ [b]) = V o i a j b) ->
  exists c, tangent_core ob w i (q i) (l (S i)) p el er = Ok c /\ wft c /\
    shape c = pre_of ob ++ brank q l (ndims w) i :: modes w i ++ [brank q l (ndims w) (S i)] /\
    forall o a j b, vidx (pre_of ob) o -> a < brank q l (ndims w) i -> vidx (modes w i) j -> b < brank q l (ndims w) (S i) ->
      get c (o ++ a :: j ++ [b]) = blockG (D o) (U o) (V o) q (ndims w) i a j b.
Proof.
  intros Hw Hd Hi Hl0 Hld Hqd Sp Sl Sr Gp Gl Gr. unfold tangent_core. destruct (dims_of w ob Hw) as [-> ->].
  rewrite <- (modes_length _ w i). rewrite modes_list by auto.
  change (match ob with Some b => [b] | None => [] end) with (pre_of ob). unfold brank, blockG.
  destruct (Nat.eqb_spec i 0) as [->|Hi0].
  - rewrite Hl0 in *. destruct (concat_right Rring p el (pre_of ob) 1 (modes w 0) (q 1) (l 1) Sp Sl) as (t & Et & Wt & St & Gt).
    exists t. split; [exact Et|]. split; [exact Wt|]. destruct (Nat.eqb_spec 1 (ndims w)); [lia|]. cbn [Nat.eqb]. split; [exact St|].
    intros o a j b Ho Ha Hj Hb. rewrite Gt by auto. destruct (Nat.ltb_spec b (q 1)); [now apply Gp|]. apply Gl; auto; lia.
  - destruct (Nat.eqb_spec i (ndims w)) as [|_]; [lia|]. destruct (Nat.eqb_spec i (ndims w - 1)) as [E|E].
    + assert (ES : S i = ndims w) by lia. rewrite ES in *. rewrite Nat.eqb_refl. destruct (Nat.eqb_spec (ndims w) 0); [lia|].
      rewrite Hqd, ?Hld in *.
      destruct (concat_left Rring er p (pre_of ob) (modes w i ++ [1]) (q i) (l i) Sr Sp) as (t & Et & Wt & St & Gt).
      exists t. split; [exact Et|]. split; [exact Wt|]. split; [exact St|].
      intros o a j b Ho Ha Hj Hb. rewrite Gt; auto.
      2:{ apply vidx_app; auto. vsolve. }
      destruct (Nat.ltb_spec a (q i)); [now apply Gr|]. apply Gp; auto; lia.
    + destruct (Nat.eqb_spec (S i) 0); [lia|]. destruct (Nat.eqb_spec (S i) (ndims w)); [lia|].
      destruct (concat_right Rring er (zeros (pre_of ob ++ q i :: modes w i ++ [l (S i)])) (pre_of ob) (q i) (modes w i) (q (S i)) (l (S i)) Sr eq_refl)
        as (u & Eu & Wu & Su & Gu).
      rewrite Eu. cbn [bind].
      destruct (concat_right Rring p el (pre_of ob) (l i) (modes w i) (q (S i)) (l (S i)) Sp Sl) as (v & Ev & Wv & Sv & Gv).
      rewrite Ev. cbn [bind].
      destruct (concat_left Rring u v (pre_of ob) (modes w i ++ [q (S i) + l (S i)]) (q i) (l i) Su Sv) as (t & Et & Wt & St & Gt).
      exists t. split; [exact Et|]. split; [exact Wt|]. split; [exact St|].
      intros o a j b Ho Ha Hj Hb. rewrite Gt; auto.
      2:{ apply vidx_app; auto. vsolve. }
      destruct (Nat.ltb_spec a (q i)).
      * rewrite Gu by auto. destruct (Nat.ltb_spec b (q (S i))); [now apply Gr|].
        apply get_zeros. apply vidx_app; auto. apply vidx_cons; auto. apply vidx_app; auto. vsolve.
      * rewrite Gv by (auto; lia). destruct (Nat.ltb_spec b (q (S i))); [apply Gp|apply Gl]; auto; lia.
Qed.

(** A core repeated along the batch axis. *)
Lemma extend_core_ok ob (c : rtensor) s : wft c -> shape c = s -> exists e, extend_core ob c = Ok e /\ wft e /\ shape e = pre_of ob ++ s /\
  forall o idx, vidx (pre_of ob) o -> vidx s idx -> get e (o ++ idx) = get c idx.
Proof.
  intros Hw Hs. unfold extend_core. destruct ob as [B|]; cbn [pre_of app].
  - destruct (tile_batch Rring (expand_dims c 0) s B) as (t & Et & Wt & St & Gt).
    + unfold wft in *. unfold expand_dims. cbn [data shape firstn skipn app]. rewrite Hw. pns. cbn [app]. pns. lia.
    + unfold expand_dims. cbn. now rewrite Hs.
    + unfold rank. rewrite Hs. exists t. split; [exact Et|]. split; [exact Wt|]. split; [exact St|].
      intros o idx Ho Hi. apply vidx_1_inv in Ho as (x & -> & Hx). cbn [app]. rewrite Gt by auto.
      unfold Tensor.get, expand_dims. cbn. reflexivity.
  - exists c. split; [reflexivity|]. split; [exact Hw|]. split; [exact Hs|]. intros o idx Ho _. inversion Ho. reflexivity.
Qed.
Lemma nthr_ranks (t : rtt) k : wf t -> k <= ndims t -> nthr (lazy_tt_ranks t) k = Ok (rk t k).
Proof. intros Hw Hk. unfold lazy_tt_ranks, rk. apply nthr_nth. rewrite (wf_klen Hw). lia. Qed.

Lemma nthr_core (t : rtt) k : k < ndims t -> nthr (cores t) k = Ok (core t k).
Proof. intros Hk. unfold core. now apply nthr_nth. Qed.

(** The whole object. *)
Section Assemble.
Variables (w l r : rtt) (ob : option nat) (D : list nat -> train).
Hypotheses (Hw : wf w) (Hl : wf l) (Hr : wf r).
Hypotheses (Rl : rshape l = rshape w) (Rr : rshape r = rshape w).
Hypotheses (Bl : bsz l = None) (Br : bsz r = None).
Hypotheses (Nl : ndims l = ndims w) (Nr : ndims r = ndims w).
Hypothesis Hd : 2 <= ndims w.
Hypothesis Hob : Forall (fun n => 0 < n) (pre_of ob).

(** What is known about the result. *)
Definition blocks (t : rtt) : Prop :=
  wf t /\ rshape t = rshape w /\ bsz t = ob /\ ndims t = ndims w /\
  (forall k, k <= ndims w -> rk t k = brank (rk r) (rk l) (ndims w) k) /\
  (forall o k a j b, vidx (pre_of ob) o -> k < ndims w -> a < rk t k -> vidx (modes w k) j -> b < rk t (S k) ->
     coreG t o k a j b = blockG (D o) (coreG l []) (coreG r []) (rk r) (ndims w) k a j b).

Lemma blocks_entry t o J : blocks t -> vidx (pre_of ob) o -> vj (modes w) 0 (ndims w) J ->
  tt_entry t o J = sumn (K := Rring) (ndims w) (fun m => tterm Rring (coreG l []) (coreG r []) (rk l) (rk r) m (D o m) J).
Proof.
  intros (Wt & Rt & Bt & Nt & Kt & Gt) Ho HJ. destruct HJ as [HJ LJ]. rewrite Nat.sub_0_r in LJ.
  rewrite (tt_entry_cores Rring t o J (blockG (D o) (coreG l []) (coreG r []) (rk r) (ndims w))).
  - apply (blockG_chain (modes w)); auto.
    + apply (wf_first Hl).
    + rewrite <- Nl. apply (wf_last Hl).
    + rewrite <- Nr. apply (wf_last Hr).
    + split; auto. lia.
  - exact Wt.
  - apply (vchain_ext (modes w)); auto. intros i. now apply modes_ext.
  - congruence.
  - intros k a j b Hk Ha Hj Hb. apply Gt; auto; try lia. rewrite <- (modes_ext _ t w); auto.
Qed.

Variable proj : nat -> res rtensor.
Hypothesis Hproj : forall i, i < ndims w -> exists p, proj i = Ok p /\ shape p = pre_of ob ++ rk l i :: modes w i ++ [rk r (S i)] /\
  forall o a j b, vidx (pre_of ob) o -> a < rk l i -> vidx (modes w i) j -> b < rk r (S i) -> get p (o ++ a :: j ++ [b]) = D o i a j b.

Definition assemble_body (i : nat) : res rtensor :=
  do p <- proj i;
  do lc <- nthr (cores l) i;
  do rc <- nthr (cores r) i;
  do el <- extend_core ob lc;
  do er <- extend_core ob rc;
  do zl <- nthr (lazy_tt_ranks r) i;
  do zr <- nthr (lazy_tt_ranks l) (S i);
  tangent_core ob w i zl zr p el er.

Lemma body_ok i : i < ndims w -> exists c, assemble_body i = Ok c /\ wft c /\
    shape c = pre_of ob ++ brank (rk r) (rk l) (ndims w) i :: modes w i ++ [brank (rk r) (rk l) (ndims w) (S i)] /\
    forall o a j b, vidx (pre_of ob) o -> a < brank (rk r) (rk l) (ndims w) i -> vidx (modes w i) j -> b < brank (rk r) (rk l) (ndims w) (S i) ->
      get c (o ++ a :: j ++ [b]) = blockG (D o) (coreG l []) (coreG r []) (rk r) (ndims w) i a j b.
Proof.
  intros Hi. unfold assemble_body. destruct (Hproj i Hi) as (p & Ep & Sp & Gp). rewrite Ep. cbn [bind].
  rewrite !nthr_core by lia. cbn [bind].
  pose proof (core_shape _ l i Hl ltac:(lia)) as Sl. unfold bpre in Sl. rewrite Bl in Sl. cbn [app] in Sl. rewrite (modes_ext _ l w i Rl) in Sl.
  pose proof (core_shape _ r i Hr ltac:(lia)) as Sr. unfold bpre in Sr. rewrite Br in Sr. cbn [app] in Sr. rewrite (modes_ext _ r w i Rr) in Sr.
  destruct (extend_core_ok ob (core l i) _ (core_wft _ l i Hl ltac:(lia)) Sl) as (el & Eel & Wel & Sel & Gel). rewrite Eel. cbn [bind].
  destruct (extend_core_ok ob (core r i) _ (core_wft _ r i Hr ltac:(lia)) Sr) as (er & Eer & Wer & Ser & Ger). rewrite Eer. cbn [bind].
  rewrite !nthr_ranks by (auto; lia). cbn [bind].
  apply (tangent_core_ok w ob i (rk l) (rk r) p el er D (fun _ => coreG l []) (fun _ => coreG r [])); auto.
  - apply (wf_first Hl).
  - rewrite <- Nl. apply (wf_last Hl).
  - rewrite <- Nr. apply (wf_last Hr).
  - intros o a j b Ho Ha Hj Hb. rewrite Gel; [reflexivity|auto|]. apply vidx_cons; auto. apply vidx_app; auto. vsolve.
  - intros o a j b Ho Ha Hj Hb. rewrite Ger; [reflexivity|auto|]. apply vidx_cons; auto. apply vidx_app; auto. vsolve.
Qed.

Definition branks : list nat := map (brank (rk r) (rk l) (ndims w)) (seq 0 (S (ndims w))).
Lemma branks_nth k : k <= ndims w -> nth k branks 0 = brank (rk r) (rk l) (ndims w) k.
Proof.
  intros Hk. unfold branks. rewrite (nth_map_default _ (seq 0 (S (ndims w))) k 0) by (rewrite seq_length; lia). rewrite seq_nth by lia. reflexivity.
Qed.

(** [finish] for given cores; [SNone] in deltas_to_tangent_space. *)
Lemma cores_ok : exists cs, result_cores ob w l r proj = Ok cs /\ wf (TT cs (rshape w) branks ob) /\ blocks (TT cs (rshape w) branks ob).
Proof.
  destruct (build_ok Rring assemble_body (fun i c => 
     forall o a j b, vidx (pre_of ob) o -> a < brank (rk r) (rk l) (ndims w) i -> vidx (modes w i) j -> b < brank (rk r) (rk l) (ndims w) (S i) ->
      get c (o ++ a :: j ++ [b]) = blockG (D o) (coreG l []) (coreG r []) (rk r) (ndims w) i a j b) (ndims w) ob (rshape w) branks)
    as (cs & Ecs & Lcs & _ & Wt & HP).
  - lia.
  - apply Hw.
  - apply Hw.
  - unfold branks. now rewrite map_length, seq_length.
  - rewrite branks_nth by lia. reflexivity.
  - rewrite branks_nth by lia. unfold brank. rewrite Nat.eqb_refl. now destruct (ndims w =? 0).
  - apply Hw.
  - unfold branks. apply Forall_forall. intros x Hx. apply in_map_iff in Hx as (k & <- & Hk). apply in_seq in Hk. unfold brank.
    destruct (Nat.eqb_spec k 0); [lia|]. destruct (Nat.eqb_spec k (ndims w)); [lia|]. pose proof (rk_pos _ r k Hr ltac:(lia)). lia.
  - exact Hob.
  - intros i Hi. destruct (body_ok i Hi) as (c & Ec & Wc & Sc & Gc). exists c. split; [exact Ec|]. split; [exact Wc|].
    rewrite !branks_nth by lia. split; [exact Sc|exact Gc].
  - exists cs. split; [exact Ecs|]. split; [exact Wt|].
    split; [exact Wt|]. split; [reflexivity|]. split; [reflexivity|]. split; [exact Lcs|]. split.
    + intros k Hk. unfold rk. cbn [rks]. apply branks_nth. auto.
    + intros o k a j b Ho Hk Ha Hj Hb. unfold rk in Ha, Hb. cbn [rks] in Ha, Hb. rewrite branks_nth in Ha, Hb by lia.
      unfold coreG, core. cbn [cores]. apply HP; auto.
Qed.

Lemma assemble_ok addr : exists t, (do cs <- result_cores ob w l r proj; finish ob addr w cs) = Ok (Proj t (Some addr)) /\ blocks t.
Proof.
  destruct cores_ok as (cs & Ecs & Wt & Bt). exists (TT cs (rshape w) branks ob). split; [|exact Bt]. rewrite Ecs. cbn [bind].
  pose proof (construct_infer _ Wt) as HT. unfold finish. unfold bpre in HT. cbn [bsz cores rshape] in HT.
  destruct ob as [B|]; rewrite HT; reflexivity.
Qed.
End Assemble.
