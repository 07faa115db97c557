(** Characterising lemmas for the tensor layer. *)
From Coq Require Import String Ascii List Arith ZArith Lia Bool Ring.
From Verif Require Import Scalar Tensor.
Import ListNotations.

#[global] Arguments vidx _ _ : clear implicits.
#[global] Arguments get : simpl never.
#[global] Arguments mk : simpl never.
#[global] Arguments einsum : simpl never.
#[global] Arguments reshape : simpl never.
#[global] Arguments concat : simpl never.

(** *** Lists *)
Lemma length_upd {A} k (v : A) l : length (upd k v l) = length l.
Proof. revert k; induction l; intros [|k]; cbn; auto. Qed.

Lemma nth_upd_same {A} k (v : A) l d : k < length l -> nth k (upd k v l) d = v.
Proof. revert k; induction l; intros [|k] H; cbn in *; try lia; auto. apply IHl; lia. Qed.

Lemma nth_upd_other {A} k j (v : A) l d : j <> k -> nth j (upd k v l) d = nth j l d.
Proof. revert k j; induction l; intros [|k] [|j] H; cbn in *; try lia; auto. Qed.

Lemma upd_upd {A} k (v w : A) l : upd k v (upd k w l) = upd k v l.
Proof. revert k; induction l; intros [|k]; cbn; auto. now rewrite IHl. Qed.

Lemma upd_nth {A} k (l : list A) d : upd k (nth k l d) l = l.
Proof. revert k; induction l; intros [|k]; cbn; auto. now rewrite IHl. Qed.

Lemma list_eqb_refl l : list_eqb l l = true.
Proof. induction l; cbn; auto. now rewrite Nat.eqb_refl. Qed.

Lemma list_eqb_eq l m : list_eqb l m = true <-> l = m.
Proof.
  split; [|intros ->; apply list_eqb_refl].
  revert m; induction l; destruct m; cbn; try discriminate; auto.
  intros H. apply andb_prop in H as [H1 H2]. apply Nat.eqb_eq in H1. f_equal; auto.
Qed.

Lemma llist_eqb_eq l m : llist_eqb l m = true <-> l = m.
Proof.
  split.
  - revert m; induction l; destruct m; cbn; try discriminate; auto.
    intros H. apply andb_prop in H as [H1 H2]. apply list_eqb_eq in H1. f_equal; auto.
  - intros ->. induction m; cbn; auto. now rewrite list_eqb_refl.
Qed.

Lemma llist_eqb_refl l : llist_eqb l l = true.
Proof. now apply llist_eqb_eq. Qed.

Lemma length_map2 {A B C} (f : A -> B -> C) l m : length (map2 f l m) = min (length l) (length m).
Proof. revert m; induction l; destruct m; cbn; auto. Qed.

(** *** Error monad *)
Lemma mapM_ok {A B} (f : A -> res B) (g : A -> B) l :
  (forall x, In x l -> f x = Ok (g x)) -> mapM f l = Ok (map g l).
Proof.
  induction l; cbn; intros H; auto.
  rewrite H by auto. cbn. rewrite IHl by auto. reflexivity.
Qed.

Lemma mapM_seq_ok {B} (f : nat -> res B) n k :
  (forall i, k <= i < k + n -> exists b, f i = Ok b) ->
  exists l, mapM f (seq k n) = Ok l /\ length l = n /\
    forall i d, i < n -> f (k + i) = Ok (nth i l d).
Proof.
  revert k; induction n; intros k H; cbn.
  - exists []. repeat split; auto. lia.
  - destruct (H k) as [b Hb]; [lia|]. rewrite Hb. cbn.
    destruct (IHn (S k)) as (l & Hl & Hlen & Hn).
    { intros i Hi. apply H. lia. }
    rewrite Hl. cbn. exists (b :: l). repeat split; cbn; auto.
    intros [|i] d Hi; [now rewrite Nat.add_0_r|].
    rewrite Nat.add_succ_r. apply (Hn i). lia.
Qed.

Lemma mapM_length {A B} (f : A -> res B) l r : mapM f l = Ok r -> length r = length l.
Proof.
  revert r; induction l; cbn; intros r H; [now injection H as <-|].
  destruct (f a); cbn in H; [|discriminate]. destruct (mapM f l); cbn in H; [|discriminate].
  injection H as <-. cbn. f_equal. auto.
Qed.

Lemma mapM_nth {A B} (f : A -> res B) l r : mapM f l = Ok r ->
  forall i d d', i < length l -> f (nth i l d) = Ok (nth i r d').
Proof.
  revert r; induction l; cbn; intros r H i d d' Hi; [lia|].
  destruct (f a) eqn:Ha; cbn in H; [|discriminate].
  destruct (mapM f l) eqn:Hl; cbn in H; [|discriminate].
  injection H as <-. destruct i; cbn; auto. apply IHl; auto. lia.
Qed.

(** Loop rule: an invariant indexed by the loop variable. *)
Lemma foldM_seq {S} (f : nat -> S -> res S) (I : nat -> S -> Prop) n k s :
  I k s ->
  (forall i s, k <= i < k + n -> I i s -> exists s', f i s = Ok s' /\ I (Datatypes.S i) s') ->
  exists s', foldM f (seq k n) s = Ok s' /\ I (k + n) s'.
Proof.
  revert k s; induction n; intros k s Hk H; cbn.
  - exists s. now rewrite Nat.add_0_r.
  - destruct (H k s) as (s' & Hs' & HI); [lia|auto|]. rewrite Hs'. cbn.
    destruct (IHn (Datatypes.S k) s' HI) as (s'' & H1 & H2).
    { intros i t Hi. apply H. lia. }
    exists s''. split; auto. now rewrite Nat.add_succ_r.
Qed.

(** Loop rule for [reversed(range(n))]. *)
Lemma foldM_rev_seq {S} (f : nat -> S -> res S) (I : nat -> S -> Prop) n s :
  I n s ->
  (forall i s, i < n -> I (Datatypes.S i) s -> exists s', f i s = Ok s' /\ I i s') ->
  exists s', foldM f (rev (seq 0 n)) s = Ok s' /\ I 0 s'.
Proof.
  revert s; induction n; intros s Hk H.
  - cbn. eauto.
  - rewrite seq_S, rev_app_distr. cbn [rev app Nat.add foldM].
    destruct (H n s) as (s' & Hs' & HI); [lia|auto|]. rewrite Hs'. cbn [bind].
    apply IHn; auto.
Qed.

(** *** Shapes and indices *)
Lemma prodn_app a b : prodn (a ++ b) = prodn a * prodn b.
Proof. unfold prodn. induction a; cbn; [lia|]. rewrite IHa. lia. Qed.

Lemma prodn_cons n l : prodn (n :: l) = n * prodn l.
Proof. reflexivity. Qed.

Lemma prodn_nil : prodn [] = 1.
Proof. reflexivity. Qed.

Lemma prodn_pos l : Forall (fun n => 0 < n) l -> 0 < prodn l.
Proof. induction 1; cbn; [lia|]. unfold prodn in *. nia. Qed.

#[global] Arguments prodn : simpl never.
Ltac pn := rewrite ?prodn_app, ?prodn_cons, ?prodn_nil, ?Nat.mul_1_r.
Ltac pnh H := rewrite ?prodn_app, ?prodn_cons, ?prodn_nil, ?Nat.mul_1_r in H.

Lemma vidx_length sh idx : vidx sh idx -> length idx = length sh.
Proof. induction 1; cbn; auto. Qed.

Lemma vidx_app s1 s2 i1 i2 : vidx s1 i1 -> vidx s2 i2 -> vidx (s1 ++ s2) (i1 ++ i2).
Proof. intros. now apply Forall2_app. Qed.

Lemma vidx_nil : vidx [] [].
Proof. constructor. Qed.

Lemma vidx_cons n sh i idx : i < n -> vidx sh idx -> vidx (n :: sh) (i :: idx).
Proof. now constructor. Qed.

Lemma vidx_cons_inv n sh i idx : vidx (n :: sh) (i :: idx) -> i < n /\ vidx sh idx.
Proof. intros H. now inversion H. Qed.

Lemma vidx_app_inv s1 s2 i : vidx (s1 ++ s2) i ->
  exists i1 i2, i = i1 ++ i2 /\ vidx s1 i1 /\ vidx s2 i2.
Proof.
  intros H. apply Forall2_app_inv_r in H as (i1 & i2 & H1 & H2 & ->). eauto.
Qed.

Lemma vidx_1_inv n I : vidx [n] I -> exists i, I = [i] /\ i < n.
Proof. intros H. inversion H as [|? ? ? ? ? H2]; subst. inversion H2; subst. eauto. Qed.

Lemma vidx_2_inv n m I : vidx [n; m] I -> exists i j, I = [i; j] /\ i < n /\ j < m.
Proof.
  intros H. inversion H as [|? ? ? ? ? H2]; subst. inversion H2 as [|? ? ? ? ? H3]; subst.
  inversion H3; subst. eauto.
Qed.

Lemma ravel_lt sh idx : vidx sh idx -> ravel sh idx < prodn sh.
Proof.
  induction 1 as [|i n idx sh Hi H IH]; cbn; [unfold prodn; cbn; lia|].
  rewrite prodn_cons. nia.
Qed.

Lemma ravel_app s1 s2 i1 i2 : length i1 = length s1 ->
  ravel (s1 ++ s2) (i1 ++ i2) = ravel s1 i1 * prodn s2 + ravel s2 i2.
Proof.
  revert i1; induction s1 as [|n s1 IH]; intros [|i i1] H; cbn in H; try lia; cbn [app ravel].
  - lia.
  - rewrite IH by lia. rewrite prodn_app. lia.
Qed.

Lemma unravel_ravel sh idx : vidx sh idx -> unravel sh (ravel sh idx) = idx.
Proof.
  induction 1 as [|i n idx sh Hi H IH]; cbn [unravel ravel]; [reflexivity|].
  pose proof (ravel_lt sh idx H) as Hlt.
  f_equal.
  - rewrite Nat.div_add_l by lia. rewrite Nat.div_small by lia. lia.
  - rewrite Nat.add_comm, Nat.mod_add by lia. rewrite Nat.mod_small by lia. exact IH.
Qed.

Lemma unravel_valid sh k : k < prodn sh -> vidx sh (unravel sh k).
Proof.
  revert k; induction sh as [|n sh IH]; intros k H; cbn [unravel]; [constructor|].
  rewrite prodn_cons in H.
  constructor.
  - apply Nat.div_lt_upper_bound; lia.
  - apply IH. apply Nat.mod_upper_bound. lia.
Qed.

Lemma ravel_unravel sh k : k < prodn sh -> ravel sh (unravel sh k) = k.
Proof.
  revert k; induction sh as [|n sh IH]; intros k H; cbn [unravel ravel].
  - unfold prodn in H. cbn in H. lia.
  - rewrite prodn_cons in H.
    rewrite IH by (apply Nat.mod_upper_bound; lia).
    rewrite (Nat.div_mod k (prodn sh)) at 3 by lia. lia.
Qed.

Lemma ravel_inj sh i j : vidx sh i -> vidx sh j -> ravel sh i = ravel sh j -> i = j.
Proof.
  intros Hi Hj H. rewrite <- (unravel_ravel sh i Hi), <- (unravel_ravel sh j Hj). now rewrite H.
Qed.

Section WithK.
Variable K : cring.
Add Ring Kring : (cth K).

(** A tensor whose data has the length announced by its shape. *)
Definition wft (t : tensor K) : Prop := length (data t) = prodn (shape t).

Lemma wft_mk sh f : wft (mk sh f).
Proof. unfold wft, mk; cbn. now rewrite map_length, seq_length. Qed.

Lemma shape_mk sh (f : list nat -> K) : shape (mk sh f) = sh.
Proof. reflexivity. Qed.

Lemma get_mk sh (f : list nat -> K) idx : vidx sh idx -> get (mk sh f) idx = f idx.
Proof.
  intros H. unfold get, mk; cbn [shape data].
  pose proof (ravel_lt sh idx H) as Hlt.
  rewrite (nth_indep _ c0 (f (unravel sh 0)))
    by (now rewrite map_length, seq_length).
  rewrite (map_nth (fun k => f (unravel sh k))).
  rewrite seq_nth by auto. cbn. now rewrite unravel_ravel.
Qed.

Lemma tensor_ext (a b : tensor K) : wft a -> wft b -> shape a = shape b ->
  (forall idx, vidx (shape a) idx -> get a idx = get b idx) -> a = b.
Proof.
  destruct a as [sa da], b as [sb db]; unfold wft, get; cbn [shape data].
  intros Ha Hb <- H. f_equal.
  apply nth_ext with (d := c0) (d' := c0); [congruence|].
  intros n Hn. rewrite Ha in Hn.
  specialize (H (unravel sa n) (unravel_valid sa n Hn)).
  now rewrite ravel_unravel in H.
Qed.

Lemma mk_ext sh (f g : list nat -> K) :
  (forall idx, vidx sh idx -> f idx = g idx) -> mk sh f = mk sh g.
Proof.
  intros H. apply tensor_ext; auto using wft_mk.
  intros idx Hidx. rewrite !get_mk; auto.
Qed.

Lemma mk_get (t : tensor K) : wft t -> mk (shape t) (get t) = t.
Proof.
  intros H. apply tensor_ext; auto using wft_mk.
  intros idx Hidx. now rewrite get_mk.
Qed.

Lemma get_zeros sh idx : vidx sh idx -> get (zeros sh : tensor K) idx = c0.
Proof. intros. unfold zeros. now rewrite get_mk. Qed.
Lemma get_ones sh idx : vidx sh idx -> get (ones sh : tensor K) idx = c1.
Proof. intros. unfold ones. now rewrite get_mk. Qed.

Lemma wft_tmap f (t : tensor K) : wft t -> wft (tmap f t).
Proof. unfold wft, tmap; cbn. now rewrite map_length. Qed.

Lemma get_tmap f (t : tensor K) idx : wft t -> vidx (shape t) idx ->
  get (tmap f t) idx = f (get t idx).
Proof.
  intros Hw H. unfold get, tmap; cbn [shape data].
  pose proof (ravel_lt _ _ H) as Hlt.
  rewrite (nth_indep _ c0 (f c0)) by (rewrite map_length; unfold wft in Hw; lia).
  now rewrite map_nth.
Qed.

(** Sum over linear positions = sum over multi-indices. *)
Lemma sumn_ravel ns (F : nat -> K) :
  sumn (prodn ns) F = isum ns (fun I => F (ravel ns I)).
Proof.
  revert F; induction ns as [|n ns IH]; intros F.
  - unfold prodn; cbn. ring.
  - rewrite prodn_cons, sumn_prod. cbn [isum]. apply sumn_ext. intros i Hi.
    rewrite IH. reflexivity.
Qed.

Lemma isum_unravel ns (F : list nat -> K) :
  isum ns F = sumn (prodn ns) (fun k => F (unravel ns k)).
Proof.
  rewrite sumn_ravel. apply isum_ext. intros I HI. now rewrite unravel_ravel.
Qed.

(** *** reshape *)
Lemma reshape_exact (t : tensor K) sh : prodn sh = size t ->
  reshape t (map Some sh) = Ok (Tensor sh (data t)).
Proof.
  intros H. unfold reshape.
  assert (E1 : filter (fun d => match d with None => true | _ => false end) (map Some sh) = []).
  { clear. induction sh; cbn; auto. }
  rewrite E1. cbn [length].
  rewrite !map_map.
  assert (E2 : map (fun x : nat => x) sh = sh) by apply map_id.
  rewrite E2, H, Nat.eqb_refl. reflexivity.
Qed.

Lemma reshape_exact_err (t : tensor K) sh : prodn sh <> size t ->
  reshape t (map Some sh) = Err TFError.
Proof.
  intros H. unfold reshape.
  assert (E1 : filter (fun d => match d with None => true | _ => false end) (map Some sh) = []).
  { clear. induction sh; cbn; auto. }
  rewrite E1. cbn [length].
  rewrite !map_map.
  assert (E2 : map (fun x : nat => x) sh = sh) by apply map_id.
  rewrite E2. apply Nat.eqb_neq in H. now rewrite H.
Qed.

(** One -1: [l ++ [-1] ++ r]. *)
Lemma reshape_infer (t : tensor K) l r n :
  0 < prodn l -> 0 < prodn r -> prodn l * n * prodn r = size t ->
  reshape t (map Some l ++ None :: map Some r) = Ok (Tensor (l ++ n :: r) (data t)).
Proof.
  intros Hl Hr H. unfold reshape.
  assert (E1 : forall s, filter (fun d => match d with None => true | _ => false end)
                                (map (@Some nat) s) = []).
  { induction s; cbn; auto. }
  rewrite filter_app. cbn [filter]. rewrite !E1. cbn [app length].
  rewrite !map_app. cbn [map]. rewrite !map_map.
  assert (E2 : forall s : list nat, map (fun x : nat => x) s = s) by apply map_id.
  rewrite !E2. rewrite prodn_app, prodn_cons, Nat.mul_1_l.
  destruct (Nat.eqb_spec (prodn l * prodn r) 0) as [E|E]; [nia|].
  rewrite <- H.
  replace (prodn l * n * prodn r) with (n * (prodn l * prodn r)) by lia.
  rewrite Nat.mod_mul by lia. cbn [Nat.eqb].
  now rewrite Nat.div_mul by lia.
Qed.

Lemma get_reshaped sh d (t : tensor K) idx idx' :
  data t = d -> ravel sh idx = ravel (shape t) idx' -> get (Tensor sh d) idx = get t idx'.
Proof. intros <- H. unfold get. cbn. now rewrite H. Qed.

(** *** concat of two tensors *)
Lemma vidx_nth sh idx k : vidx sh idx -> k < length sh -> nth k idx 0 < nth k sh 0.
Proof.
  intros H. revert k. induction H; intros [|k] Hk; cbn in *; try lia. apply IHForall2. lia.
Qed.

Lemma vidx_upd sh idx k n i : vidx sh idx -> i < n -> vidx (upd k n sh) (upd k i idx).
Proof.
  intros H Hi. revert k. induction H; intros [|k]; cbn; constructor; auto. apply IHForall2.
Qed.

Lemma concat2_ok (a b : tensor K) ax :
  ax < rank a -> upd ax 0 (shape b) = upd ax 0 (shape a) ->
  exists t, concat [a; b] ax = Ok t /\ wft t /\
    shape t = upd ax (nth ax (shape a) 0 + nth ax (shape b) 0) (shape a) /\
    (forall idx, vidx (shape t) idx ->
       get t idx = if Nat.ltb (nth ax idx 0) (nth ax (shape a) 0) then get a idx
                   else get b (upd ax (nth ax idx 0 - nth ax (shape a) 0) idx)).
Proof.
  intros Hax Hsh. unfold concat. cbn [forallb map fold_right].
  apply Nat.ltb_lt in Hax as Hax'. rewrite Hax', Hsh, list_eqb_refl. cbn [andb].
  eexists. split; [reflexivity|]. split; [apply wft_mk|].
  rewrite Nat.add_0_r. split; [reflexivity|].
  intros idx Hidx. rewrite shape_mk in Hidx. rewrite get_mk by auto.
  cbn [concat_get].
  destruct (Nat.ltb_spec (nth ax idx 0) (nth ax (shape a) 0)) as [H1|H1].
  - now rewrite upd_nth.
  - assert (Hn := vidx_nth _ _ ax Hidx).
    rewrite length_upd in Hn. specialize (Hn Hax).
    rewrite nth_upd_same in Hn by auto.
    destruct (Nat.ltb_spec (nth ax idx 0 - nth ax (shape a) 0) (nth ax (shape b) 0)); [reflexivity|lia].
Qed.

End WithK.

Arguments wft {K} _.

Ltac vsolve := unfold vidx; repeat (constructor; try lia).

(** *** einsum

    For a concrete equation string the interpreter computes; what is left is the
    sum written in the string. *)
Ltac ecbv := cbv beta iota zeta delta
  [einsum parse_eq bind bind_all bind_labels lookup lookup0 Ascii.eqb Bool.eqb List.app
   list_ascii_of_string forallb filter negb existsb fst snd map andb orb esum eprod combine
   String.append].
Ltac einsum_step :=
  repeat (progress (ecbv;
    repeat match goal with H : shape ?a = _ |- context [shape ?a] => rewrite H end;
    rewrite ?Nat.eqb_refl)).
Ltac einsum_solve :=
  einsum_step;
  eexists; split; [reflexivity|]; split; [apply wft_mk|]; split; [reflexivity|];
  intros; rewrite get_mk by vsolve; ecbv; try reflexivity.
