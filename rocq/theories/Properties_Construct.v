(** C21, C22, C23, C51: constructors, shape arguments, batch dimension, cast. *)
From Coq Require Import String List Arith ZArith Lia Bool Ring Reals.
From Verif Require Import Scalar Tensor TensorLemmas Base Spec BaseLemmas Ops ResultLemmas Dense
  ConstructProofs MiscProofs Samples.
Import ListNotations.

(** C21.  [sized] and [consistent] are defined in ConstructProofs.v from the shapes of the
    cores only.  If everything given has the right size, the constructor accepts exactly
    the consistent cores, and otherwise raises ValueError. *)
Theorem C21_TensorTrain : forall (K : cring) (cs : list (tensor K)) sh clean ranks,
  clean_raw_shape sh = Ok clean -> sized 0 cs clean ranks ->
  (consistent 0 cs clean ranks None ->
     exists t, TensorTrain cs sh ranks = Ok t /\ cores t = cs /\ bsz t = None /\ ndims t = length cs /\ describes 0 t) /\
  (~ consistent 0 cs clean ranks None -> TensorTrain cs sh ranks = Err ValueError).
Proof.
  intros K cs sh clean ranks Hc Hz. destruct (TensorTrain_iff K cs sh clean ranks Hc Hz) as [A B].
  split; [|exact B]. intros H. eexists. split; [exact (A H)|]. do 3 (split; [reflexivity|]).
  now apply (describes_ok K 0 cs clean ranks None None).
Qed.
Print Assumptions C21_TensorTrain.

Theorem C21_TensorTrainBatch : forall (K : cring) (cs : list (tensor K)) sh clean ranks bs,
  clean_raw_shape sh = Ok clean -> sized 1 cs clean ranks ->
  (consistent 1 cs clean ranks bs ->
     exists t b, TensorTrainBatch cs sh ranks bs = Ok t /\ cores t = cs /\ bsz t = Some b /\ describes 1 t /\
       (forall c, nth_error cs 0 = Some c -> nth 0 (shape c) 0 = b)) /\
  (~ consistent 1 cs clean ranks bs -> TensorTrainBatch cs sh ranks bs = Err ValueError).
Proof.
  intros K cs sh clean ranks bs Hc Hz. destruct (TensorTrainBatch_iff K cs sh clean ranks bs Hc Hz) as [A B].
  split; [|exact B]. intros H. do 2 eexists. split; [exact (A H)|]. do 2 (split; [reflexivity|]).
  split; [now apply (describes_ok K 1 cs clean ranks bs)|]. intros c E.
  destruct bs as [b|].
  - destruct H as (_ & _ & _ & _ & H & _). now apply (H b 0).
  - now rewrite (nth_error_nth _ _ (core0 K) E).
Qed.
Print Assumptions C21_TensorTrainBatch.

(** Whatever is given, an accepted object has cores that chain. *)
Theorem C21_accepted_is_consistent : forall (K : cring) (cs : list (tensor K)) sh ranks,
  (forall t, TensorTrain cs sh ranks = Ok t ->
     cs <> [] /\ cores t = cs /\ exists clean, clean_raw_shape sh = Ok clean /\ consistent 0 cs clean ranks None) /\
  (forall bs t, TensorTrainBatch cs sh ranks bs = Ok t ->
     cs <> [] /\ cores t = cs /\ exists clean, clean_raw_shape sh = Ok clean /\ consistent 1 cs clean ranks bs).
Proof.
  intros K cs sh ranks. split.
  - intros t H. apply TensorTrain_inv in H as (clean & A & B & C & D & _). eauto.
  - intros bs t H. apply TensorTrainBatch_inv in H as (clean & b & A & B & C & D & _). eauto.
Qed.
Print Assumptions C21_accepted_is_consistent.

(** Every well-formed object is accepted back by its constructor, and gets the same
    description. *)
Theorem C21_wf_accepted : forall (K : cring) (t : tt K), wf t ->
  match bsz t with
  | None => TensorTrain (cores t) SNone None = Ok t /\ TensorTrain (cores t) (STuple (rshape t)) (Some (rks t)) = Ok t
  | Some b => TensorTrainBatch (cores t) SNone None None = Ok t /\
              TensorTrainBatch (cores t) (STuple (rshape t)) (Some (rks t)) (Some b) = Ok t
  end.
Proof.
  intros K t Hw. pose proof (wf_shaped K t Hw) as S. unfold bpre in S.
  assert (Ne : rshape t <> []) by (destruct (wf_kind Hw) as [E|E]; intros X; rewrite X in E; discriminate).
  pose proof (wf_d Hw) as Hd. pose proof (wf_rlen Hw). pose proof (wf_klen Hw). pose proof (wf_first Hw). pose proof (wf_last Hw).
  destruct t as [c s r b]. unfold ndims, rk in *. cbn [bsz cores rshape rks] in *. destruct b as [b|]; split.
  - now apply TensorTrainBatch_infer_ok; auto.
  - now apply TensorTrainBatch_ok.
  - now apply TensorTrain_infer_ok.
  - now apply TensorTrain_ok.
Qed.
Print Assumptions C21_wf_accepted.

Example C21_ex : sized 0 (cores s_a) (Some [[2;3;2]]) (Some [1;2;2;1]) /\
  consistent 0 (cores s_a) (Some [[2;3;2]]) (Some [1;2;2;1]) None /\
  sized 0 (cores s_a) (Some [[2;3;2]]) (Some [1;2;3;1]) /\
  ~ consistent 0 (cores s_a) (Some [[2;3;2]]) (Some [1;2;3;1]) None /\
  sized 1 (cores s_b3) None None /\ consistent 1 (cores s_b3) None None None.
Proof.
  assert (A : sized 0 (cores s_a) (Some [[2;3;2]]) (Some [1;2;2;1])).
  { repeat split; try discriminate.
    - intros c [<-|[<-|[<-|[]]]]; cbn; lia.
    - injection H as <-. intros s [<-|[]]. reflexivity.
    - injection H as <-. intros c [<-|[<-|[<-|[]]]]; cbn; lia.
    - intros rs E. now injection E as <-. }
  split; [exact A|]. split; [|split; [|split; [|split]]].
  - apply (cores_valid_inv Zring). vm_compute. reflexivity.
  - destruct A as (A1 & A2 & A3 & A4). split; [exact A1|]. split; [exact A2|]. split; [exact A3|]. intros rs E. now injection E as <-.
  - intros (_ & _ & _ & _ & _ & _ & H). specialize (H _ 1 _ _ _ eq_refl eq_refl eq_refl eq_refl) as [_ H]. vm_compute in H. discriminate.
  - repeat split; try discriminate. intros c [<-|[<-|[]]]; cbn; lia.
  - apply (cores_valid_inv Zring). vm_compute. reflexivity.
Qed.

(** What the constructors accept although it is not consistent with what is given: cores with
    three axes together with the shape of a TT-matrix (the rank axis is compared with the
    column modes), a shape or ranks with more entries than cores, and batches whose cores
    have different batch sizes. *)
Theorem C21_matrix_shape_refuted : exists (cs : list (tensor Zring)) t,
  TensorTrain cs (STuple [[2;2];[1;1]]) None = Ok t /\ is_tt_matrix t = true /\ Forall (fun c => rank c = 3) cs.
Proof.
  exists (cores s_t2). eexists. split; [vm_compute; reflexivity|]. split; [reflexivity|]. repeat constructor.
Qed.
Print Assumptions C21_matrix_shape_refuted.

Theorem C21_extra_entries_refuted : exists (cs : list (tensor Zring)) t,
  TensorTrain cs (STuple [[2;2;7]]) (Some [1;1;1;5]) = Ok t /\ length cs = 2 /\ get_shape t = [2;2;7] /\ rks t = [1;1;1;5].
Proof. exists (cores s_t2). eexists. split; [vm_compute; reflexivity|]. repeat split. Qed.
Print Assumptions C21_extra_entries_refuted.

Theorem C21_batch_sizes_refuted : exists (cs : list (tensor Zring)) t c0 c1,
  TensorTrainBatch cs SNone None None = Ok t /\ cs = [c0; c1] /\ nth 0 (shape c0) 0 <> nth 0 (shape c1) 0.
Proof.
  exists [zt [1;1;2;1]%nat [3;1]%Z; zt [2;1;2;1]%nat [3;1;0;0]%Z]. do 3 eexists.
  split; [vm_compute; reflexivity|]. split; [reflexivity|]. discriminate.
Qed.
Print Assumptions C21_batch_sizes_refuted.

(** A malformed input that raises IndexError instead of ValueError: fewer mode sizes than cores. *)
Theorem C21_short_shape_refuted : exists (cs : list (tensor Zring)),
  TensorTrain cs (STuple [[2]]) None = Err IndexError.
Proof. exists (cores s_t2). vm_compute. reflexivity. Qed.
Print Assumptions C21_short_shape_refuted.

(** C22.  With two or more cores all ways of writing a shape mean the same. *)
Theorem C22_shape_arguments_partial : forall (K : cring) (cs : list (tensor K)) ranks bs (l r : list nat),
  2 <= length l -> length r = length l ->
  (TensorTrain cs (SList l) ranks = TensorTrain cs (STensorShape l) ranks /\
   TensorTrain cs (STuple [l]) ranks = TensorTrain cs (STensorShape l) ranks /\
   TensorTrain cs (SList2 [l]) ranks = TensorTrain cs (STensorShape l) ranks /\
   TensorTrain cs (SList2 [l; r]) ranks = TensorTrain cs (STuple [l; r]) ranks) /\
  (TensorTrainBatch cs (SList l) ranks bs = TensorTrainBatch cs (STensorShape l) ranks bs /\
   TensorTrainBatch cs (STuple [l]) ranks bs = TensorTrainBatch cs (STensorShape l) ranks bs /\
   TensorTrainBatch cs (SList2 [l; r]) ranks bs = TensorTrainBatch cs (STuple [l; r]) ranks bs).
Proof.
  intros K cs ranks bs l r Hl Hr. unfold TensorTrain, TensorTrainBatch.
  destruct l as [|x [|y l]]; cbn [length] in *; try lia.
  assert (E1 : clean_raw_shape (SList (x :: y :: l)) = Ok (Some [x :: y :: l])) by reflexivity.
  assert (E2 : clean_raw_shape (SList2 [x :: y :: l; r]) = Ok (Some [x :: y :: l; r])).
  { unfold clean_raw_shape, np_squeeze. cbn [forallb length]. rewrite Hr, !Nat.eqb_refl. reflexivity. }
  assert (E3 : clean_raw_shape (SList2 [x :: y :: l]) = Ok (Some [x :: y :: l])).
  { unfold clean_raw_shape, np_squeeze. cbn [forallb length]. rewrite !Nat.eqb_refl. reflexivity. }
  rewrite E1, E2, E3. repeat split.
Qed.
Print Assumptions C22_shape_arguments_partial.

(** the pair of lists describes a TT-matrix, the list a TT-tensor *)
Theorem C22_kind : forall (K : cring) (cs : list (tensor K)) ranks (l r : list nat) t,
  2 <= length l -> length r = length l ->
  (TensorTrain cs (SList l) ranks = Ok t -> is_tt_matrix t = false /\ get_shape t = l) /\
  (TensorTrain cs (SList2 [l; r]) ranks = Ok t -> is_tt_matrix t = true /\ get_shape t = [prodn l; prodn r]).
Proof.
  intros K cs ranks l r t Hl Hr. destruct (C22_shape_arguments_partial K cs ranks None l r Hl Hr) as [(-> & _ & _ & ->) _].
  unfold TensorTrain. cbn [clean_raw_shape bind]. split; intros H;
    match type of H with bind ?x _ = _ => destruct x as [[|]|]; cbn [bind negb] in H; try discriminate end; injection H as <-; now split.
Qed.
Print Assumptions C22_kind.

Example C22_ex : exists t, TensorTrain (cores s_m) (SList2 [[2;3];[2;2]]) None = Ok t /\ get_shape t = [6;4].
Proof. eexists. split; [vm_compute; reflexivity|reflexivity]. Qed.

(** With one core a list of one number raises TypeError, and a pair of one-element lists is
    taken for the shape of a TT-tensor with two cores (so the TT-matrix is rejected). *)
Theorem C22_one_core_refuted : exists (cs : list (tensor Zring)) t n,
  TensorTrain cs (STensorShape [n]) None = Ok t /\ TensorTrain cs (SList [n]) None = Err TypeError.
Proof. exists (cores s_one). eexists. exists 2. split; vm_compute; reflexivity. Qed.
Print Assumptions C22_one_core_refuted.

Theorem C22_one_core_matrix_refuted : exists (cs : list (tensor Zring)) t n m er,
  TensorTrain cs (STuple [[n]; [m]]) None = Ok t /\ is_tt_matrix t = true /\
  clean_raw_shape (SList2 [[n]; [m]]) = Ok (Some [[n; m]]) /\
  TensorTrain cs (SList2 [[n]; [m]]) (Some (rks t)) = Ok er /\ is_tt_matrix er = false.
Proof.
  exists [zt [1;2;3;1]%nat [1;2;3;4;5;6]%Z]. eexists. exists 2, 3. eexists. split; [vm_compute; reflexivity|].
  repeat split; vm_compute; reflexivity.
Qed.
Print Assumptions C22_one_core_matrix_refuted.

(** C23 *)
Theorem C23_expand : forall (K : cring) (t : tt K), wf t -> bsz t = None ->
  exists e d de, expand_batch_dim t = Ok e /\ wf e /\ bsz e = Some 1 /\ rshape e = rshape t /\ rks e = rks t /\
    full t = Ok d /\ full e = Ok de /\ shape de = 1 :: shape d /\ (forall i, vidx (shape d) i -> get de (0 :: i) = get d i) /\
    squeeze_batch_dim e = Ok t.
Proof.
  intros K t Hw Hb. destruct (expand_get K t Hw Hb) as (e & A & B & C & _ & D & D' & (d & de & E & F & G & H) & I).
  exists e, d, de. repeat (split; [assumption|]). exact I.
Qed.
Print Assumptions C23_expand.

Theorem C23_squeeze : forall (K : cring) (t : tt K), wf t ->
  (bsz t = Some 1 -> exists e d de, squeeze_batch_dim t = Ok e /\ wf e /\ bsz e = None /\ rshape e = rshape t /\ rks e = rks t /\ full t = Ok d /\ full e = Ok de /\
    shape d = 1 :: shape de /\ forall i, vidx (shape de) i -> get de i = get d (0 :: i)) /\
  (bsz t <> Some 1 -> squeeze_batch_dim t = Ok t) /\ (bsz t <> None -> expand_batch_dim t = Ok t).
Proof.
  intros K t Hw. split; [now apply squeeze_full|]. split; [apply squeeze_id|apply expand_id].
Qed.
Print Assumptions C23_squeeze.

Example C23_ex : wf s_a /\ bsz s_a = None /\ wf s_b1 /\ bsz s_b1 = Some 1 /\
  exists e, squeeze_batch_dim s_b1 = Ok e /\ (do d <- full e; Ok (data d)) = Ok [3;15;-2;-10]%Z.
Proof.
  split; [exact s_a_wf|]. split; [reflexivity|]. split; [exact s_b1_wf|]. split; [reflexivity|].
  eexists. split; vm_compute; reflexivity.
Qed.

(** C51 *)
Theorem C51_cast : forall (K L : cring) (f : K -> L) (t : tt K), wf t ->
  exists c, cast f t = Ok c /\ wf c /\ rshape c = rshape t /\ rks c = rks t /\ bsz c = bsz t /\ ndims c = ndims t /\
    forall k idx, k < ndims t -> vidx (shape (core t k)) idx ->
      shape (core c k) = shape (core t k) /\ get (core c k) idx = f (get (core t k) idx).
Proof.
  intros K L f t Hw. destruct (cast_ok K L f t Hw) as (c & E & Wc & R & Rk & B & N & C).
  exists c. repeat (split; [assumption|]). intros k idx Hk Hi. rewrite C by auto. split; [reflexivity|].
  apply get_map; auto. apply (wf_core Hw k Hk).
Qed.
Print Assumptions C51_cast.

(** A conversion that respects 0, 1, + and * (such as the inclusion of the integers in the
    reals) commutes with [full]. *)
Theorem C51_cast_full : forall (K L : cring) (f : K -> L) (t : tt K), wf t ->
  f c0 = c0 -> f c1 = c1 -> (forall x y, f (x + y)%K = (f x + f y)%K) -> (forall x y, f (x * y)%K = (f x * f y)%K) ->
  exists c, cast f t = Ok c /\ elementwise1 f t c.
Proof. intros. now apply cast_full. Qed.
Print Assumptions C51_cast_full.

Example C51_ex : wf s_a /\ exists c : tt Rring, cast (K := Zring) (L := Rring) IZR s_a = Ok c /\ elementwise1 (K := Zring) (L := Rring) IZR s_a c.
Proof.
  split; [exact s_a_wf|]. apply (C51_cast_full Zring Rring IZR s_a s_a_wf); try reflexivity; [exact plus_IZR|exact mult_IZR].
Qed.
