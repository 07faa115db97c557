(** project and project_sum in terms of the projector of TangentProofs.v. *)
From Coq Require Import String Ascii List Arith ZArith Lia Bool Ring Reals.
From Verif Require Import Scalar Tensor TensorLemmas TensorLemmas2 Base Spec Chain BaseLemmas Ops
  FullProofs ResultLemmas Dense AddProofs Sweep FlatProofs GatherProofs OpsR ScaleProofs Decomp DecompSpec GaugeProofs OrthProofs OrthNorm
  ReduceSumProofs InitProofs TangentProofs Riem RiemBlock RiemProofs.
Import ListNotations.
Local Open Scope nat_scope.
Local Notation get := (@get Rring).
Local Notation core0 := (core0 Rring).
Local Notation train := (nat -> nat -> list nat -> nat -> Rring).
Local Notation fn := (list (list nat) -> Rring).
Add Ring Rring' : (cth Rring).

(** The projector given by a frame. *)
Definition fproj (w l r : rtt) (F : fn) (J : list (list nat)) : Rring :=
  proj Rring (modes w) (ndims w) (coreG l []) (coreG r []) (rk l) (rk r) F J.
Definition fdelta (w l r : rtt) (F : fn) : train :=
  delta_of Rring (modes w) (ndims w) (coreG l []) (coreG r []) (rk l) (rk r) F.
Definition vJ (w : rtt) (J : list (list nat)) : Prop := vj (modes w) 0 (ndims w) J.

(** [t] is a block train whose elements are the projections of the functions [F o]. *)
Definition projection_of (w l r : rtt) (ob : option nat) (F : list nat -> fn) (t : rtt) : Prop :=
  exists F', blocks w l r ob (fun o => fdelta w l r (F' o)) t /\
    forall o J, vidx (pre_of ob) o -> vJ w J -> F' o J = F o J.

Section Th.
Variables (w l r : rtt).
Hypothesis Hw : wf w.
Hypothesis HF : is_frame w l r.
Hypothesis Hd : 2 <= ndims w.
Local Notation d := (ndims w).
Local Notation ms := (modes w).
Local Notation U := (coreG l []).
Local Notation V := (coreG r []).
Local Notation lk := (rk l).
Local Notation qk := (rk r).
Let d0 : 0 < d := fr_d0 w Hd.
Let l0 := fr_l0 w l r HF.
Let ld := fr_ld w l r HF.
Let qd := fr_qd w l r HF.

Lemma cf_sum m n k (c : nat -> Rring) (F : nat -> fn) a e M :
  cf Rring ms d U V lk qk m n (fun J => sumn k (fun s => c s * F s J)%K) a e M = sumn k (fun s => c s * cf Rring ms d U V lk qk m n (F s) a e M)%K.
Proof.
  unfold cf. rewrite (sumn_ext Rring k _ (fun s => js Rring ms 0 m (fun I => js Rring ms n d (fun I' => c s * (lv U lk I a * rv Rring V qk n I' e * F s (I ++ M ++ I')))))%K).
  2:{ intros s Hs. rewrite <- js_mul_l. apply js_ext. intros I _. now rewrite <- js_mul_l. }
  rewrite <- js_sumn. apply js_ext. intros I _. rewrite <- js_sumn. apply js_ext. intros I' _. rewrite <- sumn_mul_l. apply sumn_ext. intros. ring.
Qed.
Lemma fdelta_sum k (c : nat -> Rring) (F : nat -> fn) m a j e :
  fdelta w l r (fun J => sumn k (fun s => c s * F s J)%K) m a j e = sumn k (fun s => c s * fdelta w l r (F s) m a j e)%K.
Proof.
  unfold fdelta, delta_of, last0. rewrite cf_sum. destruct (Nat.eqb (S m) d).
  - rewrite (sumn_ext Rring k (fun s => c s * (cf Rring ms d U V lk qk m (S m) (F s) a e [j] - 0))%K (fun s => c s * cf Rring ms d U V lk qk m (S m) (F s) a e [j])%K).
    + ring.
    + intros; ring.
  - rewrite (sumn_ext Rring k (fun s => c s * (cf Rring ms d U V lk qk m (S m) (F s) a e [j] - sumn (lk (S m)) (fun b => U m a j b * cf Rring ms d U V lk qk (S m) (S m) (F s) b e [])))%K (fun s => c s * cf Rring ms d U V lk qk m (S m) (F s) a e [j] - sumn (lk (S m)) (fun b => U m a j b * (c s * cf Rring ms d U V lk qk (S m) (S m) (F s) b e [])))%K).
    2:{ intros s Hs. rewrite (sumn_ext Rring (lk (S m)) (fun b => U m a j b * (c s * _))%K (fun b => c s * (U m a j b * cf Rring ms d U V lk qk (S m) (S m) (F s) b e []))%K) by (intros; ring).
        rewrite sumn_mul_l. ring. }
    rewrite sumn_sub. f_equal. rewrite sumn_swap. apply sumn_ext. intros b Hb. rewrite cf_sum. now rewrite sumn_mul_l.
Qed.

Lemma projection_entry ob F t o J : projection_of w l r ob F t -> vidx (pre_of ob) o -> vJ w J ->
  tt_entry t o J = fproj w l r (F o) J.
Proof.
  intros (F' & Bt & EF) Ho HJ.
  rewrite (blocks_entry w l r ob (fun o => fdelta w l r (F' o))) by (auto; try apply HF; auto).
  unfold fproj, fdelta. rewrite <- (proj_terms Rring ms d U V lk qk d0 l0 ld qd (F' o) J HJ).
  apply (proj_ext Rring ms d U V lk qk d0 l0 ld qd); auto.
Qed.
End Th.

(** What [expand_batch_dim] does to the elements. *)
Lemma expand_what (what : rtt) : wf what -> exists z B, expand_batch_dim what = Ok z /\ wf z /\ rshape z = rshape what /\ bsz z = Some B /\ 0 < B /\
  B = match bsz what with Some b => b | None => 1 end /\
  forall s J, s < B -> vchain (modes what) 0 J -> length J = ndims what -> tt_entry z [s] J = tt_entry what (match bsz what with Some _ => [s] | None => [] end) J.
Proof.
  intros Hw. destruct (expand_entries Rring what Hw) as (z & Ez & Wz & Rz & Kz & Nz & Bz & Gz).
  exists z, (match bsz what with Some x => x | None => 1 end). split; [exact Ez|]. split; [exact Wz|]. split; [exact Rz|]. split; [exact Bz|].
  pose proof (wf_bpos Hw) as P. unfold bpre in P.
  split; [destruct (bsz what); [now inversion P|lia]|]. split; [reflexivity|].
  intros s J Hs HJ HL.
  assert (Es : bsel z s = [s]).
  { unfold bsel. rewrite Bz. destruct (bsz what) as [[|[|x]]|]; auto; now replace s with 0 by lia. }
  assert (Ew : bsel what s = match bsz what with Some _ => [s] | None => [] end).
  { unfold bsel. destruct (bsz what) as [[|[|x]]|]; auto; now replace s with 0 by lia. }
  rewrite <- Ew, <- Es. assert (Ek : forall k, rk z k = rk what k) by (intros k; unfold rk; now rewrite Kz).
  unfold tt_entry. rewrite (chain_ext_r _ _ (rk z) (rk what)) by auto.
  apply (chain_ext _ (modes what)); auto; [rewrite (wf_first Hw); lia|]. intros m a j b Hm _ _ _. apply Gz. lia.
Qed.

(** ** project *)
Section Pr.
Variables (w l r z : rtt) (B : nat).
Hypothesis Hw : wf w.
Hypothesis HF : is_frame w l r.
Hypothesis Hd : 2 <= ndims w.
Hypothesis Hz : wf z.
Hypothesis Rz : rshape z = rshape w.
Hypothesis Bz : bsz z = Some B.
Local Notation d := (ndims w).
Local Notation lk := (rk l).
Local Notation qk := (rk r).

Definition pstep (s : string) (lhs rhs : list rtensor) (i : nat) : res rtensor :=
  if Nat.ltb i (d - 1) then
    do p <- gauged w z l lhs i; do x <- nthr rhs (S i);
    einsum ("sa" ++ mode_str w ++ "b,sbc->" ++ s ++ "a" ++ mode_str w ++ "c") [p; x]
  else
    do x <- nthr lhs i; do c <- nthr (cores z) i;
    einsum ("sab,sb" ++ mode_str w ++ "c->" ++ s ++ "a" ++ mode_str w ++ "c") [x; c].

Lemma pstep_s lhs rhs i : length lhs = S d -> lhs_good w l z B lhs (d - 1) -> length rhs = S d -> rhs_good w r z B rhs 1 -> i < d ->
  exists p, pstep "s" lhs rhs i = Ok p /\ wft p /\ shape p = B :: lk i :: modes w i ++ [qk (S i)] /\
    forall s a j c, s < B -> a < lk i -> vidx (modes w i) j -> c < qk (S i) -> get p (s :: a :: j ++ [c]) = dz w l r z s i a j c.
Proof.
  intros L1 G1 L2 G2 Hi. unfold pstep. destruct (Nat.ltb_spec i (d - 1)).
  - apply (delta_mid_s w l r Hw HF Hd z B); auto.
  - replace i with (d - 1) by lia. replace (S (d - 1)) with d by lia. rewrite (fr_qd w l r HF).
    apply (delta_last_s w l r Hw HF Hd z B); auto.
Qed.
Lemma pstep_n lhs rhs i : length lhs = S d -> lhs_good w l z B lhs (d - 1) -> length rhs = S d -> rhs_good w r z B rhs 1 -> i < d ->
  exists p, pstep "" lhs rhs i = Ok p /\ wft p /\ shape p = lk i :: modes w i ++ [qk (S i)] /\
    forall a j c, a < lk i -> vidx (modes w i) j -> c < qk (S i) -> get p (a :: j ++ [c]) = sumn (K := Rring) B (fun s => dz w l r z s i a j c).
Proof.
  intros L1 G1 L2 G2 Hi. unfold pstep. destruct (Nat.ltb_spec i (d - 1)).
  - apply (delta_mid_n w l r Hw HF Hd z B); auto.
  - replace i with (d - 1) by lia. replace (S (d - 1)) with d by lia. rewrite (fr_qd w l r HF).
    apply (delta_last_n w l r Hw HF Hd z B); auto.
Qed.

(** The tail of project_sum, and of project, after the two sweeps. *)
Lemma assemble_frame ob F (proj : nat -> res rtensor) addr : Forall (fun n => 0 < n) (pre_of ob) ->
  (forall i, i < d -> exists p, proj i = Ok p /\ shape p = pre_of ob ++ lk i :: modes w i ++ [qk (S i)] /\
    forall o a j b, vidx (pre_of ob) o -> a < lk i -> vidx (modes w i) j -> b < qk (S i) -> get p (o ++ a :: j ++ [b]) = fdelta w l r (F o) i a j b) ->
  exists t, (do cs <- result_cores ob w l r proj; finish ob addr w cs) = Ok (Proj t (Some addr)) /\ blocks w l r ob (fun o => fdelta w l r (F o)) t.
Proof.
  intros Hob Hp. apply assemble_ok; auto; apply HF.
Qed.
End Pr.

Theorem project_ok qr (what w : rtt) addr : qr_ok qr -> wf w -> bsz w = None -> 2 <= ndims w -> wf what -> rshape what = rshape w ->
  exists l r t, frame qr w = Ok (l, r) /\ is_frame w l r /\ project qr what addr w = Ok (Proj t (Some addr)) /\
    projection_of w l r (bsz what) (tt_entry what) t.
Proof.
  intros Hq Hw Hb Hd Ht Rt. destruct (frame_ok qr w Hq Hw Hb) as (l & r & EF & HF). exists l, r.
  destruct (expand_what what Ht) as (z & B & Ez & Wz & Rz & Bz & HB & EB & Gz).
  destruct (rhs_ok w l r Hw HF Hd z B Wz ltac:(congruence) Bz) as (rhs & Er & Lr & Gr).
  destruct (lhs_ok w l r Hw HF Hd z B Wz ltac:(congruence) Bz) as (lhs & El & Ll & Gl).
  assert (Nt : ndims what = ndims w) by (apply same_ndims; auto).
  set (F := fun (o : list nat) => Fz z (nth 0 o 0)).
  assert (HE : forall o J, vidx (pre_of (bsz what)) o -> vJ w J -> F o J = tt_entry what o J).
  { intros o J Ho [HJ LJ]. unfold F. change (Fz z (nth 0 o 0) J) with (tt_entry z [nth 0 o 0] J).
    assert (HJ' : vchain (modes what) 0 J) by (eapply vchain_ext; [|exact HJ]; intros; now apply modes_ext).
    rewrite Gz; auto; try lia.
    - destruct (bsz what); cbn in Ho; [destruct o as [|x [|]]; try (now inversion Ho; fail)|]; inversion Ho; subst; auto. inversion H4.
    - destruct (bsz what); cbn in Ho; inversion Ho; subst; cbn; lia. }
  destruct (assemble_frame w l r Hw HF Hd (bsz what) F (pstep w l z (match bsz what with Some _ => "s" | None => "" end) lhs rhs) addr) as (t & Et & Bt).
  - exact (wf_bpos Ht).
  - intros i Hi. destruct (bsz what) as [b|] eqn:Eb.
    + destruct (pstep_s w l r z B Hw HF Hd Wz ltac:(congruence) Bz lhs rhs i Ll Gl Lr Gr Hi) as (p & Ep & Wp & Sp & Gp). exists p. split; [exact Ep|].
      subst B. split; [exact Sp|]. intros o a j c Ho Ha Hj Hc. cbn in Ho. apply vidx_1_inv in Ho as (s & -> & Hs). cbn [app]. apply Gp; auto.
    + destruct (pstep_n w l r z B Hw HF Hd Wz ltac:(congruence) Bz lhs rhs i Ll Gl Lr Gr Hi) as (p & Ep & Wp & Sp & Gp). exists p. split; [exact Ep|].
      subst B. split; [exact Sp|]. intros o a j c Ho Ha Hj Hc. cbn in Ho. inversion Ho; subst. cbn [app]. rewrite Gp by auto. rewrite sumn_1. reflexivity.
  - exists t. split; [exact EF|]. split; [exact HF|]. split.
    + unfold project. unfold is_batch at 1. rewrite Hb. rewrite Rt. rewrite llist_eqb_refl. cbn [negb]. rewrite EF. cbn [bind].
      rewrite Ez. cbn [bind]. unfold lazy_batch_size. rewrite Bz. cbn [bind]. rewrite Er. cbn [bind]. rewrite El. cbn [bind].
      exact Et.
    + exists F. split; auto.
Qed.

(** ** project_sum *)
(** The batch size of the result, and the coefficient of element [s] of [what] in element [o] of it. *)
Definition wsize (weights : option rtensor) : option nat :=
  match weights with
  | Some x => match shape x with _ :: n :: _ => if Nat.ltb 1 n then Some n else None | _ => None end
  | None => None
  end.
Definition wcoef (weights : option rtensor) (s : nat) (o : list nat) : Rring :=
  match weights with Some x => get x (s :: o) | None => 1%K end.
(** Weights the function accepts for [B] objects. *)
Definition good_weights (B : nat) (weights : option rtensor) : Prop :=
  match weights with Some x => shape x = [B] \/ exists n, 1 < n /\ shape x = [B; n] | None => True end.

Section Weighted.
Variables (w : rtt).
Hypothesis Hw : wf w.
Ltac kind := unfold mode_str; destruct (wf_kind_cases _ w Hw) as [(? & _ & HM)|(? & _ & HM)];
  match goal with E : is_tt_matrix w = _ |- _ => rewrite E end; rewrite !HM in *; clear HM; cbn [app String.append] in *.
Ltac estep := einsum_step; eexists; (split; [reflexivity|]); (split; [apply wft_mk|]); (split; [reflexivity|]);
    intros; repeat match goal with H : vidx [_] _ |- _ => apply vidx_1_inv in H as (? & -> & ?) | H : vidx [_; _] _ |- _ => apply vidx_2_inv in H as (? & ? & -> & ? & ?) end;
    cbn [app isum]; rewrite get_mk by vsolve; ecbv; try reflexivity.
Lemma weighted_1 (x p : rtensor) B i u v : shape x = [B] -> shape p = B :: u :: modes w i ++ [v] ->
  exists y, einsum ("s" ++ "" ++ ",sa" ++ mode_str w ++ "c->" ++ "" ++ "a" ++ mode_str w ++ "c") [x; p] = Ok y /\ wft y /\
    shape y = u :: modes w i ++ [v] /\
    forall a j c, a < u -> vidx (modes w i) j -> c < v -> get y (a :: j ++ [c]) = sumn B (fun s => get x [s] * get p (s :: a :: j ++ [c]))%K.
Proof. intros Sx Sp. kind; estep. Qed.
Lemma weighted_2 (x p : rtensor) B n i u v : shape x = [B; n] -> shape p = B :: u :: modes w i ++ [v] ->
  exists y, einsum ("s" ++ "o" ++ ",sa" ++ mode_str w ++ "c->" ++ "o" ++ "a" ++ mode_str w ++ "c") [x; p] = Ok y /\ wft y /\
    shape y = n :: u :: modes w i ++ [v] /\
    forall o a j c, o < n -> a < u -> vidx (modes w i) j -> c < v -> get y (o :: a :: j ++ [c]) = sumn B (fun s => get x [s; o] * get p (s :: a :: j ++ [c]))%K.
Proof. intros Sx Sp. kind; estep. Qed.
Lemma weighted_bad (x p : rtensor) B i u v : shape x = [B; 1] -> shape p = B :: u :: modes w i ++ [v] ->
  einsum ("s" ++ "" ++ ",sa" ++ mode_str w ++ "c->" ++ "" ++ "a" ++ mode_str w ++ "c") [x; p] = Err TFError.
Proof. intros Sx Sp. kind; unfold einsum; ecbv; rewrite ?Sx, ?Sp; ecbv; try reflexivity. Qed.
End Weighted.

Lemma project_sum_unfold qr (what w z l r : rtt) addr weights B lhs rhs :
  expand_batch_dim what = Ok z -> bsz w = None -> rshape z = rshape w -> frame qr w = Ok (l, r) -> bsz z = Some B ->
  rhs_list w z r B = Ok rhs -> lhs_list w z l B = Ok lhs ->
  project_sum qr what addr w weights =
  (do cs <- result_cores (wsize weights) w l r (fun i =>
      do p <- pstep w l z (match weights with Some _ => "s" | None => "" end) lhs rhs i;
      match weights with
      | Some x => einsum ("s" ++ (match wsize weights with Some _ => "o" | None => "" end) ++ ",sa" ++ mode_str w ++ "c->" ++ (match wsize weights with Some _ => "o" | None => "" end) ++ "a" ++ mode_str w ++ "c") [x; p]
      | None => Ok p
      end);
   finish (wsize weights) addr w cs).
Proof.
  intros Ez Hb Rz EF Bz Er El. unfold project_sum. rewrite Ez. cbn [bind]. unfold is_batch at 1. rewrite Hb, Rz, llist_eqb_refl. cbn [negb].
  rewrite EF. cbn [bind]. unfold lazy_batch_size. rewrite Bz. cbn [bind]. rewrite Er. cbn [bind]. rewrite El. cbn [bind].
  fold (wsize weights). f_equal. unfold result_cores. apply InitProofs.mapM_ext. intros i _. unfold pstep.
  destruct (i <? ndims w - 1).
  - destruct (gauged w z l lhs i); cbn [bind]; [|reflexivity]. destruct (nthr rhs (S i)); cbn [bind]; reflexivity.
  - destruct (nthr lhs i); cbn [bind]; [|reflexivity]. destruct (nthr (cores z) i); cbn [bind]; reflexivity.
Qed.

Theorem project_sum_ok qr (what w : rtt) addr weights : qr_ok qr -> wf w -> bsz w = None -> 2 <= ndims w -> wf what -> rshape what = rshape w ->
  let B := match bsz what with Some b => b | None => 1 end in good_weights B weights ->
  exists l r t, frame qr w = Ok (l, r) /\ is_frame w l r /\ project_sum qr what addr w weights = Ok (Proj t (Some addr)) /\
    projection_of w l r (wsize weights)
      (fun o J => sumn (K := Rring) B (fun s => wcoef weights s o * tt_entry what (match bsz what with Some _ => [s] | None => [] end) J)%K) t.
Proof.
  intros Hq Hw Hb Hd Ht Rt B Hwt. destruct (frame_ok qr w Hq Hw Hb) as (l & r & EF & HF). exists l, r.
  destruct (expand_what what Ht) as (z & B' & Ez & Wz & Rz & Bz & HB & EB & Gz). fold B in EB. subst B'.
  destruct (rhs_ok w l r Hw HF Hd z B Wz ltac:(congruence) Bz) as (rhs & Er & Lr & Gr).
  destruct (lhs_ok w l r Hw HF Hd z B Wz ltac:(congruence) Bz) as (lhs & El & Ll & Gl).
  assert (Nt : ndims what = ndims w) by (apply same_ndims; auto).
  rewrite (project_sum_unfold qr what w z l r addr weights B lhs rhs Ez Hb ltac:(congruence) EF Bz Er El).
  set (F := fun (o : list nat) J => sumn (K := Rring) B (fun s => wcoef weights s o * Fz z s J)%K).
  assert (HE : forall o J, vJ w J -> F o J = sumn (K := Rring) B (fun s => wcoef weights s o * tt_entry what (match bsz what with Some _ => [s] | None => [] end) J)%K).
  { intros o J [HJ LJ]. unfold F. apply sumn_ext. intros s Hs. f_equal. change (Fz z s J) with (tt_entry z [s] J).
    apply Gz; [auto| |lia]. eapply vchain_ext; [|exact HJ]; intros; symmetry; now apply modes_ext. }
  match goal with |- context [result_cores _ _ _ _ ?f] => destruct (assemble_frame w l r Hw HF Hd (wsize weights) F f addr) as (t & Et & Bt) end.
  - unfold wsize. destruct weights as [x|]; [|constructor]. destruct (shape x) as [|? [|n ?]]; try constructor.
    destruct (Nat.ltb_spec 1 n); repeat constructor. lia.
  - intros i Hi. unfold fdelta in *. destruct weights as [x|].
    + destruct (pstep_s w l r z B Hw HF Hd Wz ltac:(congruence) Bz lhs rhs i Ll Gl Lr Gr Hi) as (p & Ep & Wp & Sp & Gp). rewrite Ep. cbn [bind].
      destruct Hwt as [Sx|(n & Hn & Sx)].
      * assert (Ew : wsize (Some x) = None) by (unfold wsize; now rewrite Sx). rewrite Ew.
        destruct (weighted_1 w Hw x p B i _ _ Sx Sp) as (y & Ey & Wy & Sy & Gy). exists y. split; [exact Ey|]. split; [exact Sy|].
        intros o a j c Ho Ha Hj Hc. cbn in Ho. inversion Ho; subst. cbn [app]. rewrite Gy by auto.
        unfold F. change (delta_of Rring (modes w) (ndims w) (coreG l []) (coreG r []) (rk l) (rk r)) with (fdelta w l r).
        rewrite (fdelta_sum w l r B (fun s => wcoef (Some x) s [])). apply sumn_ext. intros s Hs. rewrite Gp by auto. reflexivity.
      * assert (Ew : wsize (Some x) = Some n) by (unfold wsize; rewrite Sx; destruct (Nat.ltb_spec 1 n); [auto|lia]). rewrite Ew.
        destruct (weighted_2 w Hw x p B n i _ _ Sx Sp) as (y & Ey & Wy & Sy & Gy). exists y. split; [exact Ey|]. split; [exact Sy|].
        intros o a j c Ho Ha Hj Hc. cbn in Ho. apply vidx_1_inv in Ho as (o1 & -> & Ho). cbn [app]. rewrite Gy by auto.
        unfold F. change (delta_of Rring (modes w) (ndims w) (coreG l []) (coreG r []) (rk l) (rk r)) with (fdelta w l r).
        rewrite (fdelta_sum w l r B (fun s => wcoef (Some x) s [o1])). apply sumn_ext. intros s Hs. rewrite Gp by auto. reflexivity.
    + destruct (pstep_n w l r z B Hw HF Hd Wz ltac:(congruence) Bz lhs rhs i Ll Gl Lr Gr Hi) as (p & Ep & Wp & Sp & Gp). rewrite Ep. cbn [bind].
      exists p. split; [reflexivity|]. split; [exact Sp|]. intros o a j c Ho Ha Hj Hc. cbn in Ho. inversion Ho; subst. cbn [app]. rewrite Gp by auto.
      unfold F. change (delta_of Rring (modes w) (ndims w) (coreG l []) (coreG r []) (rk l) (rk r)) with (fdelta w l r).
      rewrite (fdelta_sum w l r B (fun s => wcoef None s [])). apply sumn_ext. intros s Hs. unfold wcoef. unfold dz. fold (fdelta w l r (Fz z s)). ring.
  - exists t. split; [exact EF|]. split; [exact HF|]. split; [exact Et|]. exists F. split; auto.
Qed.

Theorem project_sum_column qr (what w : rtt) addr x : qr_ok qr -> wf w -> bsz w = None -> 2 <= ndims w -> wf what -> rshape what = rshape w ->
  shape x = [match bsz what with Some b => b | None => 1 end; 1] -> project_sum qr what addr w (Some x) = Err TFError.
Proof.
  intros Hq Hw Hb Hd Ht Rt Sx. destruct (frame_ok qr w Hq Hw Hb) as (l & r & EF & HF).
  destruct (expand_what what Ht) as (z & B & Ez & Wz & Rz & Bz & HB & EB & Gz). rewrite <- EB in Sx.
  destruct (rhs_ok w l r Hw HF Hd z B Wz ltac:(congruence) Bz) as (rhs & Er & Lr & Gr).
  destruct (lhs_ok w l r Hw HF Hd z B Wz ltac:(congruence) Bz) as (lhs & El & Ll & Gl).
  rewrite (project_sum_unfold qr what w z l r addr (Some x) B lhs rhs Ez Hb ltac:(congruence) EF Bz Er El).
  unfold result_cores. destruct (ndims w) as [|n] eqn:En; [lia|]. cbn [seq mapM].
  destruct (pstep_s w l r z B Hw HF ltac:(lia) Wz ltac:(congruence) Bz lhs rhs 0) as (p & Ep & Wp & Sp & Gp); rewrite ?En; auto; try lia.
  rewrite Ep. cbn [bind]. assert (Ew : wsize (Some x) = None) by (unfold wsize; now rewrite Sx). rewrite Ew.
  rewrite (weighted_bad w Hw x p B 0 _ _ Sx Sp). reflexivity.
Qed.
