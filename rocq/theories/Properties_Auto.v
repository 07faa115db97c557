(** C48: Riemannian gradients and Hessian-by-vector products (autodiff.py).  [F] is a function of tensors,
    [func] the program for it on TT objects, [E] its gradient. *)
From Coq Require Import List Arith ZArith Lia Lra Bool Reals.
From Verif Require Import Scalar Tensor TensorLemmas Base Spec Chain BaseLemmas Ops FullProofs ResultLemmas Dense OpsR Decomp DecompSpec QRExists
  Riem RiemProofs RiemThms RiemSpec RiemFull RiemInner RiemMade RiemRefute Autodiff AutoSpec AutoProofs RiemGauge AutoThms GradExists AutoMain Samples Properties_Riem.
Import ListNotations.
Local Open Scope nat_scope.
Local Notation get := (@get Rring).

(** The contract of [tf.GradientTape] can be met, and [None] need never occur. *)
Theorem C48_gradients_exist : exists grad, grad_ok grad /\ forall f ds, ~ In None (grad f ds).
Proof. exists the_grad. split; [exact the_grad_ok|exact the_grad_some]. Qed.
Print Assumptions C48_gradients_exist.

(** The result is tangent at [x] and has the same scalar products with the tangent tensors as the gradient:
    it is the orthogonal projection of the gradient on the tangent space. *)
Theorem C48_gradients : forall qr grad func F addr (x : rtt) dx E runtime_check, qr_ok qr -> grad_ok grad ->
  wf x -> bsz x = None -> 2 <= ndims x -> full_tt_ranks x -> full x = Ok dx ->
  function_of_tensor x func F -> gradient_at (ishape x) F (get dx) E -> (runtime_check = true -> F (get dx) <> 0%R) ->
  (forall l r, frame qr x = Ok (l, r) -> ~ In None (grad (augmented qr func addr x l r) (start_deltas r))) ->
  exists p dp, gradients qr grad func addr x runtime_check = Ok (Proj p (Some addr)) /\ wf p /\ rshape p = rshape x /\ bsz p = None /\ full p = Ok dp /\
    tangent x (get dp) /\ forall T, tangent x T -> inner (ishape x) (get dp) T = inner (ishape x) E T.
Proof. intros. now apply (c48_gradients qr grad func F addr x dx). Qed.
Print Assumptions C48_gradients.

(** It gives the derivative of the function in every tangent direction. *)
Theorem C48_is_the_derivative : forall qr grad func F addr (x : rtt) dx E runtime_check, qr_ok qr -> grad_ok grad ->
  wf x -> bsz x = None -> 2 <= ndims x -> full_tt_ranks x -> full x = Ok dx ->
  function_of_tensor x func F -> gradient_at (ishape x) F (get dx) E -> (runtime_check = true -> F (get dx) <> 0%R) ->
  (forall l r, frame qr x = Ok (l, r) -> ~ In None (grad (augmented qr func addr x l r) (start_deltas r))) ->
  exists p dp, gradients qr grad func addr x runtime_check = Ok (Proj p (Some addr)) /\ full p = Ok dp /\
    forall T, tangent x T -> derivable_pt_lim (fun t => F (fun i => get dx i + t * T i)%R) 0 (isum (K := Rring) (ishape x) (fun i => get dp i * T i)%R).
Proof.
  intros qr grad func F addr x dx E b Hq Hg Hx Bx Hd HR HD HF HE HV HC.
  destruct (C48_gradients qr grad func F addr x dx E b Hq Hg Hx Bx Hd HR HD HF HE HV HC) as (p & dp & E1 & _ & _ & _ & Fp & _ & V).
  exists p, dp. do 2 (split; [assumption|]). intros T HT. specialize (V T HT). unfold inner in V at 1. rewrite V. apply (HE T).
Qed.
Print Assumptions C48_is_the_derivative.

(** It belongs to the tangent space at [x] like the results of project ([made], RiemMade.v): the theorems on
    pairwise_flat_inner_projected (C45), add_n_projected (C46) and tangent_space_to_deltas (C47) apply to it. *)
Theorem C48_gradients_made : forall qr grad func F addr (x : rtt) dx E runtime_check, qr_ok qr -> grad_ok grad ->
  wf x -> bsz x = None -> 2 <= ndims x -> admissible x -> full x = Ok dx ->
  function_of_tensor x func F -> gradient_at (ishape x) F (get dx) E -> (runtime_check = true -> F (get dx) <> 0%R) ->
  (forall l r, frame qr x = Ok (l, r) -> ~ In None (grad (augmented qr func addr x l r) (start_deltas r))) ->
  exists p, gradients qr grad func addr x runtime_check = Ok p /\ made qr x addr p.
Proof. intros. now apply (c48_made qr grad func F addr x dx) with (E := E). Qed.
Print Assumptions C48_gradients_made.

(** The squared norm of the gradient by pairwise_flat_inner_projected, as in Riemannian descent. *)
Theorem C48_gradient_norm : forall qr grad func F addr (x : rtt) dx E runtime_check, qr_ok qr -> grad_ok grad ->
  wf x -> bsz x = None -> 2 <= ndims x -> full_tt_ranks x -> full x = Ok dx ->
  function_of_tensor x func F -> gradient_at (ishape x) F (get dx) E -> (runtime_check = true -> F (get dx) <> 0%R) ->
  (forall l r, frame qr x = Ok (l, r) -> ~ In None (grad (augmented qr func addr x l r) (start_deltas r))) ->
  exists p dp w, gradients qr grad func addr x runtime_check = Ok p /\ full (p_tt p) = Ok dp /\ pairwise_flat_inner_projected p p = Ok w /\
    shape w = [1; 1] /\ get w [0; 0] = inner (ishape x) (get dp) (get dp) /\ get w [0; 0] = inner (ishape x) E (get dp).
Proof.
  intros qr grad func F addr x dx E b Hq Hg Hx Bx Hd HR HD HF HE HV HC.
  destruct (C48_gradients qr grad func F addr x dx E b Hq Hg Hx Bx Hd HR HD HF HE HV HC) as (p & dp & E1 & Wp & Rp & Bp & Fp & T & V).
  destruct (C48_gradients_made qr grad func F addr x dx E b Hq Hg Hx Bx Hd (full_admissible x Hx HR) HD HF HE HV HC) as (p' & E2 & M). rewrite E1 in E2. injection E2 as <-.
  destruct (c45_inner qr x addr Hq Hx Bx Hd (full_admissible x Hx HR) _ _ M M) as (w & d1 & d2 & Ew & Ww & F1 & F2 & Sw & Gw). cbn [p_tt] in *. rewrite Bp in Sw, Gw. cbn [ocnt osel app] in Sw, Gw.
  assert (d1 = dp) by congruence. assert (d2 = dp) by congruence. subst d1 d2.
  exists (Proj p (Some addr)), dp, w. do 4 (split; [assumption|]). assert (G : get w [0; 0] = inner (ishape x) (get dp) (get dp)) by (apply Gw; lia).
  split; [exact G|]. rewrite G. now apply V.
Qed.
Print Assumptions C48_gradient_norm.

(** It is what [project] makes of any TT object [z] with the entries of the gradient. *)
Theorem C48_equals_project : forall qr grad func F addr (x : rtt) dx E runtime_check z dz, qr_ok qr -> grad_ok grad ->
  wf x -> bsz x = None -> 2 <= ndims x -> admissible x -> full x = Ok dx ->
  function_of_tensor x func F -> gradient_at (ishape x) F (get dx) E -> (runtime_check = true -> F (get dx) <> 0%R) ->
  (forall l r, frame qr x = Ok (l, r) -> ~ In None (grad (augmented qr func addr x l r) (start_deltas r))) ->
  wf z -> rshape z = rshape x -> bsz z = None -> full z = Ok dz -> agree (ishape x) (get dz) E ->
  exists p p', gradients qr grad func addr x runtime_check = Ok (Proj p (Some addr)) /\ project qr z addr x = Ok (Proj p' (Some addr)) /\ same_full p p'.
Proof. intros. now apply (c48_project qr grad func F addr x dx) with (E := E) (dz := dz). Qed.
Print Assumptions C48_equals_project.

(** The example in the documentation: the gradient of 0.5 * flat_inner(x, a) ** 2 is the projection of
    flat_inner(x, a) * a.  [z] is any TT object for the latter. *)
Theorem C48_documented_example : forall qr grad addr (x a z : rtt) dx da dz, qr_ok qr -> grad_ok grad ->
  wf x -> bsz x = None -> 2 <= ndims x -> admissible x -> wf a -> rshape a = rshape x -> bsz a = None -> wf z -> rshape z = rshape x -> bsz z = None ->
  full x = Ok dx -> full a = Ok da -> full z = Ok dz -> (inner (ishape x) (get dx) (get da) <> 0)%R ->
  agree (ishape x) (get dz) (fun i => inner (ishape x) (get dx) (get da) * get da i)%R ->
  (forall l r, frame qr x = Ok (l, r) -> ~ In None (grad (augmented qr (half_square a) addr x l r) (start_deltas r))) ->
  exists p p', gradients qr grad (half_square a) addr x true = Ok (Proj p (Some addr)) /\ project qr z addr x = Ok (Proj p' (Some addr)) /\ same_full p p'.
Proof.
  intros qr grad addr x a z dx da dz Hq Hg Hx Bx Hd HA Ha Ra Ba Hz Rz Bz Fx Fa Fz H0 HZ HC.
  apply (C48_equals_project qr grad (half_square a) (half_square_of (ishape x) (get da)) addr x dx _ true z dz Hq Hg Hx Bx Hd HA Fx (half_square_fun x a da Hx Ha Ra Ba Fa)
    (half_square_grad (ishape x) (get da) (get dx))); auto.
  intros _. unfold half_square_of. intros Q. apply H0. nra.
Qed.
Print Assumptions C48_documented_example.

(** The Hessian by vector product: P H P vector with P the projection and [H] the Hessian. *)
Theorem C48_hessian_vector_product : forall qr grad func F addr (x vector : rtt) dx (E : (list nat -> R) -> list nat -> R) H runtime_check, qr_ok qr -> grad_ok grad ->
  wf x -> bsz x = None -> 2 <= ndims x -> full_tt_ranks x -> full x = Ok dx -> wf vector -> rshape vector = rshape x -> bsz vector = None ->
  function_of_tensor x func F ->
  (forall T, exists eps, (0 < eps)%R /\ forall t, (Rabs t < eps)%R -> gradient_at (ishape x) F (shift (get dx) T t) (E (shift (get dx) T t))) ->
  hessian_at (ishape x) E (get dx) H -> (runtime_check = true -> F (get dx) <> 0%R) ->
  (forall l r ds, frame qr x = Ok (l, r) -> ~ In None (grad (augmented qr func addr x l r) ds)) ->
  (forall l r, frame qr x = Ok (l, r) -> ~ In None (grad (outer qr grad func addr x l r vector runtime_check) (start_deltas r))) ->
  exists v dv p dp, project qr vector addr x = Ok (Proj v (Some addr)) /\ full v = Ok dv /\
    hessian_vector_product qr grad func addr x vector runtime_check = Ok (Proj p (Some addr)) /\ wf p /\ rshape p = rshape x /\ bsz p = None /\ full p = Ok dp /\
    tangent x (get dp) /\ forall T, tangent x T -> inner (ishape x) (get dp) T = inner (ishape x) (fun i => inner (ishape x) (H i) (get dv)) T.
Proof. intros. now apply (c48_hvp qr grad func F addr x dx) with (E := E). Qed.
Print Assumptions C48_hessian_vector_product.

(** It belongs to the tangent space as well. *)
Theorem C48_hessian_vector_product_made : forall qr grad func F addr (x vector : rtt) dx (E : (list nat -> R) -> list nat -> R) H runtime_check, qr_ok qr -> grad_ok grad ->
  wf x -> bsz x = None -> 2 <= ndims x -> admissible x -> full x = Ok dx -> wf vector -> rshape vector = rshape x -> bsz vector = None ->
  function_of_tensor x func F ->
  (forall T, exists eps, (0 < eps)%R /\ forall t, (Rabs t < eps)%R -> gradient_at (ishape x) F (shift (get dx) T t) (E (shift (get dx) T t))) ->
  hessian_at (ishape x) E (get dx) H -> (runtime_check = true -> F (get dx) <> 0%R) ->
  (forall l r ds, frame qr x = Ok (l, r) -> ~ In None (grad (augmented qr func addr x l r) ds)) ->
  (forall l r, frame qr x = Ok (l, r) -> ~ In None (grad (outer qr grad func addr x l r vector runtime_check) (start_deltas r))) ->
  exists p, hessian_vector_product qr grad func addr x vector runtime_check = Ok p /\ made qr x addr p.
Proof. intros. now apply (c48_hvp_made qr grad func F addr x dx) with (E := E) (H := H). Qed.
Print Assumptions C48_hessian_vector_product_made.

(** For the squared Frobenius norm it is twice the projection of the vector. *)
Theorem C48_norm_hessian : forall qr grad differentiable addr (x vector : rtt) dx runtime_check, qr_ok qr -> grad_ok grad ->
  wf x -> bsz x = None -> 2 <= ndims x -> full_tt_ranks x -> full x = Ok dx -> wf vector -> rshape vector = rshape x -> bsz vector = None ->
  (runtime_check = true -> inner (ishape x) (get dx) (get dx) <> 0%R) ->
  (forall l r ds, frame qr x = Ok (l, r) -> ~ In None (grad (augmented qr (norm_func qr differentiable) addr x l r) ds)) ->
  (forall l r, frame qr x = Ok (l, r) -> ~ In None (grad (outer qr grad (norm_func qr differentiable) addr x l r vector runtime_check) (start_deltas r))) ->
  exists v dv p dp, project qr vector addr x = Ok (Proj v (Some addr)) /\ full v = Ok dv /\
    hessian_vector_product qr grad (norm_func qr differentiable) addr x vector runtime_check = Ok (Proj p (Some addr)) /\ full p = Ok dp /\
    forall T, tangent x T -> inner (ishape x) (get dp) T = (2 * inner (ishape x) (get dv) T)%R.
Proof.
  intros qr grad df addr x vector dx b Hq Hg Hx Bx Hd HR Fx Wv Rv Bv HV C1 C2.
  destruct (C48_hessian_vector_product qr grad (norm_func qr df) (fun T => inner (ishape x) T T) addr x vector dx (fun Y i => 2 * Y i)%R two_id b Hq Hg Hx Bx Hd HR Fx Wv Rv Bv
    (norm_fun qr df x Hq Hx)) as (v & dv & p & dp & Ep & Fv & Eh & _ & _ & _ & Fp & _ & V); auto.
  - intros T. exists 1%R. split; [lra|]. intros t _. apply norm_grad.
  - apply norm_hess.
  - exists v, dv, p, dp. do 4 (split; [assumption|]). intros T HT. rewrite V by auto.
    rewrite (inner_ext (ishape x) (fun i => inner (ishape x) (two_id i) (get dv)) (fun i => 2 * get dv i + 0 * get dv i)%R T T).
    + rewrite inner_lin. ring.
    + intros i Hi. rewrite two_id_inner by auto. ring.
    + intros i _. reflexivity.
Qed.
Print Assumptions C48_norm_hessian.

(** ** Errors *)
(** A missing gradient: raises. *)
Theorem C48_missing_gradient_raises : forall qr grad func F addr (x : rtt) dx E runtime_check l r, qr_ok qr -> grad_ok grad ->
  wf x -> bsz x = None -> 2 <= ndims x -> admissible x -> full x = Ok dx ->
  function_of_tensor x func F -> gradient_at (ishape x) F (get dx) E -> (runtime_check = true -> F (get dx) <> 0%R) ->
  frame qr x = Ok (l, r) -> In None (grad (augmented qr func addr x l r) (start_deltas r)) ->
  gradients qr grad func addr x runtime_check = Err ValueError.
Proof. intros. now apply (gradients_none qr grad func F addr x dx) with (E := E) (l := l) (r := r). Qed.
Print Assumptions C48_missing_gradient_raises.

(** The check compares the values of the function at [x] and at the same tensor in another form. *)
Theorem C48_detects_dependence_on_cores : forall qr grad func addr (x : rtt) l r p v w, frame qr x = Ok (l, r) ->
  deltas_to_tangent_space qr (start_deltas r) addr x (Some l) (Some r) = Ok p -> func (p_tt p) = Ok v -> func x = Ok w ->
  (1 / 100000 * Rabs v <= Rabs (v - w))%R -> gradients qr grad func addr x true = Err TFError.
Proof.
  intros qr grad func addr x l r p v w EF Ep Ev Ew H. unfold gradients. rewrite EF. cbn [bind]. unfold value_and_grad, augmented. rewrite Ep. cbn [bind]. rewrite Ev. cbn [bind].
  rewrite Ew. cbn [bind]. unfold is_invariant_to_input_transforms. destruct (Req_EM_T v 0); [reflexivity|]. destruct (Rlt_dec _ _) as [Q|]; [|reflexivity]. exfalso.
  pose proof (Rabs_pos_lt _ n) as P. apply Rmult_lt_compat_r with (r := Rabs v) in Q; [|exact P]. unfold Rdiv in Q at 1. rewrite Rabs_mult, Rabs_inv, Rmult_assoc, Rinv_l in Q by lra. lra.
Qed.
Print Assumptions C48_detects_dependence_on_cores.

(** The default check raises whenever the value is 0, although the gradient exists. *)
Theorem C48_zero_value_raises : forall qr grad func F addr (x : rtt) dx, qr_ok qr -> grad_ok grad -> wf x -> bsz x = None -> 2 <= ndims x -> admissible x -> full x = Ok dx ->
  function_of_tensor x func F -> F (get dx) = 0%R -> gradients qr grad func addr x true = Err TFError.
Proof. intros. now apply (gradients_zero_value qr grad func F addr x dx). Qed.
Print Assumptions C48_zero_value_raises.

(** The gradient of flat_inner(x, a) is [a], which is not 0 and is tangent at this [x]; the value is 0. *)
Definition s_orth : rtt := toR (TT [zt [1;2;1] [1;-3]%Z; zt [1;2;1] [-1;2]%Z] [[2;2]] [1;1;1] None).
Lemma s_orth_wf : wf s_orth. Proof. apply wfb_wf; vm_compute; reflexivity. Qed.
Theorem C48_zero_value_refuted : exists (x a : rtt) dx da, wf x /\ bsz x = None /\ ndims x = 2 /\ full x = Ok dx /\ full a = Ok da /\
  function_of_tensor x (linear_func a) (fun T => inner (ishape x) T (get da)) /\
  gradient_at (ishape x) (fun T => inner (ishape x) T (get da)) (get dx) (get da) /\ get da [0;0] = (-1)%R /\ tangent x (get da) /\
  forall qr grad addr, qr_ok qr -> grad_ok grad -> gradients qr grad (linear_func a) addr x true = Err TFError.
Proof.
  assert (Fa : exists da, full s_orth = Ok da /\ forall i, vidx [2;2] i -> get da i = tt_entry s_orth [] (split_idx s_orth i)).
  { destruct (dense s_orth s_orth_wf) as (da & F & _ & V). exists da. split; [exact F|]. intros i Hi. apply (V [] i); [constructor|exact Hi]. }
  assert (Fx : exists dx, full (toR s_t2) = Ok dx /\ forall i, vidx [2;2] i -> get dx i = tt_entry (toR s_t2) [] (split_idx (toR s_t2) i)).
  { destruct (dense (toR s_t2) r_t2_wf) as (da & F & _ & V). exists da. split; [exact F|]. intros i Hi. apply (V [] i); [constructor|exact Hi]. }
  destruct Fa as (da & Fa & Va). destruct Fx as (dx & Fx & Vx). exists (toR s_t2), s_orth, dx, da. split; [exact r_t2_wf|]. do 2 (split; [reflexivity|]). do 2 (split; [assumption|]).
  pose proof (linear_fun (toR s_t2) s_orth da r_t2_wf s_orth_wf eq_refl eq_refl Fa) as HF. split; [exact HF|]. split; [apply linear_grad|].
  split; [rewrite Va by (repeat constructor); cbn; unfold coreG, Tensor.get; cbn; unfold prodn; cbn; lra|]. split.
  - exists (fun m _ j _ => if Nat.eqb m 0 then (if Nat.eqb (nth 0 j 0) 0 then 1%R else (-3)%R) else 0%R). intros i Hi. rewrite Va by exact Hi.
    apply vidx_2_inv in Hi as (a & b & -> & Ha & Hb). destruct a as [|[|a]]; [| |lia]; (destruct b as [|[|b]]; [| |lia]);
      cbn; unfold coreG, Tensor.get; cbn; unfold prodn; cbn; lra.
  - intros qr grad addr Hq Hg. apply (C48_zero_value_raises qr grad _ _ addr (toR s_t2) dx Hq Hg r_t2_wf eq_refl ltac:(cbn; lia) r_t2_adm Fx HF).
    unfold inner. cbn [isum sumn ishape is_tt_matrix toR s_t2 rshape length Nat.eqb nth sumn]. 
    cbn. rewrite !Va, !Vx by (repeat constructor). cbn; unfold coreG, Tensor.get; cbn; unfold prodn; cbn; lra.
Qed.
Print Assumptions C48_zero_value_refuted.

(** A constant function: the gradient is 0, and for a tape that reports no connection the call raises. *)
Theorem C48_constant_function_refuted : exists grad (x : rtt) dx, grad_ok grad /\ wf x /\ bsz x = None /\ ndims x = 2 /\ full x = Ok dx /\
  function_of_tensor x (fun _ => Ok 1%R) (fun _ => 1%R) /\ gradient_at (ishape x) (fun _ => 1%R) (get dx) (fun _ => 0%R) /\
  forall qr addr runtime_check, qr_ok qr -> gradients qr grad (fun _ => Ok 1%R) addr x runtime_check = Err ValueError.
Proof.
  destruct (dense (toR s_t2) r_t2_wf) as (dx & Fx & _). exists tape_grad, (toR s_t2), dx. split; [exact tape_grad_ok|]. split; [exact r_t2_wf|]. do 2 (split; [reflexivity|]). split; [exact Fx|].
  assert (HF : function_of_tensor (toR s_t2) (fun _ => Ok 1%R) (fun _ => 1%R)) by (split; reflexivity).
  assert (HE : gradient_at (ishape (toR s_t2)) (fun _ => 1%R) (get dx) (fun _ => 0%R)).
  { intros T. replace (inner (ishape (toR s_t2)) (fun _ => 0%R) T) with 0%R; [apply derivable_pt_lim_const|]. symmetry. apply (isum_zero Rring). intros i _. apply Rmult_0_l. }
  split; [exact HF|]. split; [exact HE|]. intros qr addr b Hq.
  destruct (frame_ok qr (toR s_t2) Hq r_t2_wf eq_refl) as (l & r & EF & HFr).
  pose proof (adm_eq (toR s_t2) l r r_t2_wf HFr ltac:(cbn; lia) r_t2_adm) as Heq.
  apply (C48_missing_gradient_raises qr tape_grad (fun _ => Ok 1%R) (fun _ => 1%R) addr (toR s_t2) dx (fun _ => 0%R) b l r Hq tape_grad_ok r_t2_wf eq_refl ltac:(cbn; lia) r_t2_adm Fx HF HE); [intros _; lra|exact EF|].
  unfold tape_grad. destruct (ClassicalEpsilon.excluded_middle_informative _) as [C|N].
  - pose proof (start_good (toR s_t2) l r HFr ltac:(cbn; lia) Heq) as [L _]. destruct (start_deltas r) as [|d ds]; [discriminate|]. now left.
  - exfalso. apply N. exists 1%R. intros hs Hhs.
    apply (augmented_ok (toR s_t2) l r r_t2_wf eq_refl HFr ltac:(cbn; lia) Heq qr addr _ (fun _ => 1%R) HF hs (Lval (toR s_t2) l r (deltasD hs))); [|intros i _; reflexivity].
    eapply good_shapes; [cbn; lia| |exact Hhs]. now apply start_good; [|cbn; lia|].
Qed.
Print Assumptions C48_constant_function_refuted.

(** A TT-rank larger than the neighbouring cores allow: raises for every function. *)
Theorem C48_rank_too_large_refuted : exists x : rtt, wf x /\ bsz x = None /\ ndims x = 2 /\
  forall qr grad func addr runtime_check, qr_ok qr -> gradients qr grad func addr x runtime_check = Err ValueError.
Proof. exists x_big. split; [exact x_big_wf|]. do 2 (split; [reflexivity|]). intros. now apply big_gradients. Qed.
Print Assumptions C48_rank_too_large_refuted.

(** The theorems apply: a point with three cores, the function of the documented example. *)
Lemma r_ab_inner dx da : full (toR s_a) = Ok dx -> full (toR s_b) = Ok da -> inner (ishape (toR s_a)) (get dx) (get da) = (-2717)%R.
Proof.
  intros Fx Fa. destruct (linear_fun (toR s_a) (toR s_b) da r_a_wf r_b_wf eq_refl eq_refl Fa) as [H _].
  specialize (H (toR s_a) dx r_a_wf eq_refl eq_refl Fx). revert H. cbv -[Rplus Rmult IZR inner]. intros H. injection H as <-. lra.
Qed.
Example C48_case : exists dx da, qr_ok gram_schmidt /\ grad_ok the_grad /\ wf (toR s_a) /\ bsz (toR s_a) = None /\ 2 <= ndims (toR s_a) /\ full_tt_ranks (toR s_a) /\
  full (toR s_a) = Ok dx /\ full (toR s_b) = Ok da /\
  function_of_tensor (toR s_a) (half_square (toR s_b)) (half_square_of (ishape (toR s_a)) (get da)) /\
  gradient_at (ishape (toR s_a)) (half_square_of (ishape (toR s_a)) (get da)) (get dx) (fun i => -2717 * get da i)%R /\
  half_square_of (ishape (toR s_a)) (get da) (get dx) <> 0%R /\
  (forall f ds, ~ In None (the_grad f ds)).
Proof.
  destruct (dense (toR s_a) r_a_wf) as (dx & Fx & _). destruct (dense (toR s_b) r_b_wf) as (da & Fa & _). exists dx, da.
  split; [exact gram_schmidt_ok|]. split; [exact the_grad_ok|]. split; [exact r_a_wf|]. split; [reflexivity|]. split; [cbn; lia|]. split; [exact r_a_full|].
  do 2 (split; [assumption|]). split; [now apply half_square_fun; [exact r_a_wf|exact r_b_wf|..]|].
  split; [rewrite <- (r_ab_inner dx da Fx Fa); apply half_square_grad|]. split; [unfold half_square_of; rewrite (r_ab_inner dx da Fx Fa); lra|exact the_grad_some].
Qed.
Example C48_norm_case : exists dx, full (toR s_a) = Ok dx /\ function_of_tensor (toR s_a) (norm_func gram_schmidt true) (fun T => inner (ishape (toR s_a)) T T) /\
  (forall X, gradient_at (ishape (toR s_a)) (fun T => inner (ishape (toR s_a)) T T) X (fun i => 2 * X i)%R) /\ hessian_at (ishape (toR s_a)) (fun Y i => 2 * Y i)%R (get dx) two_id /\
  inner (ishape (toR s_a)) (get dx) (get dx) <> 0%R /\ wf (toR s_b) /\ rshape (toR s_b) = rshape (toR s_a).
Proof.
  destruct (dense (toR s_a) r_a_wf) as (dx & Fx & _). exists dx. split; [exact Fx|]. split; [apply norm_fun; [exact gram_schmidt_ok|exact r_a_wf]|].
  split; [intros; apply norm_grad|]. split; [apply norm_hess|]. split; [|split; [exact r_b_wf|reflexivity]].
  destruct (linear_fun (toR s_a) (toR s_a) dx r_a_wf r_a_wf eq_refl eq_refl Fx) as [H _].
  specialize (H (toR s_a) dx r_a_wf eq_refl eq_refl Fx). revert H. cbv -[Rplus Rmult IZR inner]. intros H. injection H as <-. lra.
Qed.

(** * C45, continued *)
(** pairwise_flat_inner_projected needs the gauge condition, which deltas_to_tangent_space does not check
    (its docstring warns that the result is silently wrong; C47 shows that the object itself is right): every non-zero tensor has an object [p] in its own tangent space whose
    scalar product with another object [q] for the same tensor comes out as 0. *)
Theorem C45_gauge_needed : forall qr (x : rtt) addr dx, qr_ok qr -> wf x -> bsz x = None -> 2 <= ndims x -> admissible x -> full x = Ok dx ->
  exists l r ds p q w, frame qr x = Ok (l, r) /\ delta_shapes x l r None ds /\ deltas_to_tangent_space qr ds addr x None None = Ok p /\ made qr x addr q /\
    full (p_tt p) = Ok dx /\ full (p_tt q) = Ok dx /\ pairwise_flat_inner_projected p q = Ok w /\ shape w = [1; 1] /\ get w [0; 0] = 0%R.
Proof. exact two_deltas. Qed.
Print Assumptions C45_gauge_needed.

Theorem C45_without_gauge_refuted : exists (x : rtt) dx, wf x /\ bsz x = None /\ full_tt_ranks x /\ full x = Ok dx /\ forall qr addr, qr_ok qr ->
  exists l r ds p q w, frame qr x = Ok (l, r) /\ delta_shapes x l r None ds /\ deltas_to_tangent_space qr ds addr x None None = Ok p /\ made qr x addr q /\
    full (p_tt p) = Ok dx /\ full (p_tt q) = Ok dx /\ pairwise_flat_inner_projected p q = Ok w /\ get w [0; 0] <> inner (ishape x) (get dx) (get dx).
Proof.
  destruct C48_norm_case as (dx & Fx & _ & _ & _ & N & _). exists (toR s_a), dx. split; [exact r_a_wf|]. split; [reflexivity|]. split; [exact r_a_full|]. split; [exact Fx|].
  intros qr addr Hq. destruct (C45_gauge_needed qr (toR s_a) addr dx Hq r_a_wf eq_refl ltac:(cbn; lia) (full_admissible _ r_a_wf r_a_full) Fx)
    as (l & r & ds & p & q & w & H1 & H2 & H3 & H4 & H5 & H6 & H7 & _ & H8). exists l, r, ds, p, q, w. do 7 (split; [assumption|]). rewrite H8. congruence.
Qed.
Print Assumptions C45_without_gauge_refuted.
