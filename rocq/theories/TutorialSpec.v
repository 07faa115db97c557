(** Specification of the tutorial programs. *)
From Coq Require Import List Arith Bool Reals.
From Verif Require Import Scalar Tensor Base Spec BaseLemmas OpsR Decomp DecompSpec SvdSpec RiemSpec Vars VarSpec.
Import ListNotations.
Local Open Scope R_scope.

(** Inner product of two tensors of shape [sh] and the difference of two TT objects. *)
Definition dot (sh : list nat) (f g : list nat -> R) : R := isum (K := Rring) sh (fun i => f i * g i).
Definition minus (x a : rtt) (i : list nat) : R := tt_at x i - tt_at a i.
(** What the tutorial minimizes. *)
Definition half_sq_dist (x a : rtt) : R := / 2 * dot (ishape x) (minus x a) (minus x a).

(** [G] is the Riemannian gradient at [x]: the orthogonal projection of the gradient [x - a] onto the
    tangent space of [x]. *)
Definition riemannian_gradient (x a : rtt) (G : list nat -> R) : Prop :=
  tangent x G /\ forall T, tangent x T -> dot (ishape x) G T = dot (ishape x) (minus x a) T.
(** The gradient is orthogonal to the tangent space. *)
Definition stationary (x a : rtt) : Prop := forall T, tangent x T -> dot (ishape x) (minus x a) T = 0.

(** The situation of the tutorial: X is a variable, A an object that shares no variable with X; they are
    TT-tensors or TT-matrices of one shape with at least two cores; the rank limit [r] is the ranks of X. *)
Record ready {loss} (s : store Rring loss) (X A : vobj Rring) (r : rank_arg) : Prop := {
  rd_var : is_variable s X;
  rd_wf : wf (value s X);
  rd_nb : vbsz X = None;
  rd_d : (2 <= ndims (value s X))%nat;
  rd_awf : wf (value s A);
  rd_shape : vrshape A = vrshape X;
  rd_anb : vbsz A = None;
  rd_apart : forall id, In (CVar id) (vcores A) -> ~ In (CVar id) (vcores X);
  rd_limits : exists m, rank_limits false r None (ndims (value s X)) m /\ forall k, (0 < k < ndims (value s X))%nat -> m k = rk (value s X) k }.
(** No variable is created or registered, and the variables that are not cores of X keep their values. *)
Definition only_changes {loss} (X : vobj Rring) (s s' : store Rring loss) : Prop :=
  names s' = names s /\ coll s' = coll s /\ length (heap s') = length (heap s) /\
  forall id, ~ In (CVar id) (vcores X) -> nth_error (heap s') id = nth_error (heap s) id.
