(** renormalize_tt_cores with the values log 0 = -inf and 0 / 0 = nan of floating point arithmetic.  The
    other functions of the model use real numbers; this one leaves them when a core is zero and epsilon
    is not positive. *)
From Coq Require Import List Arith Reals.
From Verif Require Import Scalar Tensor Base OpsR.
Import ListNotations.

(** Real numbers with the infinities and nan, as in IEEE 754 but without rounding, overflow and the
    sign of zero (the only zero denominators in [ops.py:1276-1326] are square roots of 0, which are +0). *)
Inductive xr := Fin (r : R) | PInf | NInf | NaN.

(** [- x], inside [xmul]. *)
Definition xneg (x : xr) : xr := match x with Fin a => Fin (- a) | PInf => NInf | NInf => PInf | NaN => NaN end.
(** [+], used by [+=] at [ops.py:1302] and [ops.py:1319] and inside tf.matmul. *)
Definition xadd (x y : xr) : xr :=
  match x, y with
  | NaN, _ | _, NaN => NaN
  | Fin a, Fin b => Fin (a + b)
  | Fin _, i | i, Fin _ => i
  | PInf, PInf => PInf
  | NInf, NInf => NInf
  | _, _ => NaN
  end.
(** [a * inf]. *)
Definition times_inf (a : R) : xr := if Rlt_dec 0 a then PInf else if Rlt_dec a 0 then NInf else NaN.
(** [*], at [ops.py:1307] and [ops.py:1324] and inside tf.matmul. *)
Definition xmul (x y : xr) : xr :=
  match x, y with
  | NaN, _ | _, NaN => NaN
  | Fin a, Fin b => Fin (a * b)
  | Fin a, PInf | PInf, Fin a => times_inf a
  | Fin a, NInf | NInf, Fin a => xneg (times_inf a)
  | PInf, PInf | NInf, NInf => PInf
  | _, _ => NInf
  end.
(** [/], at [ops.py:1304], [ops.py:1307], [ops.py:1322] and [ops.py:1324]. *)
Definition xdiv (x y : xr) : xr :=
  match x, y with
  | NaN, _ | _, NaN => NaN
  | Fin a, Fin b => if Req_EM_T b 0 then times_inf a else Fin (a / b)
  | Fin _, _ => Fin 0
  | PInf, Fin b => if Rlt_dec b 0 then NInf else PInf
  | NInf, Fin b => if Rlt_dec b 0 then PInf else NInf
  | _, _ => NaN
  end.
(** tf.maximum, of numbers ([ops.py:1300] and [ops.py:1317]). *)
Definition xmax (x y : xr) : xr := match x, y with Fin a, Fin b => Fin (Rmax a b) | _, _ => NaN end.
(** tf.sqrt, of numbers ([ops.py:1300] and [ops.py:1317]). *)
Definition xsqrt (x : xr) : xr := match x with Fin a => if Rlt_dec a 0 then NaN else Fin (sqrt a) | PInf => PInf | _ => NaN end.
(** tf.math.log ([ops.py:1302] and [ops.py:1319]). *)
Definition xlog (x : xr) : xr :=
  match x with Fin a => if Rlt_dec 0 a then Fin (ln a) else if Req_EM_T a 0 then NInf else NaN | PInf => PInf | _ => NaN end.
(** tf.exp ([ops.py:1305] and [ops.py:1322]). *)
Definition xexp (x : xr) : xr := match x with Fin a => Fin (exp a) | PInf => PInf | NInf => Fin 0 | NaN => NaN end.

(** A core with such elements ([ops.py:1307] and [ops.py:1324]): its shape and its element at every index. *)
Record xcore := XCore { xshape : list nat; xget : list nat -> xr }.

(** The norm of a core from the sum of its squares ([ops.py:1300] and [ops.py:1316-1317]). *)
Definition xnorm (eps : R) (sumsq : R) : xr := xsqrt (xmax (Fin sumsq) (Fin eps)).
(** [ops.py:1297-1305] and [ops.py:1312-1322]: the exponential of the mean of the logarithms. *)
Definition xfact (norms : list xr) : xr :=
  xexp (xdiv (fold_left (fun acc n => xadd acc (xlog n)) norms (Fin 0)) (Fin (INR (length norms)))).

(** [ops.py:1276-1326] renormalize_tt_cores.  The factors of a batch, tensors with axes of size 1 after the first in the
    code, are functions of the batch index here; the constructor at the end only looks at the shapes, which
    are those of the given cores. *)
Definition renormalize_x (t : rtt) (eps : R) : list xcore :=
  match bsz t with
  | None =>
      let norms := map (fun x => xnorm eps (reduce_sum_all (tmap (K := Rring) (fun e => e * e)%R x))) (cores t) in
      let fact := xfact norms in
      map2 (fun (x : rtensor) n => XCore (shape x) (fun i => xdiv (xmul (Fin (get x i)) fact) n)) (cores t) norms
  | Some b =>
      let norm o (x : rtensor) := xnorm eps (get (reduce_sum_tail (tmap (K := Rring) (fun e => e * e)%R x)) (o :: repeat 0 (rank x - 1))) in
      let efact o := xfact (map (norm o) (cores t)) in
      map (fun x : rtensor => XCore (shape x) (fun i => xmul (Fin (get x i)) (xdiv (efact (nth 0 i 0)) (norm (nth 0 i 0) x)))) (cores t)
  end.

(** The product of the cores from the left, as in full ([ops.py:47-51] and [ops.py:83-88]): the row vector [v] times the slices [J] of the cores from number [k] on; [r] are the TT-ranks. *)
Definition xsum (n : nat) (f : nat -> xr) : xr := fold_left (fun acc a => xadd acc (f a)) (seq 0 n) (Fin 0).
Fixpoint xrow (r : nat -> nat) (C : nat -> xcore) (pre : list nat) (k : nat) (J : list (list nat)) (v : nat -> xr) : nat -> xr :=
  match J with
  | [] => v
  | j :: J' => xrow r C pre (S k) J' (fun b => xsum (r k) (fun a => xmul (v a) (xget (C k) (pre ++ a :: j ++ [b]))))
  end.
(** full ([ops.py:33-66] and [ops.py:69-103]): the element with physical indices [J] (of batch element [pre]) of the object
    with the cores [cs].  The reshapes and transpositions, which only move elements, are left out. *)
Definition xentry (r : nat -> nat) (cs : list xcore) (pre : list nat) (J : list (list nat)) : xr :=
  xrow r (fun k => nth k cs (XCore [] (fun _ => NaN))) pre 0 J (fun _ => Fin 1) 0.
