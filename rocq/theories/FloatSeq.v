(** A floating point arithmetic: every addition and multiplication is rounded by [rnd], sums are
    accumulated from left to right in the order of the loops of [matmul] and [einsum] (Tensor.v). Only used to show that the contract
    [arith_ok] (FloatSpec.v) is met by a real arithmetic; Tensorflow's kernels may add in another order.  Definitions only. *)
From Coq Require Import String Ascii List Arith Bool Reals.
From Verif Require Import Scalar Tensor Base OpsR Float FloatSpec.
Import ListNotations.
Local Open Scope R_scope.
Local Notation get := (@get Rring).

Section Seq.
Variable rnd : R -> R.

Fixpoint fsumn (n : nat) (f : nat -> R) : R :=
  match n with
  | O => 0
  | S O => f 0%nat
  | S m => rnd (fsumn m f + f m)
  end.

Fixpoint fesum (dims asg : list (ascii * nat)) (body : list (ascii * nat) -> R) : R :=
  match dims with
  | [] => body asg
  | (l, n) :: ds => fsumn n (fun i => fesum ds ((l, i) :: asg) body)
  end.
Fixpoint feprod (asg : list (ascii * nat)) (ins : list (list ascii)) (ts : list rtensor) : R :=
  match ins, ts with
  | [ls], [t] => get t (map (lookup0 asg) ls)
  | ls :: ins', t :: ts' => rnd (get t (map (lookup0 asg) ls) * feprod asg ins' ts')
  | _, _ => 1
  end.

Definition seq_einsum (eq : string) (ts : list rtensor) : res rtensor :=
  match parse_eq eq [] [] with
  | None => Err TFError
  | Some (ins, out) =>
      do env <- bind_all (K := Rring) ins ts [];
      if forallb (fun l => match lookup l env with Some _ => true | None => false end) out then
        let summed := filter (fun p => negb (existsb (Ascii.eqb (fst p)) out)) env in
        Ok (mk (K := Rring) (map (lookup0 env) out)
               (fun oidx => fesum summed (combine out oidx) (fun asg => feprod asg ins ts)))
      else Err TFError
  end.

Definition seq_matmul (a b : rtensor) : res rtensor :=
  let ba := firstn (rank a - 2) (shape a) in
  let bb := firstn (rank b - 2) (shape b) in
  match skipn (rank a - 2) (shape a), skipn (rank b - 2) (shape b) with
  | [m; k], [k'; n] =>
      if Nat.eqb k k' then
        match bcast ba bb with
        | None => Err TFError
        | Some s =>
            Ok (mk (K := Rring) (s ++ [m; n])
              (fun idx => let bi := firstn (length s) idx in
                 let i := nth (length s) idx O in
                 let j := nth (S (length s)) idx O in
                 fsumn k (fun l => rnd (get a (bidx ba bi ++ [i; l]) * get b (bidx bb bi ++ [l; j])))))
        end
      else Err TFError
  | _, _ => Err TFError
  end.

Definition seq_arith : arith := Arith seq_matmul seq_einsum.
End Seq.
