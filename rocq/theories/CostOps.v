(** The functions whose docstrings state their complexity, with a record of the kernel calls they make.
    The text of every function is that of Ops.v, BatchOps.v, Decomp.v and Riem.v (which cite the lines) with
    the kernels replaced by versions that also append the call to a list.  Forgetting the list gives the
    functions back ([C61_erase], [C62_erase], Properties_Cost.v).  Model only, no proofs. *)
From Coq Require Import String Ascii List Arith ZArith Bool Reals.
From Verif Require Import Scalar Tensor Base Ops OpsR BatchOps Decomp Riem Cost.
Import ListNotations.
Local Open Scope nat_scope.

(** Results with the list of calls made. *)
Definition tr (A : Type) : Type := res (A * list call).
Definition tbind {A B} (m : tr A) (k : A -> tr B) : tr B :=
  match m with
  | Ok (a, l) => match k a with Ok (b, l') => Ok (b, l ++ l') | Err e => Err e end
  | Err e => Err e
  end.
Notation "'dt' x <- m ; k" := (tbind m (fun x => k))
  (at level 200, x pattern, m at level 100, k at level 200).
(** Work that is not counted. *)
Definition free {A} (m : res A) : tr A := match m with Ok a => Ok (a, []) | Err e => Err e end.
Definition erase {A} (m : tr A) : res A := match m with Ok (a, _) => Ok a | Err e => Err e end.
Definition calls {A} (m : tr A) : list call := match m with Ok (_, l) => l | Err _ => [] end.

Fixpoint tfold {A S} (f : A -> S -> tr S) (l : list A) (s : S) : tr S :=
  match l with
  | [] => Ok (s, [])
  | x :: l' => dt s' <- f x s; tfold f l' s'
  end.
Fixpoint tmapM {A B} (f : A -> tr B) (l : list A) : tr (list B) :=
  match l with
  | [] => Ok ([], [])
  | x :: l' => dt y <- f x; dt ys <- tmapM f l'; Ok (y :: ys, [])
  end.

Section Kernels.
Context {K : cring}.
Definition t_einsum (eq : string) (ts : list (tensor K)) : tr (tensor K) :=
  do r <- einsum eq ts; Ok (r, [KEinsum eq (map shape ts)]).
Definition t_matmul (a b : tensor K) : tr (tensor K) :=
  do r <- matmul a b; Ok (r, [KMatmul (shape a) (shape b)]).
Definition t_ewise (f : K -> K -> K) (a b : tensor K) : tr (tensor K) :=
  do r <- ewise f a b; Ok (r, [KEwise (shape r)]).
End Kernels.

Section Ops.
Context {K : cring}.

(** [ops.py:321-400] tt_tt_flat_inner. *)
Definition t_flat_inner (a b : tt K) : tr (tensor K) :=
  if negb (Bool.eqb (is_tt_matrix a) (is_tt_matrix b)) then Err ValueError else
  let both := is_tt_matrix a && is_tt_matrix b in
  if negb (is_batch_broadcasting_possible a b) then Err ValueError else
  let nd := ndims a in
  if negb (Nat.eqb (ndims b) nd) then Err ValueError else
  let ax := if both then "ij"%string else "i"%string in
  dt a <- free (squeeze_batch_dim a);
  dt b <- free (squeeze_batch_dim b);
  let bstr x := if is_batch x then "o"%string else ""%string in
  let rstr := if is_batch a || is_batch b then "o"%string else ""%string in
  let init_eq := (bstr a ++ "a" ++ ax ++ "b," ++ bstr b ++ "c" ++ ax ++ "d->" ++ rstr ++ "bd")%string in
  dt r0 <- t_einsum init_eq [core a 0; core b 0];
  let eq := (rstr ++ "ac," ++ bstr a ++ "a" ++ ax ++ "b," ++ bstr b ++ "c" ++ ax ++ "d->"
             ++ rstr ++ "bd")%string in
  dt r <- tfold (fun i r => t_einsum eq [r; core a i; core b i]) (seq 1 (nd - 1)) r0;
  Ok (squeeze r, []).

(** [ops.py:1046-1118] bilinear_form. *)
Definition t_bilinear_form (A b c : tt K) : tr (tensor K) :=
  if negb (is_tt_matrix A) then Err ValueError else
  if negb (is_tt_matrix b) then Err ValueError else
  if negb (is_tt_matrix c) then Err ValueError else
  let b_is_batch := is_batch b in
  let c_is_batch := is_batch b in
  let bstr := if b_is_batch then "p"%string else ""%string in
  let cstr := if c_is_batch then "p"%string else ""%string in
  let ostr := if b_is_batch || c_is_batch then "p"%string else ""%string in
  dt r0 <- t_einsum (bstr ++ "aikb,cijd," ++ cstr ++ "ejkf->" ++ ostr ++ "bdf")%string
                  [core b 0; core A 0; core c 0];
  dt r <- tfold (fun i r =>
      dt c1 <- free (nthr (cores b) i); dt c2 <- free (nthr (cores c) i);
      t_einsum (ostr ++ "ace," ++ bstr ++ "aikb,cijd," ++ cstr ++ "ejkf->" ++ ostr ++ "bdf")%string
             [r; c1; core A i; c2])
    (seq 1 (ndims A - 1)) r0;
  Ok (squeeze r, []).

(** [batch_ops.py:120-235] pairwise_flat_inner. *)
Definition t_pairwise_flat_inner (t1 t2 : tt K) : tr (tensor K) :=
  let ms := if is_tt_matrix t1 then "ij"%string else "i"%string in
  dt r0 <- t_einsum ("pa" ++ ms ++ "b,qc" ++ ms ++ "d->pqbd")%string [core t1 0; core t2 0];
  dt r <- tfold (fun i r =>
      dt c2 <- free (nthr (cores t2) i);
      t_einsum ("pqac,pa" ++ ms ++ "b,qc" ++ ms ++ "d->pqbd")%string [r; core t1 i; c2])
    (seq 1 (ndims t1 - 1)) r0;
  Ok (squeeze r, []).

Definition t_pairwise_flat_inner_mat (t1 t2 m : tt K) : tr (tensor K) :=
  if negb (is_tt_matrix t1 && is_tt_matrix t2 && is_tt_matrix m) then Err ValueError else
  if negb (list_eqb (nth 0 (rshape t1) []) (nth 0 (rshape m) [])) then Err ValueError else
  if negb (list_eqb (nth 0 (rshape t2) []) (nth 1 (rshape m) [])) then Err ValueError else
  dt t1 <- free (to_row t1);
  dt t2 <- free (to_row t2);
  dt n1 <- free (nthr (get_shape t1) 1);
  dt n2 <- free (nthr (get_shape t2) 1);
  if negb (Nat.eqb n1 1) then Err ValueError else
  if negb (Nat.eqb n2 1) then Err ValueError else
  dt r0 <- t_einsum "pakib,cijd,qekjf->pqbdf" [core t1 0; core m 0; core t2 0];
  dt r <- tfold (fun i r =>
      dt c2 <- free (nthr (cores t2) i); dt cm <- free (nthr (cores m) i);
      t_einsum "pqace,pakib,cijd,qekjf->pqbdf" [r; core t1 i; cm; c2])
    (seq 1 (ndims t1 - 1)) r0;
  Ok (squeeze r, []).

(** [batch_ops.py:84-117] gram_matrix. *)
Definition t_gram_matrix (t : tt K) (m : option (tt K)) : tr (tensor K) :=
  match m with None => t_pairwise_flat_inner t t | Some m => t_pairwise_flat_inner_mat t t m end.
End Ops.

Section Decomp.
Variable qr : rtensor -> rtensor * rtensor.

Definition t_qr (a : rtensor) : tr (rtensor * rtensor) := Ok (qr a, [KQr (shape a)]).

(** [decompositions.py:446-477], [:510-542]. *)
Definition t_orth_lr_step (pre : list nat) (t : rtt) (i : nat) (st : list rtensor * nat)
  : tr (list rtensor * nat) :=
  let '(cs, curr_rank) := st in
  dt c <- free (nthr cs i);
  dt next_rank <- free (nthr (lazy_tt_ranks t) (S i));
  let ms := core_modes t i in
  dt m <- free (reshape c (map Some (pre ++ [curr_rank * prodn ms; next_rank])));
  dt (q, r) <- t_qr m;
  dt next_rank <- free (nthr (shape r) (length pre));
  dt cols <- free (nthr (shape r) (S (length pre)));
  dt q <- free (reshape q (map Some (pre ++ curr_rank :: ms ++ [next_rank])));
  let cs := upd i q cs in
  dt nc <- free (nthr cs (S i));
  dt nc <- free (reshape nc (map Some (pre ++ [cols]) ++ [None]));
  dt nc <- t_matmul r nc;
  Ok ((upd (S i) nc cs, next_rank), []).

Definition t_orth_lr (pre : list nat) (t : rtt) : tr rtt :=
  dt r0 <- free (nthr (lazy_tt_ranks t) 0);
  dt st <- tfold (t_orth_lr_step pre t) (seq 0 (ndims t - 1)) (cores t, r0);
  let '(cs, next_rank) := st in
  dt lc <- free (lastr cs);
  dt lc <- free (reshape lc (map Some (pre ++ next_rank :: core_modes t (ndims t - 1) ++ [1])));
  let cs := upd (ndims t - 1) lc cs in
  free (match pre with
  | [] => TensorTrain cs (STuple (rshape t)) None
  | b :: _ => TensorTrainBatch cs (STuple (rshape t)) None (Some b)
  end).

(** [decompositions.py:554-612]. *)
Definition t_orth_rl_step (t : rtt) (i : nat) (st : list rtensor * nat) : tr (list rtensor * nat) :=
  let '(cs, curr_rank) := st in
  dt c <- free (nthr cs i);
  dt prev_rank <- free (nthr (lazy_tt_ranks t) i);
  let ms := core_modes t i in
  dt m <- free (reshape c (map Some [prev_rank; prodn ms * curr_rank]));
  dt m <- free (swap_last [] m);
  dt (q, r) <- t_qr m;
  dt q <- free (swap_last [] q);
  dt r <- free (swap_last [] r);
  dt prev_rank <- free (nthr (shape r) 1);
  dt rows <- free (nthr (shape r) 0);
  dt q <- free (reshape q (map Some (prev_rank :: ms ++ [curr_rank])));
  let cs := upd i q cs in
  dt pc <- free (nthr cs (i - 1));
  dt pc <- free (reshape pc [None; Some rows]);
  dt pc <- t_matmul pc r;
  Ok ((upd (i - 1) pc cs, prev_rank), []).

Definition t_orth_rl (t : rtt) : tr rtt :=
  dt rd <- free (nthr (lazy_tt_ranks t) (ndims t));
  dt st <- tfold (t_orth_rl_step t) (rev (seq 1 (ndims t - 1))) (cores t, rd);
  let '(cs, prev_rank) := st in
  dt c <- free (nthr cs 0);
  dt c <- free (reshape c (map Some (1 :: core_modes t 0 ++ [prev_rank])));
  free (TensorTrain (upd 0 c cs) (STuple (rshape t)) None).

(** [decompositions.py:395-418] orthogonalize_tt_cores. *)
Definition t_orthogonalize (t : rtt) (left_to_right : bool) : tr rtt :=
  match bsz t with
  | Some b => if left_to_right then t_orth_lr [b] t else Err NotImplementedError
  | None => if left_to_right then t_orth_lr [] t else t_orth_rl t
  end.

(** [riemannian.py:64-67], [:246-249], [:418-421]. *)
Definition t_frame (w : rtt) : tr (rtt * rtt) :=
  dt l <- t_orthogonalize w true;
  dt r <- t_orthogonalize l false;
  Ok ((l, r), []).

(** [riemannian.py:94-101], [:272-279]. *)
Definition t_rhs_list (w what r : rtt) (b : nat) : tr (list rtensor) :=
  tfold (fun i rhs =>
      dt x <- free (nthr rhs (S i));
      dt c <- free (nthr (cores what) i);
      dt rc <- free (nthr (cores r) i);
      dt y <- t_einsum ("sa" ++ mode_str w ++ "b,sbd,c" ++ mode_str w ++ "d->sac") [c; x; rc];
      Ok (upd i y rhs, []))
    (rev (seq 1 (ndims w - 1)))
    (upd (ndims w) (ones [b; 1; 1]) (repeat rzero (S (ndims w)))).

(** [riemannian.py:106-113], [:284-291]. *)
Definition t_lhs_list (w what l : rtt) (b : nat) : tr (list rtensor) :=
  tfold (fun i lhs =>
      dt x <- free (nthr lhs i);
      dt c <- free (nthr (cores what) i);
      dt lc <- free (nthr (cores l) i);
      dt y <- t_einsum ("sab,a" ++ mode_str w ++ "c,sb" ++ mode_str w ++ "d->scd") [x; lc; c];
      Ok (upd (S i) y lhs, []))
    (seq 0 (ndims w - 1))
    (upd 0 (ones [b; 1; 1]) (repeat rzero (S (ndims w)))).

(** [riemannian.py:123-126], [:301-304]. *)
Definition t_gauged (w what l : rtt) (lhs : list rtensor) (i : nat) : tr rtensor :=
  dt x <- free (nthr lhs i);
  dt x' <- free (nthr lhs (S i));
  dt c <- free (nthr (cores what) i);
  dt lc <- free (nthr (cores l) i);
  dt p <- t_einsum ("sab,sb" ++ mode_str w ++ "c->sa" ++ mode_str w ++ "c") [x; c];
  dt q <- t_einsum ("a" ++ mode_str w ++ "b,sbc->sa" ++ mode_str w ++ "c") [lc; x'];
  t_ewise (K := Rring) Rminus p q.

(** [riemannian.py:116-187], [:294-359], [:465-519]. *)
Definition t_result_cores (ob : option nat) (w l r : rtt) (proj : nat -> tr rtensor) : tr (list rtensor) :=
  tmapM (fun i =>
      dt p <- proj i;
      dt lc <- free (nthr (cores l) i);
      dt rc <- free (nthr (cores r) i);
      dt el <- free (extend_core ob lc);
      dt er <- free (extend_core ob rc);
      dt zl <- free (nthr (lazy_tt_ranks r) i);
      dt zr <- free (nthr (lazy_tt_ranks l) (S i));
      free (tangent_core ob w i zl zr p el er))
    (seq 0 (ndims w)).

(** [riemannian.py:199-368] project. *)
Definition t_project (what : rtt) (addr : nat) (w : rtt) : tr projected :=
  if is_batch w then Err ValueError else
  if negb (llist_eqb (rshape w) (rshape what)) then Err ValueError else
  dt (l, r) <- t_frame w;
  let ob := bsz what in
  dt what <- free (expand_batch_dim what);
  dt b <- free (lazy_batch_size what);
  dt rhs <- t_rhs_list w what r b;
  dt lhs <- t_lhs_list w what l b;
  let s := match ob with Some _ => "s"%string | None => ""%string end in
  let proj i :=
    if Nat.ltb i (ndims w - 1) then
      dt p <- t_gauged w what l lhs i;
      dt x <- free (nthr rhs (S i));
      t_einsum ("sa" ++ mode_str w ++ "b,sbc->" ++ s ++ "a" ++ mode_str w ++ "c") [p; x]
    else
      dt x <- free (nthr lhs i);
      dt c <- free (nthr (cores what) i);
      t_einsum ("sab,sb" ++ mode_str w ++ "c->" ++ s ++ "a" ++ mode_str w ++ "c") [x; c] in
  dt cs <- t_result_cores ob w l r proj;
  free (finish ob addr w cs).

(** [riemannian.py:9-196] project_sum. *)
Definition t_project_sum (what : rtt) (addr : nat) (w : rtt) (weights : option rtensor) : tr projected :=
  dt what <- free (expand_batch_dim what);
  if is_batch w then Err ValueError else
  if negb (llist_eqb (rshape w) (rshape what)) then Err ValueError else
  dt (l, r) <- t_frame w;
  dt b <- free (lazy_batch_size what);
  let ob := match weights with
            | Some x => match shape x with _ :: n :: _ => if Nat.ltb 1 n then Some n else None | _ => None end
            | None => None
            end in
  let o := match ob with Some _ => "o"%string | None => ""%string end in
  dt rhs <- t_rhs_list w what r b;
  dt lhs <- t_lhs_list w what l b;
  let weighted p := match weights with
    | Some x => t_einsum ("s" ++ o ++ ",sa" ++ mode_str w ++ "c->" ++ o ++ "a" ++ mode_str w ++ "c") [x; p]
    | None => Ok (p, [])
    end in
  let s := match weights with Some _ => "s"%string | None => ""%string end in
  let proj i :=
    if Nat.ltb i (ndims w - 1) then
      dt p <- t_gauged w what l lhs i;
      dt x <- free (nthr rhs (S i));
      dt p <- t_einsum ("sa" ++ mode_str w ++ "b,sbc->" ++ s ++ "a" ++ mode_str w ++ "c") [p; x];
      weighted p
    else
      dt x <- free (nthr lhs i);
      dt c <- free (nthr (cores what) i);
      dt p <- t_einsum ("sab,sb" ++ mode_str w ++ "c->" ++ s ++ "a" ++ mode_str w ++ "c") [x; c];
      weighted p in
  dt cs <- t_result_cores ob w l r proj;
  free (finish ob addr w cs).

(** [riemannian.py:371-529] project_matmul. *)
Definition t_project_matmul (what : rtt) (addr : nat) (w m : rtt) : tr projected :=
  if is_batch w then Err ValueError else
  if negb (llist_eqb (rshape w) (rshape what)) then Err ValueError else
  dt (l, r) <- t_frame w;
  dt b <- free (lazy_batch_size what);
  let ob := bsz what in
  dt what <- free (expand_batch_dim what);
  dt rhs <- tfold (fun i rhs =>
      dt x <- free (nthr rhs (S i));
      dt c <- free (nthr (cores what) i);
      dt rc <- free (nthr (cores r) i);
      dt mc <- free (nthr (cores m) i);
      dt y <- t_einsum "bije,cikf,sdef,sajkd->sabc" [mc; rc; x; c];
      Ok (upd i y rhs, []))
    (rev (seq 1 (ndims w - 1)))
    (upd (ndims w) (ones [b; 1; 1; 1]) (repeat rzero (S (ndims w))));
  dt lhs <- tfold (fun i lhs =>
      dt x <- free (nthr lhs i);
      dt c <- free (nthr (cores what) i);
      dt lc <- free (nthr (cores l) i);
      dt mc <- free (nthr (cores m) i);
      dt y <- t_einsum "bije,aikd,sabc,scjkf->sdef" [mc; lc; x; c];
      Ok (upd (S i) y lhs, []))
    (seq 0 (ndims w - 1))
    (upd 0 (ones [b; 1; 1; 1]) (repeat rzero (S (ndims w))));
  let proj i :=
    dt c <- free (nthr (cores what) i);
    dt lc <- free (nthr (cores l) i);
    dt mc <- free (nthr (cores m) i);
    dt x <- free (nthr lhs i);
    if Nat.ltb i (ndims w - 1) then
      dt x' <- free (nthr lhs (S i));
      dt y <- free (nthr rhs (S i));
      dt p <- t_einsum "scjke,sabc,bijd->saikde" [c; x; mc];
      dt q <- t_einsum "aikb,sbcd->saikcd" [lc; x'];
      dt p <- t_ewise (K := Rring) Rminus p q;
      t_einsum "saikcb,sbcd->saikd" [p; y]
    else t_einsum "sabc,bijd,scjke->saike" [x; mc; c] in
  dt cs <- t_result_cores ob w l r proj;
  free (finish ob addr w cs).
End Decomp.

(** [riemannian.py:532-628] pairwise_flat_inner_projected. *)
Definition t_pairwise_flat_inner_projected (p1 p2 : projected) : tr rtensor :=
  match p_on p1, p_on p2 with
  | Some a1, Some a2 =>
      if negb (Nat.eqb a1 a2) then Err ValueError else
      dt t1 <- free (expand_batch_dim (p_tt p1));
      dt t2 <- free (expand_batch_dim (p_tt p2));
      let d := ndims t1 in
      let m := mode_str t1 in
      let eq := ("pa" ++ m ++ "b,qa" ++ m ++ "b->pq")%string in
      let du t i li ri :=
        dt c <- free (nthr (cores t) i);
        free (getitem c (full_slice :: li :: repeat full_slice (if is_tt_matrix t1 then 2 else 1) ++ [ri])) in
      let inner i li ri :=
        dt x <- du t1 i li ri;
        dt y <- du t2 i li ri;
        t_einsum eq [x; y] in
      dt r1 <- free (nthr (lazy_tt_ranks t1) 1);
      dt res <- inner 0 full_slice (zslice None (Some (r1 / 2)));
      dt res <- tfold (fun i res =>
          dt ra <- free (nthr (lazy_tt_ranks t1) i);
          dt rb <- free (nthr (lazy_tt_ranks t1) (S i));
          dt x <- inner i (zslice (Some (ra / 2)) None) (zslice None (Some (rb / 2)));
          t_ewise (K := Rring) Rplus res x)
        (seq 1 (d - 1)) res;
      dt ra <- free (nthr (lazy_tt_ranks t1) (d - 1));
      dt x <- inner (d - 1) (zslice (Some (ra / 2)) None) full_slice;
      t_ewise (K := Rring) Rplus res x
  | _, _ => Err ValueError
  end.
