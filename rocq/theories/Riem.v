(** [t3f/riemannian.py].  Model only, no proofs.

    [qr] is [tf.linalg.qr] (contract: [qr_ok] in DecompSpec.v).  Dtypes are not modelled.
    Python compares [projection_on] with [!=], which for TT objects is identity of objects: an object
    is known by a number ("address") here, and the functions that set [projection_on] are given the
    address of [where] next to its value. *)
From Coq Require Import String Ascii List Arith ZArith Bool Reals.
From Verif Require Import Scalar Tensor Base Ops OpsR Decomp.
Import ListNotations.
Local Open Scope nat_scope.

(** A TT object with its attribute [projection_on] (absent: [None]), [riemannian.py:195], [:367], [:528]. *)
Record projected := Proj { p_tt : rtt; p_on : option nat }.

(** Stands for the entries [None] of [rhs] and [lhs] that are never read, [riemannian.py:94], [:106]. *)
Definition rzero : rtensor := Tensor (K := Rring) [] [0%R].

(** 'ij' or 'i', [riemannian.py:77], [:258]. *)
Definition mode_str (t : rtt) : string := if is_tt_matrix t then "ij" else "i".

(** [left_tt_rank_dim], [right_tt_rank_dim] of an object of the kind of [t], with a batch axis or
    without ([tensor_train.py:71-84], [tensor_train_batch.py:97-110]; [riemannian.py:78-79] with [:86-88], [:259-260], [:431-432]). *)
Definition left_dim (ob : option nat) : nat := match ob with Some _ => 1 | None => 0 end.
(** right_tt_rank_dim, [tensor_train.py:76-84], [tensor_train_batch.py:102-110]; [riemannian.py:78], [:87], [:259], [:431]. *)
Definition right_dim (ob : option nat) (t : rtt) : nat :=
  (if is_tt_matrix t then 3 else 2) + match ob with Some _ => 1 | None => 0 end.

(** [riemannian.py:146-163], [:318-335], [:486-497]: a core without a batch axis, repeated along one. *)
Definition extend_core (ob : option nat) (c : rtensor) : res rtensor :=
  match ob with
  | Some b => tile (expand_dims c 0) (b :: repeat 1 (rank c))
  | None => Ok c
  end.

(** [riemannian.py:165-186], [:337-358], [:499-518]: core [i] of the result.  [zl], [zr]: the ranks of
    the block of zeros. *)
Definition tangent_core (ob : option nat) (w : rtt) (i zl zr : nat) (proj l r : rtensor) : res rtensor :=
  let rd := right_dim ob w in
  let ld := left_dim ob in
  if Nat.eqb i 0 then concat [proj; l] rd
  else if Nat.eqb i (ndims w - 1) then concat [r; proj] ld
  else
    let z := zeros (match ob with Some b => [b] | None => [] end ++
                    zl :: (if is_tt_matrix w then [mode w 0 i; mode w 1 i] else [mode w 0 i]) ++ [zr]) in
    do upper <- concat [r; z] rd;
    do lower <- concat [proj; l] rd;
    concat [upper; lower] ld.

Section Riem.
Variable qr : rtensor -> rtensor * rtensor.

(** [riemannian.py:64-67], [:246-249], [:418-421]: the orthogonalized versions of [where]. *)
Definition frame (w : rtt) : res (rtt * rtt) :=
  do l <- orthogonalize_tt_cores qr w true;
  do r <- orthogonalize_tt_cores qr l false;
  Ok (l, r).

(** [riemannian.py:94-101], [:272-279] rhs[ndims], ..., rhs[1] (rhs[0] is never set). *)
Definition rhs_list (w what r : rtt) (b : nat) : res (list rtensor) :=
  foldM (fun i rhs =>
      do x <- nthr rhs (S i);
      do c <- nthr (cores what) i;
      do rc <- nthr (cores r) i;
      do y <- einsum ("sa" ++ mode_str w ++ "b,sbd,c" ++ mode_str w ++ "d->sac") [c; x; rc];
      Ok (upd i y rhs))
    (rev (seq 1 (ndims w - 1)))
    (upd (ndims w) (ones [b; 1; 1]) (repeat rzero (S (ndims w)))).

(** [riemannian.py:106-113], [:284-291] lhs[0], ..., lhs[ndims - 1]. *)
Definition lhs_list (w what l : rtt) (b : nat) : res (list rtensor) :=
  foldM (fun i lhs =>
      do x <- nthr lhs i;
      do c <- nthr (cores what) i;
      do lc <- nthr (cores l) i;
      do y <- einsum ("sab,a" ++ mode_str w ++ "c,sb" ++ mode_str w ++ "d->scd") [x; lc; c];
      Ok (upd (S i) y lhs))
    (seq 0 (ndims w - 1))
    (upd 0 (ones [b; 1; 1]) (repeat rzero (S (ndims w)))).

(** [riemannian.py:123-126], [:301-304]: before the multiplication by rhs. *)
Definition gauged (w what l : rtt) (lhs : list rtensor) (i : nat) : res rtensor :=
  do x <- nthr lhs i;
  do x' <- nthr lhs (S i);
  do c <- nthr (cores what) i;
  do lc <- nthr (cores l) i;
  do p <- einsum ("sab,sb" ++ mode_str w ++ "c->sa" ++ mode_str w ++ "c") [x; c];
  do q <- einsum ("a" ++ mode_str w ++ "b,sbc->sa" ++ mode_str w ++ "c") [lc; x'];
  ewise (K := Rring) Rminus p q.

(** The loop over the cores, [riemannian.py:116-187], [:294-359], [:465-519], given the functions that compute proj_core. *)
Definition result_cores (ob : option nat) (w l r : rtt) (proj : nat -> res rtensor) : res (list rtensor) :=
  mapM (fun i =>
      do p <- proj i;
      do lc <- nthr (cores l) i;
      do rc <- nthr (cores r) i;
      do el <- extend_core ob lc;
      do er <- extend_core ob rc;
      do zl <- nthr (lazy_tt_ranks r) i;
      do zr <- nthr (lazy_tt_ranks l) (S i);
      tangent_core ob w i zl zr p el er)
    (seq 0 (ndims w)).

(** [riemannian.py:189-196], [:361-368], [:522-529]: the object with its attribute projection_on. *)
Definition finish (ob : option nat) (addr : nat) (w : rtt) (cs : list rtensor) : res projected :=
  do t <- match ob with
          | Some b => TensorTrainBatch cs (STuple (rshape w)) None (Some b)
          | None => TensorTrain cs (STuple (rshape w)) None
          end;
  Ok (Proj t (Some addr)).

(** [riemannian.py:199-368] project. *)
Definition project (what : rtt) (addr : nat) (w : rtt) : res projected :=
  if is_batch w then Err ValueError else
  if negb (llist_eqb (rshape w) (rshape what)) then Err ValueError else
  do (l, r) <- frame w;
  let ob := bsz what in
  do what <- expand_batch_dim what;
  do b <- lazy_batch_size what;
  do rhs <- rhs_list w what r b;
  do lhs <- lhs_list w what l b;
  let s := match ob with Some _ => "s"%string | None => ""%string end in
  let proj i :=
    if Nat.ltb i (ndims w - 1) then
      do p <- gauged w what l lhs i;
      do x <- nthr rhs (S i);
      einsum ("sa" ++ mode_str w ++ "b,sbc->" ++ s ++ "a" ++ mode_str w ++ "c") [p; x]
    else
      do x <- nthr lhs i;
      do c <- nthr (cores what) i;
      einsum ("sab,sb" ++ mode_str w ++ "c->" ++ s ++ "a" ++ mode_str w ++ "c") [x; c] in
  do cs <- result_cores ob w l r proj;
  finish ob addr w cs.

(** [riemannian.py:9-196] project_sum.  [weights]: the tensor made of the argument, [None] when absent. *)
Definition project_sum (what : rtt) (addr : nat) (w : rtt) (weights : option rtensor) : res projected :=
  do what <- expand_batch_dim what;
  if is_batch w then Err ValueError else
  if negb (llist_eqb (rshape w) (rshape what)) then Err ValueError else
  do (l, r) <- frame w;
  do b <- lazy_batch_size what;
  let ob := match weights with
            | Some x => match shape x with _ :: n :: _ => if Nat.ltb 1 n then Some n else None | _ => None end
            | None => None
            end in
  let o := match ob with Some _ => "o"%string | None => ""%string end in
  do rhs <- rhs_list w what r b;
  do lhs <- lhs_list w what l b;
  let weighted p := match weights with
    | Some x => einsum ("s" ++ o ++ ",sa" ++ mode_str w ++ "c->" ++ o ++ "a" ++ mode_str w ++ "c") [x; p]
    | None => Ok p
    end in
  let s := match weights with Some _ => "s"%string | None => ""%string end in
  let proj i :=
    if Nat.ltb i (ndims w - 1) then
      do p <- gauged w what l lhs i;
      do x <- nthr rhs (S i);
      do p <- einsum ("sa" ++ mode_str w ++ "b,sbc->" ++ s ++ "a" ++ mode_str w ++ "c") [p; x];
      weighted p
    else
      do x <- nthr lhs i;
      do c <- nthr (cores what) i;
      do p <- einsum ("sab,sb" ++ mode_str w ++ "c->" ++ s ++ "a" ++ mode_str w ++ "c") [x; c];
      weighted p in
  do cs <- result_cores ob w l r proj;
  finish ob addr w cs.

(** [riemannian.py:371-529] project_matmul.  A TensorTrain has no batch size, so for [what] a TensorTrain
    [lazy_batch_size] raises ValueError. *)
Definition project_matmul (what : rtt) (addr : nat) (w m : rtt) : res projected :=
  if is_batch w then Err ValueError else
  if negb (llist_eqb (rshape w) (rshape what)) then Err ValueError else
  do (l, r) <- frame w;
  do b <- lazy_batch_size what;
  let ob := bsz what in
  do what <- expand_batch_dim what;
  do rhs <- foldM (fun i rhs =>
      do x <- nthr rhs (S i);
      do c <- nthr (cores what) i;
      do rc <- nthr (cores r) i;
      do mc <- nthr (cores m) i;
      do y <- einsum "bije,cikf,sdef,sajkd->sabc" [mc; rc; x; c];
      Ok (upd i y rhs))
    (rev (seq 1 (ndims w - 1)))
    (upd (ndims w) (ones [b; 1; 1; 1]) (repeat rzero (S (ndims w))));
  do lhs <- foldM (fun i lhs =>
      do x <- nthr lhs i;
      do c <- nthr (cores what) i;
      do lc <- nthr (cores l) i;
      do mc <- nthr (cores m) i;
      do y <- einsum "bije,aikd,sabc,scjkf->sdef" [mc; lc; x; c];
      Ok (upd (S i) y lhs))
    (seq 0 (ndims w - 1))
    (upd 0 (ones [b; 1; 1; 1]) (repeat rzero (S (ndims w))));
  let proj i :=
    do c <- nthr (cores what) i;
    do lc <- nthr (cores l) i;
    do mc <- nthr (cores m) i;
    do x <- nthr lhs i;
    if Nat.ltb i (ndims w - 1) then
      do x' <- nthr lhs (S i);
      do y <- nthr rhs (S i);
      do p <- einsum "scjke,sabc,bijd->saikde" [c; x; mc];
      do q <- einsum "aikb,sbcd->saikcd" [lc; x'];
      do p <- ewise (K := Rring) Rminus p q;
      einsum "saikcb,sbcd->saikd" [p; y]
    else einsum "sabc,bijd,scjke->saike" [x; mc; c] in
  do cs <- result_cores ob w l r proj;
  finish ob addr w cs.

(** [riemannian.py:754-797] tangent_space_to_deltas.  [int(r / 2)] is [r / 2] rounded down. *)
Definition zslice (a b : option nat) : pyindex := ISlice (option_map Z.of_nat a) (option_map Z.of_nat b) None.
(** The slices of a core along its two rank axes, [riemannian.py:754-797] and slice_tt_core [:681]. *)
Definition slice_core (t : rtt) (c : rtensor) (li ri : pyindex) : res rtensor :=
  getitem c (upd (right_dim (bsz t) t) ri (upd (left_dim (bsz t)) li (repeat full_slice (rank c)))).
(** [riemannian.py:754-797] tangent_space_to_deltas. *)
Definition tangent_space_to_deltas (p : projected) : res (list rtensor) :=
  match p_on p with
  | None => Err ValueError
  | Some _ =>
      let t := p_tt p in
      let d := ndims t in
      if existsb (fun i => negb (Nat.even (rk t i))) (seq 1 (d - 2)) then Err ValueError else
      mapM (fun i =>
          do c <- nthr (cores t) i;
          if Nat.eqb i (d - 1) then slice_core t c (zslice (Some (rk t (d - 1) / 2)) None) full_slice
          else if Nat.eqb i 0 then slice_core t c full_slice (zslice (Some 0) (Some (rk t 1 / 2)))
          else slice_core t c (zslice (Some (rk t i / 2)) None) (zslice (Some 0) (Some (rk t (S i) / 2))))
        (seq 0 d)
  end.

(** [riemannian.py:800-887] deltas_to_tangent_space.  Line 841 takes the ranks of [left] for those of [right]. *)
Definition deltas_to_tangent_space (deltas : list rtensor) (addr : nat) (t : rtt) (left right : option rtt)
  : res projected :=
  do l <- match left with Some l => Ok l | None => orthogonalize_tt_cores qr t true end;
  do r <- match right with Some r => Ok r | None => orthogonalize_tt_cores qr l false end;
  do d0 <- nthr deltas 0;
  do c0 <- nthr (cores t) 0;
  do ob <- (if Nat.ltb (rank c0) (rank d0) then do b <- nthr (shape d0) 0; Ok (Some b) else Ok None);
  do cs <- mapM (fun i =>
      do lc <- nthr (cores l) i;
      do rc <- nthr (cores r) i;
      do el <- extend_core ob lc;
      do er <- extend_core ob rc;
      do p <- nthr deltas i;
      do zl <- nthr (lazy_tt_ranks l) i;
      do zr <- nthr (lazy_tt_ranks l) (S i);
      tangent_core ob t i zl zr p el er)
    (seq 0 (ndims t));
  do x <- match ob with
          | Some b => TensorTrainBatch cs SNone None (Some b)
          | None => TensorTrain cs SNone None
          end;
  Ok (Proj x (Some addr)).
End Riem.

(** [riemannian.py:532-628] pairwise_flat_inner_projected.  The ranks of the first argument are used for both. *)
Definition pairwise_flat_inner_projected (p1 p2 : projected) : res rtensor :=
  match p_on p1, p_on p2 with
  | Some a1, Some a2 =>
      if negb (Nat.eqb a1 a2) then Err ValueError else
      do t1 <- expand_batch_dim (p_tt p1);
      do t2 <- expand_batch_dim (p_tt p2);
      let d := ndims t1 in
      let m := mode_str t1 in
      let eq := ("pa" ++ m ++ "b,qa" ++ m ++ "b->pq")%string in
      let du t i li ri :=
        do c <- nthr (cores t) i;
        getitem c (full_slice :: li :: repeat full_slice (if is_tt_matrix t1 then 2 else 1) ++ [ri]) in
      let inner i li ri :=
        do x <- du t1 i li ri;
        do y <- du t2 i li ri;
        einsum eq [x; y] in
      do r1 <- nthr (lazy_tt_ranks t1) 1;
      do res <- inner 0 full_slice (zslice None (Some (r1 / 2)));
      do res <- foldM (fun i res =>
          do ra <- nthr (lazy_tt_ranks t1) i;
          do rb <- nthr (lazy_tt_ranks t1) (S i);
          do x <- inner i (zslice (Some (ra / 2)) None) (zslice None (Some (rb / 2)));
          ewise (K := Rring) Rplus res x)
        (seq 1 (d - 1)) res;
      do ra <- nthr (lazy_tt_ranks t1) (d - 1);
      do x <- inner (d - 1) (zslice (Some (ra / 2)) None) full_slice;
      ewise (K := Rring) Rplus res x
  | _, _ => Err ValueError
  end.

(** [tf.add_n] (add_n_projected, [riemannian.py:631-751]): all shapes have to be the same. *)
Definition tf_add_n (l : list rtensor) : res rtensor :=
  match l with
  | [] => Err ValueError
  | x :: l' => foldM (fun y s => if list_eqb (shape y) (shape s) then ewise (K := Rring) Rplus s y else Err TFError) l' x
  end.

(** [riemannian.py:631-751] add_n_projected.  [upper_part] is taken from the object the previous loop ended with,
    the last one. *)
Definition add_n_projected (l : list projected) (coef : option rtensor) : res projected :=
  if negb (forallb (fun p => match p_on p with Some _ => true | None => false end) l) then Err ValueError else
  do p0 <- nthr l 0;
  if negb (forallb (fun p => match p_on p, p_on p0 with Some a, Some b => Nat.eqb a b | _, _ => true end) (tl l))
  then Err ValueError else
  let t0 := p_tt p0 in
  do c00 <- nthr (cores t0) 0;
  do coef <- match coef with
             | None => Ok None
             | Some x => match shape x with
                         | n :: b :: _ => do y <- reshape x (map Some (n :: b :: repeat 1 (rank c00 - 1))); Ok (Some y)
                         | _ => Ok (Some x)
                         end
             end;
  let d := ndims t0 in
  let rd := right_dim (bsz t0) t0 in
  let ld := left_dim (bsz t0) in
  let tl' := p_tt (last l p0) in
  let chunk i li ri k (p : projected) :=
    do c <- nthr (cores (p_tt p)) i;
    do x <- slice_core t0 c li ri;
    match coef with
    | None => Ok x
    | Some w => do wk <- getitem w (IInt (Z.of_nat k) :: repeat full_slice (rank w - 1)); ewise (K := Rring) Rmult x wk
    end in
  let chunks i li ri :=
    do xs <- mapM (fun k => do p <- nthr l k; chunk i li ri k p) (seq 0 (length l));
    tf_add_n xs in
  do r1 <- nthr (lazy_tt_ranks t0) 1;
  do left_part <- chunks 0 full_slice (zslice (Some 0) (Some (r1 / 2)));
  do right_part <- slice_core t0 c00 full_slice (zslice (Some (r1 / 2)) None);
  do first <- concat [left_part; right_part] rd;
  do middle <- mapM (fun i =>
      do ra <- nthr (lazy_tt_ranks t0) i;
      do rb <- nthr (lazy_tt_ranks t0) (S i);
      do c <- nthr (cores tl') i;
      do upper <- slice_core t0 c (zslice (Some 0) (Some (ra / 2))) full_slice;
      do c0 <- nthr (cores t0) i;
      do lower_right <- slice_core t0 c0 (zslice (Some (ra / 2)) None) (zslice (Some (rb / 2)) None);
      do lower_left <- chunks i (zslice (Some (ra / 2)) None) (zslice (Some 0) (Some (rb / 2)));
      do lower <- concat [lower_left; lower_right] rd;
      concat [upper; lower] ld)
    (seq 1 (d - 2));
  do ra <- nthr (lazy_tt_ranks t0) (d - 1);
  do c <- lastr (cores tl');
  do upper <- slice_core t0 c (zslice (Some 0) (Some (ra / 2))) full_slice;
  do lower <- (do xs <- mapM (fun k => do p <- nthr l k; chunk (length (cores (p_tt p)) - 1) (zslice (Some (ra / 2)) None) full_slice k p)
                         (seq 0 (length l));
               tf_add_n xs);
  do final <- concat [upper; lower] ld;
  let cs := first :: middle ++ [final] in
  do t <- match bsz t0 with
          | None => TensorTrain cs (STuple (rshape t0)) (Some (rks t0))
          | Some b => TensorTrainBatch cs (STuple (rshape t0)) (Some (rks t0)) (Some b)
          end;
  Ok (Proj t (p_on p0)).
