(** [t3f/ops.py] and [t3f/utils.py], over an arbitrary commutative ring.
    The functions that need real roots (multiply by a number, norms, renormalize)
    are in OpsR.v.  Model only, no proofs. *)
From Coq Require Import String Ascii List Arith ZArith Bool.
From Verif Require Import Scalar Tensor Base.
Import ListNotations.

(** Integer tensors (indices, [ops.py:1218-1273], [utils.py:7-13]). *)
Definition itensor := tensor Zring.

Section Ops.
Variable K : cring.

(** A tf.SparseTensor: indices (num x dims), values, dense shape ([ops.py:419-469]). *)
Record sparse := Sparse { sp_indices : itensor; sp_values : tensor K; sp_shape : list nat }.

(** [ops.py:33-66] _full_tt. *)
Definition full_tt (t : tt K) : res (tensor K) :=
  do r <- foldM (fun i r =>
      do r' <- reshape r [None; Some (rk t i)];
      do c <- reshape (core t i) [Some (rk t i); None];
      matmul r' c)
    (seq 1 (ndims t - 1)) (core t 0);
  if is_tt_matrix t then
    let intermediate := flat_map (fun i => [mode t 0 i; mode t 1 i]) (seq 0 (ndims t)) in
    do r <- reshape r (map Some intermediate);
    let perm := (map (fun i => 2 * i) (seq 0 (ndims t))
                 ++ map (fun i => 2 * i + 1) (seq 0 (ndims t)))%list in
    do r <- transpose r perm;
    reshape r (map Some (lazy_shape t))
  else reshape r (map Some (lazy_shape t)).

(** [ops.py:69-103] _full_tt_batch. *)
Definition full_tt_batch (t : tt K) : res (tensor K) :=
  do bs <- lazy_batch_size t;
  do r <- foldM (fun i r =>
      do r' <- reshape r [Some bs; None; Some (rk t i)];
      do c <- reshape (core t i) [Some bs; Some (rk t i); None];
      einsum "oqb,obw->oqw" [r'; c])
    (seq 1 (ndims t - 1)) (core t 0);
  if is_tt_matrix t then
    let intermediate := bs :: flat_map (fun i => [mode t 0 i; mode t 1 i]) (seq 0 (ndims t)) in
    do r <- reshape r (map Some intermediate);
    let perm := 0 :: (map (fun i => 2 * i + 1) (seq 0 (ndims t))
                 ++ map (fun i => 2 * i + 1 + 1) (seq 0 (ndims t)))%list in
    do r <- transpose r perm;
    reshape r (map Some (lazy_shape t))
  else reshape r (map Some (lazy_shape t)).

(** [ops.py:14-30] full. *)
Definition full (t : tt K) : res (tensor K) :=
  match bsz t with Some _ => full_tt_batch t | None => full_tt t end.

(** [ops.py:106-185] tt_tt_matmul. *)
Definition tt_tt_matmul (a b : tt K) : res (tt K) :=
  if negb (is_tt_matrix a) || negb (is_tt_matrix b) then Err ValueError else
  if negb (is_batch_broadcasting_possible a b) then Err ValueError else
  let nd := ndims a in
  if negb (Nat.eqb (ndims b) nd) then Err ValueError else
  do a <- squeeze_batch_dim a;
  do b <- squeeze_batch_dim b;
  let bstr x := if is_batch x then "o"%string else ""%string in
  let is_res_batch := is_batch a || is_batch b in
  let eq := (bstr a ++ "aijb," ++ bstr b ++ "cjkd->" ++
             (if is_res_batch then "o" else "") ++ "acikbd")%string in
  (* batch_size: b's if b is a batch, else a's *)
  let bs := match bsz b with Some x => Some x | None => bsz a end in
  do cs <- mapM (fun i =>
      do c <- einsum eq [core a i; core b i];
      let lr := rk a i * rk b i in
      let rr := rk a (S i) * rk b (S i) in
      let csh := [lr; mode a 0 i; mode b 1 i; rr] in
      reshape c (map Some (match bs with Some x => x :: csh | None => csh end)))
    (seq 0 nd);
  let rsh := [nth 0 (rshape a) []; nth 1 (rshape b) []] in
  let out_ranks := map2 Nat.mul (rks a) (rks b) in
  match bs with
  | Some x => TensorTrainBatch cs (STuple rsh) (Some out_ranks) (Some x)
  | None => TensorTrain cs (STuple rsh) (Some out_ranks)
  end.

(** [ops.py:188-231] tt_dense_matmul.  The error message for misaligned shapes formats a
    TensorShape with %d, which is a TypeError. *)
Definition tt_dense_matmul (a : tt K) (b : tensor K) : res (tensor K) :=
  if is_batch a || negb (is_tt_matrix a) then Err ValueError else
  let nd := ndims a in
  do b_rows <- nthr (shape b) 0;
  if negb (Nat.eqb (nth 1 (get_shape a) 0) b_rows) then Err TypeError else
  do d0 <- transpose_rev b;
  do d1 <- reshape d0 [None; Some (mode a 1 (nd - 1)); Some 1];
  do d2 <- foldM (fun i d =>
      do d' <- einsum "aijb,rjb->ira" [core a i; d];
      if Nat.ltb 0 i then reshape d' [None; Some (mode a 1 (i - 1)); Some (rk a i)]
      else Ok d')
    (rev (seq 0 nd)) d1;
  do b1 <- nthr (shape b) 1;
  reshape d2 [Some (nth 0 (lazy_shape a) 0); Some b1].

(** [ops.py:1000-1036] transpose. *)
Definition tt_transpose (a : tt K) : res (tt K) :=
  if negb (is_tt_matrix a) then Err ValueError else
  do cs <- mapM (fun i => transpose (core a i)
                            (if is_batch a then [0; 1; 3; 2; 4] else [0; 2; 1; 3]))
                (seq 0 (ndims a));
  let rsh := [nth 1 (rshape a) []; nth 0 (rshape a) []] in
  match bsz a with
  | None => TensorTrain cs (STuple rsh) (Some (rks a))
  | Some b => TensorTrainBatch cs (STuple rsh) (Some (rks a)) (Some b)
  end.

(** [ops.py:234-247] dense_tt_matmul. *)
Definition dense_tt_matmul (a : tensor K) (b : tt K) : res (tensor K) :=
  do a_t <- transpose_rev a;
  do b_t <- tt_transpose b;
  do r <- tt_dense_matmul b_t a_t;
  transpose_rev r.

(** Arguments of the dispatching functions matmul [ops.py:277-318] and flat_inner [ops.py:504-539]. *)
Inductive arg := ATT (t : tt K) | ADense (t : tensor K) | ASparse (s : sparse) | AOther.
(** Results of matmul: a TT object or a tensor, [ops.py:277-318]. *)
Inductive mres := MTT (t : tt K) | MDense (t : tensor K).

(** [ops.py:277-318] matmul; the sparse variants [ops.py:250-274] raise. *)
Definition matmul_any (a b : arg) : res mres :=
  match a, b with
  | ATT a, ATT b => do r <- tt_tt_matmul a b; Ok (MTT r)
  | ATT a, ADense b => if is_batch a then Err ValueError else
                       do r <- tt_dense_matmul a b; Ok (MDense r)
  | ADense a, ATT b => if is_batch b then Err ValueError else
                       do r <- dense_tt_matmul a b; Ok (MDense r)
  | ATT a, ASparse _ => if is_batch a then Err ValueError else Err NotImplementedError
  | ASparse _, ATT b => if is_batch b then Err ValueError else Err NotImplementedError
  | _, _ => Err ValueError
  end.

(** [ops.py:321-400] tt_tt_flat_inner. *)
Definition tt_tt_flat_inner (a b : tt K) : res (tensor K) :=
  if negb (Bool.eqb (is_tt_matrix a) (is_tt_matrix b)) then Err ValueError else
  let both := is_tt_matrix a && is_tt_matrix b in
  if negb (is_batch_broadcasting_possible a b) then Err ValueError else
  let nd := ndims a in
  if negb (Nat.eqb (ndims b) nd) then Err ValueError else
  let ax := if both then "ij"%string else "i"%string in
  do a <- squeeze_batch_dim a;
  do b <- squeeze_batch_dim b;
  let bstr x := if is_batch x then "o"%string else ""%string in
  let rstr := if is_batch a || is_batch b then "o"%string else ""%string in
  let init_eq := (bstr a ++ "a" ++ ax ++ "b," ++ bstr b ++ "c" ++ ax ++ "d->" ++ rstr ++ "bd")%string in
  do r0 <- einsum init_eq [core a 0; core b 0];
  let eq := (rstr ++ "ac," ++ bstr a ++ "a" ++ ax ++ "b," ++ bstr b ++ "c" ++ ax ++ "d->"
             ++ rstr ++ "bd")%string in
  do r <- foldM (fun i r => einsum eq [r; core a i; core b i]) (seq 1 (nd - 1)) r0;
  Ok (squeeze r).

(** [tf.gather(params, indices)] (axis 0) and [tf.gather_nd], raising on out-of-range
    indices as the CPU kernels do.  [ops.py:1218-1273], [:419-469]. *)
Definition gather (p : tensor K) (ix : itensor) : res (tensor K) :=
  match shape p with
  | [] => Err TFError
  | n :: rest =>
      if forallb (fun z => (Z.leb 0 z && Z.ltb z (Z.of_nat n))%bool) (data ix) then
        Ok (mk (shape ix ++ rest)
          (fun idx => get p (Z.to_nat (get ix (firstn (rank ix) idx)) :: skipn (rank ix) idx)))
      else Err TFError
  end.
(** gather_nd with indices whose last dimension is 2, [ops.py:1218-1273]. *)
Definition gather_nd2 (p : tensor K) (ix : itensor) : res (tensor K) :=
  match shape p, rev (shape ix) with
  | n :: m :: rest, 2 :: revlead =>
      let lead := rev revlead in
      let ok := forallb (fun I =>
          let z0 := get ix (I ++ [0]) in let z1 := get ix (I ++ [1]) in
          (Z.leb 0 z0 && Z.ltb z0 (Z.of_nat n) && Z.leb 0 z1 && Z.ltb z1 (Z.of_nat m))%bool)
        (map (unravel lead) (seq 0 (prodn lead))) in
      if ok then
        Ok (mk (lead ++ rest) (fun idx =>
          let I := firstn (length lead) idx in
          get p (Z.to_nat (get ix (I ++ [0])) :: Z.to_nat (get ix (I ++ [1])) :: skipn (length lead) idx)))
      else Err TFError
  | _, _ => Err TFError
  end.

(** [indices[:, k]] on an index tensor of any rank >= 2 (missing trailing axes are full slices), [ops.py:1218-1273]. *)
Definition column (ix : itensor) (k : nat) : res itensor :=
  getitem ix (full_slice :: IInt (Z.of_nat k) :: repeat full_slice (rank ix - 2)).
(** [tf.stack((x, y), axis=1)], [ops.py:1218-1273]. *)
Definition stack2 (x y : itensor) : res itensor :=
  match shape x with
  | [] => Err TFError
  | n :: rest =>
      if list_eqb (shape x) (shape y) then
        Ok (mk (n :: 2 :: rest) (fun idx =>
          match idx with
          | i :: s :: ii => if Nat.eqb s 0 then get x (i :: ii) else get y (i :: ii)
          | _ => (0%Z : Zring) end))
      else Err TFError
  end.

(** [ops.py:1218-1273] gather_nd. *)
Definition gather_nd (t : tt K) (indices : itensor) : res (tensor K) :=
  if is_tt_matrix t then Err NotImplementedError else
  do lastd <- lastr (shape indices);
  if negb (Nat.eqb lastd (if is_batch t then S (ndims t) else ndims t)) then Err ValueError else
  let lead := removelast (shape indices) in
  do e0 <- reshape (ones lead) [None; Some 1; Some 1];
  do e <- foldM (fun i e =>
      do sl <- (if is_batch t then
          do c <- transpose (core t i) [0; 2; 1; 3];
          do i0 <- column indices 0; do i1 <- column indices (S i);
          do ci <- stack2 i0 i1; gather_nd2 c ci
        else
          do c <- transpose (core t i) [1; 0; 2];
          do ci <- column indices i; gather c ci);
      matmul e sl)
    (seq 0 (ndims t)) e0;
  reshape e (map Some lead).

(** [utils.py:7-13] unravel_index on a vector of linear indices. *)
Definition cumprod_excl_rev (s : itensor) : itensor :=
  mk (shape s) (fun idx =>
    let k := nth 0 idx 0 in
    (fold_right Z.mul 1%Z (map (fun j => get s (j :: tl idx)) (seq (S k) (nth 0 (shape s) 0 - S k))) : Zring)).
(** [utils.py:7-13] unravel_index. *)
Definition unravel_index (indices : itensor) (sh : list nat) : res itensor :=
  let indices := expand_dims indices 0 in
  let s := expand_dims (@Tensor Zring [length sh] (map Z.of_nat sh)) 1 in
  let strides := cumprod_excl_rev s in
  do q <- ewise (K := Zring) Z.div indices strides;
  do r <- ewise (K := Zring) Z.modulo q s;
  transpose r [1; 0].

(** [ops.py:419-469] tt_sparse_flat_inner. *)
Definition tt_sparse_flat_inner (a : tt K) (b : sparse) : res (tensor K) :=
  do num <- nthr (shape (sp_indices b)) 0;
  do elems <- (if is_tt_matrix a then
      do rowlin <- column (sp_indices b) 0;
      do row_idx <- unravel_index rowlin (nth 0 (rshape a) []);
      do collin <- column (sp_indices b) 1;
      do col_idx <- unravel_index collin (nth 1 (rshape a) []);
      foldM (fun i e =>
          do c <- transpose (core a i) [1; 2; 0; 3];
          do c <- reshape c [Some (mode a 0 i * mode a 1 i); Some (rk a i); Some (rk a (S i))];
          do ri <- column row_idx i;
          do ci <- column col_idx i;
          do lin <- ewise (K := Zring) (fun x y => x * Z.of_nat (mode a 1 i) + y)%Z ri ci;
          do sl <- gather c lin;
          matmul e sl)
        (seq 0 (ndims a)) (ones [num; 1; 1])
    else gather_nd a (sp_indices b));
  do e1 <- reshape elems [Some 1; None];
  do e2 <- reshape (sp_values b) [None; Some 1];
  do r <- matmul e1 e2;
  getitem r [IInt 0; IInt 0].

(** [ops.py:504-539] flat_inner; the dense variants raise NotImplementedError. *)
Definition flat_inner_any (a b : arg) : res (tensor K) :=
  match a, b with
  | ATT a, ATT b => tt_tt_flat_inner a b
  | ATT a, ADense _ => if is_batch a then Err ValueError else Err NotImplementedError
  | ADense _, ATT b => if is_batch b then Err ValueError else Err NotImplementedError
  | ATT a, ASparse s => if is_batch a then Err ValueError else tt_sparse_flat_inner a s
  | ASparse _, ATT b => if is_batch b then Err ValueError else Err NotImplementedError
  | _, _ => Err ValueError
  end.

(** [ops.py:542-569] _add_tensor_cores. *)
Definition add_tensor_cores (a b : tt K) : res (list (tensor K)) :=
  mapM (fun i =>
    if Nat.eqb i 0 then concat [core a i; core b i] 2
    else if Nat.eqb i (ndims a - 1) then concat [core a i; core b i] 0
    else
      do upper <- concat [core a i; zeros [rk a i; mode a 0 i; rk b (S i)]] 2;
      do lower <- concat [zeros [rk b i; mode a 0 i; rk a (S i)]; core b i] 2;
      concat [upper; lower] 0)
    (seq 0 (ndims a)).

(** [ops.py:614-641] _add_matrix_cores. *)
Definition add_matrix_cores (a b : tt K) : res (list (tensor K)) :=
  mapM (fun i =>
    if Nat.eqb i 0 then concat [core a i; core b i] 3
    else if Nat.eqb i (ndims a - 1) then concat [core a i; core b i] 0
    else
      do upper <- concat [core a i; zeros [rk a i; mode a 0 i; mode a 1 i; rk b (S i)]] 3;
      do lower <- concat [zeros [rk b i; mode a 0 i; mode a 1 i; rk a (S i)]; core b i] 3;
      concat [upper; lower] 0)
    (seq 0 (ndims a)).

(** [ops.py:582-587], [:654-659] batch size of the result; raises when the argument asked for its
    batch size is a TensorTrain. *)
Definition add_batch_size (a b : tt K) : res nat :=
  match bsz a with
  | Some 1 => lazy_batch_size b
  | _ => lazy_batch_size a
  end.

(** [ops.py:572-611] _add_batch_tensor_cores. *)
Definition add_batch_tensor_cores (a b : tt K) : res (list (tensor K) * nat) :=
  do bs <- add_batch_size a b;
  do ea <- expand_batch_dim a;
  do eb <- expand_batch_dim b;
  do cs <- mapM (fun i =>
    do ac <- (match bsz ea with Some 1 => tile (core ea i) [bs; 1; 1; 1] | _ => Ok (core ea i) end);
    do bc <- (match bsz eb with Some 1 => tile (core eb i) [bs; 1; 1; 1] | _ => Ok (core eb i) end);
    if Nat.eqb i 0 then concat [ac; bc] 3
    else if Nat.eqb i (ndims a - 1) then concat [ac; bc] 1
    else
      do upper <- concat [ac; zeros [bs; rk a i; mode a 0 i; rk b (S i)]] 3;
      do lower <- concat [zeros [bs; rk b i; mode a 0 i; rk a (S i)]; bc] 3;
      concat [upper; lower] 1)
    (seq 0 (ndims a));
  Ok (cs, bs).

(** [ops.py:644-683] _add_batch_matrix_cores. *)
Definition add_batch_matrix_cores (a b : tt K) : res (list (tensor K) * nat) :=
  do bs <- add_batch_size a b;
  do ea <- expand_batch_dim a;
  do eb <- expand_batch_dim b;
  do cs <- mapM (fun i =>
    do ac <- (match bsz ea with Some 1 => tile (core ea i) [bs; 1; 1; 1; 1] | _ => Ok (core ea i) end);
    do bc <- (match bsz eb with Some 1 => tile (core eb i) [bs; 1; 1; 1; 1] | _ => Ok (core eb i) end);
    if Nat.eqb i 0 then concat [ac; bc] 4
    else if Nat.eqb i (ndims a - 1) then concat [ac; bc] 1
    else
      do upper <- concat [ac; zeros [bs; rk a i; mode a 0 i; mode a 1 i; rk b (S i)]] 4;
      do lower <- concat [zeros [bs; rk b i; mode a 0 i; mode a 1 i; rk a (S i)]; bc] 4;
      concat [upper; lower] 1)
    (seq 0 (ndims a));
  Ok (cs, bs).

(** [ops.py:686-746] add. *)
Definition add (a b : tt K) : res (tt K) :=
  if negb (Bool.eqb (is_tt_matrix a) (is_tt_matrix b)) then Err ValueError else
  if negb (llist_eqb (rshape a) (rshape b)) then Err ValueError else
  if negb (is_batch_broadcasting_possible a b) then Err ValueError else
  let out_ranks := (1 :: map (fun i => rk a i + rk b i) (seq 1 (ndims a - 1)) ++ [1])%list in
  if is_batch a || is_batch b then
    do p <- (if is_tt_matrix a then add_batch_matrix_cores a b else add_batch_tensor_cores a b);
    TensorTrainBatch (fst p) (STuple (rshape a)) (Some out_ranks) (Some (snd p))
  else
    do cs <- (if is_tt_matrix a then add_matrix_cores a b else add_tensor_cores a b);
    TensorTrain cs (STuple (rshape a)) (Some out_ranks).

(** [ops.py:749-920] multiply, the case of two TT objects.  Batch sizes are known, so
    can_determine_if_broadcast is always True here (see Static.v for unknown sizes). *)
Definition tt_multiply (a b : tt K) : res (tt K) :=
  if negb (Bool.eqb (is_tt_matrix a) (is_tt_matrix b)) then Err ValueError else
  if negb (llist_eqb (rshape a) (rshape b)) then Err ValueError else
  if negb (is_batch_broadcasting_possible a b) then Err ValueError else
  let '(sl, sr, so, obs) :=
    match bsz a, bsz b with
    | Some x, Some y => if Nat.eqb x y then ("n", "n", "n", Some x)%string
                        else ("n", "m", "nm", Some (if Nat.ltb 1 x then x else y))%string
    | Some x, None => ("n", "", "n", Some x)%string
    | None, Some y => ("", "n", "n", Some y)%string
    | None, None => ("", "", "", None)%string
    end in
  do cs <- mapM (fun i =>
      let lr := rk a i * rk b i in
      let rr := rk a (S i) * rk b (S i) in
      do c <- (if is_tt_matrix a then
          do c <- einsum (sl ++ "aijb," ++ sr ++ "cijd->" ++ so ++ "acijbd")%string [core a i; core b i];
          reshape c [None; Some lr; Some (mode a 0 i); Some (mode a 1 i); Some rr]
        else
          do c <- einsum (sl ++ "aib," ++ sr ++ "cid->" ++ so ++ "acibd")%string [core a i; core b i];
          reshape c [None; Some lr; Some (mode a 0 i); Some rr]);
      if is_batch a || is_batch b then Ok c else squeeze_axis c 0)
    (seq 0 (ndims a));
  let out_ranks := map2 Nat.mul (rks a) (rks b) in
  if is_batch a || is_batch b then TensorTrainBatch cs (STuple (rshape a)) (Some out_ranks) obs
  else TensorTrain cs (STuple (rshape a)) (Some out_ranks).

(** [ops.py:922-960] frobenius_norm_squared, differentiable branch: [tf.squeeze(., [-1, -2])]. *)
Definition frobenius_norm_squared_diff (t : tt K) : res (tensor K) :=
  let bs := if is_batch t then "n"%string else ""%string in
  let ax := if is_tt_matrix t then "ij"%string else "i"%string in
  do r0 <- einsum (bs ++ "a" ++ ax ++ "b," ++ bs ++ "c" ++ ax ++ "d->" ++ bs ++ "bd")%string
                  [core t 0; core t 0];
  do r <- foldM (fun i r =>
      einsum (bs ++ "ac," ++ bs ++ "a" ++ ax ++ "b," ++ bs ++ "c" ++ ax ++ "d->" ++ bs ++ "bd")%string
             [r; core t i; core t i])
    (seq 1 (ndims t - 1)) r0;
  do r1 <- squeeze_axis r (rank r - 1);
  squeeze_axis r1 (rank r1 - 1).

(** [ops.py:1046-1118] bilinear_form.  Line 1086 sets c_is_batch from b. *)
Definition bilinear_form (A b c : tt K) : res (tensor K) :=
  if negb (is_tt_matrix A) then Err ValueError else
  if negb (is_tt_matrix b) then Err ValueError else
  if negb (is_tt_matrix c) then Err ValueError else
  let b_is_batch := is_batch b in
  let c_is_batch := is_batch b in
  let bstr := if b_is_batch then "p"%string else ""%string in
  let cstr := if c_is_batch then "p"%string else ""%string in
  let ostr := if b_is_batch || c_is_batch then "p"%string else ""%string in
  do r0 <- einsum (bstr ++ "aikb,cijd," ++ cstr ++ "ejkf->" ++ ostr ++ "bdf")%string
                  [core b 0; core A 0; core c 0];
  do r <- foldM (fun i r =>
      do c1 <- nthr (cores b) i; do c2 <- nthr (cores c) i;
      einsum (ostr ++ "ace," ++ bstr ++ "aikb,cijd," ++ cstr ++ "ejkf->" ++ ostr ++ "bdf")%string
             [r; c1; core A i; c2])
    (seq 1 (ndims A - 1)) r0;
  Ok (squeeze r).

(** [ops.py:1121-1187] bilinear_form_two_mat.  Line 1151 sets y_is_batch from x. *)
Definition bilinear_form_two_mat (x A B y : tt K) : res (tensor K) :=
  if negb (is_tt_matrix A) || negb (is_tt_matrix B) then Err ValueError else
  if negb (is_tt_matrix x) || negb (is_tt_matrix y) then Err ValueError else
  let x_is_batch := is_batch x in
  let y_is_batch := is_batch x in
  let xstr := if x_is_batch then "p"%string else ""%string in
  let ystr := if y_is_batch then "p"%string else ""%string in
  let ostr := if x_is_batch || y_is_batch then "p"%string else ""%string in
  do r0 <- einsum (xstr ++ "elnf,glph,ipoj," ++ ystr ++ "aomb->" ++ ostr ++ "fhjb")%string
                  [core x 0; core A 0; core B 0; core y 0];
  do r <- foldM (fun i r =>
      do c1 <- nthr (cores x) i; do c2 <- nthr (cores y) i; do m2 <- nthr (cores B) i;
      einsum (ostr ++ "egia," ++ xstr ++ "elnf,glph,ipoj," ++ ystr ++ "aomb->" ++ ostr ++ "fhjb")%string
             [r; c1; core A i; m2; c2])
    (seq 1 (ndims A - 1)) r0;
  Ok (squeeze r).

(** [ops.py:1190-1215] cast, with the dtype conversion as a function on elements; [L] is the
    ring of the new dtype. *)
End Ops.

Arguments Sparse {K} _ _ _. Arguments sp_indices {K} _. Arguments sp_values {K} _. Arguments sp_shape {K} _.
Arguments full_tt {K} _. Arguments full_tt_batch {K} _. Arguments full {K} _.
Arguments tt_tt_matmul {K} _ _. Arguments tt_dense_matmul {K} _ _. Arguments tt_transpose {K} _.
Arguments dense_tt_matmul {K} _ _. Arguments ATT {K} _. Arguments ADense {K} _. Arguments ASparse {K} _.
Arguments AOther {K}. Arguments MTT {K} _. Arguments MDense {K} _. Arguments matmul_any {K} _ _.
Arguments tt_tt_flat_inner {K} _ _. Arguments gather {K} _ _. Arguments gather_nd2 {K} _ _.
Arguments gather_nd {K} _ _. Arguments tt_sparse_flat_inner {K} _ _. Arguments flat_inner_any {K} _ _.
Arguments add_tensor_cores {K} _ _. Arguments add_matrix_cores {K} _ _. Arguments add_batch_size {K} _ _.
Arguments add_batch_tensor_cores {K} _ _. Arguments add_batch_matrix_cores {K} _ _. Arguments add {K} _ _.
Arguments tt_multiply {K} _ _. Arguments frobenius_norm_squared_diff {K} _.
Arguments bilinear_form {K} _ _ _. Arguments bilinear_form_two_mat {K} _ _ _ _.

(** [ops.py:1190-1215] cast; [f] is the conversion of the entries, [tf.cast]. *)
Definition cast {K L : cring} (f : K -> L) (t : tt K) : res (tt L) :=
  let cs := map (fun i => Tensor (shape (core t i)) (map f (data (core t i)))) (seq 0 (ndims t)) in
  match bsz t with
  | None => TensorTrain cs (STuple (rshape t)) (Some (rks t))
  | Some b => TensorTrainBatch cs (STuple (rshape t)) (Some (rks t)) (Some b)
  end.
