(** Rounding: the functions of [t3f/ops.py] that compute with numbers, run with the matrix products and
    contractions of a floating point arithmetic.  The text of every function is that of Ops.v (which cites
    the lines) with [matmul] and [einsum] replaced by those of the arithmetic; everything else the
    functions do (reshape, transpose, gather, squeeze ...) moves numbers without computing.
    With the exact operations the functions are those of Ops.v ([C57_exact], Properties_Float.v).
    Model only, no proofs. *)
From Coq Require Import String Ascii List Arith ZArith Bool Reals.
From Verif Require Import Scalar Tensor Base Ops OpsR.
Import ListNotations.

(** tf.matmul and tf.einsum of the number type in use (TensorFlow; called e.g. in [ops.py:51], [:88]). *)
Record arith := Arith {
  f_matmul : rtensor -> rtensor -> res rtensor;
  f_einsum : string -> list rtensor -> res rtensor }.
(** The same without rounding errors. *)
Definition exact_arith : arith := Arith (matmul (K := Rring)) (einsum (K := Rring)).

Section Fl.
Variable ar : arith.

(** [ops.py:33-66] _full_tt. *)
Definition full_tt_fl (t : rtt) : res rtensor :=
  do r <- foldM (fun i r =>
      do r' <- reshape r [None; Some (rk t i)];
      do c <- reshape (core t i) [Some (rk t i); None];
      f_matmul ar r' c)
    (seq 1 (ndims t - 1)) (core t 0);
  if is_tt_matrix t then
    let intermediate := flat_map (fun i => [mode t 0 i; mode t 1 i]) (seq 0 (ndims t)) in
    do r <- reshape r (map Some intermediate);
    let perm := (map (fun i => 2 * i) (seq 0 (ndims t))
                 ++ map (fun i => 2 * i + 1) (seq 0 (ndims t)))%list in
    do r <- transpose r perm;
    reshape r (map Some (lazy_shape t))
  else reshape r (map Some (lazy_shape t)).

(** [ops.py:69-103] _full_tt_batch. *)
Definition full_tt_batch_fl (t : rtt) : res rtensor :=
  do bs <- lazy_batch_size t;
  do r <- foldM (fun i r =>
      do r' <- reshape r [Some bs; None; Some (rk t i)];
      do c <- reshape (core t i) [Some bs; Some (rk t i); None];
      f_einsum ar "oqb,obw->oqw" [r'; c])
    (seq 1 (ndims t - 1)) (core t 0);
  if is_tt_matrix t then
    let intermediate := bs :: flat_map (fun i => [mode t 0 i; mode t 1 i]) (seq 0 (ndims t)) in
    do r <- reshape r (map Some intermediate);
    let perm := 0 :: (map (fun i => 2 * i + 1) (seq 0 (ndims t))
                 ++ map (fun i => 2 * i + 1 + 1) (seq 0 (ndims t)))%list in
    do r <- transpose r perm;
    reshape r (map Some (lazy_shape t))
  else reshape r (map Some (lazy_shape t)).

(** [ops.py:14-30] full. *)
Definition full_fl (t : rtt) : res rtensor :=
  match bsz t with Some _ => full_tt_batch_fl t | None => full_tt_fl t end.

(** [ops.py:106-185] tt_tt_matmul. *)
Definition tt_tt_matmul_fl (a b : rtt) : res rtt :=
  if negb (is_tt_matrix a) || negb (is_tt_matrix b) then Err ValueError else
  if negb (is_batch_broadcasting_possible a b) then Err ValueError else
  let nd := ndims a in
  if negb (Nat.eqb (ndims b) nd) then Err ValueError else
  do a <- squeeze_batch_dim a;
  do b <- squeeze_batch_dim b;
  let bstr x := if is_batch x then "o"%string else ""%string in
  let is_res_batch := is_batch a || is_batch b in
  let eq := (bstr a ++ "aijb," ++ bstr b ++ "cjkd->" ++
             (if is_res_batch then "o" else "") ++ "acikbd")%string in
  (* batch_size: b's if b is a batch, else a's *)
  let bs := match bsz b with Some x => Some x | None => bsz a end in
  do cs <- mapM (fun i =>
      do c <- f_einsum ar eq [core a i; core b i];
      let lr := rk a i * rk b i in
      let rr := rk a (S i) * rk b (S i) in
      let csh := [lr; mode a 0 i; mode b 1 i; rr] in
      reshape c (map Some (match bs with Some x => x :: csh | None => csh end)))
    (seq 0 nd);
  let rsh := [nth 0 (rshape a) []; nth 1 (rshape b) []] in
  let out_ranks := map2 Nat.mul (rks a) (rks b) in
  match bs with
  | Some x => TensorTrainBatch cs (STuple rsh) (Some out_ranks) (Some x)
  | None => TensorTrain cs (STuple rsh) (Some out_ranks)
  end.

(** [ops.py:188-231] tt_dense_matmul.  The error message for misaligned shapes formats a
    TensorShape with %d, which is a TypeError. *)
Definition tt_dense_matmul_fl (a : rtt) (b : rtensor) : res rtensor :=
  if is_batch a || negb (is_tt_matrix a) then Err ValueError else
  let nd := ndims a in
  do b_rows <- nthr (shape b) 0;
  if negb (Nat.eqb (nth 1 (get_shape a) 0) b_rows) then Err TypeError else
  do d0 <- transpose_rev b;
  do d1 <- reshape d0 [None; Some (mode a 1 (nd - 1)); Some 1];
  do d2 <- foldM (fun i d =>
      do d' <- f_einsum ar "aijb,rjb->ira" [core a i; d];
      if Nat.ltb 0 i then reshape d' [None; Some (mode a 1 (i - 1)); Some (rk a i)]
      else Ok d')
    (rev (seq 0 nd)) d1;
  do b1 <- nthr (shape b) 1;
  reshape d2 [Some (nth 0 (lazy_shape a) 0); Some b1].

(** [ops.py:234-247] dense_tt_matmul. *)
Definition dense_tt_matmul_fl (a : rtensor) (b : rtt) : res rtensor :=
  do a_t <- transpose_rev a;
  do b_t <- tt_transpose b;
  do r <- tt_dense_matmul_fl b_t a_t;
  transpose_rev r.

(** [ops.py:321-400] tt_tt_flat_inner. *)
Definition tt_tt_flat_inner_fl (a b : rtt) : res rtensor :=
  if negb (Bool.eqb (is_tt_matrix a) (is_tt_matrix b)) then Err ValueError else
  let both := is_tt_matrix a && is_tt_matrix b in
  if negb (is_batch_broadcasting_possible a b) then Err ValueError else
  let nd := ndims a in
  if negb (Nat.eqb (ndims b) nd) then Err ValueError else
  let ax := if both then "ij"%string else "i"%string in
  do a <- squeeze_batch_dim a;
  do b <- squeeze_batch_dim b;
  let bstr x := if is_batch x then "o"%string else ""%string in
  let rstr := if is_batch a || is_batch b then "o"%string else ""%string in
  let init_eq := (bstr a ++ "a" ++ ax ++ "b," ++ bstr b ++ "c" ++ ax ++ "d->" ++ rstr ++ "bd")%string in
  do r0 <- f_einsum ar init_eq [core a 0; core b 0];
  let eq := (rstr ++ "ac," ++ bstr a ++ "a" ++ ax ++ "b," ++ bstr b ++ "c" ++ ax ++ "d->"
             ++ rstr ++ "bd")%string in
  do r <- foldM (fun i r => f_einsum ar eq [r; core a i; core b i]) (seq 1 (nd - 1)) r0;
  Ok (squeeze r).

(** [ops.py:1218-1273] gather_nd. *)
Definition gather_nd_fl (t : rtt) (indices : itensor) : res rtensor :=
  if is_tt_matrix t then Err NotImplementedError else
  do lastd <- lastr (shape indices);
  if negb (Nat.eqb lastd (if is_batch t then S (ndims t) else ndims t)) then Err ValueError else
  let lead := removelast (shape indices) in
  do e0 <- reshape (ones lead) [None; Some 1; Some 1];
  do e <- foldM (fun i e =>
      do sl <- (if is_batch t then
          do c <- transpose (core t i) [0; 2; 1; 3];
          do i0 <- column indices 0; do i1 <- column indices (S i);
          do ci <- stack2 i0 i1; gather_nd2 c ci
        else
          do c <- transpose (core t i) [1; 0; 2];
          do ci <- column indices i; gather c ci);
      f_matmul ar e sl)
    (seq 0 (ndims t)) e0;
  reshape e (map Some lead).

(** [ops.py:419-469] tt_sparse_flat_inner. *)
Definition tt_sparse_flat_inner_fl (a : rtt) (b : sparse Rring) : res rtensor :=
  do num <- nthr (shape (sp_indices b)) 0;
  do elems <- (if is_tt_matrix a then
      do rowlin <- column (sp_indices b) 0;
      do row_idx <- unravel_index rowlin (nth 0 (rshape a) []);
      do collin <- column (sp_indices b) 1;
      do col_idx <- unravel_index collin (nth 1 (rshape a) []);
      foldM (fun i e =>
          do c <- transpose (core a i) [1; 2; 0; 3];
          do c <- reshape c [Some (mode a 0 i * mode a 1 i); Some (rk a i); Some (rk a (S i))];
          do ri <- column row_idx i;
          do ci <- column col_idx i;
          do lin <- ewise (K := Zring) (fun x y => x * Z.of_nat (mode a 1 i) + y)%Z ri ci;
          do sl <- gather c lin;
          f_matmul ar e sl)
        (seq 0 (ndims a)) (ones [num; 1; 1])
    else gather_nd_fl a (sp_indices b));
  do e1 <- reshape elems [Some 1; None];
  do e2 <- reshape (sp_values b) [None; Some 1];
  do r <- f_matmul ar e1 e2;
  getitem r [IInt 0; IInt 0].

(** [ops.py:749-920] multiply, the case of two TT objects.  Batch sizes are known, so
    can_determine_if_broadcast is always True here (see Static.v for unknown sizes). *)
Definition tt_multiply_fl (a b : rtt) : res rtt :=
  if negb (Bool.eqb (is_tt_matrix a) (is_tt_matrix b)) then Err ValueError else
  if negb (llist_eqb (rshape a) (rshape b)) then Err ValueError else
  if negb (is_batch_broadcasting_possible a b) then Err ValueError else
  let '(sl, sr, so, obs) :=
    match bsz a, bsz b with
    | Some x, Some y => if Nat.eqb x y then ("n", "n", "n", Some x)%string
                        else ("n", "m", "nm", Some (if Nat.ltb 1 x then x else y))%string
    | Some x, None => ("n", "", "n", Some x)%string
    | None, Some y => ("", "n", "n", Some y)%string
    | None, None => ("", "", "", None)%string
    end in
  do cs <- mapM (fun i =>
      let lr := rk a i * rk b i in
      let rr := rk a (S i) * rk b (S i) in
      do c <- (if is_tt_matrix a then
          do c <- f_einsum ar (sl ++ "aijb," ++ sr ++ "cijd->" ++ so ++ "acijbd")%string [core a i; core b i];
          reshape c [None; Some lr; Some (mode a 0 i); Some (mode a 1 i); Some rr]
        else
          do c <- f_einsum ar (sl ++ "aib," ++ sr ++ "cid->" ++ so ++ "acibd")%string [core a i; core b i];
          reshape c [None; Some lr; Some (mode a 0 i); Some rr]);
      if is_batch a || is_batch b then Ok c else squeeze_axis c 0)
    (seq 0 (ndims a));
  let out_ranks := map2 Nat.mul (rks a) (rks b) in
  if is_batch a || is_batch b then TensorTrainBatch cs (STuple (rshape a)) (Some out_ranks) obs
  else TensorTrain cs (STuple (rshape a)) (Some out_ranks).

(** [ops.py:922-960] frobenius_norm_squared, differentiable branch: [tf.squeeze(., [-1, -2])]. *)
Definition frobenius_norm_squared_diff_fl (t : rtt) : res rtensor :=
  let bs := if is_batch t then "n"%string else ""%string in
  let ax := if is_tt_matrix t then "ij"%string else "i"%string in
  do r0 <- f_einsum ar (bs ++ "a" ++ ax ++ "b," ++ bs ++ "c" ++ ax ++ "d->" ++ bs ++ "bd")%string
                  [core t 0; core t 0];
  do r <- foldM (fun i r =>
      f_einsum ar (bs ++ "ac," ++ bs ++ "a" ++ ax ++ "b," ++ bs ++ "c" ++ ax ++ "d->" ++ bs ++ "bd")%string
             [r; core t i; core t i])
    (seq 1 (ndims t - 1)) r0;
  do r1 <- squeeze_axis r (rank r - 1);
  squeeze_axis r1 (rank r1 - 1).

(** [ops.py:1046-1118] bilinear_form.  Line 1086 sets c_is_batch from b. *)
Definition bilinear_form_fl (A b c : rtt) : res rtensor :=
  if negb (is_tt_matrix A) then Err ValueError else
  if negb (is_tt_matrix b) then Err ValueError else
  if negb (is_tt_matrix c) then Err ValueError else
  let b_is_batch := is_batch b in
  let c_is_batch := is_batch b in
  let bstr := if b_is_batch then "p"%string else ""%string in
  let cstr := if c_is_batch then "p"%string else ""%string in
  let ostr := if b_is_batch || c_is_batch then "p"%string else ""%string in
  do r0 <- f_einsum ar (bstr ++ "aikb,cijd," ++ cstr ++ "ejkf->" ++ ostr ++ "bdf")%string
                  [core b 0; core A 0; core c 0];
  do r <- foldM (fun i r =>
      do c1 <- nthr (cores b) i; do c2 <- nthr (cores c) i;
      f_einsum ar (ostr ++ "ace," ++ bstr ++ "aikb,cijd," ++ cstr ++ "ejkf->" ++ ostr ++ "bdf")%string
             [r; c1; core A i; c2])
    (seq 1 (ndims A - 1)) r0;
  Ok (squeeze r).

(** [ops.py:1121-1187] bilinear_form_two_mat.  Line 1151 sets y_is_batch from x. *)
Definition bilinear_form_two_mat_fl (x A B y : rtt) : res rtensor :=
  if negb (is_tt_matrix A) || negb (is_tt_matrix B) then Err ValueError else
  if negb (is_tt_matrix x) || negb (is_tt_matrix y) then Err ValueError else
  let x_is_batch := is_batch x in
  let y_is_batch := is_batch x in
  let xstr := if x_is_batch then "p"%string else ""%string in
  let ystr := if y_is_batch then "p"%string else ""%string in
  let ostr := if x_is_batch || y_is_batch then "p"%string else ""%string in
  do r0 <- f_einsum ar (xstr ++ "elnf,glph,ipoj," ++ ystr ++ "aomb->" ++ ostr ++ "fhjb")%string
                  [core x 0; core A 0; core B 0; core y 0];
  do r <- foldM (fun i r =>
      do c1 <- nthr (cores x) i; do c2 <- nthr (cores y) i; do m2 <- nthr (cores B) i;
      f_einsum ar (ostr ++ "egia," ++ xstr ++ "elnf,glph,ipoj," ++ ystr ++ "aomb->" ++ ostr ++ "fhjb")%string
             [r; c1; core A i; m2; c2])
    (seq 1 (ndims A - 1)) r0;
  Ok (squeeze r).

End Fl.
