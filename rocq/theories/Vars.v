(** TensorTrain variables: [t3f/variables.py], on top of a model of the variable store of
    tensorflow.compat.v1 (TF 2.4, the version the repository is tested with).  Model only.

    [eager = true]: eager mode without an EagerVariableStore; [eager = false]: graph mode (one graph).
    A graph variable is taken to hold its initial value as soon as it is created
    (global_variables_initializer).  Not modelled: trainable, collections, caching_device; the
    renaming of a variable whose name clashes with the name of another op of the graph. *)
From Coq Require Import String Ascii List Arith Bool DecimalString.
From Verif Require Import Scalar Tensor Base.
Import ListNotations.
Local Open Scope nat_scope.
Local Open Scope string_scope.
Local Open Scope list_scope.

(** The dtypes of tensors, [variables.py:8-13] dtype. *)
Inductive dtype := Float32 | Float64 | OtherType (n : nat).
(** Equality of dtypes. *)
Definition dtype_eqb (a b : dtype) : bool :=
  match a, b with
  | Float32, Float32 | Float64, Float64 => true
  | OtherType n, OtherType m => Nat.eqb n m
  | _, _ => false
  end.

(** [tf.get_variable_scope()]: its name and its reuse flag (False/None, True, tf.AUTO_REUSE); used in [variables.py:54-63]. *)
Inductive reuse_flag := NoReuse | Reuse | AutoReuse.
(** A variable scope, [variables.py:54-63]. *)
Record scope := Scope { sname : string; sreuse : reuse_flag }.
(** [if reuse], [variables.py:55], [:60]. *)
Definition truthy (r : reuse_flag) : bool := match r with NoReuse => false | _ => true end.
(** [with tf.variable_scope(name)]: the reuse flag is inherited.  [variables.py:76], [:83], [:120]. *)
Definition enter (sc : scope) (name : string) : scope :=
  Scope (if String.eqb (sname sc) "" then name else (sname sc ++ "/" ++ name)%string) (sreuse sc).

(** Op names of a graph: [A-Za-z0-9.][A-Za-z0-9_.\-/]* (TensorFlow; checked when [variables.py:86] makes a variable). *)
Definition alnum (c : ascii) : bool :=
  let n := nat_of_ascii c in (Nat.leb 48 n && Nat.leb n 57) || (Nat.leb 65 n && Nat.leb n 90) || (Nat.leb 97 n && Nat.leb n 122).
(** A character behind the first (TensorFlow, as above). *)
Definition inner_char (c : ascii) : bool :=
  alnum c || Ascii.eqb c "_" || Ascii.eqb c "." || Ascii.eqb c "-" || Ascii.eqb c "/".
(** All characters of a string. *)
Fixpoint all_chars (f : ascii -> bool) (s : string) : bool :=
  match s with EmptyString => true | String c r => f c && all_chars f r end.
(** An allowed name (TensorFlow, checked when [variables.py:86] makes a variable). *)
Definition valid_op_name (s : string) : bool :=
  match s with EmptyString => false | String c r => (alnum c || Ascii.eqb c ".") && all_chars inner_char r end.

(** ['core_%d' % i] [variables.py:86]. *)
Definition core_label (i : nat) : string := ("core_" ++ NilEmpty.string_of_uint (Nat.to_uint i))%string.

Section Vars.
Variable K : cring.
(** What a regularizer returns. *)
Variable loss : Type.

(** A tf.Variable: name (without the ":0"), dtype, current value. *)
Record var := Var { vname : string; vdtype : dtype; vval : tensor K }.

(** A core of a TT object: a tensor or a variable, [variables.py:86-91], [tensor_train_base.py:97-99]. *)
Inductive cref := CTensor (t : tensor K) | CVar (id : nat).
(** A TT object whose cores may be variables, [variables.py:92-99]. *)
Record vobj := VObj { vcores : list cref; vrshape : list (list nat); vrks : list nat; vbsz : option nat; vdt : dtype }.

(** All variables created so far (a variable is its position); the dictionary of the graph's
    variable store; the collection TensorTrainVariables; the collection REGULARIZATION_LOSSES.  [variables.py:68], [:86], [:103], [:112]. *)
Record store := Store { heap : list var; names : list (string * nat); coll : list vobj; losses : list loss }.
(** Before the first call. *)
Definition empty_store : store := Store [] [] [] [].

(** The current value of a variable. *)
Definition value_of (h : list var) (id : nat) : tensor K := nth id (map vval h) (Tensor [] []).
(** The current value of a core. *)
Definition read (h : list var) (c : cref) : tensor K := match c with CTensor t => t | CVar id => value_of h id end.
(** The TT object with the current values of its cores: what the functions of the library get from [tt.tt_cores], [tensor_train_base.py:44-46]. *)
Definition deref (h : list var) (o : vobj) : tt K := TT (map (read h) (vcores o)) (vrshape o) (vrks o) (vbsz o).

(** Effects on the store, and exceptions; effects done before an exception remain.  The sequencing of python statements
    in [variables.py:54-131]. *)
Definition M (A : Type) := store -> store * res A.
(** [return a], in [variables.py:54-131]. *)
Definition ret {A} (a : A) : M A := fun s => (s, Ok a).
(** [raise], [variables.py:56], [:72-74]: the store keeps what was done before. *)
Definition raise {A} (e : err) : M A := fun s => (s, Err e).
(** One statement after the other; an exception ends the call. *)
Definition bindM {A B} (m : M A) (k : A -> M B) : M B := fun s => let '(s', r) := m s in match r with Ok a => k a s' | Err e => (s', Err e) end.
(** The loops [variables.py:85], [:121]. *)
Fixpoint forM {A S} (f : A -> S -> M S) (l : list A) (st : S) : M S :=
  match l with [] => ret st | x :: l' => bindM (f x st) (fun st' => forM f l' st') end.

(** The dictionary of the variable store (TensorFlow), used by [tf.get_variable] in [variables.py:79], [:86]. *)
Definition lookup (n : string) (s : store) : option nat := option_map snd (find (fun p => String.eqb (fst p) n) (names s)).
(** The dtype of a variable. *)
Definition dtype_of (s : store) (id : nat) : dtype := nth id (map vdtype (heap s)) Float32.

(** [tf.Variable(initial_value=...)], [nn.py:65] and inside [tf.get_variable]; only graph variables are kept in the dictionary. *)
Definition new_variable (eager : bool) (n : string) (d : dtype) (x : tensor K) : M nat := fun s =>
  (Store (heap s ++ [Var n d x]) (if eager then names s else names s ++ [(n, length (heap s))]) (coll s) (losses s), Ok (length (heap s))).

(** [tf.get_variable(label, dtype=dt, initializer=init)], [variables.py:79], [:86], in the scope [sc], [init] being a tensor or
    None.  Scopes have dtype float32.  In eager mode the store keeps nothing. *)
Definition tf_get_variable (eager : bool) (sc : scope) (label : string) (dt : option dtype) (init : option (dtype * tensor K)) : M nat := fun s =>
  let n := if String.eqb (sname sc) "" then label else (sname sc ++ "/" ++ label)%string in
  if match dt, init with Some d, Some (d', _) => negb (dtype_eqb d d') | _, _ => false end then raise ValueError s else
  let d := match dt with Some d => d | None => Float32 end in
  let create := match init with None => raise ValueError | Some (d', x) => new_variable eager n d' x end in
  if eager then create s else
  match lookup n s with
  | Some id => match sreuse sc with
               | NoReuse => raise ValueError s
               | _ => if dtype_eqb d (dtype_of s id) then ret id s else raise ValueError s
               end
  | None => match sreuse sc with
            | Reuse => raise ValueError s
            | _ => if valid_op_name n then create s else raise ValueError s
            end
  end.

(** [core_name[:core_name.rfind('/')]], [tensor_train_base.py:54-63] name.  Without a '/' rfind gives -1. *)
Fixpoint before_last_slash (s : string) : option string :=
  match s with
  | EmptyString => None
  | String c r => match before_last_slash r with
                  | Some p => Some (String c p)
                  | None => if Ascii.eqb c "/" then Some "" else None
                  end
  end.
(** [core_name[:-1]] ([rfind] gave -1), [tensor_train_base.py:62-63]. *)
Fixpoint drop_last (s : string) : string :=
  match s with EmptyString => "" | String c EmptyString => "" | String c r => String c (drop_last r) end.
(** [tensor_train_base.py:54-63] name. *)
Definition obj_name (h : list var) (o : vobj) : string :=
  match vcores o with
  | CVar id :: _ => let n := (nth id (map vname h) "" ++ ":0")%string in
                    match before_last_slash n with Some p => p | None => drop_last n end
  | _ => ""    (* tensors do not get into the collection *)
  end.

(** [path != '' and path[-1] != '/'] [variables.py:63]. *)
Fixpoint last_is_slash (s : string) : bool :=
  match s with EmptyString => false | String c EmptyString => Ascii.eqb c "/" | String _ r => last_is_slash r end.

(** The constructor call at the end of get_variable and assign, with convert_to_tensors=False: the
    validity checks of the class, on the shapes of the variables.  [variables.py:92-99], [:124-131]. *)
Definition construct (h : list var) (cs : list cref) (sh : list (list nat)) (ranks : list nat) (bs : option nat) (d : dtype) : res vobj :=
  do t <- match bs with
          | None => TensorTrain (map (read h) cs) (STuple sh) (Some ranks)
          | Some _ => TensorTrainBatch (map (read h) cs) (STuple sh) (Some ranks) bs
          end;
  Ok (VObj cs (rshape t) (rks t) (bsz t) d).

(** A step that does not touch the store. *)
Definition liftR {A} (r : res A) : M A := fun s => (s, r).

(** [variables.py:84-91]: the loop creating one variable per core. *)
Definition create_cores (eager : bool) (sc : scope) (dt : option dtype) (init : vobj) : M (list cref) :=
  forM (fun i acc => bindM (fun s => (s, nthr (vcores init) i)) (fun c s =>
          bindM (tf_get_variable eager sc (core_label i) dt (Some (vdt init, read (heap s) c))) (fun id => ret (acc ++ [CVar id])) s))
       (seq 0 (length (vcores init))) [].

(** [variables.py:8-113] get_variable.  In eager mode every scope has reuse = AUTO_REUSE.  A
    regularizer is a function of the value of the variable; in eager mode [loss.name] ([:111]) raises. *)
Definition get_variable (eager : bool) (sc : scope) (name : string) (dt : option dtype) (initializer : option vobj)
    (regularizer : option (tt K -> res (option loss))) : M vobj :=
  let reuse := eager || truthy (sreuse sc) in
  if negb reuse && match initializer with None => true | _ => false end then raise ValueError else
  if reuse && negb eager then
    let path := ((if negb (String.eqb (sname sc) "") && negb (last_is_slash (sname sc)) then sname sc ++ "/" else sname sc) ++ name)%string in
    fun s => match find (fun v => String.eqb (obj_name (heap s) v) path) (coll s) with
             | None => raise ValueError s
             | Some v => bindM (tf_get_variable eager (enter sc name) "core_0" dt None) (fun _ => ret v) s
             end
  else
    match initializer with
    | None => raise AttributeError
    | Some i =>
        bindM (create_cores eager (enter sc name) dt i) (fun cs s =>
        bindM (liftR (construct (heap s) cs (vrshape i) (vrks i) (vbsz i) (vdt i))) (fun v =>
        bindM (fun s' => (Store (heap s') (names s') (coll s' ++ [v]) (losses s'), Ok Datatypes.tt)) (fun _ =>
        match regularizer with
        | None => ret v
        | Some reg => fun s' =>
            bindM (liftR (reg (deref (heap s') v))) (fun l =>
            match l with
            | None => ret v
            | Some l => if eager then raise AttributeError
                        else fun s'' => (Store (heap s'') (names s'') (coll s'') (losses s'' ++ [l]), Ok v)
            end) s'
        end)) s)
    end.

(** ** assign *)
(** The variable [id] gets the value [x], [variables.py:122]. *)
Definition write (h : list var) (id : nat) (x : tensor K) : list var :=
  upd id (let v := nth id h (Var "" Float32 (Tensor [] [])) in Var (vname v) (vdtype v) x) h.
(** The store after the assignments of [variables.py:121-123], run. *)
Definition set_heap (s : store) (h : list var) : store := Store h (names s) (coll s) (losses s).
(** The checks of [ref.assign(value)] for one core; a tensor has no method assign.  [variables.py:122]. *)
Definition assign_check (h : list var) (r c : cref) (d : dtype) : res (nat * tensor K) :=
  match r with
  | CTensor _ => Err AttributeError
  | CVar id =>
      let x := read h c in
      if negb (dtype_eqb d (nth id (map vdtype h) Float32)) then Err ValueError
      else if negb (list_eqb (shape x) (shape (value_of h id))) then Err ValueError
      else Ok (id, x)
  end.

(** [variables.py:116-131] assign in eager mode: each core is written when its turn comes.  The cores of the
    result are the variables themselves. *)
Definition assign (ref value : vobj) : M vobj :=
  bindM (forM (fun i acc s =>
           match nthr (vcores value) i with
           | Err e => (s, Err e)
           | Ok c => match assign_check (heap s) (nth i (vcores ref) (CVar 0)) c (vdt value) with
                     | Err e => (s, Err e)
                     | Ok (id, x) => (set_heap s (write (heap s) id x), Ok (acc ++ [CVar id]))
                     end
           end) (seq 0 (length (vcores ref))) [])
    (fun cs s => liftR (construct (heap s) cs (vrshape value) (vrks value) (vbsz value) (vdt ref)) s).

(** [variables.py:116-131] assign in graph mode: the loop only makes the ops, all checks come before the first write.
    Simplification: the cores of [value] are tensors (for variables the order of reading and
    writing is up to the session). *)
Definition assign_graph (ref value : vobj) (s : store) : res (list (nat * tensor K) * vobj) :=
  do ops <- mapM (fun i => do c <- nthr (vcores value) i; assign_check (heap s) (nth i (vcores ref) (CVar 0)) c (vdt value)) (seq 0 (length (vcores ref)));
  do v <- construct (heap s) (map (fun p => CVar (fst p)) ops) (vrshape value) (vrks value) (vbsz value) (vdt ref);
  Ok (ops, v).
(** Running the ops that assign made in graph mode ([variables.py:122]). *)
Definition run_ops (ops : list (nat * tensor K)) (s : store) : store :=
  fold_left (fun s p => set_heap s (write (heap s) (fst p) (snd p))) ops s.

(** ** Histories *)
(** Calls of get_variable, plain calls of tf.get_variable and tf.Variable, calls of assign (in graph mode followed by running the ops). *)
Inductive call :=
| CallGet (sc : scope) (name : string) (dt : option dtype) (initializer : option vobj) (regularizer : option (tt K -> res (option loss)))
| CallTf (sc : scope) (label : string) (dt : option dtype) (init : option (dtype * tensor K))
| CallVariable (n : string) (d : dtype) (x : tensor K)
| CallAssign (ref value : vobj).
(** One call, an exception being caught by the caller. *)
Definition step (eager : bool) (c : call) (s : store) : store :=
  match c with
  | CallGet sc n d i r => fst (get_variable eager sc n d i r s)
  | CallTf sc l d i => fst (tf_get_variable eager sc l d i s)
  | CallVariable n d x => fst (new_variable true n d x s)
  | CallAssign r v =>
      if eager then fst (assign r v s)
      else match assign_graph r v s with Ok (ops, _) => run_ops ops s | Err _ => s end
  end.
(** A history of calls. *)
Definition run (eager : bool) (cs : list call) (s : store) : store := fold_left (fun s c => step eager c s) cs s.
End Vars.
Arguments Var {K}. Arguments vname {K}. Arguments vdtype {K}. Arguments vval {K}.
Arguments CTensor {K}. Arguments CVar {K}. Arguments VObj {K}. Arguments vcores {K}. Arguments vrshape {K}. Arguments vrks {K}. Arguments vbsz {K}. Arguments vdt {K}.
Arguments Store {K loss}. Arguments heap {K loss}. Arguments names {K loss}. Arguments coll {K loss}. Arguments losses {K loss}.
Arguments deref {K}. Arguments read {K}. Arguments value_of {K}. Arguments obj_name {K}. Arguments lookup {K loss}. Arguments dtype_of {K loss}.
Arguments ret {K loss A}. Arguments raise {K loss A}. Arguments bindM {K loss A B}. Arguments forM {K loss A S}. Arguments new_variable {K loss}.
Arguments tf_get_variable {K loss}. Arguments construct {K}. Arguments liftR {K loss A}. Arguments create_cores {K loss}. Arguments get_variable {K loss}.
Arguments write {K}. Arguments set_heap {K loss}. Arguments assign_check {K}. Arguments assign {K loss}. Arguments assign_graph {K loss}. Arguments run_ops {K loss}.
Arguments CallGet {K loss}. Arguments CallTf {K loss}. Arguments CallVariable {K loss}. Arguments CallAssign {K loss}. Arguments step {K loss}. Arguments run {K loss}. Arguments empty_store {K loss}.
