(** What it means that a reported position is in the text, and the right one (C92, C93). *)
From Verif Require Import Base RleVec Pool Float NumText Bytecode Chunk Value Ast Arith VmOps
                          Compiler Vm SpecParse.

(** ** Positions in a text *)

(** A position names a source and two offsets in bytes; it is [within] a text when the
    text can be cut at both offsets, the first not behind the second. *)
Definition within (text : rstring) (sp : span) : Prop :=
  exists a b c, text = a ++ b ++ c /\
    sp_start sp = N.to_nat (slen a) /\ sp_end sp = N.to_nat (slen (a ++ b)).

(** ** Positions in a program *)

(** The names written directly in a node. *)
Definition var_names (v : var) : list (spanned rstring) :=
  match v with VarDecl x => [x] | VarMulti l => l end.
Definition names_of (n : node) : list (spanned rstring) :=
  match n with
  | NDeclaration v _ => var_names v
  | NExternal x _ | NAssignment x _ | NBuiltinCall x _ | NInclude x _ | NFor x _ _ => [x]
  | NFunction x args _ => x :: args
  | NLambda args _ => args
  | NMultiFor l _ _ => l
  | NContext x _ v _ => x :: opt_list var_names v
  | _ => []
  end.

(** [occurs ast n sp]: the node [n] stands in the program, at any depth, at [sp]. *)
Inductive occurs (ast : list nodeS) : node -> span -> Prop :=
| oc_top n sp : In (n, sp) ast -> occurs ast n sp
| oc_in p psp n sp : occurs ast p psp -> In (n, sp) (children p) -> occurs ast n sp.

(** A position of the program: of a node, or of a name. *)
Inductive position_of (ast : list nodeS) (sp : span) : Prop :=
| po_node n : occurs ast n sp -> position_of ast sp
| po_name n nsp x : occurs ast n nsp -> In (x, sp) (names_of n) -> position_of ast sp.

(** [placed read name text sources sp]: the source number of [sp] is the number of a file
    of the program and [sp] is within the text of that file.  Number 0 is the program
    itself, the others are the included files in the order they were read. *)
Definition placed (read : rstring -> option rstring) (name text : rstring)
                  (sources : list rstring) (sp : span) : Prop :=
  exists file t, nth_error sources (sp_src sp) = Some file /\
    (if sp_src sp =? 0 then file = name /\ t = text else read file = Some t) /\
    within t sp.

(** [source_of … k t]: [t] is the text of the file with the number [k]. *)
Definition source_of (read : rstring -> option rstring) (name text : rstring) (sources : list rstring) (k : nat) (t : rstring) : Prop :=
  exists file, nth_error sources k = Some file /\ (if k =? 0 then file = name /\ t = text else read file = Some t).
(** What reading a program of several files can fail with: a file that is not a program, reported
    with the number of that file; or a file that is included again, or that cannot be read,
    reported where an include statement of one of the files names it. *)
Definition include_fails (read : rstring -> option rstring) (parse : rstring -> nat -> option (list nodeS)) (name text : rstring)
                         (sources : list rstring) (e : error) (sp : span) : Prop :=
  (e = EUnexpectedToken 0 /\ exists t, source_of read name text sources (sp_src sp) t /\ parse t (sp_src sp) = None) \/
  (exists x, (e = ECircularInclude x \/ (e = ECouldNotResolve x /\ read x = None)) /\
     exists t ast b nsp, source_of read name text sources (sp_src sp) t /\ parse t (sp_src sp) = Some ast /\
       In (NInclude (x, sp) b, nsp) ast).

(** ** The construct to blame (C93) *)
Section Blame.
Context {D : Type} (m : mode) (hst : host D) (ast : list nodeS) (s : vm D).

(** The number the machine keeps the global name [x] under. *)
Definition number_of (x : rstring) (id : N) : Prop :=
  exists i, nth_error (p_entries (v_gsyms s)) i = Some x /\ id = pool_id_from i.

(** [top k v]: [v] lies on the machine's stack, [k] places below the top one. *)
Definition top (k : nat) (v : value) : Prop :=
  k < v_sp s /\ nth_error (v_stack s) (v_sp s - 1 - k) = Some v.
(** The topmost [n] values, the last pushed first; and in the order they were pushed. *)
Definition topmost (n : nat) (l : list value) : Prop :=
  length l = n /\ forall k v, nth_error l k = Some v -> top k v.
Definition arguments (n : nat) (l : list value) : Prop := topmost n (rev l).

(** A builtin called with [n] arguments, or what runs when a [with] is entered, fails with
    [e]: nothing is registered under the name, or what is registered, given the topmost
    values of the stack, returned that error. *)
Definition fails_called (x : rstring) (n : nat) (e : error) : Prop :=
  exists id, number_of x id /\
  match alookup N.eqb id (v_builtins s) with
  | None => e = EUndefinedBuiltin x
  | Some (BFn f) => exists args, arguments n args /\ snd (f (v_data s) args (v_opts s)) = Err e
  | Some (BContext _ _) => False
  end.
Definition fails_entered (x : rstring) (n : nat) (e : error) : Prop :=
  exists id, number_of x id /\
  match alookup N.eqb id (v_builtins s) with
  | None => e = EUndefinedBuiltin x
  | Some (BFn f) | Some (BContext f _) => exists args, arguments n args /\ snd (f (v_data s) args (v_opts s)) = Err e
  end.
Definition unset (x : rstring) : Prop :=
  exists id, number_of x id /\ alookup N.eqb id (v_globals s) = None.
(** The next value of the iterable of a loop, one below the top, could not be had; below it
    the loop keeps its count. *)
Definition fails_next (e : error) : Prop :=
  (exists k v, top 2 (VLoopCtx k) /\ top 1 v /\ v_iter m mfi k v = Err e) \/
  (exists v, top 2 v /\ (forall k, v <> VLoopCtx k) /\ e = EFailedToIterate).
(** The topmost value could not be unpacked into [n] names. *)
Definition fails_unpack (n : nat) (e : error) : Prop := exists v, top 0 v /\ v_unpack mfi (N.of_nat n) v = Err e.
(** The topmost value is no condition. *)
Definition fails_test (e : error) : Prop := exists v, top 0 v /\ is_truthy mfi v = Err e.

(** [blamed e sp]: at [sp] stands the construct that failed with [e], or the name in it;
    and it is that construct which, given the values on the stack, fails so. *)
Inductive blamed (e : error) (sp : span) : Prop :=
| bl_binary o a b f v w : occurs ast (NBinary o a b) sp ->
    binary_fn m (h_oracle hst) mfi (feq_at hst s) (o_string_max (v_opts s)) (o_array_max (v_opts s)) o = Some f ->
    top 1 v -> top 0 w -> f v w = Err e -> blamed e sp
| bl_unary o a f v : occurs ast (NUnary o a) sp -> unary_fn m mfi o = Some f -> top 0 v -> f v = Err e -> blamed e sp
| bl_index a b i v : occurs ast (NIndexGet a b) sp -> top 1 i -> top 0 v -> v_index m mfi i v = Err e -> blamed e sp
| bl_range a b v w : occurs ast (NRange a b) sp -> top 1 v -> top 0 w -> v_range mfi v w = Err e -> blamed e sp
| bl_array l items : occurs ast (NArray l) sp -> topmost (length l) items -> v_array (o_array_max (v_opts s)) items = Err e ->
    blamed e sp
| bl_call f l v : occurs ast (NCall f l) sp -> top (length l) v -> (forall c, v <> VFn c) -> e = ENotCallable (ntype mfi v) ->
    blamed e sp
| bl_name x : occurs ast (NIdentifier x) sp -> unset x -> e = ENameUndefined x -> blamed e sp
| bl_assign x v nsp : occurs ast (NAssignment (x, sp) v) nsp -> unset x -> e = ENameUndefined x -> blamed e sp
| bl_if c t f : occurs ast (NConditional c t f) sp -> fails_test e -> blamed e sp
| bl_while c b : occurs ast (NWhile c b) sp -> fails_test e -> blamed e sp
| bl_for x i b : occurs ast (NFor x i b) sp -> fails_next e -> blamed e sp
| bl_for_many l i b : occurs ast (NMultiFor l i b) sp -> fails_next e -> blamed e sp
| bl_unpack l x : occurs ast (NDeclaration (VarMulti l) x) sp -> fails_unpack (length l) e -> blamed e sp
| bl_unpack_with y a l b : occurs ast (NContext y a (Some (VarMulti l)) b) sp -> fails_unpack (length l) e -> blamed e sp
| bl_unpack_for l it b nsp : occurs ast (NMultiFor l (it, sp) b) nsp -> fails_unpack (length l) e -> blamed e sp
| bl_builtin x l nsp : occurs ast (NBuiltinCall (x, sp) l) nsp -> fails_called x (length l) e -> blamed e sp
| bl_enter x l v b nsp : occurs ast (NContext (x, sp) l v b) nsp -> fails_entered x (length l) e -> blamed e sp
| bl_leave x l v b leave rest : occurs ast (NContext x l v b) sp -> v_exits s = leave :: rest ->
    snd (leave (v_data s)) = Err e -> blamed e sp.

(** The errors that are reported at another place: the code that would run next, or the
    function that runs.  These are an exhausted stack or time, a function called with a wrong
    number of arguments, and a context manager called as a builtin. *)
Inductive elsewhere (e : error) : Prop :=
| el_stack : e = EStackOverflow -> elsewhere e
| el_time n : e = ERuntimeLimit n -> elsewhere e
| el_arity f l c sp : occurs ast (NCall f l) sp -> top (length l) (VFn c) ->
    e = EMismatchedArity (fn_name (mfn_function c)) (fn_arity (mfn_function c)) (N.of_nat (length l)) ->
    fn_arity (mfn_function c) <> N.of_nat (length l) -> elsewhere e
| el_context x xsp l sp id en ex : occurs ast (NBuiltinCall (x, xsp) l) sp -> number_of x id ->
    alookup N.eqb id (v_builtins s) = Some (BContext en ex) -> e = ENotCallable (str "context manager") -> elsewhere e.
End Blame.
