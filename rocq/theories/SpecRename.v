(** Renaming (C103). *)
From Verif Require Import Base Pool Bytecode Chunk Value Ast Compiler Vm SpecNames SpecRel.

(** A consistent renaming: different names stay different.  Names the compiler makes up are kept
    (no name of a program is one of these, C101). *)
Record renaming (r : rstring -> rstring) : Prop := {
  rn_apart : forall x y, r x = r y -> x = y;
  rn_kept : forall x, made_up x -> r x = x }.
(** A consistent move: different places stay different.  The place the compiler makes up is kept. *)
Record moving (mv : span -> span) : Prop := {
  mv_apart : forall a b, mv a = mv b -> a = b;
  mv_kept : mv default_span = default_span }.

(** The program with every name replaced and every position moved.  The names of builtins are names too, and the names of
    files are not. *)
Definition rename_name (r : rstring -> rstring) (mv : span -> span) (x : spanned rstring) : spanned rstring := (r (fst x), mv (snd x)).
Definition rename_var (r : rstring -> rstring) (mv : span -> span) (v : var) : var :=
  match v with VarDecl x => VarDecl (rename_name r mv x) | VarMulti xs => VarMulti (map (rename_name r mv) xs) end.
Fixpoint rename (r : rstring -> rstring) (mv : span -> span) (n : node) : node :=
  let one (e : nodeS) : nodeS := (rename r mv (fst e), mv (snd e)) in
  match n with
  | NLiteral l => NLiteral l
  | NArray l => NArray (map one l)
  | NPair a b => NPair (one a) (one b)
  | NRange a b => NRange (one a) (one b)
  | NIdentifier x => NIdentifier (r x)
  | NDeclaration v e => NDeclaration (rename_var r mv v) (one e)
  | NExternal x e => NExternal (rename_name r mv x) (one e)
  | NAssignment x e => NAssignment (rename_name r mv x) (one e)
  | NFunction x args b => NFunction (rename_name r mv x) (map (rename_name r mv) args) (map one b)
  | NLambda args b => NLambda (map (rename_name r mv) args) (map one b)
  | NBlock b => NBlock (map one b)
  | NConditional c t o => NConditional (one c) (map one t) (option_map (map one) o)
  | NSwitch v cs d => NSwitch (one v) (map (fun c => (one (fst c), map one (snd c))) cs) (option_map (map one) d)
  | NFor x i b => NFor (rename_name r mv x) (one i) (map one b)
  | NMultiFor xs i b => NMultiFor (map (rename_name r mv) xs) (one i) (map one b)
  | NWhile c b => NWhile (one c) (map one b)
  | NBinary o a b => NBinary o (one a) (one b)
  | NUnary o a => NUnary o (one a)
  | NCall f args => NCall (one f) (map one args)
  | NBuiltinCall x args => NBuiltinCall (rename_name r mv x) (map one args)
  | NContext x args v b => NContext (rename_name r mv x) (map one args) (option_map (rename_var r mv) v) (map one b)
  | NIndexGet t i => NIndexGet (one t) (one i)
  | NInclude x b => NInclude (fst x, mv (snd x)) (option_map (map one) b)
  | NReturn v => NReturn (option_map one v)
  end.
Definition rename_program (r : rstring -> rstring) (mv : span -> span) (l : list nodeS) : list nodeS := map (fun e => (rename r mv (fst e), mv (snd e))) l.

(** Values without functions: they agree with themselves even where no function agrees with any. *)
Definition simple (v : value) : Prop := grel (fun _ _ => False) v v.

(** The positions of code, run by run. *)
Definition move_spans (mv : span -> span) (l : list (nat * span)) : list (nat * span) := map (fun e => (fst e, mv (snd e))) l.
(** Functions that differ in names and positions only: the same code, the positions moved, the same numbers of
    parameters and captured variables, the same constants. *)
Inductive renamed_fn (r : rstring -> rstring) (mv : span -> span) : function -> function -> Prop :=
| rf n sp a u ops spans cs cs' syms : Forall2 (renamed_const r mv) cs cs' ->
    renamed_fn r mv (mkFunction n sp a u (mkChunk ops spans cs syms)) (mkFunction (r n) (mv sp) a u (mkChunk ops (move_spans mv spans) cs' (map r syms)))
with renamed_const (r : rstring -> rstring) (mv : span -> span) : value -> value -> Prop :=
| rc_fn f g : renamed_fn r mv f g -> renamed_const r mv (VFn (MFun f)) (VFn (MFun g))
| rc_same v : simple v -> renamed_const r mv v v.
(** Programs that differ in names and positions only. *)
Record renamed_script (r : rstring -> rstring) (mv : span -> span) (sc sc' : script) : Prop := {
  rs_externals : sc_externals sc' = sc_externals sc;
  rs_globals : p_entries (sc_globals sc') = map r (p_entries (sc_globals sc));
  rs_ids : forall x, pool_id seqb (sc_globals sc') (r x) = pool_id seqb (sc_globals sc) x;
  rs_function : renamed_fn r mv (sc_function sc) (sc_function sc') }.
Definition renamed_error (r : rstring -> rstring) (e : error) : error :=
  match e with
  | EExternalRedefined x => EExternalRedefined (r x)
  | EExternalNotGlobal x => EExternalNotGlobal (r x)
  | ENameUndefined x => ENameUndefined (r x)
  | EUndefinedBuiltin x => EUndefinedBuiltin (r x)
  | EMismatchedArity x expected got => EMismatchedArity (r x) expected got
  | e => e
  end.

(** ** Runs *)

(** All functions in [f] have names in [K]. *)
Definition named (K : rstring -> Prop) (f : function) : Prop := forall g, part f g -> K (fn_name g).
(** Values that differ in the names of functions only, those of the first being in [K]. *)
Inductive renamed_closure (r : rstring -> rstring) (mv : span -> span) (K : rstring -> Prop) : mfn -> mfn -> Prop :=
| rcl_fun f g : renamed_fn r mv f g -> named K f -> renamed_closure r mv K (MFun f) (MFun g)
| rcl_clo f g cells : renamed_fn r mv f g -> named K f -> renamed_closure r mv K (MClo f cells) (MClo g cells).
Definition renamed_value (r : rstring -> rstring) (mv : span -> span) (K : rstring -> Prop) : value -> value -> Prop := grel (renamed_closure r mv K).

(** Builtins that do the same with values that differ in the names of functions. *)
Definition blind_fn {D} (r : rstring -> rstring) (mv : span -> span) (K : rstring -> Prop) (f : bfn D) : Prop :=
  forall d args args' o, Forall2 (renamed_value r mv K) args args' ->
  fst (f d args' o) = fst (f d args o) /\
  match snd (f d args o), snd (f d args' o) with
  | Ok v, Ok v' => renamed_value r mv K v v'
  | Err e, Err e' => e' = renamed_error r e
  | Panic, _ => True
  | _, _ => False
  end.
(** Errors of leaving a context carry no names. *)
Definition blind {D} (r : rstring -> rstring) (mv : span -> span) (K : rstring -> Prop) (b : builtin D) : Prop :=
  match b with
  | BFn f => blind_fn r mv K f
  | BContext f x => blind_fn r mv K f /\ forall d e, snd (x d) = Err e -> renamed_error r e = e
  end.
Definition rename_builtins {D} (r : rstring -> rstring) (l : list (rstring * builtin D)) : list (rstring * builtin D) :=
  map (fun b => (r (fst b), snd b)) l.
Definition rename_line (r : rstring -> rstring) (mv : span -> span) (l : trace_line) : trace_line :=
  match l with TFrame x sp => TFrame (r x) (mv sp) | TMore n => TMore n end.

Definition move_line (mv : span -> span) (l : trace_line) : trace_line :=
  match l with TFrame x sp => TFrame x (mv sp) | TMore n => TMore n end.

(** A machine with a program and one with the renamed program, to which the same was done. *)
Inductive paired {D} (r : rstring -> rstring) (mv : span -> span) (K : rstring -> Prop) (m : mode) (hst : host D) : vm D -> vm D -> Prop :=
| pd_new d sc sc' o bs : renamed_script r mv sc sc' -> named K (sc_function sc) -> (forall l n b, In l bs -> In (n, b) l -> blind r mv K b) ->
    paired r mv K m hst (vm_new_with d sc o bs) (vm_new_with d sc' o (map (rename_builtins r) bs))
| pd_global n v v' s s' : paired r mv K m hst s s' -> renamed_value r mv K v v' -> paired r mv K m hst (insert_global n v s) (insert_global (r n) v' s')
| pd_external n v v' s s' t t' : paired r mv K m hst s s' -> renamed_value r mv K v v' -> set_external n v s = Ok t -> set_external (r n) v' s' = Ok t' ->
    paired r mv K m hst t t'
| pd_data d s s' : paired r mv K m hst s s' -> paired r mv K m hst (set_data d s) (set_data d s')
| pd_script sc sc' s s' : paired r mv K m hst s s' -> renamed_script r mv sc sc' -> named K (sc_function sc) ->
    paired r mv K m hst (update_script sc s) (update_script sc' s')
| pd_done k v v' s s' t t' : paired r mv K m hst s s' -> run m hst k s = RDone v t -> run m hst k s' = RDone v' t' -> paired r mv K m hst t t'
| pd_failed k e e' sp sp' s s' t t' : paired r mv K m hst s s' -> run m hst k s = RErr e sp t -> run m hst k s' = RErr e' sp' t' -> paired r mv K m hst t t'.
