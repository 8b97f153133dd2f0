(** compiler/src/lib.rs: from syntax trees to byte code. *)
From Verif Require Import Base RleVec Pool Vecc Float Bytecode Chunk Value Ast.

(** lib.rs:1026-1035 *)
Record local := mkLocal { l_name : rstring; l_depth : nat; l_captured : bool; l_cleanup : bool }.

(** lib.rs:1037-1047 without [enclosing], see [compiler].  [lv_locals] is the vector
    [locals] with its last element first.  [scope_depth] (u16) is a [nat]: its overflow
    at 65536 nested scopes is not modelled. *)
Record level := mkLevel {
  lv_name : spanned rstring; lv_arity : N; lv_upcount : N; lv_chunk : chunk value;
  lv_locals : list local; lv_upvalues : list (N * bool); lv_depth : nat;
  lv_syms : pool rstring; lv_consts : pool value }.

(** lib.rs:18-22.  The chain of [enclosing] levels is a list, innermost first. *)
Record compiler := mkCompiler {
  c_level : level; c_enclosing : list level; c_globals : pool rstring; c_externals : list N }.

(** What a compiler function returns: a result, an error with its span, or a panic.
    The compiler is mutated in place, so the state is there in every case. *)
Inductive cres (A : Type) := COk (a : A) | CErr (e : error) (sp : span) | CPanic.
Arguments COk {A} a.
Arguments CErr {A} e sp.
Arguments CPanic {A}.

Definition M (A : Type) := compiler -> cres A * compiler.
Definition ret {A} (a : A) : M A := fun c => (COk a, c).
Definition fail {A} (e : error) (sp : span) : M A := fun c => (CErr e sp, c).
Definition crash {A} : M A := fun c => (CPanic, c).
Definition bind {A B} (x : M A) (k : A -> M B) : M B :=
  fun c => match x c with
           | (COk a, c') => k a c'
           | (CErr e sp, c') => (CErr e sp, c')
           | (CPanic, c') => (CPanic, c')
           end.
Notation "'do' x <- e ; k" := (bind e (fun x => k))
  (at level 200, x pattern, e at level 100, k at level 200, right associativity).
Notation "e ;; k" := (bind e (fun _ => k)) (at level 100, k at level 200, right associativity).

Definition get_level : M level := fun c => (COk (c_level c), c).
Definition set_level (l : level) : M unit :=
  fun c => (COk tt, mkCompiler l (c_enclosing c) (c_globals c) (c_externals c)).
Definition mod_level (f : level -> level) : M unit := do l <- get_level; set_level (f l).

Definition lv_set_chunk (ck : chunk value) (l : level) : level :=
  mkLevel (lv_name l) (lv_arity l) (lv_upcount l) ck (lv_locals l) (lv_upvalues l) (lv_depth l)
          (lv_syms l) (lv_consts l).
Definition lv_set_locals (ls : list local) (l : level) : level :=
  mkLevel (lv_name l) (lv_arity l) (lv_upcount l) (lv_chunk l) ls (lv_upvalues l) (lv_depth l)
          (lv_syms l) (lv_consts l).
Definition lv_set_depth (d : nat) (l : level) : level :=
  mkLevel (lv_name l) (lv_arity l) (lv_upcount l) (lv_chunk l) (lv_locals l) (lv_upvalues l) d
          (lv_syms l) (lv_consts l).
Definition lv_set_syms (p : pool rstring) (l : level) : level :=
  mkLevel (lv_name l) (lv_arity l) (lv_upcount l) (lv_chunk l) (lv_locals l) (lv_upvalues l)
          (lv_depth l) p (lv_consts l).
Definition lv_set_consts (p : pool value) (l : level) : level :=
  mkLevel (lv_name l) (lv_arity l) (lv_upcount l) (lv_chunk l) (lv_locals l) (lv_upvalues l)
          (lv_depth l) (lv_syms l) p.
Definition lv_set_ups (n : N) (us : list (N * bool)) (l : level) : level :=
  mkLevel (lv_name l) (lv_arity l) n (lv_chunk l) (lv_locals l) us (lv_depth l)
          (lv_syms l) (lv_consts l).
Definition lv_set_name (nm : spanned rstring) (l : level) : level :=
  mkLevel nm (lv_arity l) (lv_upcount l) (lv_chunk l) (lv_locals l) (lv_upvalues l) (lv_depth l)
          (lv_syms l) (lv_consts l).

(** A fresh level (lib.rs:27-40, 322-335, 848-861). *)
Definition new_level (name : spanned rstring) (arity : N) (depth : nat) : level :=
  mkLevel name arity 0 chunk_new [] [] depth pool_new pool_new.

(** lib.rs:25-45 *)
Definition compiler_new (name : rstring) : compiler :=
  mkCompiler (new_level (name, default_span) 0 0) [] pool_new [].

(** lib.rs:54-57 *)
Definition is_global : M bool := do l <- get_level; ret (lv_depth l =? 0).

(** lib.rs:59-97 *)
Definition write_op (o : N) (sp : span) : M unit :=
  mod_level (fun l => lv_set_chunk (chunk_write_op (lv_chunk l) o sp) l).
Definition write_u8 (b : N) (sp : span) : M unit :=
  mod_level (fun l => lv_set_chunk (chunk_write_u8 (lv_chunk l) b sp) l).
Definition write_u16 (v : N) (sp : span) : M unit :=
  mod_level (fun l => lv_set_chunk (chunk_write_u16 (lv_chunk l) v sp) l).
Definition patch_u16 (offset : nat) (v : N) : M unit :=
  do l <- get_level;
  match chunk_patch_u16 (lv_chunk l) offset v with
  | Ok ck => set_level (lv_set_chunk ck l)
  | _ => crash
  end.
Definition write_op_u8 (o b : N) (sp : span) : M unit := write_op o sp ;; write_u8 b sp.
Definition write_op_u16 (o v : N) (sp : span) : M unit := write_op o sp ;; write_u16 v sp.

Definition code_len : M nat := do l <- get_level; ret (chunk_len (lv_chunk l)).

(** lib.rs:99-103 *)
Definition write_jump (o : N) (sp : span) : M nat :=
  write_op_u16 o 0 sp ;; do n <- code_len; ret (n - 2).

(** lib.rs:105-113 *)
Definition write_jump_backward (start : nat) (sp : span) : M unit :=
  do n <- code_len;
  let jump := N.of_nat (n + 3 - start) in
  if (65535 <? jump)%N then fail EJumpTooLarge sp
  else write_op_u16 op_JumpBackward jump sp.

(** lib.rs:115-123 *)
Definition patch_jump (offset : nat) (sp : span) : M unit :=
  do n <- code_len;
  let jump := N.of_nat (n - 2 - offset) in
  if (65535 <? jump)%N then fail EJumpTooLarge sp
  else patch_u16 offset jump.

(** lib.rs:135-148 *)
Definition add_constant (v : value) : M N :=
  do l <- get_level;
  let (p, id) := pool_add const_eqb (lv_consts l) v in
  set_level (lv_set_consts p l) ;; ret id.
Definition add_symbol (s : rstring) : M N :=
  do l <- get_level;
  let (p, id) := pool_add seqb (lv_syms l) s in
  set_level (lv_set_syms p l) ;; ret id.
Definition add_global_symbol (s : rstring) : M N :=
  fun c => let (p, id) := pool_add seqb (c_globals c) s in
           (COk id, mkCompiler (c_level c) (c_enclosing c) p (c_externals c)).

(** lib.rs:150-154 *)
Definition enter_level (l : level) : M unit :=
  fun c => (COk tt, mkCompiler l (c_level c :: c_enclosing c) (c_globals c) (c_externals c)).

(** lib.rs:1050-1062.  Constants and symbols move into the chunk. *)
Definition level_finish (l : level) : function * list (N * bool) :=
  let ck := mkChunk (ck_ops (lv_chunk l)) (ck_spans (lv_chunk l))
                    (p_entries (lv_consts l)) (p_entries (lv_syms l)) in
  let ck' := if lv_depth l =? 0 then chunk_write_op ck op_Return (chunk_last_span ck) else ck in
  (mkFunction (fst (lv_name l)) (snd (lv_name l)) (lv_arity l) (lv_upcount l) ck', lv_upvalues l).

(** lib.rs:156-161 *)
Definition exit_level : M (function * list (N * bool)) :=
  fun c => match c_enclosing c with
           | [] => (CPanic, c)
           | e :: rest => (COk (level_finish (c_level c)),
                           mkCompiler e rest (c_globals c) (c_externals c))
           end.

(** lib.rs:163-166 *)
Definition enter_scope : M unit := mod_level (fun l => lv_set_depth (S (lv_depth l)) l).

(** lib.rs:171-184: the locals leaving the scope, newest first. *)
Fixpoint leaving (depth : nat) (ls : list local) : list bool * list local :=
  match ls with
  | [] => ([], [])
  | l :: t => if l_cleanup l && (depth <? l_depth l)
              then let (ops, rest) := leaving depth t in (l_captured l :: ops, rest)
              else ([], ls)
  end.

(** lib.rs:196-200, 207-211 *)
Definition flush_pops (q : N) (sp : span) : M unit :=
  if (2 <=? q)%N then write_op_u16 op_PopMany q sp
  else if (q =? 1)%N then write_op op_Pop sp
  else ret tt.

(** lib.rs:189-211.  [true] is CloseUpvalue, [false] is Pop.  The counter is a u16;
    a checked build aborts where it wraps (not modelled). *)
Fixpoint emit_pops (ops : list bool) (q : N) (sp : span) : M unit :=
  match ops with
  | [] => flush_pops q sp
  | false :: t => emit_pops t (wrap16u (q + 1)) sp
  | true :: t => flush_pops q sp ;; write_op op_CloseUpvalue sp ;; emit_pops t 0 sp
  end.

(** lib.rs:168-215 *)
Definition exit_scope (sp : span) : M unit :=
  mod_level (fun l => lv_set_depth (pred (lv_depth l)) l) ;;
  do l <- get_level;
  let (ops, rest) := leaving (lv_depth l) (lv_locals l) in
  set_level (lv_set_locals rest l) ;;
  match ops with
  | [] => ret tt
  | _ => write_op op_BlockResult sp ;; emit_pops ops 0 sp ;; write_op op_BlockReturn sp
  end.

(** lib.rs:1064-1075.  The slot is the position from the oldest local, cast to u16. *)
Fixpoint resolve_local (ls : list local) (name : rstring) (capture : bool)
  : list local * option N :=
  match ls with
  | [] => ([], None)
  | l :: t =>
      if seqb (l_name l) name
      then (mkLocal (l_name l) (l_depth l) (l_captured l || capture) (l_cleanup l) :: t,
            Some (wrap16u (N.of_nat (length t))))
      else let (t', r) := resolve_local t name capture in (l :: t', r)
  end.

Definition up_eqb (a b : N * bool) : bool := (fst a =? fst b)%N && Bool.eqb (snd a) (snd b).

Fixpoint position {A} (p : A -> bool) (l : list A) : option nat :=
  match l with
  | [] => None
  | x :: t => if p x then Some 0 else option_map S (position p t)
  end.

(** lib.rs:1101-1114.  (A checked build aborts at 65536 upvalues of one function; not
    modelled.) *)
Definition add_upvalue (l : level) (index : N) (is_local : bool) : level * N :=
  match position (fun u => up_eqb u (index, is_local)) (lv_upvalues l) with
  | Some i => (l, wrap16u (N.of_nat i))
  | None =>
      let us := lv_upvalues l ++ [(index, is_local)] in
      (lv_set_ups (wrap16u (N.of_nat (length us))) us l,
       wrap16u (N.of_nat (length (lv_upvalues l))))
  end.

(** lib.rs:1077-1099.  [l] is the asking level, [ps] the levels around it. *)
Fixpoint resolve_upvalue (l : level) (ps : list level) (name : rstring)
  : level * list level * option N :=
  match ps with
  | [] => (l, [], None)
  | p :: rest =>
      match resolve_local (lv_locals p) name true with
      | (ls, Some i) =>
          let (l', k) := add_upvalue l i true in
          (l', lv_set_locals ls p :: rest, Some k)
      | (_, None) =>
          match resolve_upvalue p rest name with
          | (p', rest', Some i) =>
              let (l', k) := add_upvalue l i false in (l', p' :: rest', Some k)
          | (p', rest', None) => (l, p' :: rest', None)
          end
      end
  end.

Definition resolve_upvalue_m (name : rstring) : M (option N) :=
  fun c => match resolve_upvalue (c_level c) (c_enclosing c) name with
           | (l, ps, r) => (COk r, mkCompiler l ps (c_globals c) (c_externals c))
           end.

(** lib.rs:962-982: [get_variable] and [set_variable] differ in the three opcodes. *)
Definition variable_op (o_local o_up o_global : N) (name : rstring) (sp : span) : M unit :=
  do l <- get_level;
  match snd (resolve_local (lv_locals l) name false) with
  | Some i => write_op_u16 o_local i sp
  | None =>
      do r <- resolve_upvalue_m name;
      match r with
      | Some i => write_op_u16 o_up i sp
      | None => do off <- add_global_symbol name; write_op_u16 o_global off sp
      end
  end.
Definition get_variable := variable_op op_LoadLocal op_LoadUpvalue op_LoadGlobal.
Definition set_variable := variable_op op_SetLocal op_SetUpvalue op_SetGlobal.

(** lib.rs:994-1011: is [name] already declared at the current depth? *)
Fixpoint declared_here (depth : nat) (name : rstring) (ls : list local) : bool :=
  match ls with
  | [] => false
  | l :: t => if l_depth l <? depth then false
              else if seqb (l_name l) name then true else declared_here depth name t
  end.

(** lib.rs:993-1020 *)
Definition define_local (name : rstring) (cleanup : bool) : M unit :=
  do l <- get_level;
  (if declared_here (lv_depth l) name (lv_locals l)
   then mod_level (fun l => lv_set_syms (fst (pool_add_force (lv_syms l) name)) l)
   else add_symbol name ;; ret tt) ;;
  mod_level (fun l => lv_set_locals (mkLocal name (lv_depth l) false cleanup :: lv_locals l) l).

Fixpoint define_locals (names : list rstring) : M unit :=
  match names with
  | [] => ret tt
  | x :: t => define_local x true ;; define_locals t
  end.

(** lib.rs:984-991.  The source's name is "#__temp_" followed by the number of locals. *)
Definition temp_name (n : nat) : rstring := str "#__temp_" ++ NumText.radix_text 10 (N.of_nat n).
Fixpoint reserve_temps (n : nat) : M unit :=
  match n with
  | O => ret tt
  | S k => do l <- get_level;
           define_local (temp_name (length (lv_locals l))) true ;; reserve_temps k
  end.

(** lib.rs:1117-1131 *)
Fixpoint literal_to_value (l : literal) : value :=
  match l with
  | LNone => VNone
  | LBool b => VBool b
  | LInt n => VInt n
  | LFloat f => VFloat f
  | LColor r g b a => VColor r g b a
  | LString s => VString s
  | LArray arr => force_array (map literal_to_value arr)
  | LPair a b => VPair (literal_to_value a) (literal_to_value b)
  | LRange a b => VRange a b
  end.

(** lib.rs:893-917 *)
Definition binary_opcode (o : op) : option N :=
  match o with
  | OAdd => Some op_BinaryAdd | OSub => Some op_BinarySubtract
  | OMul => Some op_BinaryMultiply | ODiv => Some op_BinaryDivide
  | OMod => Some op_BinaryModulo | OPow => Some op_BinaryPower
  | OEq => Some op_BinaryEqual | ONeq => Some op_BinaryNotEqual
  | OLt => Some op_BinaryLess | OGt => Some op_BinaryGreater
  | OLte => Some op_BinaryLessEqual | OGte => Some op_BinaryGreaterEqual
  | OAnd => Some op_BinaryAnd | OOr => Some op_BinaryOr | OJoin => Some op_BinaryJoin
  | OBitwiseAnd => Some op_BitwiseAnd | OBitwiseOr => Some op_BitwiseOr
  | OBitwiseXor => Some op_BitwiseXor
  | OBitwiseLeftShift => Some op_BitwiseLeftShift
  | OBitwiseRightShift => Some op_BitwiseRightShift
  | ONot | ONeg | OBitwiseNot => None
  end.

(** lib.rs:942-948 *)
Definition unary_opcode (o : op) : option N :=
  match o with
  | ONot => Some op_UnaryNot
  | ONeg => Some op_UnaryNegate
  | OBitwiseNot => Some op_BitwiseNot
  | _ => None
  end.

(** lib.rs:923-934: constant folding of a unary operator on a literal.  [-n] overflows
    for the smallest integer. *)
Definition fold_unary (m : mode) (o : op) (n : node) : option (res literal) :=
  match o, n with
  | ONeg, NLiteral (LInt z) => Some (rmap LInt (ov64 m (- z)))
  | ONeg, NLiteral (LFloat f) => Some (Ok (LFloat (fneg f)))
  | ONot, NLiteral (LBool b) => Some (Ok (LBool (negb b)))
  | _, _ => None
  end.

(** [len.try_into::<u8>()], [len > u8::MAX]: more than 255. *)
Definition over255 {A} (l : list A) : bool := 255 <? length l.
Definition len8 {A} (l : list A) : N := N.of_nat (length l).

(** How a node is compiled: lib.rs:477 ([compile_expr]) or lib.rs:295
    ([compile_stmnt], with [pop_last]). *)
Inductive kind := KExpr | KStmt (pop_last : bool).

(** lib.rs:466-471: after an expression in statement position. *)
Definition fin (k : kind) (sp : span) : M unit :=
  match k with KStmt true => write_op op_Pop sp | _ => ret tt end.

(** lib.rs:265-286; the result is the span of the last statement. *)
Definition stmnts_with (f : bool -> node -> span -> M unit) : list nodeS -> M span :=
  fix go (l : list nodeS) : M span :=
    match l with
    | [] => ret default_span
    | e :: t => match t with
                | [] => f false (fst e) (snd e) ;; ret (snd e)
                | _ :: _ => f true (fst e) (snd e) ;; go t
                end
    end.

Definition each_with (f : node -> span -> M unit) : list nodeS -> M unit :=
  fix go (l : list nodeS) : M unit :=
    match l with
    | [] => ret tt
    | e :: t => f (fst e) (snd e) ;; go t
    end.

(** [items.iter().rev()]. *)
Definition each_rev_with (f : node -> span -> M unit) : list nodeS -> M unit :=
  fix go (l : list nodeS) : M unit :=
    match l with
    | [] => ret tt
    | e :: t => go t ;; f (fst e) (snd e)
    end.

(** lib.rs:288-293 *)
Definition block_with (f : bool -> node -> span -> M unit) (l : list nodeS) : M unit :=
  enter_scope ;; do sp <- stmnts_with f l; exit_scope sp.

(** lib.rs:684-705: the cases of a switch; the result is the list of end jumps. *)
Definition cases_with (f : kind -> node -> span -> M unit)
  : list (nodeS * list nodeS) -> M (list nat) :=
  fix go (l : list (nodeS * list nodeS)) : M (list nat) :=
    match l with
    | [] => ret []
    | cb :: t =>
        f KExpr (fst (fst cb)) (snd (fst cb)) ;;
        do else_jump <- write_jump op_JumpIfNotEq (snd (fst cb));
        write_op_u16 op_PopMany 2 (snd (fst cb)) ;;
        block_with (fun p => f (KStmt p)) (snd cb) ;;
        do end_jump <- write_jump op_JumpForward (snd (fst cb));
        patch_jump else_jump (snd (fst cb)) ;;
        do js <- go t; ret (end_jump :: js)
    end.

Fixpoint patch_all (js : list nat) (sp : span) : M unit :=
  match js with
  | [] => ret tt
  | j :: t => patch_jump j sp ;; patch_all t sp
  end.

(** lib.rs:356-359: one byte and one u16 per captured variable. *)
Fixpoint write_upvalues (us : list (N * bool)) (sp : span) : M unit :=
  match us with
  | [] => ret tt
  | (idx, is_local) :: t =>
      write_u8 (if (is_local : bool) then 1 else 0)%N sp ;; write_u16 idx sp ;; write_upvalues t sp
  end.

(** lib.rs:317-362 and 841-886 (function statements and lambdas share this part). *)
Definition function_with (f : bool -> node -> span -> M unit) (name : spanned rstring)
    (args : list (spanned rstring)) (body : list nodeS) (sp : span) : M unit :=
  if over255 args then fail ETooManyParams sp else
  do l <- get_level;
  enter_level (new_level name (len8 args) (lv_depth l)) ;;
  enter_scope ;;
  define_local (fst name) true ;;
  define_locals (map fst args) ;;
  stmnts_with f body ;;
  do fu <- exit_level;
  do off <- add_constant (VFn (MFun (fst fu)));
  match snd fu with
  | [] => write_op_u16 op_CreateFunction off sp
  | us => write_op_u16 op_CreateClosure off sp ;; write_upvalues us sp
  end.

(** lib.rs:396-399 *)
Fixpoint define_globals (names : list (spanned rstring)) : M unit :=
  match names with
  | [] => ret tt
  | (x, sp) :: t =>
      do off <- add_global_symbol x;
      write_op_u16 op_DefineGlobal off sp ;; define_globals t
  end.

(** lib.rs:840-846 *)
Definition lambda_name : rstring := str "@__lambda__".

Definition add_external (off : N) (name : rstring) (sp : span) : M unit :=
  fun c => if existsb (N.eqb off) (c_externals c)
           then (CErr (EExternalRedefined name) sp, c)
           else (COk tt, mkCompiler (c_level c) (c_enclosing c) (c_globals c)
                                    (off :: c_externals c)).

Section Compile.
Context (m : mode).

(** lib.rs:295-475 ([KStmt]) and 477-960 ([KExpr]). *)
Fixpoint cnode (k : kind) (n : node) (sp : span) {struct n} : M unit :=
  match n with
  (* lib.rs:299-311 *)
  | NReturn e =>
      match k with
      | KExpr => fail EStatementAsExpression sp
      | KStmt _ =>
          do l <- get_level;
          if lv_depth l =? 0 then fail EReturnOutsideFunction sp else
          match e with
          | Some v => cnode KExpr (fst v) (snd v)
          | None => write_op op_LoadNone sp
          end ;;
          write_op op_Return sp
      end
  (* lib.rs:312-372 *)
  | NFunction name args body =>
      match k with
      | KExpr => fail EStatementAsExpression sp
      | KStmt _ =>
          function_with (fun p => cnode (KStmt p)) name args body sp ;;
          do g <- is_global;
          if (g : bool) then
            do off <- add_global_symbol (fst name); write_op_u16 op_DefineGlobal off sp
          else define_local (fst name) true ;; set_variable (fst name) sp
      end
  (* lib.rs:374-407 *)
  | NDeclaration v value =>
      match k with
      | KExpr => fail EStatementAsExpression sp
      | KStmt _ =>
          cnode KExpr (fst value) (snd value) ;;
          match v with
          | VarDecl (name, vsp) =>
              do g <- is_global;
              if (g : bool) then
                do off <- add_global_symbol name; write_op_u16 op_DefineGlobal off vsp
              else define_local name true ;; set_variable name vsp
          | VarMulti names =>
              if over255 names then fail ETooMuchToUnpack sp else
              write_op_u8 op_Unpack (len8 names) sp ;;
              do g <- is_global;
              if (g : bool) then define_globals names
              else define_locals (map fst (rev names))
          end
      end
  (* lib.rs:409-423 *)
  | NExternal (name, vsp) value =>
      match k with
      | KExpr => fail EStatementAsExpression sp
      | KStmt _ =>
          cnode KExpr (fst value) (snd value) ;;
          do g <- is_global;
          if negb g then fail (EExternalNotGlobal name) vsp else
          do off <- add_global_symbol name;
          add_external off name vsp ;;
          write_op_u16 op_DefineGlobalDefaulted off vsp
      end
  (* lib.rs:446-464 *)
  | NInclude (name, vsp) body =>
      match k with
      | KExpr => fail EStatementAsExpression sp
      | KStmt _ =>
          do l <- get_level;
          if 0 <? lv_depth l then fail EIncludeNotTopLevel vsp else
          match body with
          | Some b => each_with (fun n sp => cnode (KStmt true) n sp) b
          | None => fail (EUnresolvedInclude name) vsp
          end
      end
  (* lib.rs:479-487 *)
  | NLiteral LNone => write_op op_LoadNone sp ;; fin k sp
  | NLiteral lit =>
      do off <- add_constant (literal_to_value lit);
      write_op_u16 op_LoadConst off sp ;; fin k sp
  (* lib.rs:488-493 *)
  | NPair a b =>
      cnode KExpr (fst a) (snd a) ;; cnode KExpr (fst b) (snd b) ;;
      write_op op_CreatePair sp ;; fin k sp
  (* lib.rs:495-507 *)
  | NArray items =>
      if over255 items then fail ETooManyItems sp else
      each_rev_with (cnode KExpr) items ;;
      write_op_u8 op_CreateArray (len8 items) sp ;; fin k sp
  (* lib.rs:509-513 *)
  | NRange a b =>
      cnode KExpr (fst a) (snd a) ;; cnode KExpr (fst b) (snd b) ;;
      write_op op_CreateRange sp ;; fin k sp
  (* lib.rs:515-517 *)
  | NIdentifier name => get_variable name sp ;; fin k sp
  (* lib.rs:519-521 *)
  | NBlock body => block_with (fun p => cnode (KStmt p)) body ;; fin k sp
  (* lib.rs:523-526 *)
  | NAssignment (name, vsp) value =>
      cnode KExpr (fst value) (snd value) ;; set_variable name vsp ;; fin k sp
  (* lib.rs:528-544 *)
  | NCall callee args =>
      if over255 args then fail ETooManyArgs sp else
      cnode KExpr (fst callee) (snd callee) ;;
      each_with (cnode KExpr) args ;;
      write_op_u8 op_CallFunction (len8 args) sp ;; fin k sp
  (* lib.rs:546-550 *)
  | NIndexGet target idx =>
      cnode KExpr (fst idx) (snd idx) ;; cnode KExpr (fst target) (snd target) ;;
      write_op op_IndexGet sp ;; fin k sp
  (* lib.rs:558-574 *)
  | NBuiltinCall (name, csp) args =>
      if over255 args then fail ETooManyArgs sp else
      each_with (cnode KExpr) args ;;
      write_op op_CallBuiltin sp ;;
      do off <- add_global_symbol name;
      write_u16 off sp ;; write_u8 (len8 args) csp ;; fin k sp
  (* lib.rs:576-635 *)
  | NContext (name, csp) args variable body =>
      if over255 args then fail ETooManyArgs sp else
      each_with (cnode KExpr) args ;;
      write_op op_EnterContext sp ;;
      do off <- add_global_symbol name;
      write_u16 off sp ;; write_u8 (len8 args) csp ;;
      enter_scope ;;
      match variable with
      | Some (VarDecl (vn, vsp)) => define_local vn true ;; set_variable vn vsp
      | Some (VarMulti names) =>
          if over255 names then fail ETooMuchToUnpack csp else
          write_op_u8 op_Unpack (len8 names) sp ;;
          define_locals (map fst (rev names))
      | None => write_op op_Pop sp
      end ;;
      stmnts_with (fun p => cnode (KStmt p)) body ;;
      exit_scope sp ;;
      write_op op_ExitContext sp ;; fin k sp
  (* lib.rs:637-672 *)
  | NConditional condition then_ otherwise =>
      write_op op_LoadNone sp ;;
      cnode KExpr (fst condition) (snd condition) ;;
      do else_jump <- write_jump op_JumpIfFalse sp;
      write_op_u16 op_PopMany 2 sp ;;
      block_with (fun p => cnode (KStmt p)) then_ ;;
      do end_jump <- write_jump op_JumpForward sp;
      patch_jump else_jump sp ;;
      match otherwise with
      | Some b => write_op_u16 op_PopMany 2 sp ;; block_with (fun p => cnode (KStmt p)) b
      | None => write_op op_Pop sp
      end ;;
      patch_jump end_jump sp ;; fin k sp
  (* lib.rs:674-721 *)
  | NSwitch value cases default =>
      write_op op_LoadNone sp ;;
      cnode KExpr (fst value) (snd value) ;;
      do jumps <- cases_with cnode cases;
      match default with
      | Some b => write_op_u16 op_PopMany 2 sp ;; block_with (fun p => cnode (KStmt p)) b
      | None => write_op op_Pop sp
      end ;;
      patch_all jumps sp ;; fin k sp
  (* lib.rs:723-747 *)
  | NWhile cond body =>
      write_op op_LoadNone sp ;;
      do start <- code_len;
      cnode KExpr (fst cond) (snd cond) ;;
      do exit <- write_jump op_JumpIfFalse sp;
      write_op_u16 op_PopMany 2 (snd cond) ;;
      block_with (fun p => cnode (KStmt p)) body ;;
      write_jump_backward start (snd cond) ;;
      patch_jump exit sp ;;
      write_op op_Pop (snd cond) ;; fin k sp
  (* lib.rs:749-786 *)
  | NFor (varname, nsp) iterable body =>
      enter_scope ;;
      reserve_temps 2 ;;
      write_op op_NewLoopCtx sp ;;
      cnode KExpr (fst iterable) (snd iterable) ;;
      enter_scope ;;
      write_op op_LoadNone sp ;;
      do start <- code_len;
      do exit <- write_jump op_IterNext sp;
      write_op op_SwapPop sp ;;
      define_local varname true ;;
      stmnts_with (fun p => cnode (KStmt p)) body ;;
      exit_scope sp ;;
      write_jump_backward start nsp ;;
      patch_jump exit nsp ;;
      exit_scope sp ;; fin k sp
  (* lib.rs:788-838 *)
  | NMultiFor names iterable body =>
      enter_scope ;;
      if over255 names then fail ETooMuchToUnpack sp else
      reserve_temps 2 ;;
      write_op op_NewLoopCtx sp ;;
      cnode KExpr (fst iterable) (snd iterable) ;;
      enter_scope ;;
      write_op op_LoadNone sp ;;
      do start <- code_len;
      do exit <- write_jump op_IterNext sp;
      write_op op_SwapPop sp ;;
      write_op_u8 op_Unpack (len8 names) (snd iterable) ;;
      define_locals (map fst (rev names)) ;;
      stmnts_with (fun p => cnode (KStmt p)) body ;;
      exit_scope sp ;;
      write_jump_backward start sp ;;
      patch_jump exit sp ;;
      exit_scope sp ;; fin k sp
  (* lib.rs:840-887 *)
  | NLambda args body =>
      function_with (fun p => cnode (KStmt p)) (lambda_name, sp) args body sp ;; fin k sp
  (* lib.rs:889-920 *)
  | NBinary o a b =>
      cnode KExpr (fst a) (snd a) ;; cnode KExpr (fst b) (snd b) ;;
      match binary_opcode o with
      | Some c => write_op c sp
      | None => crash
      end ;; fin k sp
  (* lib.rs:922-952 *)
  | NUnary o a =>
      match fold_unary m o (fst a) with
      | Some (Ok lit) =>
          do off <- add_constant (literal_to_value lit);
          write_op_u16 op_LoadConst off sp
      | Some _ => crash
      | None =>
          cnode KExpr (fst a) (snd a) ;;
          match unary_opcode o with
          | Some c => write_op c sp
          | None => crash
          end
      end ;; fin k sp
  end.

(** lib.rs:265-286 *)
Definition compile_stmnts (ast : list nodeS) : M span :=
  stmnts_with (fun p => cnode (KStmt p)) ast.

End Compile.

(** interpreter/src/lib.rs:10-15 *)
Record script := mkScript {
  sc_externals : list N; sc_globals : pool rstring; sc_function : function }.

(** interpreter/src/lib.rs:26-32 *)
Definition check_external (s : script) (name : rstring) : bool :=
  match pool_id seqb (sc_globals s) name with
  | None => false
  | Some id => existsb (N.eqb id) (sc_externals s)
  end.

(** lib.rs:224-238 *)
Definition as_script (c : compiler) : script :=
  mkScript (c_externals c) (c_globals c) (fst (level_finish (c_level c))).

(** lib.rs:259-263 *)
Definition set_main_span (ast : list nodeS) : M unit :=
  match ast with
  | [] => ret tt
  | e :: _ => mod_level (fun l => lv_set_name (fst (lv_name l), snd e) l)
  end.

(** lib.rs:240-258: the pools of the level survive. *)
Definition compiler_reset (name : rstring) (c : compiler) : compiler :=
  let l := c_level c in
  mkCompiler (mkLevel (name, default_span) 0 0 chunk_new [] [] 0 (lv_syms l) (lv_consts l))
             [] (c_globals c) (c_externals c).

(** lib.rs:217-222 *)
Definition main_name : rstring := str "@__main__".
Definition compile (m : mode) (ast : list nodeS) : cres script :=
  match (set_main_span ast ;; compile_stmnts m ast) (compiler_new main_name) with
  | (COk _, c) => COk (as_script c)
  | (CErr e sp, _) => CErr e sp
  | (CPanic, _) => CPanic
  end.
