(** What code belongs to what syntax tree, without the compiler's state: the relation the
    compiler is shown to satisfy in ProofCode.v and that the proofs about compiled
    programs start from (proof device).  Names are resolved against the final tables. *)
From Verif Require Import Base RleVec Pool Vecc Float NumText Bytecode Chunk Value Ast Arith VmOps
                          Compiler Vm Items.

(** The final tables of one function: global names, constants, the names of the captured
    variables, and every name visible in the functions around it. *)
Record ctx := mkCtx { x_globals : list rstring; x_consts : list value; x_ups : list rstring;
                      x_outer : list rstring }.

(** The locals in scope, newest first, each with its final "captured" flag. *)
Definition locals := list (rstring * bool).
Fixpoint slot_of (L : locals) (x : rstring) : option nat :=
  match L with
  | [] => None
  | y :: t => if seqb (fst y) x then Some (length t) else slot_of t x
  end.

Inductive vref := RLocal (i : nat) | RUp (k : nat) | RGlobal (g : nat).
Inductive resolves (X : ctx) (L : locals) (x : rstring) : vref -> Prop :=
| rs_local i : slot_of L x = Some i -> resolves X L x (RLocal i)
| rs_up k : slot_of L x = None -> In x (x_outer X) -> nth_error (x_ups X) k = Some x ->
            resolves X L x (RUp k)
| rs_global g : slot_of L x = None -> ~ In x (x_outer X) -> nth_error (x_globals X) g = Some x ->
                resolves X L x (RGlobal g).
Definition get_instr (r : vref) : instr :=
  match r with
  | RLocal i => ILoadLocal (N.of_nat i)
  | RUp i => ILoadUpvalue (N.of_nat i)
  | RGlobal i => ILoadGlobal (N.of_nat i)
  end.
Definition set_instr (r : vref) : instr :=
  match r with
  | RLocal i => ISetLocal (N.of_nat i)
  | RUp i => ISetUpvalue (N.of_nat i)
  | RGlobal i => ISetGlobal (N.of_nat i)
  end.

(** A condition on the names a program refers to, kept as a parameter: captured variables
    have names that meet it. *)
Class naming := okname : rstring -> Prop.

(** One captured variable as the creating function sees it. *)
Definition cap_ok {P : naming} (X : ctx) (L : locals) (c : N * bool) (x : rstring) : Prop :=
  okname x /\
  if snd c
  then slot_of L x = Some (N.to_nat (fst c)) /\ nth_error (rev L) (N.to_nat (fst c)) = Some (x, true)
  else slot_of L x = None /\ In x (x_outer X) /\ nth_error (x_ups X) (N.to_nat (fst c)) = Some x.

(** Leaving a scope: [true] for a captured local. *)
Definition flush (q : nat) : list item :=
  match q with
  | O => []
  | S O => [It IPop]
  | _ => [It (IPopMany (N.of_nat q))]
  end.
Fixpoint pops (fl : list bool) (q : nat) : list item :=
  match fl with
  | [] => flush q
  | false :: t => pops t (S q)
  | true :: t => flush q ++ It ICloseUpvalue :: pops t 0
  end.
Definition exit_code (fl : list bool) : list item :=
  match fl with
  | [] => []
  | _ => It IBlockResult :: pops fl 0 ++ [It IBlockReturn]
  end.

Definition len {A} (l : list A) : N := N.of_nat (length l).
Definition szN (l : list item) : N := N.of_nat (size l).

Definition make_fun (off : nat) (caps : list (N * bool)) : item :=
  match caps with
  | [] => It (ICreateFunction (N.of_nat off))
  | _ => ItClo (N.of_nat off) caps
  end.

(** A loop over an iterable: [pre] takes the next item apart. *)
Definition for_code (ci pre cb : list item) (new : locals) (b1 b2 : bool) : list item :=
  let body := pre ++ cb ++ exit_code (map snd new) in
  It INewLoopCtx :: ci ++ It ILoadNone
  :: It (IIterNext (szN (body ++ [It (IJumpBackward 0)])))
  :: body
  ++ It (IJumpBackward (szN (It (IIterNext 0) :: body) + 3))
  :: exit_code [b2; b1].

Inductive code_var : locals -> option var -> list item -> locals -> Prop :=
| cv_none L : code_var L None [It IPop] L
| cv_one L x b : code_var L (Some (VarDecl x)) [It (ISetLocal (len L))] ((fst x, b) :: L)
| cv_multi L xs new :
    length xs <= 255 -> map fst new = map fst xs ->
    code_var L (Some (VarMulti xs)) [It (IUnpack (len xs))] (new ++ L).

Section Code.
Context (m : mode) {P : naming}.

Inductive code_expr : ctx -> locals -> node -> list item -> Prop :=
| ce_none X L : code_expr X L (NLiteral LNone) [It ILoadNone]
| ce_literal X L l off :
    l <> LNone -> nth_error (x_consts X) off = Some (literal_to_value l) ->
    code_expr X L (NLiteral l) [It (ILoadConst (N.of_nat off))]
| ce_pair X L a b ca cb :
    code_expr X L (fst a) ca -> code_expr X L (fst b) cb ->
    code_expr X L (NPair a b) (ca ++ cb ++ [It ICreatePair])
| ce_array X L items c :
    length items <= 255 -> code_list X L (rev items) c ->
    code_expr X L (NArray items) (c ++ [It (ICreateArray (len items))])
| ce_range X L a b ca cb :
    code_expr X L (fst a) ca -> code_expr X L (fst b) cb ->
    code_expr X L (NRange a b) (ca ++ cb ++ [It ICreateRange])
| ce_ident X L x r :
    resolves X L x r -> code_expr X L (NIdentifier x) [It (get_instr r)]
| ce_block X L body c :
    code_block X L body c -> code_expr X L (NBlock body) c
| ce_assign X L x v c r :
    code_expr X L (fst v) c -> resolves X L (fst x) r ->
    code_expr X L (NAssignment x v) (c ++ [It (set_instr r)])
| ce_call X L f args cf ca :
    length args <= 255 -> code_expr X L (fst f) cf -> code_list X L args ca ->
    code_expr X L (NCall f args) (cf ++ ca ++ [It (ICallFunction (len args))])
| ce_index X L t i ct ci :
    code_expr X L (fst i) ci -> code_expr X L (fst t) ct ->
    code_expr X L (NIndexGet t i) (ci ++ ct ++ [It IIndexGet])
| ce_builtin X L x args ca g :
    length args <= 255 -> code_list X L args ca -> nth_error (x_globals X) g = Some (fst x) ->
    code_expr X L (NBuiltinCall x args) (ca ++ [It (ICallBuiltin (N.of_nat g) (len args))])
| ce_context X L x args v body ca g cv L1 cb new :
    length args <= 255 -> code_list X L args ca -> nth_error (x_globals X) g = Some (fst x) ->
    code_var L v cv L1 -> code_stmts X false L1 body cb (new ++ L) ->
    code_expr X L (NContext x args v body)
      (ca ++ [It (IEnterContext (N.of_nat g) (len args))] ++ cv ++ cb ++ exit_code (map snd new)
       ++ [It IExitContext])
| ce_cond X L c t o cc ct co :
    code_expr X L (fst c) cc -> code_block X L t ct -> code_else X L o co ->
    code_expr X L (NConditional c t o)
      (It ILoadNone :: cc
       ++ It (IJumpIfFalse (szN (It (IPopMany 2) :: ct ++ [It (IJumpForward (szN co))])))
       :: It (IPopMany 2) :: ct ++ It (IJumpForward (szN co)) :: co)
| ce_switch X L v cs d cv cc :
    code_expr X L (fst v) cv -> code_cases X L cs d cc ->
    code_expr X L (NSwitch v cs d) (It ILoadNone :: cv ++ cc)
| ce_while X L c body cc cb :
    code_expr X L (fst c) cc -> code_block X L body cb ->
    code_expr X L (NWhile c body)
      (It ILoadNone :: cc
       ++ It (IJumpIfFalse (szN (It (IPopMany 2) :: cb ++ [It (IJumpBackward 0)])))
       :: It (IPopMany 2) :: cb
       ++ It (IJumpBackward (szN (cc ++ It (IJumpIfFalse 0) :: It (IPopMany 2) :: cb) + 3))
       :: [It IPop])
| ce_for X L x it body L1 b1 b2 b ci cb new :
    L1 = (temp_name (S (length L)), b2) :: (temp_name (length L), b1) :: L ->
    code_expr X L1 (fst it) ci ->
    code_stmts X false ((fst x, b) :: L1) body cb (new ++ L1) ->
    code_expr X L (NFor x it body) (for_code ci [It ISwapPop] cb new b1 b2)
| ce_mfor X L xs it body L1 b1 b2 ci cb new0 new :
    L1 = (temp_name (S (length L)), b2) :: (temp_name (length L), b1) :: L ->
    length xs <= 255 ->
    code_expr X L1 (fst it) ci ->
    map fst new0 = map fst xs ->
    code_stmts X false (new0 ++ L1) body cb (new ++ L1) ->
    code_expr X L (NMultiFor xs it body)
              (for_code ci [It ISwapPop; It (IUnpack (len xs))] cb new b1 b2)
| ce_lambda X L args body off f caps :
    nth_error (x_consts X) off = Some (VFn (MFun f)) ->
    code_fun X L lambda_name (map fst args) body f caps ->
    code_expr X L (NLambda args body) [make_fun off caps]
| ce_binary X L o a b ca cb :
    code_expr X L (fst a) ca -> code_expr X L (fst b) cb -> binary_opcode o <> None ->
    code_expr X L (NBinary o a b) (ca ++ cb ++ [It (IBinary o)])
| ce_fold X L o a lit off :
    fold_unary m o (fst a) = Some (Ok lit) ->
    nth_error (x_consts X) off = Some (literal_to_value lit) ->
    code_expr X L (NUnary o a) [It (ILoadConst (N.of_nat off))]
| ce_unary X L o a ca :
    fold_unary m o (fst a) = None -> code_expr X L (fst a) ca -> unary_opcode o <> None ->
    code_expr X L (NUnary o a) (ca ++ [It (IUnary o)])

(** Expressions in the order they are compiled. *)
with code_list : ctx -> locals -> list nodeS -> list item -> Prop :=
| cl_nil X L : code_list X L [] []
| cl_cons X L e t ce ct :
    code_expr X L (fst e) ce -> code_list X L t ct -> code_list X L (e :: t) (ce ++ ct)

(** One statement; the flag says whether it stands at the top level, the second one
    whether its value is dropped. *)
with code_stmt : ctx -> bool -> locals -> bool -> node -> list item -> locals -> Prop :=
| cs_return X L p e c :
    code_expr X L (fst e) c -> code_stmt X false L p (NReturn (Some e)) (c ++ [It IReturn]) L
| cs_return_none X L p :
    code_stmt X false L p (NReturn None) [It ILoadNone; It IReturn] L
| cs_function_global X L p x args body off f caps g :
    nth_error (x_consts X) off = Some (VFn (MFun f)) ->
    code_fun X L (fst x) (map fst args) body f caps -> nth_error (x_globals X) g = Some (fst x) ->
    code_stmt X true L p (NFunction x args body)
              [make_fun off caps; It (IDefineGlobal (N.of_nat g))] L
| cs_function X L p x args body off f caps b :
    nth_error (x_consts X) off = Some (VFn (MFun f)) ->
    code_fun X L (fst x) (map fst args) body f caps ->
    code_stmt X false L p (NFunction x args body)
              [make_fun off caps; It (ISetLocal (len L))] ((fst x, b) :: L)
| cs_let_global X L p x v c g :
    code_expr X L (fst v) c -> nth_error (x_globals X) g = Some (fst x) ->
    code_stmt X true L p (NDeclaration (VarDecl x) v) (c ++ [It (IDefineGlobal (N.of_nat g))]) L
| cs_let X L p x v c b :
    code_expr X L (fst v) c ->
    code_stmt X false L p (NDeclaration (VarDecl x) v) (c ++ [It (ISetLocal (len L))])
              ((fst x, b) :: L)
| cs_multi_global X L p xs v c gs :
    length xs <= 255 -> code_expr X L (fst v) c ->
    Forall2 (fun x g => nth_error (x_globals X) g = Some x) (map fst xs) gs ->
    code_stmt X true L p (NDeclaration (VarMulti xs) v)
              (c ++ It (IUnpack (len xs)) :: map (fun g => It (IDefineGlobal (N.of_nat g))) gs) L
| cs_multi X L p xs v c new :
    length xs <= 255 -> code_expr X L (fst v) c -> map fst new = map fst xs ->
    code_stmt X false L p (NDeclaration (VarMulti xs) v) (c ++ [It (IUnpack (len xs))]) (new ++ L)
| cs_external X L p x v c g :
    code_expr X L (fst v) c -> nth_error (x_globals X) g = Some (fst x) ->
    code_stmt X true L p (NExternal x v) (c ++ [It (IDefineGlobalDefaulted (N.of_nat g))]) L
| cs_include X L p x body c :
    code_pops X L body c -> code_stmt X true L p (NInclude x (Some body)) c L
| cs_expr X g L p n c :
    is_expression n = true -> code_expr X L n c ->
    code_stmt X g L p n (c ++ if (p : bool) then [It IPop] else []) L

(** The statements of a body: the value of the last one stays. *)
with code_stmts : ctx -> bool -> locals -> list nodeS -> list item -> locals -> Prop :=
| ct_nil X g L : code_stmts X g L [] [] L
| ct_last X g L e c L' :
    code_stmt X g L false (fst e) c L' -> code_stmts X g L [e] c L'
| ct_cons X g L e e' t c L1 ct L' :
    code_stmt X g L true (fst e) c L1 -> code_stmts X g L1 (e' :: t) ct L' ->
    code_stmts X g L (e :: e' :: t) (c ++ ct) L'

(** The statements of an included file: every value is dropped. *)
with code_pops : ctx -> locals -> list nodeS -> list item -> Prop :=
| cp_nil X L : code_pops X L [] []
| cp_cons X L e t c ct :
    code_stmt X true L true (fst e) c L -> code_pops X L t ct -> code_pops X L (e :: t) (c ++ ct)

with code_block : ctx -> locals -> list nodeS -> list item -> Prop :=
| cb_block X L body c new :
    code_stmts X false L body c (new ++ L) ->
    code_block X L body (c ++ exit_code (map snd new))

(** What stands where the condition is false, or no case matches; a value to drop and
    the none result are on the stack. *)
with code_else : ctx -> locals -> option (list nodeS) -> list item -> Prop :=
| co_none X L : code_else X L None [It IPop]
| co_some X L b c : code_block X L b c -> code_else X L (Some b) (It (IPopMany 2) :: c)

with code_cases : ctx -> locals -> list (nodeS * list nodeS) -> option (list nodeS) -> list item -> Prop :=
| cc_nil X L d c : code_else X L d c -> code_cases X L [] d c
| cc_cons X L e body t d ce cb ct :
    code_expr X L (fst e) ce -> code_block X L body cb -> code_cases X L t d ct ->
    code_cases X L ((e, body) :: t) d
      (ce ++ It (IJumpIfNotEq (szN (It (IPopMany 2) :: cb ++ [It (IJumpForward (szN ct))])))
       :: It (IPopMany 2) :: cb ++ It (IJumpForward (szN ct)) :: ct)

(** A compiled function, and the captures that go with its creation. *)
with code_fun : ctx -> locals -> rstring -> list rstring -> list nodeS -> function
                -> list (N * bool) -> Prop :=
| cf_fun X L x args body f caps Lp U bc L' :
    length args <= 255 -> fn_name f = x -> fn_arity f = len args -> fn_upcount f = len caps ->
    map fst Lp = rev (x :: args) -> Forall2 (cap_ok X L) caps U ->
    ck_ops (fn_chunk f) = bytes_of bc -> Forall item_fits bc ->
    code_stmts (mkCtx (x_globals X) (ck_consts (fn_chunk f)) U (map fst L ++ x_outer X)) false Lp
               body bc L' ->
    code_fun X L x args body f caps.

End Code.
