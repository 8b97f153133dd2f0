(** The meaning of programs, by direct evaluation of the syntax tree (C01, C13, C19).

    Nothing here looks like the machine: variables are places in a store that is never
    reused, a function is its text with the variables in scope where it was written, and
    the value of a construct is computed from the values of its parts.  The operations on
    plain values (arithmetic, indexing, ...) are those of Arith.v and VmOps.v, which are
    generic in what a function is. *)
From Verif Require Import Base RleVec Pool Vecc Float NumText Value Ast Arith VmOps Compiler Vm SpecParse
                          SpecReady SpecRel SpecVm.

(** Variables in scope, innermost first, and where they live in the store. *)
Definition env := list (rstring * nat).

(** A function value: its name, parameters and body, and the variables in scope where it
    was created. *)
Record sfn := mkSfn { sf_name : rstring; sf_params : list rstring; sf_body : list nodeS;
                      sf_env : env }.
Notation sval := (gvalue sfn).
Definition sfi : fn_info sfn :=
  mkFnInfo (fun _ => str "closure") (fun f => str "<closure " ++ sf_name f ++ str ">").

(** Comparing two functions with [==] is left open. *)
Definition sfn_eq (_ _ : sfn) : res bool := Panic.

Fixpoint lit_value (l : literal) : sval :=
  match l with
  | LNone => VNone
  | LBool b => VBool b
  | LInt n => VInt n
  | LFloat f => VFloat f
  | LColor r g b a => VColor r g b a
  | LString s => VString s
  | LArray arr => force_array (map lit_value arr)
  | LPair a b => VPair (lit_value a) (lit_value b)
  | LRange a b => VRange a b
  end.

Section Eval.
Context {D : Type}.

(** What there is while a program runs: the variables, the globals and the host's data. *)
Record sst := mkSst { ss_store : list sval; ss_globals : list (rstring * sval); ss_data : D }.
Definition put_store x s := mkSst x (ss_globals s) (ss_data s).
Definition put_globals x s := mkSst (ss_store s) x (ss_data s).
Definition put_data x s := mkSst (ss_store s) (ss_globals s) x.

(** How evaluating something ends: with a result, by [return], with an error, in a case
    the definition leaves open, or not within the given number of calls and rounds. *)
Inductive out (A : Type) :=
| Got (a : A) (s : sst)
| Returned (v : sval) (s : sst)
| Failed (e : error) (s : sst)
| Unspecified
| More.
Arguments Got {A} a s.
Arguments Returned {A} v s.
Arguments Failed {A} e s.
Arguments Unspecified {A}.
Arguments More {A}.

Definition seq {A B} (x : out A) (k : A -> sst -> out B) : out B :=
  match x with
  | Got a s => k a s
  | Returned v s => Returned v s
  | Failed e s => Failed e s
  | Unspecified => Unspecified
  | More => More
  end.
Notation "'run' a ',' s ':=' x 'in' k" := (seq x (fun a s => k))
  (at level 200, a pattern, s ident, x at level 100, k at level 200, right associativity).

(** A panic of an operation is a case left open. *)
Definition lift {A} (r : res A) (s : sst) : out A :=
  match r with Ok a => Got a s | Err e => Failed e s | Panic => Unspecified end.
Definition the_value {A} (o : option A) (s : sst) : out A :=
  match o with Some v => Got v s | None => Unspecified end.

(** Builtins and context managers, by name. *)
Definition sbfn := D -> list sval -> options -> D * res sval.
Inductive sbuiltin := SFn (f : sbfn) | SContext (entry : sbfn) (exit : xfn D).

Context (m : mode) (orc : oracle) (opts : options) (on_call on_return : D -> D)
        (builtins : rstring -> option sbuiltin).

(** New variables, the last one innermost. *)
Fixpoint bind_all (l : list (rstring * sval)) (r : env) (s : sst) : env * sst :=
  match l with
  | [] => (r, s)
  | (x, v) :: t => bind_all t ((x, length (ss_store s)) :: r) (put_store (ss_store s ++ [v]) s)
  end.
(** [let x = v], [let x, y, z = v]: of equal names the first counts. *)
Definition bind_var (v : var) (value : sval) (r : env) (s : sst) : out env :=
  match v with
  | VarDecl x => let (r', s') := bind_all [(fst x, value)] r s in Got r' s'
  | VarMulti xs =>
      run parts, s := lift (v_unpack sfi (N.of_nat (length xs)) value) s in
      let (r', s') := bind_all (rev (combine (map fst xs) parts)) r s in Got r' s'
  end.
(** The same outside every block: of equal names the last counts. *)
Definition define_var (v : var) (value : sval) (s : sst) : out unit :=
  match v with
  | VarDecl x => Got tt (put_globals (ainsert (fst x) value (ss_globals s)) s)
  | VarMulti xs =>
      run parts, s := lift (v_unpack sfi (N.of_nat (length xs)) value) s in
      Got tt (put_globals (fold_left (fun g xv => ainsert (fst xv) (snd xv) g)
                                     (combine (map fst xs) parts) (ss_globals s)) s)
  end.

Definition global (x : rstring) (s : sst) : option sval := alookup seqb x (ss_globals s).
Definition read_var (x : rstring) (r : env) (s : sst) : out sval :=
  match alookup seqb x r with
  | Some l => the_value (nth_error (ss_store s) l) s
  | None => match global x s with Some v => Got v s | None => Failed (ENameUndefined x) s end
  end.
Definition write_var (x : rstring) (v : sval) (r : env) (s : sst) : out sval :=
  match alookup seqb x r with
  | Some l => Got v (put_store (upd l v (ss_store s)) s)
  | None => match global x s with
            | Some _ => Got v (put_globals (ainsert x v (ss_globals s)) s)
            | None => Failed (ENameUndefined x) s
            end
  end.

Definition run_sbfn (f : sbfn) (args : list sval) (s : sst) : out sval :=
  let (d, r) := f (ss_data s) args opts in lift r (put_data d s).
Definition run_exit (f : xfn D) (s : sst) : out unit :=
  let (d, r) := f (ss_data s) in lift r (put_data d s).

(** ** Sequences of parts *)
Definition list_with (f : node -> sst -> out sval) : list nodeS -> sst -> out (list sval) :=
  fix go (l : list nodeS) (s : sst) : out (list sval) :=
    match l with
    | [] => Got [] s
    | e :: t => run v, s := f (fst e) s in run vs, s := go t s in Got (v :: vs) s
    end.
(** The items of a list are evaluated last to first. *)
Definition list_back_with (f : node -> sst -> out sval) : list nodeS -> sst -> out (list sval) :=
  fix go (l : list nodeS) (s : sst) : out (list sval) :=
    match l with
    | [] => Got [] s
    | e :: t => run vs, s := go t s in run v, s := f (fst e) s in Got (v :: vs) s
    end.
(** Statements: the value, if any, is that of the last one; declarations reach the
    statements behind them. *)
Definition stmts_with (f : node -> env -> sst -> out (option sval * env))
  : list nodeS -> env -> sst -> out (option sval * env) :=
  fix go (l : list nodeS) (r : env) (s : sst) : out (option sval * env) :=
    match l with
    | [] => Got (None, r) s
    | e :: t => run vr, s := f (fst e) r s in
                match t with [] => Got vr s | _ :: _ => go t (snd vr) s end
    end.
Definition block_with (f : node -> env -> sst -> out (option sval * env)) (l : list nodeS)
    (r : env) (s : sst) : out sval :=
  run vr, s := stmts_with f l r s in the_value (fst vr) s.
Definition else_with (f : node -> env -> sst -> out (option sval * env)) (o : option (list nodeS))
    (r : env) (s : sst) : out sval :=
  match o with Some b => block_with f b r s | None => Got VNone s end.
(** The cases of a switch. *)
Definition cases_with (f : node -> env -> sst -> out (option sval * env)) (v : sval)
    (d : option (list nodeS)) (r : env) : list (nodeS * list nodeS) -> sst -> out sval :=
  fix go (cs : list (nodeS * list nodeS)) (s : sst) : out sval :=
    match cs with
    | [] => else_with f d r s
    | c :: t =>
        run wr, s := f (fst (fst c)) r s in
        run w, s := the_value (fst wr) s in
        run same, s := lift (geqb sfn_eq v w) s in
        if (same : bool) then block_with f (snd c) r s else go t s
    end.

(** ** Loops: the value is that of the last round, none if there is none. *)
Fixpoint while_ (rounds : nat) (cond : sst -> out sval) (body : sst -> out sval) (last : sval)
    (s : sst) : out sval :=
  match rounds with
  | O => More
  | S k =>
      run c, s := cond s in
      run b, s := lift (is_truthy sfi c) s in
      if (b : bool) then run v, s := body s in while_ k cond body v s else Got last s
  end.
Fixpoint for_ (rounds : nat) (iterable : sval) (body : sval -> sst -> out sval) (i : N)
    (last : sval) (s : sst) : out sval :=
  match rounds with
  | O => More
  | S k =>
      run x, s := lift (v_iter m sfi i iterable) s in
      match x with
      | Some x => run v, s := body x s in for_ k iterable body (i + 1) v s
      | None => Got last s
      end
  end.

(** ** Expressions and statements

    [call] evaluates a call, [rounds] bounds the rounds of a loop, [g] says that the node
    stands outside every block.  A declaration has no value. *)
Section Nodes.
Context (call : sfn -> list sval -> sst -> out sval) (rounds : nat).

Fixpoint ev (g : bool) (n : node) (r : env) (s : sst) {struct n} : out (option sval * env) :=
  let expr (n : node) (s : sst) : out sval :=
    run vr, s := ev false n r s in the_value (fst vr) s in
  let value (x : out sval) : out (option sval * env) := run v, s := x in Got (Some v, r) s in
  match n with
  | NLiteral l => value (Got (lit_value l) s)
  | NArray items =>
      value (run vs, s := list_back_with expr items s in lift (v_array (o_array_max opts) vs) s)
  | NPair a b => value (run x, s := expr (fst a) s in run y, s := expr (fst b) s in Got (VPair x y) s)
  | NRange a b =>
      value (run x, s := expr (fst a) s in run y, s := expr (fst b) s in lift (v_range sfi x y) s)
  | NIdentifier x => value (read_var x r s)
  | NDeclaration v e =>
      run x, s := expr (fst e) s in
      if g then run _, s := define_var v x s in Got (None, r) s
      else run r', s := bind_var v x r s in Got (None, r') s
  | NExternal x e =>
      if g then
        run v, s := expr (fst e) s in
        Got (None, r) (match global (fst x) s with
                       | Some _ => s
                       | None => put_globals (ainsert (fst x) v (ss_globals s)) s
                       end)
      else Unspecified
  | NAssignment x e => value (run v, s := expr (fst e) s in write_var (fst x) v r s)
  | NFunction x args body =>
      let f := VFn (mkSfn (fst x) (map fst args) body r) in
      if g then run _, s := define_var (VarDecl x) f s in Got (None, r) s
      else run r', s := bind_var (VarDecl x) f r s in Got (None, r') s
  | NLambda args body => value (Got (VFn (mkSfn lambda_name (map fst args) body r)) s)
  | NBlock body => value (block_with (ev false) body r s)
  | NConditional c t o =>
      value (run x, s := expr (fst c) s in
             run b, s := lift (is_truthy sfi x) s in
             if (b : bool) then block_with (ev false) t r s else else_with (ev false) o r s)
  | NSwitch e cs d =>
      value (run v, s := expr (fst e) s in cases_with (ev false) v d r cs s)
  | NFor x i body =>
      value (run it, s := expr (fst i) s in
             for_ rounds it (fun v s => run r', s := bind_var (VarDecl x) v r s in
                                        block_with (ev false) body r' s) 0 VNone s)
  | NMultiFor xs i body =>
      value (run it, s := expr (fst i) s in
             for_ rounds it (fun v s => run r', s := bind_var (VarMulti xs) v r s in
                                        block_with (ev false) body r' s) 0 VNone s)
  | NWhile c body =>
      value (while_ rounds (expr (fst c)) (block_with (ev false) body r) VNone s)
  | NBinary o a b =>
      value (run x, s := expr (fst a) s in
             run y, s := expr (fst b) s in
             match binary_fn m orc sfi sfn_eq (o_string_max opts) (o_array_max opts) o with
             | Some f => lift (f x y) s
             | None => Unspecified
             end)
  | NUnary o a =>
      value (run x, s := expr (fst a) s in
             match unary_fn m sfi o with Some f => lift (f x) s | None => Unspecified end)
  | NCall f args =>
      value (run c, s := expr (fst f) s in
             run vs, s := list_with expr args s in
             match c with
             | VFn c => if length vs =? length (sf_params c) then call c vs s
                        else Failed (EMismatchedArity (sf_name c) (N.of_nat (length (sf_params c)))
                                                      (N.of_nat (length vs))) s
             | _ => Failed (ENotCallable (ntype sfi c)) s
             end)
  | NBuiltinCall x args =>
      value (run vs, s := list_with expr args s in
             match builtins (fst x) with
             | Some (SFn f) => run_sbfn f vs s
             | Some (SContext _ _) => Failed (ENotCallable (str "context manager")) s
             | None => Failed (EUndefinedBuiltin (fst x)) s
             end)
  | NContext x args v body =>
      value (run vs, s := list_with expr args s in
             match builtins (fst x) with
             | Some (SContext entry exit) =>
                 run w, s := run_sbfn entry vs s in
                 run r', s := match v with
                              | Some v => bind_var v w r s
                              | None => Got r s
                              end in
                 match block_with (ev false) body r' s with
                 | Got res s => run _, s := run_exit exit s in Got res s
                 | Returned _ _ => Unspecified (* see C19 *)
                 | x => x
                 end
             | Some (SFn _) => Unspecified
             | None => Failed (EUndefinedBuiltin (fst x)) s
             end)
  | NIndexGet t i =>
      value (run k, s := expr (fst i) s in run x, s := expr (fst t) s in lift (v_index m sfi k x) s)
  | NInclude x (Some body) =>
      if g then run _, s := stmts_with (ev true) body r s in Got (None, r) s else Unspecified
  | NInclude x None => Unspecified
  | NReturn (Some e) => run v, s := expr (fst e) s in Returned v s
  | NReturn None => Returned VNone s
  end.
End Nodes.

(** A call: the function itself and its arguments are new variables; the body ends by
    [return]. *)
Fixpoint call_at (fuel : nat) (c : sfn) (args : list sval) (s : sst) : out sval :=
  match fuel with
  | O => More
  | S k =>
      let (r, s) := bind_all (combine (sf_name c :: sf_params c) (VFn c :: args)) (sf_env c)
                             (put_data (on_call (ss_data s)) s) in
      match stmts_with (ev (call_at k) k false) (sf_body c) r s with
      | Returned v s => Got v (put_data (on_return (ss_data s)) s)
      | Got _ _ => Unspecified
      | Failed e s => Failed e s
      | Unspecified => Unspecified
      | More => More
      end
  end.

(** A program.  A [return] outside functions ends it; that is only laid down for a
    release build (see C03). *)
Definition eval (fuel : nat) (program : list nodeS) (s : sst) : out sval :=
  match stmts_with (ev (call_at fuel) fuel true) program [] s with
  | Got (Some v, _) s => Got v s
  | Got (None, _) _ => Unspecified
  | Returned v s => match m with Release => Got v s | Debug => Unspecified end
  | Failed e s => Failed e s
  | Unspecified => Unspecified
  | More => More
  end.
End Eval.
Arguments Got {D A} a s.
Arguments Returned {D A} v s.
Arguments Failed {D A} e s.
Arguments Unspecified {D A}.
Arguments More {D A}.

(** ** Builtins of both worlds

    A builtin given by name to the evaluation and one registered with the machine are the
    same if they do the same to the data and to values that agree, whatever functions
    among the values are taken to be, as long as these have the same type name and print
    the same. *)
Definition same_fn {D} (f : sbfn (D:=D)) (g : bfn D) : Prop :=
  forall (R : sfn -> mfn -> Prop) d vs ws opts,
  (forall x y, R x y -> fi_type sfi x = fi_type mfi y /\ fi_text sfi x = fi_text mfi y) ->
  Forall2 (grel R) vs ws ->
  fst (f d vs opts) = fst (g d ws opts) /\ rr (grel R) (snd (f d vs opts)) (snd (g d ws opts)).
Definition same_builtin {D} (a : option (sbuiltin (D:=D))) (b : option (builtin D)) : Prop :=
  match a, b with
  | None, None => True
  | Some (SFn f), Some (BFn g) => same_fn f g
  | Some (SContext f x), Some (BContext g y) => same_fn f g /\ forall d, x d = y d
  | _, _ => False
  end.

(** ** Where variables may be declared

    A local variable may only be declared where no value waits on the stack: not in the
    second operand of an operator, not in an argument behind the first one, not in a
    condition, and so on ([free] is false there).  Elsewhere the code of this compiler
    finds the variable in the wrong place (see DESIGN.md, findings). *)
Fixpoint placed (free : bool) (n : node) {struct n} : bool :=
  let first (l : list nodeS) : bool :=
    match l with
    | [] => true
    | e :: t => placed free (fst e) && forallb (fun e => placed false (fst e)) t
    end in
  let last := fix last (l : list nodeS) : bool :=
    match l with
    | [] => true
    | e :: t => match t with
                | [] => placed free (fst e)
                | _ :: _ => placed false (fst e) && last t
                end
    end in
  let body (b : bool) (l : list nodeS) : bool := forallb (fun e => placed b (fst e)) l in
  match n with
  | NLiteral _ | NIdentifier _ | NReturn None | NInclude _ None => true
  | NArray items => last items
  | NPair a b | NRange a b | NBinary _ a b => placed free (fst a) && placed false (fst b)
  | NIndexGet t i => placed free (fst i) && placed false (fst t)
  | NDeclaration _ e => free && placed free (fst e)
  | NExternal _ e | NAssignment _ e | NUnary _ e | NReturn (Some e) => placed free (fst e)
  | NFunction _ _ b => free && body true b
  | NLambda _ b => body true b
  | NBlock b | NInclude _ (Some b) => body free b
  | NConditional c t o =>
      placed false (fst c) && body free t && match o with Some b => body free b | None => true end
  | NSwitch e cs d =>
      placed false (fst e) &&
      forallb (fun c => placed false (fst (fst c)) && body free (snd c)) cs &&
      match d with Some b => body free b | None => true end
  | NFor _ i b | NMultiFor _ i b => free && (placed false (fst i) && body true b)
  | NWhile c b => placed false (fst c) && body free b
  | NCall f args => placed free (fst f) && forallb (fun e => placed false (fst e)) args
  | NBuiltinCall _ args => first args
  | NContext _ args v b =>
      first args && body free b && match v with Some _ => free | None => true end
  end.
Definition placed_program (ast : list nodeS) : Prop :=
  forallb (fun e => placed true (fst e)) ast = true.

(** No name starts like the names the compiler makes up for itself. *)
Definition ordinary_names (ast : list nodeS) : Prop :=
  Forall (fun e => forall b, inside b (fst e) ->
    match b with
    | NIdentifier x => ordinary x
    | NAssignment x _ | NFunction x _ _ | NDeclaration (VarDecl x) _
    | NContext _ _ (Some (VarDecl x)) _ => ordinary (fst x)
    | _ => True
    end) ast.

(** ** How a program starts, and what has to agree when it ends *)

(** The same builtins, given values and data on both sides: the machine is new and has
    been given builtins, globals and externals (values without functions), the evaluation
    knows them by name. *)
Definition plain_value : sval -> value -> Prop := grel (fun _ _ => False).
Definition with_builtin {D} (b : rstring -> option (sbuiltin (D:=D))) (x : rstring * sbuiltin)
  : rstring -> option sbuiltin := fun n => if seqb n (fst x) then Some (snd x) else b n.
Inductive starts {D} (sc : script) : (rstring -> option (sbuiltin (D:=D))) -> sst -> vm D -> Prop :=
| starts_new d o : starts sc (fun _ => None) (mkSst [] [] d) (vm_new d sc o)
| starts_builtins l l' b st s : starts sc b st s ->
    Forall2 (fun x y => fst x = fst y /\ same_builtin (Some (snd x)) (Some (snd y))) l l' ->
    starts sc (fold_left with_builtin l b) st (add_builtins_list l' s)
| starts_global n v w b st s : starts sc b st s -> plain_value v w ->
    starts sc b (put_globals (ainsert n v (ss_globals st)) st) (insert_global n w s)
| starts_external n v w b st s s' : starts sc b st s -> plain_value v w ->
    set_external n w s = Ok s' ->
    starts sc b (put_globals (ainsert n v (ss_globals st)) st) s'.

(** Results agree: everything but functions is equal, functions have the same name and
    number of parameters. *)
Definition same_function (f : sfn) (g : mfn) : Prop :=
  sf_name f = fn_name (mfn_function g) /\
  N.of_nat (length (sf_params f)) = fn_arity (mfn_function g).
Definition same_value : sval -> value -> Prop := grel same_function.
(** So do the globals, by name, and the host's data. *)
Definition same_state {D} (st : sst) (s : vm D) : Prop :=
  v_data s = ss_data st /\
  forall x, match global x st, global_of s x with
            | Some v, Some w => same_value v w
            | None, None => True
            | _, _ => False
            end.

(** The run is stopped by the size of the stack or the time allowed. *)
Definition stopped_by_limit {D} (m : mode) (hst : host D) (s : vm D) : Prop :=
  exists k e sp s', run m hst k s = RErr e sp s' /\ (e = EStackOverflow \/ exists l, e = ERuntimeLimit l).

(** What the evaluation of a program within [fuel] calls and rounds says about the run of
    the machine. *)
Definition agrees {D} (m : mode) (hst : host D) (fuel : nat) (o : out (D:=D) sval) (s : vm D) : Prop :=
  match o with
  | Got v st => exists k w s', run m hst k s = RDone w s' /\ same_value v w /\ same_state st s'
  | Failed e st => exists k sp s', run m hst k s = RErr e sp s' /\ same_state st s'
  | More => forall k, k <= fuel -> exists s', run m hst k s = ROut s'
  | Unspecified => True
  | Returned _ _ => False
  end.
