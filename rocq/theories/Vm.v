(** interpreter/src/vm.rs: the virtual machine. *)
From Verif Require Import Base RleVec Pool Vecc Float NumText Bytecode Chunk Value Ast Arith VmOps
                          Compiler.

(** The instructions the machine knows, with their operands (bytecode.rs:26-92).  The
    operands of an instruction are read first thing in its arm of the dispatch loop, so
    reading the opcode and reading the operands are one step here; only CreateClosure
    reads more operands later on. *)
Inductive instr :=
| IHalt | IReturn | IPop | IPopMany (n : N) | ISwap | ISwapPop
| ILoadConst (i : N) | ILoadLocal (i : N) | ISetLocal (i : N)
| IDefineGlobal (i : N) | ILoadUpvalue (i : N) | ISetUpvalue (i : N)
| ILoadGlobal (i : N) | ISetGlobal (i : N) | IDefineGlobalDefaulted (i : N)
| ICloseUpvalue | ICreateFunction (i : N) | ICreateClosure (i : N)
| ICreatePair | ICreateArray (n : N) | ICreateRange
| ICallFunction (argc : N) | ICallBuiltin (b argc : N) | IEnterContext (b argc : N)
| IExitContext | IBlockResult | IBlockReturn
| IJumpIfFalse (off : N) | IJumpIfNotEq (off : N) | IJumpForward (off : N) | IJumpBackward (off : N)
| IUnpack (n : N) | ILoadNone | ILoadNoneMany (n : N) | INewLoopCtx | IIterNext (off : N)
| IIndexGet | IUnary (o : op) | IBinary (o : op).

Section Decode.
Local Open Scope N_scope.

(** Opcodes without operands. *)
Definition plain_ops : list (N * instr) :=
  [ (op_Halt, IHalt); (op_Return, IReturn); (op_Pop, IPop); (op_Swap, ISwap);
    (op_SwapPop, ISwapPop); (op_CloseUpvalue, ICloseUpvalue); (op_CreatePair, ICreatePair);
    (op_CreateRange, ICreateRange); (op_ExitContext, IExitContext);
    (op_BlockResult, IBlockResult); (op_BlockReturn, IBlockReturn); (op_LoadNone, ILoadNone);
    (op_NewLoopCtx, INewLoopCtx); (op_IndexGet, IIndexGet);
    (op_UnaryNegate, IUnary ONeg); (op_UnaryNot, IUnary ONot); (op_BitwiseNot, IUnary OBitwiseNot);
    (op_BinaryAdd, IBinary OAdd); (op_BinarySubtract, IBinary OSub);
    (op_BinaryMultiply, IBinary OMul); (op_BinaryDivide, IBinary ODiv);
    (op_BinaryModulo, IBinary OMod); (op_BinaryPower, IBinary OPow);
    (op_BinaryEqual, IBinary OEq); (op_BinaryNotEqual, IBinary ONeq);
    (op_BinaryGreater, IBinary OGt); (op_BinaryGreaterEqual, IBinary OGte);
    (op_BinaryLess, IBinary OLt); (op_BinaryLessEqual, IBinary OLte);
    (op_BinaryAnd, IBinary OAnd); (op_BinaryOr, IBinary OOr); (op_BinaryJoin, IBinary OJoin);
    (op_BitwiseAnd, IBinary OBitwiseAnd); (op_BitwiseOr, IBinary OBitwiseOr);
    (op_BitwiseXor, IBinary OBitwiseXor);
    (op_BitwiseLeftShift, IBinary OBitwiseLeftShift);
    (op_BitwiseRightShift, IBinary OBitwiseRightShift) ].

(** Opcodes with one u16 operand. *)
Definition u16_ops : list (N * (N -> instr)) :=
  [ (op_PopMany, IPopMany); (op_LoadConst, ILoadConst); (op_LoadLocal, ILoadLocal);
    (op_SetLocal, ISetLocal); (op_DefineGlobal, IDefineGlobal); (op_LoadUpvalue, ILoadUpvalue);
    (op_SetUpvalue, ISetUpvalue); (op_LoadGlobal, ILoadGlobal); (op_SetGlobal, ISetGlobal);
    (op_DefineGlobalDefaulted, IDefineGlobalDefaulted); (op_CreateFunction, ICreateFunction);
    (op_CreateClosure, ICreateClosure); (op_JumpIfFalse, IJumpIfFalse);
    (op_JumpIfNotEq, IJumpIfNotEq); (op_JumpForward, IJumpForward);
    (op_JumpBackward, IJumpBackward); (op_IterNext, IIterNext) ].

(** Opcodes with one u8 operand. *)
Definition u8_ops : list (N * (N -> instr)) :=
  [ (op_CreateArray, ICreateArray); (op_CallFunction, ICallFunction); (op_Unpack, IUnpack);
    (op_LoadNoneMany, ILoadNoneMany) ].

(** Opcodes with a u16 and a u8 operand. *)
Definition u16u8_ops : list (N * (N -> N -> instr)) :=
  [ (op_CallBuiltin, ICallBuiltin); (op_EnterContext, IEnterContext) ].
End Decode.

(** vm.rs:285-1092, 1300-1318: reading one instruction at [ip]; the result has the
    position after the operands.  Reading past the end panics, an unknown opcode
    (vm.rs:1089) too. *)
Definition decode (ops : bytes) (ip : nat) : res (instr * nat) :=
  let! b := bc_read_u8 ops ip in
  match alookup N.eqb b plain_ops with
  | Some i => Ok (i, ip + 1)
  | None =>
  match alookup N.eqb b u16_ops with
  | Some f => let! v := bc_read_u16 ops (ip + 1) in Ok (f v, ip + 3)
  | None =>
  match alookup N.eqb b u8_ops with
  | Some f => let! v := bc_read_u8 ops (ip + 1) in Ok (f v, ip + 2)
  | None =>
  match alookup N.eqb b u16u8_ops with
  | Some f => let! v := bc_read_u16 ops (ip + 1) in
              let! w := bc_read_u8 ops (ip + 3) in Ok (f v w, ip + 4)
  | None => Panic
  end end end end.

(** value.rs:252-256 *)
Inductive upvalue := Open (location : nat) | Closed (v : value).

(** vm.rs:14-22.  [max_runtime] in nanoseconds. *)
Record options := mkOptions {
  o_max_runtime : N; o_stack_size : nat; o_call_stack_size : nat;
  o_string_max : N; o_array_max : N }.

(** value.rs:229-243: closures are equal when their functions are and their upvalues are
    pairwise both open at the same place or both closed with equal values.  The recursion
    through closed upvalues has no bound in the source; [depth] is the native stack, and
    running out of it aborts. *)
Definition up_list_eq (veq : value -> value -> res bool) (h : list upvalue)
  : list nat -> list nat -> res bool :=
  fix go (us vs : list nat) : res bool :=
    match us, vs with
    | u :: us', v :: vs' =>
        match nth_error h u, nth_error h v with
        | Some (Open l), Some (Open r) => if l =? r then go us' vs' else Ok false
        | Some (Closed l), Some (Closed r) =>
            let! b := veq l r in
            if (b : bool) then go us' vs' else Ok false
        | Some _, Some _ => Ok false
        | _, _ => Panic
        end
    | _, _ => Ok true
    end.

Fixpoint fn_eq (depth : nat) (h : list upvalue) (f g : mfn) : res bool :=
  match depth with
  | O => Panic
  | S k =>
      match f, g with
      | MFun a, MFun b => Ok (function_eqb feqb false a b)
      | MClo a us, MClo b vs =>
          if negb (function_eqb feqb false a b) then Ok false
          else if negb (length us =? length vs) then Ok false
          else up_list_eq (geqb (fn_eq k h)) h us vs
      | _, _ => Ok false
      end
  end.

(** vm.rs:1332-1336.  The closure of a frame: its function and its upvalue cells. *)
Record frame := mkFrame { f_fn : function; f_ups : list nat; f_ip : nat; f_st : nat }.

Section Vm.
(** [D] is the host's data.  [enter]/[leave] are its callbacks (builtins/mod.rs:13-18).
    [clock n] is the time elapsed since the start of the run at the [n]-th reading.
    [depth] bounds the native recursion of closure equality. *)
Context {D : Type}.

Record host := mkHost { h_enter : D -> D; h_leave : D -> D; h_clock : nat -> N; h_depth : nat;
                        h_oracle : oracle }.

(** builtins/mod.rs:80-92.  A builtin may change the data, return a value, fail or panic. *)
Definition bfn := D -> list value -> options -> D * res value.
Definition xfn := D -> D * res unit.
Inductive builtin := BFn (f : bfn) | BContext (entry : bfn) (exit : xfn).

(** vm.rs:67-91.  [v_opens] lists the open upvalues (cells of [v_heap]) oldest first;
    [v_frames] is the call stack, newest first; [v_stack] is the whole stack, also the
    part above [v_sp].  [v_heap] holds the shared upvalue cells, [v_reads] counts clock
    readings, [v_n] is the counter of [run]. *)
Record vm := mkVm {
  v_data : D; v_builtins : list (N * builtin); v_exits : list xfn; v_blocks : list value;
  v_globals : list (N * value); v_gsyms : pool rstring; v_externals : list N;
  v_opens : list nat; v_heap : list upvalue;
  v_frames : list frame; v_frame : frame; v_stack : list value; v_sp : nat;
  v_reads : nat; v_n : nat; v_opts : options }.

Definition set_data d s := mkVm d (v_builtins s) (v_exits s) (v_blocks s) (v_globals s) (v_gsyms s)
  (v_externals s) (v_opens s) (v_heap s) (v_frames s) (v_frame s) (v_stack s) (v_sp s) (v_reads s)
  (v_n s) (v_opts s).
Definition set_exits x s := mkVm (v_data s) (v_builtins s) x (v_blocks s) (v_globals s) (v_gsyms s)
  (v_externals s) (v_opens s) (v_heap s) (v_frames s) (v_frame s) (v_stack s) (v_sp s) (v_reads s)
  (v_n s) (v_opts s).
Definition set_blocks x s := mkVm (v_data s) (v_builtins s) (v_exits s) x (v_globals s) (v_gsyms s)
  (v_externals s) (v_opens s) (v_heap s) (v_frames s) (v_frame s) (v_stack s) (v_sp s) (v_reads s)
  (v_n s) (v_opts s).
Definition set_globals x s := mkVm (v_data s) (v_builtins s) (v_exits s) (v_blocks s) x (v_gsyms s)
  (v_externals s) (v_opens s) (v_heap s) (v_frames s) (v_frame s) (v_stack s) (v_sp s) (v_reads s)
  (v_n s) (v_opts s).
Definition set_cells o h s := mkVm (v_data s) (v_builtins s) (v_exits s) (v_blocks s) (v_globals s)
  (v_gsyms s) (v_externals s) o h (v_frames s) (v_frame s) (v_stack s) (v_sp s) (v_reads s)
  (v_n s) (v_opts s).
Definition set_frames fs f s := mkVm (v_data s) (v_builtins s) (v_exits s) (v_blocks s)
  (v_globals s) (v_gsyms s) (v_externals s) (v_opens s) (v_heap s) fs f (v_stack s) (v_sp s)
  (v_reads s) (v_n s) (v_opts s).
Definition set_stack st sp s := mkVm (v_data s) (v_builtins s) (v_exits s) (v_blocks s)
  (v_globals s) (v_gsyms s) (v_externals s) (v_opens s) (v_heap s) (v_frames s) (v_frame s) st sp
  (v_reads s) (v_n s) (v_opts s).
Definition set_count r n s := mkVm (v_data s) (v_builtins s) (v_exits s) (v_blocks s)
  (v_globals s) (v_gsyms s) (v_externals s) (v_opens s) (v_heap s) (v_frames s) (v_frame s)
  (v_stack s) (v_sp s) r n (v_opts s).
Definition set_gsyms p s := mkVm (v_data s) (v_builtins s) (v_exits s) (v_blocks s)
  (v_globals s) p (v_externals s) (v_opens s) (v_heap s) (v_frames s) (v_frame s)
  (v_stack s) (v_sp s) (v_reads s) (v_n s) (v_opts s).
Definition set_builtins b s := mkVm (v_data s) b (v_exits s) (v_blocks s)
  (v_globals s) (v_gsyms s) (v_externals s) (v_opens s) (v_heap s) (v_frames s) (v_frame s)
  (v_stack s) (v_sp s) (v_reads s) (v_n s) (v_opts s).

Definition fr_set_ip (ip : nat) (f : frame) : frame := mkFrame (f_fn f) (f_ups f) ip (f_st f).
Definition set_ip (ip : nat) (s : vm) : vm := set_frames (v_frames s) (fr_set_ip ip (v_frame s)) s.
Definition ip (s : vm) : nat := f_ip (v_frame s).
Definition fr_chunk (f : frame) : chunk value := fn_chunk (f_fn f).
Definition cur_chunk (s : vm) : chunk value := fr_chunk (v_frame s).

(** Result of one turn of the loop in [run]. *)
Inductive sres :=
| SNext (s : vm)
| SDone (v : value) (s : vm)
| SErr (e : error) (sp : span) (s : vm)
| SPanic.

(** Inside an arm: a value with the new state, or the end of the run. *)
Inductive ares (A : Type) := AOk (a : A) (s : vm) | AErr (e : error) (sp : span) (s : vm) | APanic.
Arguments AOk {A} a s.
Arguments AErr {A} e sp s.
Arguments APanic {A}.
Definition act (A : Type) := vm -> ares A.
Definition aret {A} (a : A) : act A := fun s => AOk a s.
Definition abind {A B} (x : act A) (k : A -> act B) : act B :=
  fun s => match x s with
           | AOk a s' => k a s'
           | AErr e sp s' => AErr e sp s'
           | APanic => APanic
           end.
Notation "'let*' x ':=' e 'in' k" := (abind e (fun x => k))
  (at level 200, x pattern, e at level 100, k at level 200, right associativity).
Definition apanic {A} : act A := fun _ => APanic.
Definition agets {A} (f : vm -> A) : act A := fun s => AOk (f s) s.
Definition amod (f : vm -> vm) : act unit := fun s => AOk tt (f s).

(** vm.rs:1144-1170 *)
Definition error_0 {A} (e : error) : act A :=
  fun s => AErr e (chunk_get_span (cur_chunk s) (ip s)) s.
Definition error_1 {A} (e : error) : act A :=
  fun s => AErr e (chunk_get_span (cur_chunk s) (ip s - 1)) s.
Definition errorf {A} (e : error) : act A :=
  fun s => AErr e (match v_frames s with
                   | [] => chunk_get_span (cur_chunk s) (ip s)
                   | _ => fn_nspan (f_fn (v_frame s))
                   end) s.

Definition lift_1 {A} (r : res A) : act A :=
  match r with Ok a => aret a | Err e => error_1 e | Panic => apanic end.

(** vm.rs:1172-1189.  Writing outside the vector panics. *)
Definition push (v : value) : act unit :=
  fun s => if o_stack_size (v_opts s) <=? v_sp s then error_0 EStackOverflow s
           else if v_sp s <? length (v_stack s)
                then AOk tt (set_stack (upd (v_sp s) v (v_stack s)) (S (v_sp s)) s)
                else APanic.
Definition push_unchecked (v : value) : act unit :=
  fun s => if v_sp s <? length (v_stack s)
           then AOk tt (set_stack (upd (v_sp s) v (v_stack s)) (S (v_sp s)) s)
           else APanic.

(** vm.rs:1191-1200 *)
Definition push_many (n : nat) : act unit :=
  fun s => let s' := set_stack (v_stack s) (v_sp s + n) s in
           if o_stack_size (v_opts s) <=? v_sp s' then error_1 EStackOverflow s' else AOk tt s'.

Definition slot (i : nat) : act value :=
  fun s => match nth_error (v_stack s) i with Some v => AOk v s | None => APanic end.
Definition set_slot (i : nat) (v : value) : act unit :=
  fun s => if i <? length (v_stack s) then AOk tt (set_stack (upd i v (v_stack s)) (v_sp s) s)
           else APanic.

(** vm.rs:1202-1298.  Simplification: going below the bottom of the stack panics in both
    build modes (a release build would wrap [sp] in [pop_many] and fail at the next
    access); it is shown unreachable for compiled code. *)
Definition pop : act value :=
  fun s => match v_sp s with
           | O => APanic
           | S k => slot k (set_stack (v_stack s) k s)
           end.
Definition pop_many (n : nat) : act unit :=
  fun s => if v_sp s <? n then APanic else AOk tt (set_stack (v_stack s) (v_sp s - n) s).
Definition pop_swap_out : act value :=
  let* v := pop in let* k := agets v_sp in let* _ := set_slot k VNone in aret v.
Definition pop_double : act (value * value) :=
  let* b := pop in let* a := pop in aret (a, b).
Definition peekn (distance : nat) : act value :=
  fun s => if v_sp s <? S distance then APanic else slot (v_sp s - distance - 1) s.
Definition peek : act value := peekn 0.
Definition pop_peek : act (value * value) :=
  let* case := pop in let* v := peek in aret (v, case).
Definition swap : act unit :=
  fun s => match v_sp s with
           | S (S k) =>
               match nth_error (v_stack s) k, nth_error (v_stack s) (S k) with
               | Some a, Some b =>
                   AOk tt (set_stack (upd k b (upd (S k) a (v_stack s))) (v_sp s) s)
               | _, _ => APanic
               end
           | _ => APanic
           end.

(** vm.rs:1320-1329 *)
Definition get_constant (i : N) : act value :=
  fun s => match chunk_get_constant (cur_chunk s) i with Ok v => AOk v s | _ => APanic end.

(** vm.rs:386-390: the name shown for an unknown id. *)
Definition global_name (id : N) : act rstring :=
  agets (fun s => match pool_get (v_gsyms s) id with Some n => n | None => str "unkown???" end).

(** value.rs:258-275.  A cell is the index of an entry of the heap. *)
Definition up_get (c : nat) : act value :=
  fun s => match nth_error (v_heap s) c with
           | Some (Open l) => slot l s
           | Some (Closed v) => AOk v s
           | None => APanic
           end.
Definition up_set (c : nat) (v : value) : act unit :=
  fun s => match nth_error (v_heap s) c with
           | Some (Open l) => set_slot l v s
           | Some (Closed _) => AOk tt (set_cells (v_opens s) (upd c (Closed v) (v_heap s)) s)
           | None => APanic
           end.

Definition is_open_at (h : list upvalue) (l : nat) (c : nat) : bool :=
  match nth_error h c with Some (Open l') => l' =? l | _ => false end.
Definition is_open (h : list upvalue) (c : nat) : bool :=
  match nth_error h c with Some (Open _) => true | _ => false end.

(** vm.rs:1105-1119 *)
Definition capture_upvalue (location : nat) : act nat :=
  fun s => match find (is_open_at (v_heap s) location) (v_opens s) with
           | Some c => AOk c s
           | None => let c := length (v_heap s) in
                     AOk c (set_cells (v_opens s ++ [c]) (v_heap s ++ [Open location]) s)
           end.

(** vm.rs:1121-1142 *)
Definition close_cells (last : nat) (v : value) (opens : list nat) (h : list upvalue)
  : list upvalue :=
  fold_left (fun h c => if is_open_at h last c then upd c (Closed v) h else h) opens h.
Definition close_upvalues (last : nat) : act unit :=
  fun s => match nth_error (v_stack s) last with
           | None => AOk tt s
           | Some v =>
               let h := close_cells last v (v_opens s) (v_heap s) in
               AOk tt (set_cells (filter (is_open h) (v_opens s)) h s)
           end.
(** vm.rs:301-303: for idx in from..from+n *)
Fixpoint close_range (from n : nat) : act unit :=
  match n with
  | O => aret tt
  | S k => let* _ := close_upvalues from in close_range (S from) k
  end.

(** vm.rs:1097-1103 *)
Definition has_runtime_exceeded (hst : host) : act unit :=
  let* r := agets v_reads in
  let* _ := amod (fun s => set_count (S (v_reads s)) (v_n s) s) in
  let* lim := agets (fun s => o_max_runtime (v_opts s)) in
  if (lim <? h_clock hst r)%N then errorf (ERuntimeLimit lim) else aret tt.

Fixpoint pop_items (n : nat) : act (list value) :=
  match n with
  | O => aret []
  | S k => let* v := pop in let* rest := pop_items k in aret (v :: rest)
  end.
Fixpoint push_items (l : list value) : act unit :=
  match l with
  | [] => aret tt
  | v :: t => let* _ := push v in push_items t
  end.

(** vm.rs:664-676: the operands of CreateClosure. *)
Fixpoint read_captures (n : nat) : act (list nat) :=
  match n with
  | O => aret []
  | S k =>
      let* s := agets (fun s => s) in
      match bc_read_u8 (ck_ops (cur_chunk s)) (ip s),
            bc_read_u16 (ck_ops (cur_chunk s)) (ip s + 1) with
      | Ok is_local, Ok index =>
          let* _ := amod (set_ip (ip s + 3)) in
          let* c := (if (is_local =? 1)%N
                     then capture_upvalue (f_st (v_frame s) + N.to_nat index)
                     else match nth_error (f_ups (v_frame s)) (N.to_nat index) with
                          | Some c => aret c
                          | None => apanic
                          end) in
          let* rest := read_captures k in aret (c :: rest)
      | _, _ => apanic
      end
  end.

Definition jump_forward (off : N) : act unit := amod (fun s => set_ip (ip s + N.to_nat off) s).

(** vm.rs:703-704, 744-745: the arguments of a builtin, the last [argc] stack values. *)
Definition take_args (argc : nat) : act (list value) :=
  fun s => if v_sp s <? argc then error_0 EStackUnderflow s
           else if length (v_stack s) <? v_sp s then APanic
           else AOk (firstn argc (skipn (v_sp s - argc) (v_stack s)))
                    (set_stack (v_stack s) (v_sp s - argc) s).

Definition run_builtin (f : bfn) (args : list value) : act value :=
  fun s => let (d, r) := f (v_data s) args (v_opts s) in lift_1 r (set_data d s).

Section Exec.
Context (m : mode) (hst : host).

(** The functions of a frame compare by [fn_eq] on the current heap. *)
Definition feq_at (s : vm) : mfn -> mfn -> res bool := fn_eq (h_depth hst) (v_heap s).

(** vm.rs:285-1092, without Return; [ip] is already past the operands. *)
Definition exec (i : instr) : act unit :=
  match i with
  | IHalt => error_1 EHalt
  | ILoadNone => push VNone
  | ILoadNoneMany n => push_many (N.to_nat n)
  | IReturn => apanic (* see [do_return] *)
  | IBlockResult =>
      let* v := pop_swap_out in amod (fun s => set_blocks (v :: v_blocks s) s)
  | IBlockReturn =>
      let* bs := agets v_blocks in
      match bs with
      | v :: rest => let* _ := amod (set_blocks rest) in push v
      | [] => error_0 EStackUnderflow
      end
  | IPop => let* _ := pop in aret tt
  | ISwap => swap
  | ISwapPop => let* _ := swap in let* _ := pop in aret tt
  | IPopMany n => pop_many (N.to_nat n)
  | ILoadConst i => let* v := get_constant i in push v
  | ILoadLocal i =>
      let* st := agets (fun s => f_st (v_frame s)) in
      let* v := slot (st + N.to_nat i) in push v
  | ISetLocal i =>
      let* v := peek in
      let* st := agets (fun s => f_st (v_frame s)) in
      set_slot (st + N.to_nat i) v
  | ILoadGlobal i =>
      let* g := agets (fun s => alookup N.eqb i (v_globals s)) in
      match g with
      | Some v => push v
      | None => let* n := global_name i in error_1 (ENameUndefined n)
      end
  | IDefineGlobal i =>
      let* v := pop in amod (fun s => set_globals (ainsert i v (v_globals s)) s)
  | IDefineGlobalDefaulted i =>
      let* v := pop in
      amod (fun s => match alookup N.eqb i (v_globals s) with
                     | Some _ => s
                     | None => set_globals (ainsert i v (v_globals s)) s
                     end)
  | ISetGlobal i =>
      let* v := peek in
      let* g := agets (fun s => alookup N.eqb i (v_globals s)) in
      match g with
      | Some _ => amod (fun s => set_globals (ainsert i v (v_globals s)) s)
      | None => let* n := global_name i in error_1 (ENameUndefined n)
      end
  | ISetUpvalue i =>
      let* v := peek in
      let* c := agets (fun s => nth_error (f_ups (v_frame s)) (N.to_nat i)) in
      match c with Some c => up_set c v | None => apanic end
  | ILoadUpvalue i =>
      let* c := agets (fun s => nth_error (f_ups (v_frame s)) (N.to_nat i)) in
      match c with Some c => let* v := up_get c in push v | None => apanic end
  | IIndexGet =>
      let* v := pop in let* i := pop in
      let* r := lift_1 (v_index m mfi i v) in push r
  | ICloseUpvalue =>
      let* sp := agets v_sp in
      match sp with
      | O => apanic
      | S k => let* _ := close_upvalues k in let* _ := pop in aret tt
      end
  | ICreatePair =>
      let* ab := pop_double in push_unchecked (VPair (fst ab) (snd ab))
  | ICreateArray n =>
      (* the source pops and checks item by item; the state after an error only
         differs in [sp] *)
      let* items := pop_items (N.to_nat n) in
      let* amax := agets (fun s => o_array_max (v_opts s)) in
      let* r := lift_1 (v_array amax items) in push r
  | ICreateRange =>
      let* ab := pop_double in
      let* r := lift_1 (v_range mfi (fst ab) (snd ab)) in push r
  | IUnpack n =>
      let* v := pop_swap_out in
      let* parts := lift_1 (v_unpack mfi n v) in push_items (rev parts)
  | ICreateFunction i =>
      let* v := get_constant i in
      match v with
      | VFn (MFun f) => push (VFn (MClo f []))
      | _ => error_0 (ENotCallable (ntype mfi v))
      end
  | ICreateClosure i =>
      let* v := get_constant i in
      match v with
      | VFn (MFun f) =>
          let* ups := read_captures (N.to_nat (fn_upcount f)) in push (VFn (MClo f ups))
      | _ => error_0 (ENotCallable (ntype mfi v))
      end
  | IExitContext =>
      let* xs := agets v_exits in
      match xs with
      | [] => aret tt
      | x :: rest =>
          let* _ := amod (set_exits rest) in
          fun s => let (d, r) := x (v_data s) in lift_1 r (set_data d s)
      end
  | IEnterContext b argc =>
      let* bi := agets (fun s => alookup N.eqb b (v_builtins s)) in
      match bi with
      | Some bi =>
          let (entry, exit) := match bi with
                               | BFn f => (f, None)
                               | BContext e x => (e, Some x)
                               end in
          let* args := take_args (N.to_nat argc) in
          let* _ := match exit with
                    | Some x => amod (fun s => set_exits (x :: v_exits s) s)
                    | None => aret tt
                    end in
          let* r := run_builtin entry args in push r
      | None => let* n := global_name b in error_1 (EUndefinedBuiltin n)
      end
  | ICallBuiltin b argc =>
      let* bi := agets (fun s => alookup N.eqb b (v_builtins s)) in
      match bi with
      | Some (BFn f) =>
          let* args := take_args (N.to_nat argc) in
          let* r := run_builtin f args in
          let* _ := push r in
          has_runtime_exceeded hst
      | Some (BContext _ _) => error_0 (ENotCallable (str "context manager"))
      | None => let* n := global_name b in error_1 (EUndefinedBuiltin n)
      end
  | ICallFunction argc =>
      let* v := peekn (N.to_nat argc) in
      fun s =>
        if o_call_stack_size (v_opts s) <=? length (v_frames s) then error_0 EStackOverflow s
        else match v with
             | VFn c =>
                 let f := mfn_function c in
                 let ups := match c with MFun _ => [] | MClo _ us => us end in
                 if (argc =? fn_arity f)%N then
                   AOk tt (set_data (h_enter hst (v_data s))
                            (set_frames (v_frame s :: v_frames s)
                               (mkFrame f ups 0 (v_sp s - N.to_nat argc - 1)) s))
                 else error_0 (EMismatchedArity (fn_name f) (fn_arity f) argc) s
             | _ => error_1 (ENotCallable (ntype mfi v)) s
             end
  | IJumpForward off => jump_forward off
  | IJumpBackward off =>
      fun s => if ip s <? N.to_nat off then APanic
               else AOk tt (set_ip (ip s - N.to_nat off) s)
  | IJumpIfFalse off =>
      let* v := peek in
      let* b := lift_1 (is_truthy mfi v) in
      if (b : bool) then aret tt else jump_forward off
  | IJumpIfNotEq off =>
      let* vc := pop_peek in
      fun s => match geqb (feq_at s) (fst vc) (snd vc) with
               | Ok true => AOk tt s
               | Ok false => jump_forward off s
               | _ => APanic
               end
  | INewLoopCtx => push (VLoopCtx 0)
  | IIterNext off =>
      let* sp := agets v_sp in
      if sp <? 3 then apanic else
      let* ctx := slot (sp - 3) in
      match ctx with
      | VLoopCtx idx =>
          let* _ := set_slot (sp - 3) (VLoopCtx (idx + 1)) in
          let* it := slot (sp - 2) in
          let* r := lift_1 (v_iter m mfi idx it) in
          match r with
          | Some v => push v
          | None => jump_forward off
          end
      | _ => error_1 EFailedToIterate
      end
  | IUnary o =>
      let* v := pop in
      match unary_fn m mfi o with
      | Some f => let* r := lift_1 (f v) in push_unchecked r
      | None => apanic
      end
  | IBinary o =>
      let* ab := pop_double in
      fun s => match binary_fn m (h_oracle hst) mfi (feq_at s) (o_string_max (v_opts s))
                               (o_array_max (v_opts s)) o with
               | Some f => (let* r := lift_1 (f (fst ab) (snd ab)) in push_unchecked r) s
               | None => APanic
               end
  end.

(** vm.rs:298-326.  In a checked build the assertion on the empty stack at the end of
    the program may abort. *)
Definition do_return (s : vm) : sres :=
  match pop s with
  | AOk result s1 =>
      match close_range (f_st (v_frame s1)) (v_sp s1 - f_st (v_frame s1)) s1 with
      | AOk _ s2 =>
          match v_frames s2 with
          | fr :: rest =>
              let s3 := set_data (h_leave hst (v_data s2)) s2 in
              let s4 := set_stack (v_stack s3) (f_st (v_frame s3)) s3 in
              let s5 := set_frames rest fr s4 in
              match push result s5 with
              | AOk _ s6 => SNext s6
              | AErr e sp s6 => SErr e sp s6
              | APanic => SPanic
              end
          | [] =>
              match m, v_sp s2 with
              | Debug, S _ => SPanic
              | _, _ => SDone result (set_stack (v_stack s2) (f_st (v_frame s2)) s2)
              end
          end
      | AErr e sp s2 => SErr e sp s2
      | APanic => SPanic
      end
  | AErr e sp s1 => SErr e sp s1
  | APanic => SPanic
  end.

(** vm.rs:261-267 *)
Definition tick : act unit :=
  let* n := agets v_n in
  if 64 <? n
  then let* _ := has_runtime_exceeded hst in amod (fun s => set_count (v_reads s) 0 s)
  else amod (fun s => set_count (v_reads s) (S (v_n s)) s).

(** One turn of the loop, vm.rs:260-1093. *)
Definition step (s0 : vm) : sres :=
  match tick s0 with
  | AErr e sp s => SErr e sp s
  | APanic => SPanic
  | AOk _ s =>
      if chunk_len (cur_chunk s) <=? ip s then
        SErr EInstructionOverflow (chunk_get_span (cur_chunk s) (ip s)) s
      else
        match decode (ck_ops (cur_chunk s)) (ip s) with
        | Ok (i, ip') =>
            match i with
            | IReturn => do_return (set_ip ip' s)
            | _ => match exec i (set_ip ip' s) with
                   | AOk _ s' => SNext s'
                   | AErr e sp s' => SErr e sp s'
                   | APanic => SPanic
                   end
            end
        | _ => SPanic
        end
  end.

(** How a run ends; [ROut]: not within the given number of instructions. *)
Inductive rres := RDone (v : value) (s : vm) | RErr (e : error) (sp : span) (s : vm) | RPanic
| ROut (s : vm).

Fixpoint loop (fuel : nat) (s : vm) : rres :=
  match fuel with
  | O => ROut s
  | S k => match step s with
           | SNext s' => loop k s'
           | SDone v s' => RDone v s'
           | SErr e sp s' => RErr e sp s'
           | SPanic => RPanic
           end
  end.

(** vm.rs:257-259: [run] restarts the clock and the counter. *)
Definition run (fuel : nat) (s : vm) : rres := loop fuel (set_count 0 0 s).

(** States reachable while running. *)
Inductive reach (s : vm) : vm -> Prop :=
| reach_refl : reach s s
| reach_step s1 s2 : reach s s1 -> step s1 = SNext s2 -> reach s s2.

End Exec.

(** vm.rs:97-133 *)
Definition vm_new (d : D) (sc : script) (o : options) : vm :=
  mkVm d [] [] [] [] (sc_globals sc) (sc_externals sc) [] []
       [] (mkFrame (sc_function sc) [] 0 0) (repeat VNone (o_stack_size o)) 0 0 0 o.

(** vm.rs:135-143.  The cells themselves stay alive in closures kept by globals. *)
Definition reset_state (s : vm) : vm :=
  set_exits [] (set_blocks [] (set_cells [] (v_heap s)
    (set_frames [] (mkFrame (f_fn (v_frame s)) (f_ups (v_frame s)) 0 0)
      (set_stack (v_stack s) 0 s)))).

(** vm.rs:145-156.  [externals] is not updated. *)
Definition update_script (sc : script) (s : vm) : vm :=
  let s1 := reset_state s in
  set_gsyms (sc_globals sc)
    (set_frames (v_frames s1)
       (mkFrame (sc_function sc) (f_ups (v_frame s1)) (ip s1) (f_st (v_frame s1))) s1).

(** vm.rs:203-211 *)
Fixpoint add_builtins_list (l : list (rstring * builtin)) (s : vm) : vm :=
  match l with
  | [] => s
  | (n, b) :: t =>
      let (p, id) := pool_add seqb (v_gsyms s) n in
      add_builtins_list t (set_builtins (ainsert id b (v_builtins s)) (set_gsyms p s))
  end.

(** vm.rs:158-169 *)
Definition vm_new_with (d : D) (sc : script) (o : options) (bs : list (list (rstring * builtin)))
  : vm := fold_left (fun s l => add_builtins_list l s) bs (vm_new d sc o).

(** vm.rs:177-181 *)
Definition insert_global (n : rstring) (v : value) (s : vm) : vm :=
  let (p, id) := pool_add seqb (v_gsyms s) n in
  set_globals (ainsert id v (v_globals s)) (set_gsyms p s).

(** vm.rs:183-196 *)
Definition set_external (n : rstring) (v : value) (s : vm) : res vm :=
  match pool_id seqb (v_gsyms s) n with
  | None => Err (EExternalNotDefined n)
  | Some id => if existsb (N.eqb id) (v_externals s)
               then Ok (set_globals (ainsert id v (v_globals s)) s)
               else Err (EExternalNotDefined n)
  end.

(** vm.rs:218-255: names and spans of a traceback. *)
Inductive trace_line := TFrame (name : rstring) (sp : span) | TMore (n : nat).
Definition trace_back (s : vm) : list trace_line :=
  let line (f : frame) (off : nat) :=
    TFrame (fn_name (f_fn f)) (chunk_get_span (fr_chunk f) (f_ip f - off)) in
  line (v_frame s) 1
  :: map (fun f => line f 1) (firstn 8 (removelast (v_frames s)))
  ++ (if 10 <? length (v_frames s) then [TMore (length (v_frames s) - 10)] else [])
  ++ match rev (v_frames s) with [] => [] | f :: _ => [line f 0] end.

End Vm.
Arguments vm : clear implicits.
Arguments host : clear implicits.
Arguments builtin : clear implicits.
Arguments bfn : clear implicits.
Arguments xfn : clear implicits.
Arguments sres : clear implicits.
Arguments rres : clear implicits.
Arguments ares : clear implicits.
Arguments act : clear implicits.
Arguments AOk {D A} a s.
Arguments AErr {D A} e sp s.
Arguments APanic {D A}.
Arguments SNext {D} s.
Arguments SDone {D} v s.
Arguments SErr {D} e sp s.
Arguments SPanic {D}.
Arguments RDone {D} v s.
Arguments RErr {D} e sp s.
Arguments RPanic {D}.
Arguments ROut {D} s.
Arguments BFn {D} f.
Arguments BContext {D} entry exit.
