(** Specifications for the virtual machine properties. *)
From Verif Require Import Base RleVec Pool Float NumText Bytecode Chunk Value Ast Compiler Vm.

(** ** Sessions: what a host can do with one machine (C04, C05)

    Build it, register builtins and globals, set externals, start a run, let it make
    steps, reset it or load another script when a run is over. *)
Section Session.
Context {D : Type} (m : mode) (hst : host D).
Inductive session : vm D -> Prop :=
| se_new d sc o : session (vm_new d sc o)
| se_builtins s l : session s -> session (add_builtins_list l s)
| se_global s n v : session s -> session (insert_global n v s)
| se_external s n v s' : session s -> set_external n v s = Ok s' -> session s'
| se_start s : session s -> session (set_count 0 0 s)
| se_step s s' : session s -> step m hst s = SNext s' -> session s'
| se_done s v s' : session s -> step m hst s = SDone v s' -> session s'
| se_error s e sp s' : session s -> step m hst s = SErr e sp s' -> session (reset_state s')
| se_reset s : session s -> session (reset_state s)
| se_update s sc : session s -> session (update_script sc s).
End Session.

(** The values on the stack, oldest first. *)
Definition live {D} (s : vm D) : list value := firstn (v_sp s) (v_stack s).

(** Number of suspended calls. *)
Definition depth {D} (s : vm D) : nat := length (v_frames s).

(** The next instruction. *)
Definition next_instr {D} (s : vm D) : option instr :=
  match decode (ck_ops (cur_chunk s)) (ip s) with Ok (i, _) => Some i | _ => None end.

(** ** The clock (C06): every reading from now on is over the limit / within it. *)
Definition too_late {D} (hst : host D) (s : vm D) : Prop :=
  forall k, v_reads s <= k -> (o_max_runtime (v_opts s) < h_clock hst k)%N.
Definition in_time {D} (hst : host D) (s : vm D) : Prop :=
  forall k, v_reads s <= k -> (h_clock hst k <= o_max_runtime (v_opts s))%N.

(** ** A host that counts its callbacks (C20) *)
Definition counted (D : Type) : Type := D * (nat * nat).
Definition enters {D} (d : counted D) : nat := fst (snd d).
Definition leaves {D} (d : counted D) : nat := snd (snd d).
Definition counting_host {D} (f g : D -> D) (clock : nat -> N) (k : nat) (o : oracle)
  : host (counted D) :=
  mkHost (fun d => (f (fst d), (S (enters d), leaves d)))
         (fun d => (g (fst d), (enters d, S (leaves d)))) clock k o.
(** Builtins of such a host leave the two counters alone. *)
Definition keeps_counts {D A B} (f : counted D -> A -> B -> counted D * res value) : Prop :=
  forall d a b, snd (fst (f d a b)) = snd d.
Definition uncounted {D} (b : builtin (counted D)) : Prop :=
  match b with
  | BFn f => keeps_counts f
  | BContext e x => keeps_counts e /\ forall d, snd (fst (x d)) = snd d
  end.

(** ** Variables and captures (C09)

    A variable is a number; it has one current value for ever.  The stack holds the
    variables in scope, a capture remembers its variable. *)
Inductive var_op :=
| Declare (v : value)            (* a new variable, innermost *)
| Capture (i : nat)              (* a closure captures the variable in slot i *)
| ReadVar (i : nat) | WriteVar (i : nat) (v : value)
| ReadCap (h : nat) | WriteCap (h : nat) (v : value)
| LeaveOne                       (* the innermost variable goes out of scope *)
| LeaveAll (k : nat).            (* return: every variable from slot k on goes *)

Record vars := mkVars { vs_values : list value; vs_scope : list nat; vs_caps : list nat }.

Definition read_of (st : vars) (x : option nat) : option value :=
  match x with Some i => nth_error (vs_values st) i | None => None end.
Definition write_of (st : vars) (x : option nat) (v : value) : vars :=
  match x with
  | Some i => mkVars (upd i v (vs_values st)) (vs_scope st) (vs_caps st)
  | None => st
  end.

(** One operation and what it reads. *)
Definition var_step (st : vars) (o : var_op) : vars * option value :=
  match o with
  | Declare v => (mkVars (vs_values st ++ [v]) (vs_scope st ++ [length (vs_values st)])
                         (vs_caps st), None)
  | Capture i =>
      match nth_error (vs_scope st) i with
      | Some x => (mkVars (vs_values st) (vs_scope st) (vs_caps st ++ [x]), None)
      | None => (st, None)
      end
  | ReadVar i => (st, read_of st (nth_error (vs_scope st) i))
  | WriteVar i v => (write_of st (nth_error (vs_scope st) i) v, None)
  | ReadCap h => (st, read_of st (nth_error (vs_caps st) h))
  | WriteCap h v => (write_of st (nth_error (vs_caps st) h) v, None)
  | LeaveOne => (mkVars (vs_values st) (removelast (vs_scope st)) (vs_caps st), None)
  | LeaveAll k => (mkVars (vs_values st) (firstn k (vs_scope st)) (vs_caps st), None)
  end.

Fixpoint var_run (st : vars) (ops : list var_op) : list (option value) :=
  match ops with
  | [] => []
  | o :: t => let (st', r) := var_step st o in r :: var_run st' t
  end.
Definition no_vars : vars := mkVars [] [] [].

(** The same operations on the machine: a slot is a stack slot, a capture is an upvalue
    cell.  An operation on a slot or capture that does not exist does nothing. *)
Definition vm_var_step {D} (m : mode) (hst : host D) (s : vm D) (caps : list nat) (o : var_op)
  : option (vm D * list nat * option value) :=
  let unit_of (r : ares D unit) :=
    match r with AOk _ s' => Some (s', caps, None) | _ => None end in
  let value_of (r : ares D value) :=
    match r with AOk v s' => Some (s', caps, Some v) | _ => None end in
  match o with
  | Declare v => unit_of (push v s)
  | Capture i =>
      if i <? v_sp s then
        match capture_upvalue i s with
        | AOk c s' => Some (s', caps ++ [c], None)
        | _ => None
        end
      else Some (s, caps, None)
  | ReadVar i => if i <? v_sp s then value_of (slot i s) else Some (s, caps, None)
  | WriteVar i v => if i <? v_sp s then unit_of (set_slot i v s) else Some (s, caps, None)
  | ReadCap h => match nth_error caps h with
                 | Some c => value_of (up_get c s)
                 | None => Some (s, caps, None)
                 end
  | WriteCap h v => match nth_error caps h with
                    | Some c => unit_of (up_set c v s)
                    | None => Some (s, caps, None)
                    end
  | LeaveOne => if 0 <? v_sp s then unit_of (exec m hst ICloseUpvalue s) else Some (s, caps, None)
  | LeaveAll k =>
      match close_range k (v_sp s - k) s with
      | AOk _ s' => Some (set_stack (v_stack s') (Nat.min k (v_sp s')) s', caps, None)
      | _ => None
      end
  end.

Fixpoint vm_var_run {D} (m : mode) (hst : host D) (s : vm D) (caps : list nat) (ops : list var_op)
  : option (list (option value)) :=
  match ops with
  | [] => Some []
  | o :: t => match vm_var_step m hst s caps o with
              | Some (s', caps', r) => option_map (cons r) (vm_var_run m hst s' caps' t)
              | None => None
              end
  end.

(** ** Globals (C17): the writes of an execution, newest last. *)
Section Globals.
Context {D : Type} (m : mode) (hst : host D).
(** What an instruction writes, given the state before it. *)
Definition global_write (s : vm D) : list (N * value) :=
  match next_instr s, rev (live s) with
  | Some (IDefineGlobal i), v :: _ | Some (ISetGlobal i), v :: _ => [(i, v)]
  | Some (IDefineGlobalDefaulted i), v :: _ =>
      match alookup N.eqb i (v_globals s) with Some _ => [] | None => [(i, v)] end
  | _, _ => []
  end.
Inductive run_log : vm D -> list (N * value) -> vm D -> Prop :=
| rl_nil s : run_log s [] s
| rl_step s log s1 s2 : run_log s log s1 -> step m hst s1 = SNext s2 ->
    run_log s (log ++ global_write s1) s2.
End Globals.

(** The last value written under [i], if any. *)
Fixpoint last_write {V} (i : N) (log : list (N * V)) : option V :=
  match log with
  | [] => None
  | (j, v) :: t => match last_write i t with
                   | Some w => Some w
                   | None => if (i =? j)%N then Some v else None
                   end
  end.

(** ** Builtins by name (C25): the last one registered under a name. *)
Fixpoint registered {B} (n : rstring) (l : list (rstring * B)) : option B :=
  match l with
  | [] => None
  | (x, b) :: t => match registered n t with
                   | Some b' => Some b'
                   | None => if seqb n x then Some b else None
                   end
  end.

(** ** Tracebacks (C23) *)
Definition name_of (l : trace_line) : option rstring :=
  match l with TFrame n _ => Some n | TMore _ => None end.
Definition shown (t : list trace_line) : list rstring :=
  fold_right (fun l acc => match name_of l with Some n => n :: acc | None => acc end) [] t.
Definition counted_hidden (t : list trace_line) : nat :=
  fold_right (fun l acc => match l with TMore n => n + acc | _ => acc end) 0 t.
Definition active_calls {D} (s : vm D) : list rstring :=
  map (fun f => fn_name (f_fn f)) (v_frame s :: v_frames s).

(** ** C06: builtins that do not report a runtime limit of their own accord. *)
Definition own_errors {D} (b : builtin D) : Prop :=
  match b with
  | BFn f => forall d a o l, snd (f d a o) <> Err (ERuntimeLimit l)
  | BContext e x => (forall d a o l, snd (e d a o) <> Err (ERuntimeLimit l)) /\
                    forall d l, snd (x d) <> Err (ERuntimeLimit l)
  end.

(** ** C18: the host sets externals one after the other. *)
Fixpoint set_all {D} (l : list (rstring * value)) (s : vm D) : res (vm D) :=
  match l with
  | [] => Ok s
  | (n, v) :: t => let! s' := set_external n v s in set_all t s'
  end.
(** The value of the global called [n]. *)
Definition global_of {D} (s : vm D) (n : rstring) : option value :=
  match pool_id seqb (v_gsyms s) n with
  | Some id => alookup N.eqb id (v_globals s)
  | None => None
  end.

(** A script whose externals are names of its own. *)
Definition externals_ok (sc : script) : Prop :=
  Forall (fun id => (N.to_nat id < length (p_entries (sc_globals sc)))%nat) (sc_externals sc).


(** The error of the runtime limit. *)
Definition is_limit (e : error) : Prop := exists l, e = ERuntimeLimit l.

(** ** Steps that end a run with an error satisfying [P] (C25) *)
Definition ends_with {D} (P : error -> Prop) (r : sres D) : Prop :=
  exists e sp s', r = SErr e sp s' /\ P e.


(** The number of names a script and its builtins need. *)
Definition names_fit {D} (sc : script) (bs : list (list (rstring * builtin D))) : Prop :=
  length (p_entries (sc_globals sc)) + length (concat bs) <= N.to_nat 65536.

(** ** C10: a return that is inside no function body. *)
Fixpoint stray (n : node) : bool :=
  let many := existsb (fun e : nodeS => stray (fst e)) in
  match n with
  | NReturn _ => true
  | NFunction _ _ _ | NLambda _ _ | NLiteral _ | NIdentifier _ => false
  | NArray l => many l
  | NPair a b | NRange a b | NBinary _ a b | NIndexGet a b => stray (fst a) || stray (fst b)
  | NDeclaration _ e | NExternal _ e | NAssignment _ e | NUnary _ e => stray (fst e)
  | NBlock b => many b
  | NConditional c t o =>
      stray (fst c) || many t || match o with Some b => many b | None => false end
  | NSwitch v cs d =>
      stray (fst v) || existsb (fun cb => stray (fst (fst cb)) || many (snd cb)) cs
      || match d with Some b => many b | None => false end
  | NFor _ i b | NMultiFor _ i b | NWhile i b => stray (fst i) || many b
  | NCall f a => stray (fst f) || many a
  | NBuiltinCall _ a => many a
  | NContext _ a _ b => many a || many b
  | NInclude _ b => match b with Some b => many b | None => false end
  end.
