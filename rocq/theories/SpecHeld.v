(** What it means that every value the interpreter holds is one its types allow (C68). *)
From Verif Require Import Base RleVec Pool Float NumText Bytecode Chunk Value Ast Compiler Vm
                          SpecArith SpecParse.

(** A value within its type: integers are 64-bit, the ends of ranges 32-bit, channels of
    colours are bytes, an array knows its size, and the same holds of every part and of the
    constants of every function. *)
Inductive proper : value -> Prop :=
| pp_none : proper VNone
| pp_bool b : proper (VBool b)
| pp_int z : fits64 z -> proper (VInt z)
| pp_float f : proper (VFloat f)
| pp_range a b : (- 2 ^ 31 <= a < 2 ^ 31)%Z -> (- 2 ^ 31 <= b < 2 ^ 31)%Z -> proper (VRange a b)
| pp_color r g b a : (r < 256)%N -> (g < 256)%N -> (b < 256)%N -> (a < 256)%N -> proper (VColor r g b a)
| pp_string s : proper (VString s)
| pp_special n i : proper (VSpecial n i)
| pp_array d s mx : Forall proper d -> s = fold_right (fun x n => (get_size x + n)%N) 0%N d ->
    proper (VArray d s mx)
| pp_loop i : proper (VLoopCtx i)
| pp_pair a b : proper a -> proper b -> proper (VPair a b)
| pp_fn f : (forall c, In c (ck_consts (fn_chunk (mfn_function f))) -> proper c) -> proper (VFn f).

(** Lists and texts are shorter than the memory can be. *)
Definition in_memory {Fn} (v : gvalue Fn) : Prop :=
  match v with
  | VArray l _ _ => (Z.of_nat (length l) < 2 ^ 63)%Z
  | VString s => (Z.of_N (slen s) < 2 ^ 63)%Z
  | _ => True
  end.

(** ** Programs *)
Inductive literal_fits : literal -> Prop :=
| lf_none : literal_fits LNone
| lf_bool b : literal_fits (LBool b)
| lf_int z : fits64 z -> literal_fits (LInt z)
| lf_float f : literal_fits (LFloat f)
| lf_range a b : (- 2 ^ 31 <= a < 2 ^ 31)%Z -> (- 2 ^ 31 <= b < 2 ^ 31)%Z -> literal_fits (LRange a b)
| lf_color r g b a : (r < 256)%N -> (g < 256)%N -> (b < 256)%N -> (a < 256)%N ->
    literal_fits (LColor r g b a)
| lf_string s : literal_fits (LString s)
| lf_array l : Forall literal_fits l -> literal_fits (LArray l)
| lf_pair a b : literal_fits a -> literal_fits b -> literal_fits (LPair a b).
Definition program_fits (ast : list nodeS) : Prop :=
  forall n sp l, In (n, sp) ast -> inside (NLiteral l) n -> literal_fits l.

(** The constants of a script are proper. *)
Definition proper_script (sc : script) : Prop :=
  forall c, In c (ck_consts (fn_chunk (sc_function sc))) -> proper c.

(** ** The machine *)
Section Machine.
Context {D : Type}.

(** A host function that gives proper values for proper values. *)
Definition gives_proper (f : bfn D) : Prop :=
  forall d args o d' v, Forall proper args -> Forall in_memory args -> f d args o = (d', Ok v) -> proper v.
Definition proper_builtin (b : builtin D) : Prop :=
  match b with BFn f => gives_proper f | BContext e _ => gives_proper e end.

(** The values a machine holds: on its stack, waiting to leave a block, in globals, in
    captured variables, and in the code of the functions that are running. *)
Inductive holds (s : vm D) : value -> Prop :=
| ho_stack v : In v (v_stack s) -> holds s v
| ho_block v : In v (v_blocks s) -> holds s v
| ho_global k v : In (k, v) (v_globals s) -> holds s v
| ho_cell v : In (Closed v) (v_heap s) -> holds s v
| ho_code f v : In f (v_frame s :: v_frames s) -> In v (ck_consts (fr_chunk f)) -> holds s v.

(** Everything a host can do with a machine, giving it proper things. *)
Context (m : mode) (hst : host D).
Inductive proper_session : vm D -> Prop :=
| ps_new d sc o : proper_script sc -> proper_session (vm_new d sc o)
| ps_builtins s l : proper_session s -> Forall (fun nb => proper_builtin (snd nb)) l ->
    proper_session (add_builtins_list l s)
| ps_global s n v : proper_session s -> proper v -> proper_session (insert_global n v s)
| ps_external s n v s' : proper_session s -> proper v -> set_external n v s = Ok s' -> proper_session s'
| ps_start s : proper_session s -> proper_session (set_count 0 0 s)
| ps_step s s' : proper_session s -> (forall v, holds s v -> in_memory v) ->
    step m hst s = SNext s' -> proper_session s'
| ps_done s v s' : proper_session s -> (forall v, holds s v -> in_memory v) ->
    step m hst s = SDone v s' -> proper_session s'
| ps_error s e sp s' : proper_session s -> (forall v, holds s v -> in_memory v) ->
    step m hst s = SErr e sp s' -> proper_session s'
| ps_reset s : proper_session s -> proper_session (reset_state s)
| ps_update s sc : proper_session s -> proper_script sc -> proper_session (update_script sc s).
End Machine.
