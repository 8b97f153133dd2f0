(** Trees up to the positions in them, and results up to the trees of functions (C87). *)
From Verif Require Import Base Bytecode Chunk Value Ast Compiler Vm SpecRel SpecVm SpecEval.

(** A tree without its positions. *)
Definition bare_name (x : spanned rstring) : spanned rstring := (fst x, default_span).
Definition bare_var (v : var) : var :=
  match v with VarDecl x => VarDecl (bare_name x) | VarMulti xs => VarMulti (map bare_name xs) end.
Fixpoint bare (n : node) : node :=
  let one (e : nodeS) : nodeS := (bare (fst e), default_span) in
  match n with
  | NLiteral l => NLiteral l
  | NArray l => NArray (map one l)
  | NPair a b => NPair (one a) (one b)
  | NRange a b => NRange (one a) (one b)
  | NIdentifier x => NIdentifier x
  | NDeclaration v e => NDeclaration (bare_var v) (one e)
  | NExternal x e => NExternal (bare_name x) (one e)
  | NAssignment x e => NAssignment (bare_name x) (one e)
  | NFunction x args b => NFunction (bare_name x) (map bare_name args) (map one b)
  | NLambda args b => NLambda (map bare_name args) (map one b)
  | NBlock b => NBlock (map one b)
  | NConditional c t o => NConditional (one c) (map one t) (option_map (map one) o)
  | NSwitch v cs d => NSwitch (one v) (map (fun c => (one (fst c), map one (snd c))) cs) (option_map (map one) d)
  | NFor x i b => NFor (bare_name x) (one i) (map one b)
  | NMultiFor xs i b => NMultiFor (map bare_name xs) (one i) (map one b)
  | NWhile c b => NWhile (one c) (map one b)
  | NBinary o a b => NBinary o (one a) (one b)
  | NUnary o a => NUnary o (one a)
  | NCall f args => NCall (one f) (map one args)
  | NBuiltinCall x args => NBuiltinCall (bare_name x) (map one args)
  | NContext x args v b => NContext (bare_name x) (map one args) (option_map bare_var v) (map one b)
  | NIndexGet t i => NIndexGet (one t) (one i)
  | NInclude x b => NInclude (bare_name x) (option_map (map one) b)
  | NReturn v => NReturn (option_map one v)
  end.
Definition same_trees (l l' : list nodeS) : Prop := map (fun e => bare (fst e)) l = map (fun e => bare (fst e)) l'.

(** The same outcome of compiling: accepted both times, with the same global names,
    externals and number of bytes, or refused with the same error, or a panic both times. *)
Definition same_outcome (x y : cres script) : Prop :=
  match x, y with
  | COk a, COk b => sc_externals a = sc_externals b /\ sc_globals a = sc_globals b /\
                    length (ck_ops (fn_chunk (sc_function a))) = length (ck_ops (fn_chunk (sc_function b)))
  | CErr e _, CErr e' _ => e = e'
  | CPanic, CPanic => True
  | _, _ => False
  end.

(** The same function, written somewhere else. *)
Definition same_text (f g : sfn) : Prop :=
  sf_name f = sf_name g /\ sf_params f = sf_params g /\ same_trees (sf_body f) (sf_body g) /\ sf_env f = sf_env g.
Definition like : sval -> sval -> Prop := grel same_text.
Definition like_state {D} (s t : sst (D:=D)) : Prop :=
  Forall2 like (ss_store s) (ss_store t) /\
  Forall2 (fun x y => fst x = fst y /\ like (snd x) (snd y)) (ss_globals s) (ss_globals t) /\ ss_data s = ss_data t.
Definition like_out {D A} (R : A -> A -> Prop) (x y : out (D:=D) A) : Prop :=
  match x, y with
  | Got a s, Got b t => R a b /\ like_state s t
  | Returned v s, Returned w t => like v w /\ like_state s t
  | Failed e s, Failed e' t => e = e' /\ like_state s t
  | Unspecified, Unspecified => True
  | More, More => True
  | _, _ => False
  end.

(** A builtin that does not look into functions: what it does depends on their type and
    on the text they print as. *)
Definition blind_fn {D} (f : sbfn (D:=D)) : Prop :=
  forall (R : sfn -> sfn -> Prop) d vs ws opts,
  (forall x y, R x y -> fi_type sfi x = fi_type sfi y /\ fi_text sfi x = fi_text sfi y) ->
  Forall2 (grel R) vs ws ->
  fst (f d vs opts) = fst (f d ws opts) /\ 
  match snd (f d vs opts), snd (f d ws opts) with
  | Ok v, Ok w => grel R v w
  | Err e, Err e' => e = e'
  | Panic, Panic => True
  | _, _ => False
  end.
Definition blind {D} (b : rstring -> option (sbuiltin (D:=D))) : Prop :=
  forall x, match b x with Some (SFn f) => blind_fn f | Some (SContext f _) => blind_fn f | None => True end.

(** Results of two runs: equal, up to where their functions were written. *)
Definition alike_value : value -> value -> Prop :=
  grel (fun f g => fn_name (mfn_function f) = fn_name (mfn_function g) /\ fn_arity (mfn_function f) = fn_arity (mfn_function g)).
Definition alike_globals {D} (s t : vm D) : Prop :=
  v_data s = v_data t /\
  forall x, match global_of s x, global_of t x with Some v, Some w => alike_value v w | None, None => True | _, _ => False end.
