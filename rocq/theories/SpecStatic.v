(** What the compiler checks before a program runs (C10, C15, C18, C61). *)
From Verif Require Import Base Ast SpecParse.

(** Where a node stands: at the top level, among the statements of some body, or where a
    value is wanted. *)
Inductive place := Top | Nested | Value.

(** The direct parts of a node that stands at [p], and where they stand.  An include stands
    for the statements of the file. *)
Definition parts (p : place) (n : node) : list (place * nodeS) :=
  let value e := (Value, e) in
  let nested e := (Nested, e) in
  match n with
  | NLiteral _ | NIdentifier _ => []
  | NArray l | NBuiltinCall _ l => map value l
  | NPair a b | NRange a b | NBinary _ a b | NIndexGet a b => [value a; value b]
  | NUnary _ a | NDeclaration _ a | NExternal _ a | NAssignment _ a => [value a]
  | NReturn v => opt_list (fun v => [value v]) v
  | NFunction _ _ b | NLambda _ b | NBlock b => map nested b
  | NConditional c t e => value c :: map nested t ++ opt_list (map nested) e
  | NSwitch v cs d =>
      value v :: flat_map (fun c => value (fst c) :: map nested (snd c)) cs ++ opt_list (map nested) d
  | NFor _ i b | NMultiFor _ i b | NWhile i b => value i :: map nested b
  | NCall f a => map value (f :: a)
  | NContext _ a _ b => map value a ++ map nested b
  | NInclude _ b => opt_list (map (pair p)) b
  end.

(** The nodes of a program, at any depth. *)
Inductive placed (ast : list nodeS) : place -> node -> Prop :=
| placed_top n sp : In (n, sp) ast -> placed ast Top n
| placed_part p n q c sp : placed ast p n -> In (q, (c, sp)) (parts p n) -> placed ast q c.

(** The numbers of parts that must fit one byte. *)
Definition counts (n : node) : list nat :=
  match n with
  | NArray l | NCall _ l | NBuiltinCall _ l => [length l]
  | NFunction _ ps _ | NLambda ps _ | NMultiFor ps _ _ | NDeclaration (VarMulti ps) _ => [length ps]
  | NContext _ a (Some (VarMulti ps)) _ => [length a; length ps]
  | NContext _ a _ _ => [length a]
  | _ => []
  end.
(** The error for a node with too many parts. *)
Definition count_error (n : node) : error :=
  match n with
  | NArray _ => ETooManyItems
  | NFunction _ _ _ | NLambda _ _ => ETooManyParams
  | NMultiFor _ _ _ | NDeclaration _ _ => ETooMuchToUnpack
  | _ => ETooManyArgs
  end.

(** The externals a program declares, in order. *)
Fixpoint declares (n : node) : list rstring :=
  match n with
  | NExternal x _ => [fst x]
  | NInclude _ (Some b) =>
      (fix go (l : list nodeS) : list rstring :=
         match l with [] => [] | e :: t => declares (fst e) ++ go t end) b
  | _ => []
  end.
Definition externals_of (ast : list nodeS) : list rstring := flat_map (fun e => declares (fst e)) ast.
