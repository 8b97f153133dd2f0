(** parser/src/node.rs and parser/src/literal.rs: syntax trees. *)
From Verif Require Import Base Float.

(** literal.rs:13-25 *)
Inductive literal :=
| LNone
| LBool (b : bool)
| LInt (z : Z)
| LFloat (f : f64)
| LRange (a b : Z)
| LColor (r g b a : N)
| LString (s : rstring)
| LArray (l : list literal)
| LPair (a b : literal).

(** node.rs:71-80 *)
Inductive op :=
| OAdd | OSub | OMul | ODiv | OMod | OPow | OEq | ONeq | OLt | OGt | OLte | OGte
| OAnd | OOr | ONot | ONeg | OJoin
| OBitwiseAnd | OBitwiseOr | OBitwiseXor | OBitwiseNot | OBitwiseLeftShift | OBitwiseRightShift.

(** common/src/span.rs:11  [Spanned<T> = (T, Span)] *)
Definition spanned (T : Type) := (T * span)%type.

(** node.rs:65-69 *)
Inductive var :=
| VarDecl (name : spanned rstring)
| VarMulti (names : list (spanned rstring)).

(** node.rs:7-63 *)
Inductive node :=
| NLiteral (l : literal)
| NArray (items : list (node * span))
| NPair (a b : node * span)
| NRange (a b : node * span)
| NIdentifier (name : rstring)
| NDeclaration (v : var) (value : node * span)
| NExternal (name : spanned rstring) (value : node * span)
| NAssignment (name : spanned rstring) (value : node * span)
| NFunction (name : spanned rstring) (args : list (spanned rstring)) (body : list (node * span))
| NLambda (args : list (spanned rstring)) (body : list (node * span))
| NBlock (body : list (node * span))
| NConditional (condition : node * span) (then_ : list (node * span))
               (otherwise : option (list (node * span)))
| NSwitch (value : node * span) (cases : list ((node * span) * list (node * span)))
          (default : option (list (node * span)))
| NFor (variable : spanned rstring) (iterable : node * span) (body : list (node * span))
| NMultiFor (variables : list (spanned rstring)) (iterable : node * span) (body : list (node * span))
| NWhile (condition : node * span) (body : list (node * span))
| NBinary (o : op) (a b : node * span)
| NUnary (o : op) (a : node * span)
| NCall (callee : node * span) (args : list (node * span))
| NBuiltinCall (name : spanned rstring) (args : list (node * span))
| NContext (name : spanned rstring) (args : list (node * span)) (variable : option var)
           (body : list (node * span))
| NIndexGet (target index : node * span)
| NInclude (name : spanned rstring) (body : option (list (node * span)))
| NReturn (value : option (node * span)).

Notation nodeS := (node * span)%type.

(** node.rs:88-108 *)
Definition is_statement (n : node) : bool :=
  match n with
  | NDeclaration _ _ | NExternal _ _ | NFunction _ _ _ | NInclude _ _ | NReturn _ => true
  | _ => false
  end.
Definition is_expression (n : node) : bool := negb (is_statement n).
