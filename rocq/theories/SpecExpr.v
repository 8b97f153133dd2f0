(** How expressions are written (C67): operators, their levels, parentheses. *)
From Verif Require Import Base Float Ast SpecArith SpecParse.

(** Expressions without their positions in the text. *)
Inductive expr :=
| EName (x : rstring)
| ENumber (z : Z)
| EBinary (o : op) (a b : expr)
| EUnary (o : op) (a : expr)
| ECall (f : expr) (args : list expr)
| EBuiltin (x : rstring) (args : list expr)
| EIndex (a i : expr).

(** Names: letters, digits and underscores, not a digit first; not a keyword. *)
Definition letter (c : N) : Prop := (97 <= c <= 122 \/ 65 <= c <= 90 \/ c = 95)%N.
Definition digit_c (c : N) : Prop := (48 <= c <= 57)%N.
Definition keywords : list rstring :=
  [ str "true"; str "false"; str "none"; str "let"; str "fn"; str "include"; str "with"; str "as"; str "while";
    str "for"; str "in"; str "return"; str "switch"; str "default"; str "case"; str "external"; str "if" ].
Definition is_name (x : rstring) : Prop :=
  match x with
  | c :: t => letter c /\ Forall (fun d => letter d \/ digit_c d) t /\ ~ In x keywords
  | [] => False
  end.

(** The binary operators and their levels: a higher level binds tighter; operators of the
    same level group to the left. *)
Definition binary_text (o : op) : option (rstring * nat) :=
  match o with
  | OAnd => Some (str "&&", 1) | OOr => Some (str "||", 1)
  | OEq => Some (str "==", 2) | ONeq => Some (str "!=", 2) | OGte => Some (str ">=", 2)
  | OLte => Some (str "<=", 2) | OGt => Some (str ">", 2) | OLt => Some (str "<", 2)
  | OBitwiseAnd => Some (str "&", 3) | OBitwiseOr => Some (str "|", 3) | OBitwiseXor => Some (str "^", 3)
  | OBitwiseLeftShift => Some (str "<<", 3) | OBitwiseRightShift => Some (str ">>", 3)
  | OJoin => Some (str "..", 4)
  | OAdd => Some (str "+", 5) | OSub => Some (str "-", 5)
  | OMul => Some (str "*", 6) | ODiv => Some (str "/", 6) | OMod => Some (str "%", 6)
  | OPow => Some (str "**", 7)
  | _ => None
  end.
(** Unary operators bind tighter than all of them (level 8), calls and indices tightest (9). *)
Definition unary_text (o : op) : option rstring :=
  match o with ONot => Some (str "!") | ONeg => Some (str "-") | OBitwiseNot => Some (str "~") | _ => None end.

Definition spaces (g : rstring) : Prop := Forall (fun c => c = 32%N) g.

(** [spelled k e t]: the text [t] is a way to write [e] where something of level [k] or
    higher is wanted.  Parentheses may be put around everything, spaces anywhere between
    the parts; there has to be one on both sides of a binary operator. *)
Inductive spelled : nat -> expr -> rstring -> Prop :=
| sp_name k x : is_name x -> spelled k (EName x) x
| sp_number k z t : numeral 10 t z -> (z < 2 ^ 63)%Z -> spelled k (ENumber z) t
| sp_paren k e t g g' : spelled 0 e t -> spaces g -> spaces g' ->
    spelled k e (str "(" ++ g ++ t ++ g' ++ str ")")
| sp_binary k o w l a b ta tb g g' : binary_text o = Some (w, l) -> k <= l ->
    spelled l a ta -> spelled (S l) b tb -> spaces g -> spaces g' -> g <> [] -> g' <> [] ->
    spelled k (EBinary o a b) (ta ++ g ++ w ++ g' ++ tb)
| sp_unary k o w a t g : unary_text o = Some w -> k <= 8 -> spelled 8 a t -> spaces g ->
    spelled k (EUnary o a) (w ++ g ++ t)
| sp_call k f args t ta : spelled 9 f t -> spelled_args args ta ->
    spelled k (ECall f args) (t ++ str "(" ++ ta ++ str ")")
| sp_builtin k x args ta : is_name x -> spelled_args args ta ->
    spelled k (EBuiltin x args) (str "@" ++ x ++ str "(" ++ ta ++ str ")")
| sp_index k a i ta ti g g' : spelled 9 a ta -> spelled 0 i ti -> spaces g -> spaces g' ->
    spelled k (EIndex a i) (ta ++ str "[" ++ g ++ ti ++ g' ++ str "]")
(** Arguments, with commas between them. *)
with spelled_args : list expr -> rstring -> Prop :=
| sp_none g : spaces g -> spelled_args [] g
| sp_last e t g g' : spelled 0 e t -> spaces g -> spaces g' -> spelled_args [e] (g ++ t ++ g')
| sp_more e e' l t t' g g' : spelled 0 e t -> spelled_args (e' :: l) t' -> spaces g -> spaces g' ->
    spelled_args (e :: e' :: l) (g ++ t ++ g' ++ str "," ++ t').

(** The syntax tree of an expression, whatever the positions in it. *)
Inductive tree_of : expr -> node -> Prop :=
| tr_name x : tree_of (EName x) (NIdentifier x)
| tr_number z : tree_of (ENumber z) (NLiteral (LInt z))
| tr_binary o a b na nb : tree_of a (fst na) -> tree_of b (fst nb) -> tree_of (EBinary o a b) (NBinary o na nb)
| tr_unary o a na : tree_of a (fst na) -> tree_of (EUnary o a) (NUnary o na)
| tr_call f args nf nargs : tree_of f (fst nf) -> trees_of args nargs -> tree_of (ECall f args) (NCall nf nargs)
| tr_builtin x sp args nargs : trees_of args nargs -> tree_of (EBuiltin x args) (NBuiltinCall (x, sp) nargs)
| tr_index a i na ni : tree_of a (fst na) -> tree_of i (fst ni) -> tree_of (EIndex a i) (NIndexGet na ni)
with trees_of : list expr -> list nodeS -> Prop :=
| ts_nil : trees_of [] []
| ts_cons e l n nl : tree_of e (fst n) -> trees_of l nl -> trees_of (e :: l) (n :: nl).
