(** How programs are written (C86): the whole notation, from white space to statements. *)
From Verif Require Import Base Float Ast SpecArith SpecParse SpecExpr.

(** ** White space *)

Definition blank (c : N) : Prop := In c [32; 9; 11; 12; 160]%N.
Inductive line_end : rstring -> Prop :=
| le_newline : line_end [10%N]
| le_return : line_end [13%N; 10%N]
| le_semicolon : line_end (str ";").
(** Blanks, ends of lines (a semicolon is one), a backslash before the end of a line, comments
    up to the end of a line. *)
Inductive gap : rstring -> Prop :=
| ga_nil : gap []
| ga_blank c g : blank c -> gap g -> gap (c :: g)
| ga_line e g : line_end e -> gap g -> gap (e ++ g)
| ga_continued e g : line_end e -> gap g -> gap (92%N :: e ++ g)
| ga_comment t e g : Forall (fun c => c <> 10 /\ c <> 13 /\ c <> 59)%N t -> line_end e -> gap g ->
    gap (str "//" ++ t ++ e ++ g).

(** ** Programs without their positions in the text *)
Inductive phrase :=
| PName (x : rstring)
| PLit (l : literal)
| PArray (l : list phrase)
| PPair (a b : phrase)
| PRange (a b : phrase)
| PBinary (o : op) (a b : phrase)
| PUnary (o : op) (a : phrase)
| PCall (f : phrase) (args : list phrase)
| PBuiltin (x : rstring) (args : list phrase)
| PIndex (a i : phrase)
| PAssign (x : rstring) (o : option op) (e : phrase)
| PLambda (ps : list rstring) (b : list line)
| PBlock (b : list line)
| PIf (c : phrase) (b : list line) (e : option (list line))
| PSwitch (v : phrase) (cs : list (list phrase * list line)) (d : option (list line))
| PWhile (c : phrase) (b : list line)
| PFor (xs : list rstring) (e : phrase) (b : list line)
| PWith (x : rstring) (args : list phrase) (xs : option (list rstring)) (b : list line)
with line :=
| SValue (e : phrase)
| SLet (x : rstring) (o : option op) (e : phrase)
| SLets (xs : list rstring) (e : phrase)
| SExternal (x : rstring) (e : phrase)
| SFunction (f : rstring) (ps : list rstring) (b : list line)
| SReturn (e : option phrase)
| SInclude (file : rstring).

(** ** Words and literals *)

(** A name is not a keyword; [else] is none of the reserved words but used as one. *)
Definition a_name (x : rstring) : Prop := is_name x /\ x <> str "else".

Definition digits (t : rstring) : Prop := Forall digit_c t.
(** Integers: decimal with or without a sign, hexadecimal, octal, binary. *)
Inductive integer_text : Z -> rstring -> Prop :=
| it_decimal z t : numeral 10 t z -> integer_text z t
| it_negative z t : numeral 10 t z -> integer_text (- z) (str "-" ++ t)
| it_hex t vs : t <> [] -> Forall2 hex_digit t vs ->
    integer_text (digits_value 16 (map Z.of_N vs)) (str "0x" ++ t)
| it_octal z t : numeral 8 t z -> integer_text z (str "0o" ++ t)
| it_binary z t : numeral 2 t z -> integer_text z (str "0b" ++ t).
(** Floats without a sign; there may be no digit behind the point. *)
Definition float_text (t : rstring) : Prop :=
  exists i f, t = i ++ str "." ++ f /\ i <> [] /\ digits i /\ digits f.
(** Colours: three, six or eight hexadecimal digits. *)
Inductive colour_text : literal -> rstring -> Prop :=
| co_3 a b c x y z : hex_digit a x -> hex_digit b y -> hex_digit c z ->
    colour_text (LColor (17 * x) (17 * y) (17 * z) 255) (str "#" ++ [a; b; c])
| co_6 a b c d e f x y z u v w : 
    hex_digit a x -> hex_digit b y -> hex_digit c z -> hex_digit d u -> hex_digit e v -> hex_digit f w ->
    colour_text (LColor (16 * x + y) (16 * z + u) (16 * v + w) 255) (str "#" ++ [a; b; c; d; e; f])
| co_8 a b c d e f g h x y z u v w p q : 
    hex_digit a x -> hex_digit b y -> hex_digit c z -> hex_digit d u -> hex_digit e v -> hex_digit f w ->
    hex_digit g p -> hex_digit h q ->
    colour_text (LColor (16 * x + y) (16 * z + u) (16 * v + w) (16 * p + q)) (str "#" ++ [a; b; c; d; e; f; g; h]).

Section Written.
(** What the standard library reads the text of a float as. *)
Context (pf : rstring -> option f64).

Definition i64_range (z : Z) : Prop := (- 2 ^ 63 <= z < 2 ^ 63)%Z.
Definition i32_range (z : Z) : Prop := (- 2 ^ 31 <= z < 2 ^ 31)%Z.
Inductive literal_text : literal -> rstring -> Prop :=
| lt_true : literal_text (LBool true) (str "true")
| lt_false : literal_text (LBool false) (str "false")
| lt_none : literal_text LNone (str "none")
| lt_integer z t : integer_text z t -> i64_range z -> literal_text (LInt z) t
| lt_float f t : float_text t -> pf t = Some f -> literal_text (LFloat f) t
| lt_negative_float f t : float_text t -> pf (str "-" ++ t) = Some f -> literal_text (LFloat f) (str "-" ++ t)
| lt_range a b ta tb g g' : integer_text a ta -> integer_text b tb -> i32_range a -> i32_range b -> gap g -> gap g' ->
    literal_text (LRange a b) (ta ++ g ++ str ":" ++ g' ++ tb)
| lt_colour l t : colour_text l t -> literal_text l t
(** Texts stand for themselves: there are no escapes and no way to write a quote. *)
| lt_string s : ~ In 34%N s -> literal_text (LString s) ([34%N] ++ s ++ [34%N])
| lt_pair a b ta tb g1 g2 g3 g4 : literal_text a ta -> literal_text b tb -> gap g1 -> gap g2 -> gap g3 -> gap g4 ->
    literal_text (LPair a b) (str "(" ++ g1 ++ ta ++ g2 ++ str "," ++ g3 ++ tb ++ g4 ++ str ")")
| lt_array l t : literals_text l t -> literal_text (LArray l) (str "[" ++ t ++ str "]")
with literals_text : list literal -> rstring -> Prop :=
| ls_none g : gap g -> literals_text [] g
| ls_last l t g g' : literal_text l t -> gap g -> gap g' -> literals_text [l] (g ++ t ++ g')
| ls_more l l' r t t' g g' : literal_text l t -> literals_text (l' :: r) t' -> gap g -> gap g' ->
    literals_text (l :: l' :: r) (g ++ t ++ g' ++ str "," ++ t').

(** Names with commas between them. *)
Inductive names_text : list rstring -> rstring -> Prop :=
| nt_none g : gap g -> names_text [] g
| nt_last x g g' : a_name x -> gap g -> gap g' -> names_text [x] (g ++ x ++ g')
| nt_more x x' l t g g' : a_name x -> names_text (x' :: l) t -> gap g -> gap g' ->
    names_text (x :: x' :: l) (g ++ x ++ g' ++ str "," ++ t).

(** ** Expressions and statements *)

(** The operators that may stand before the sign of an assignment. *)
Definition assign_sign (o : option op) : option rstring :=
  match o with
  | None => Some []
  | Some OAdd => Some (str "+") | Some OSub => Some (str "-") | Some OMul => Some (str "*") | Some ODiv => Some (str "/")
  | Some OMod => Some (str "%") | Some OAnd => Some (str "&&") | Some OOr => Some (str "||")
  | Some OBitwiseAnd => Some (str "&") | Some OBitwiseOr => Some (str "|") | Some OBitwiseXor => Some (str "^")
  | Some OBitwiseLeftShift => Some (str "<<") | Some OBitwiseRightShift => Some (str ">>") | Some OJoin => Some (str "..")
  | _ => None
  end.

Definition starts (P : N -> Prop) (t : rstring) : Prop := match t with c :: _ => P c | [] => False end.
Definition some (g : rstring) : Prop := gap g /\ g <> [].
(** What stands behind a binary operator: a space, a tab or a new line, and more. *)
Definition spaced (g : rstring) : Prop := exists c r, g = c :: r /\ In c [32; 9; 10]%N /\ gap r.
(** Is the last thing that is written an integer? *)
Fixpoint number_last (e : phrase) : bool :=
  match e with
  | PLit (LInt _) => true
  | PBinary _ _ b | PRange _ b => number_last b
  | PUnary _ a => number_last a
  | PAssign _ _ e => number_last e
  | _ => false
  end.
(** What separates statements: one semicolon, or white space that does not start with one. *)
Definition separator (g : rstring) : Prop := g = str ";" \/ (some g /\ ~ starts (fun c => c = 59%N) g).
(** How a statement that follows another one may start: not with something that goes on. *)
Definition new_line (t : rstring) : Prop := starts (fun c => letter c \/ digit_c c \/ In c (str "#@{" ++ [34%N])) t.
Definition word_ends (t : rstring) : Prop := match t with c :: _ => ~ (letter c \/ digit_c c) | [] => True end.

Inductive spelled : nat -> phrase -> rstring -> Prop :=
| sp_name k x : a_name x -> spelled k (PName x) x
| sp_literal k l t : literal_text l t -> (starts (fun c => c = 45%N) t -> exists a b, l = LRange a b) ->
    spelled k (PLit l) t
| sp_array k l t : spelled_args l t -> ~ (exists ls, literals_text ls t) -> spelled k (PArray l) (str "[" ++ t ++ str "]")
| sp_pair k a b ta tb g1 g2 g3 g4 : spelled 0 a ta -> spelled 0 b tb -> gap g1 -> gap g2 -> gap g3 -> gap g4 ->
    ~ ((exists l, literal_text l ta) /\ (exists l, literal_text l tb)) ->
    spelled k (PPair a b) (str "(" ++ g1 ++ ta ++ g2 ++ str "," ++ g3 ++ tb ++ g4 ++ str ")")
| sp_paren k e t g g' : spelled 0 e t -> gap g -> gap g' -> spelled k e (str "(" ++ g ++ t ++ g' ++ str ")")
(** An integer and a colon and an integer are a literal, whatever stands before.  An assignment
    before a colon needs parentheses; a range does not. *)
| sp_range j a b ta tb g g' : (j = 1 \/ (j = 0 /\ exists x y, a = PRange x y)) ->
    spelled j a ta -> spelled 1 b tb -> some g -> spaced g' ->
    (number_last a = true -> ~ starts (fun c => digit_c c \/ c = 45%N) tb) ->
    spelled 0 (PRange a b) (ta ++ g ++ str ":" ++ g' ++ tb)
| sp_binary k o w l a b ta tb g g' : binary_text o = Some (w, l) -> k <= l ->
    spelled l a ta -> spelled (S l) b tb -> some g -> spaced g' ->
    spelled k (PBinary o a b) (ta ++ g ++ w ++ g' ++ tb)
| sp_unary k o w a t g : unary_text o = Some w -> k <= 8 -> spelled 8 a t -> gap g ->
    (o = ONeg -> g = [] -> ~ starts digit_c t) -> spelled k (PUnary o a) (w ++ g ++ t)
| sp_negative k l t : k <= 8 -> literal_text l t ->
    (float_text t /\ pf (str "-" ++ t) <> None) \/ (exists z, l = LInt z /\ numeral 10 t z) ->
    spelled k (PUnary ONeg (PLit l)) (str "-" ++ t)
| sp_call k f args t ta : spelled 9 f t -> spelled_args args ta ->
    spelled k (PCall f args) (t ++ str "(" ++ ta ++ str ")")
| sp_builtin k x args ta : a_name x -> spelled_args args ta ->
    spelled k (PBuiltin x args) (str "@" ++ x ++ str "(" ++ ta ++ str ")")
| sp_index k a i ta ti g g' : spelled 9 a ta -> spelled 0 i ti -> gap g -> gap g' ->
    spelled k (PIndex a i) (ta ++ str "[" ++ g ++ ti ++ g' ++ str "]")
| sp_assign x o w e t g g' : a_name x -> assign_sign o = Some w -> spelled 0 e t -> gap g -> gap g' ->
    spelled 0 (PAssign x o e) (x ++ g ++ w ++ str "=" ++ g' ++ t)
| sp_lambda k ps b tp tb g g' : names_text ps tp -> spelled_body b tb -> gap g -> gap g' ->
    spelled k (PLambda ps b) (str "fn" ++ g ++ str "(" ++ tp ++ str ")" ++ g' ++ str "{" ++ tb ++ str "}")
| sp_block k b tb : spelled_body b tb -> spelled k (PBlock b) (str "{" ++ tb ++ str "}")
| sp_if k e t : spelled_if e t -> spelled k e t
| sp_switch k v cs d tv tc td g g' : spelled 0 v tv -> spelled_cases cs tc -> spelled_default d td -> some g -> gap g' ->
    spelled k (PSwitch v cs d) (str "switch" ++ g ++ tv ++ g' ++ str "{" ++ tc ++ td ++ str "}")
| sp_while k c b tc tb g g' : spelled 0 c tc -> spelled_body b tb -> some g -> gap g' ->
    spelled k (PWhile c b) (str "while" ++ g ++ tc ++ g' ++ str "{" ++ tb ++ str "}")
| sp_for k xs e b tx te tb g1 g2 g3 : xs <> [] -> names_text xs tx -> word_ends tx -> spelled 0 e te -> spelled_body b tb ->
    some g1 -> some g2 -> gap g3 ->
    spelled k (PFor xs e b) (str "for" ++ tx ++ g1 ++ str "in" ++ g2 ++ te ++ g3 ++ str "{" ++ tb ++ str "}")
| sp_with k x args xs b ta tx tb g1 g2 g3 g4 : a_name x -> spelled_args args ta -> spelled_as xs tx -> spelled_body b tb ->
    gap g1 -> gap g2 -> gap g3 -> gap g4 ->
    spelled k (PWith x args xs b)
      (str "with" ++ g1 ++ str "@" ++ g2 ++ x ++ g3 ++ str "(" ++ ta ++ str ")" ++ tx ++ g4 ++ str "{" ++ tb ++ str "}")
(** Arguments, elements and the values of a case, with commas between them. *)
with spelled_args : list phrase -> rstring -> Prop :=
| sa_none g : gap g -> spelled_args [] g
| sa_last e t g g' : spelled 0 e t -> gap g -> gap g' -> spelled_args [e] (g ++ t ++ g')
| sa_more e e' l t t' g g' : spelled 0 e t -> spelled_args (e' :: l) t' -> gap g -> gap g' ->
    spelled_args (e :: e' :: l) (g ++ t ++ g' ++ str "," ++ t')
with spelled_if : phrase -> rstring -> Prop :=
| si_if c b e tc tb te g g' : spelled 0 c tc -> spelled_body b tb -> spelled_else e te -> some g -> gap g' ->
    spelled_if (PIf c b e) (str "if" ++ g ++ tc ++ g' ++ str "{" ++ tb ++ str "}" ++ te)
with spelled_else : option (list line) -> rstring -> Prop :=
| se_none : spelled_else None []
| se_else b tb g g' : spelled_body b tb -> gap g -> gap g' ->
    spelled_else (Some b) (g ++ str "else" ++ g' ++ str "{" ++ tb ++ str "}")
| se_if e t g g' : spelled_if e t -> gap g -> some g' -> spelled_else (Some [SValue e]) (g ++ str "else" ++ g' ++ t)
with spelled_cases : list (list phrase * list line) -> rstring -> Prop :=
| sc_none g : gap g -> spelled_cases [] g
| sc_case vs b cs tv tb tc g : vs <> [] -> spelled_args vs tv -> word_ends tv -> spelled_body b tb -> spelled_cases cs tc -> gap g ->
    spelled_cases ((vs, b) :: cs) (g ++ str "case" ++ tv ++ str "{" ++ tb ++ str "}" ++ tc)
with spelled_default : option (list line) -> rstring -> Prop :=
| sd_none : spelled_default None []
| sd_default b tb g g' : spelled_body b tb -> gap g -> gap g' ->
    spelled_default (Some b) (str "default" ++ g ++ str "{" ++ tb ++ str "}" ++ g')
with spelled_as : option (list rstring) -> rstring -> Prop :=
| sx_none : spelled_as None []
| sx_as xs tx g : xs <> [] -> names_text xs tx -> word_ends tx -> gap g -> spelled_as (Some xs) (g ++ str "as" ++ tx)
with spelled_line : line -> rstring -> Prop :=
| sl_value e t : spelled 0 e t -> spelled_line (SValue e) t
| sl_let x o w e t g1 g2 g3 : a_name x -> assign_sign o = Some w -> spelled 0 e t -> some g1 -> gap g2 -> gap g3 ->
    spelled_line (SLet x o e) (str "let" ++ g1 ++ x ++ g2 ++ w ++ str "=" ++ g3 ++ t)
| sl_lets xs e tx t g : 2 <= length xs -> names_text xs tx -> word_ends tx -> spelled 0 e t -> gap g ->
    spelled_line (SLets xs e) (str "let" ++ tx ++ str "=" ++ g ++ t)
| sl_external x e t g1 g2 g3 : a_name x -> spelled 0 e t -> some g1 -> gap g2 -> gap g3 ->
    spelled_line (SExternal x e) (str "external" ++ g1 ++ x ++ g2 ++ str "=" ++ g3 ++ t)
| sl_function f ps b tp tb g1 g2 g3 : a_name f -> names_text ps tp -> spelled_body b tb -> some g1 -> gap g2 -> gap g3 ->
    spelled_line (SFunction f ps b)
      (str "fn" ++ g1 ++ f ++ g2 ++ str "(" ++ tp ++ str ")" ++ g3 ++ str "{" ++ tb ++ str "}")
| sl_return e t g : spelled 0 e t -> Forall blank g -> g <> [] -> spelled_line (SReturn (Some e)) (str "return" ++ g ++ t)
| sl_stop : spelled_line (SReturn None) (str "return")
| sl_include s g : ~ In 34%N s -> gap g -> spelled_line (SInclude s) (str "include" ++ g ++ [34%N] ++ s ++ [34%N])
(** Statements; only the last one may be a bare [return]. *)
with spelled_lines : list line -> rstring -> Prop :=
| so_last s t g : spelled_line s t -> gap g -> spelled_lines [s] (t ++ g)
| so_more s s' l t t' g : s <> SReturn None -> spelled_line s t -> separator g -> new_line t' -> spelled_lines (s' :: l) t' ->
    spelled_lines (s :: s' :: l) (t ++ g ++ t')
with spelled_body : list line -> rstring -> Prop :=
| sb_none g : gap g -> spelled_body [] g
| sb_lines g l t : gap g -> spelled_lines l t -> spelled_body l (g ++ t).
End Written.

(** ** The syntax tree of a program, whatever the positions in it *)

Definition named (xs : list rstring) (l : list (spanned rstring)) : Prop := map fst l = xs.
(** [x += e] is short for [x = x + e]. *)
Inductive combined (x : rstring) (n : node) : option op -> node -> Prop :=
| cb_plain : combined x n None n
| cb_op o sp sp' : combined x n (Some o) (NBinary o (NIdentifier x, sp) (n, sp')).

Inductive tree_of : phrase -> node -> Prop :=
| tr_name x : tree_of (PName x) (NIdentifier x)
| tr_literal l : tree_of (PLit l) (NLiteral l)
| tr_array l nl : trees_of l nl -> tree_of (PArray l) (NArray nl)
| tr_pair a b na nb : tree_of a (fst na) -> tree_of b (fst nb) -> tree_of (PPair a b) (NPair na nb)
| tr_range a b na nb : tree_of a (fst na) -> tree_of b (fst nb) -> tree_of (PRange a b) (NRange na nb)
| tr_binary o a b na nb : tree_of a (fst na) -> tree_of b (fst nb) -> tree_of (PBinary o a b) (NBinary o na nb)
| tr_unary o a na : tree_of a (fst na) -> tree_of (PUnary o a) (NUnary o na)
| tr_call f args nf nargs : tree_of f (fst nf) -> trees_of args nargs -> tree_of (PCall f args) (NCall nf nargs)
| tr_builtin x sp args nargs : trees_of args nargs -> tree_of (PBuiltin x args) (NBuiltinCall (x, sp) nargs)
| tr_index a i na ni : tree_of a (fst na) -> tree_of i (fst ni) -> tree_of (PIndex a i) (NIndexGet na ni)
| tr_assign x sp o e n v : tree_of e n -> combined x n o (fst v) -> tree_of (PAssign x o e) (NAssignment (x, sp) v)
| tr_lambda ps b nps nb : named ps nps -> body_tree true b nb -> tree_of (PLambda ps b) (NLambda nps nb)
| tr_block b nb : body_tree false b nb -> tree_of (PBlock b) (NBlock nb)
| tr_if c b nc nb : tree_of c (fst nc) -> body_tree false b nb -> tree_of (PIf c b None) (NConditional nc nb None)
| tr_if_else c b e nc nb ne : tree_of c (fst nc) -> body_tree false b nb -> body_tree false e ne ->
    tree_of (PIf c b (Some e)) (NConditional nc nb (Some ne))
| tr_switch v cs nv ncs : tree_of v (fst nv) -> cases_tree cs ncs -> tree_of (PSwitch v cs None) (NSwitch nv ncs None)
| tr_switch_default v cs d nv ncs nd : tree_of v (fst nv) -> cases_tree cs ncs -> body_tree false d nd ->
    tree_of (PSwitch v cs (Some d)) (NSwitch nv ncs (Some nd))
| tr_while c b nc nb : tree_of c (fst nc) -> body_tree false b nb -> tree_of (PWhile c b) (NWhile nc nb)
| tr_for x sp e b ne nb : tree_of e (fst ne) -> body_tree false b nb -> tree_of (PFor [x] e b) (NFor (x, sp) ne nb)
| tr_for_many xs nxs e b ne nb : 2 <= length xs -> named xs nxs -> tree_of e (fst ne) -> body_tree false b nb ->
    tree_of (PFor xs e b) (NMultiFor nxs ne nb)
| tr_with x sp args b nargs nb : trees_of args nargs -> body_tree false b nb ->
    tree_of (PWith x args None b) (NContext (x, sp) nargs None nb)
| tr_with_as x sp args y sp' b nargs nb : trees_of args nargs -> body_tree false b nb ->
    tree_of (PWith x args (Some [y]) b) (NContext (x, sp) nargs (Some (VarDecl (y, sp'))) nb)
| tr_with_many x sp args ys nys b nargs nb : 2 <= length ys -> named ys nys -> trees_of args nargs -> body_tree false b nb ->
    tree_of (PWith x args (Some ys) b) (NContext (x, sp) nargs (Some (VarMulti nys)) nb)
with trees_of : list phrase -> list nodeS -> Prop :=
| ts_nil : trees_of [] []
| ts_cons e l n nl : tree_of e (fst n) -> trees_of l nl -> trees_of (e :: l) (n :: nl)
(** Every value of a case stands for itself, with the body of the case. *)
with cases_tree : list (list phrase * list line) -> list (nodeS * list nodeS) -> Prop :=
| ct_nil : cases_tree [] []
| ct_cons vs b cs nvs nb ncs : trees_of vs nvs -> body_tree false b nb -> cases_tree cs ncs ->
    cases_tree ((vs, b) :: cs) (map (fun v => (v, nb)) nvs ++ ncs)
with line_tree : line -> node -> Prop :=
| lr_value e n : tree_of e n -> line_tree (SValue e) n
| lr_let x sp o e n v : tree_of e n -> combined x n o (fst v) -> line_tree (SLet x o e) (NDeclaration (VarDecl (x, sp)) v)
| lr_lets xs nxs e n : named xs nxs -> tree_of e (fst n) -> line_tree (SLets xs e) (NDeclaration (VarMulti nxs) n)
| lr_external x sp e n : tree_of e (fst n) -> line_tree (SExternal x e) (NExternal (x, sp) n)
| lr_function f sp ps nps b nb : named ps nps -> body_tree true b nb -> line_tree (SFunction f ps b) (NFunction (f, sp) nps nb)
| lr_return e n : tree_of e (fst n) -> line_tree (SReturn (Some e)) (NReturn (Some n))
| lr_stop : line_tree (SReturn None) (NReturn None)
| lr_include s sp : line_tree (SInclude s) (NInclude (s, sp) None)
(** A body: the value of the last expression is its result, returned from a function; where
    there is none, nothing is the result. *)
with body_tree : bool -> list line -> list nodeS -> Prop :=
| bt_empty f sp : body_tree f [] [(nothing f, sp)]
| bt_value (f : bool) e n sp : tree_of e n -> body_tree f [SValue e] [(if f then NReturn (Some (n, sp)) else n, sp)]
| bt_return f e n : line_tree (SReturn e) (fst n) -> body_tree f [SReturn e] [n]
| bt_statement f s n sp : line_tree s n -> no_value n -> body_tree f [s] [(n, sp); (nothing f, sp)]
| bt_more f s s' l n nl : line_tree s (fst n) -> body_tree f (s' :: l) nl -> body_tree f (s :: s' :: l) (n :: nl).
