(** parser/src/parser.rs: the grammar.

    The [peg] crate (0.8.1, not in the repository) turns the grammar into a backtracking
    parser; the combinators below state the documented meaning of its operators: ordered
    choice, greedy repetition without backtracking, lookahead, and precedence climbing for
    [precedence!].  [quiet!] and [expected!] only influence error messages and are dropped:
    a rejected text is [PFail] without the list of expected tokens. *)
From Verif Require Import Base Float NumText Ast.

(** The rest of the text and how many bytes of it were consumed. *)
Definition inp := (nat * rstring)%type.
Inductive pres (A : Type) := PMatch (a : A) (i : inp) | PFail | PFuel.
Arguments PMatch {A} a i.
Arguments PFail {A}.
Arguments PFuel {A}.
Definition P (A : Type) := inp -> pres A.

Definition pret {A} (a : A) : P A := fun i => PMatch a i.
Definition pfail {A} : P A := fun _ => PFail.
Definition pbind {A B} (p : P A) (k : A -> P B) : P B :=
  fun i => match p i with PMatch a i' => k a i' | PFail => PFail | PFuel => PFuel end.
(** [p / q] *)
Definition palt {A} (p q : P A) : P A :=
  fun i => match p i with PFail => q i | r => r end.
(** [p?] *)
Definition popt {A} (p : P A) : P (option A) :=
  fun i => match p i with PMatch a i' => PMatch (Some a) i' | PFail => PMatch None i | PFuel => PFuel end.
(** [!p] *)
Definition pnot {A} (p : P A) : P unit :=
  fun i => match p i with PMatch _ _ => PFail | PFail => PMatch tt i | PFuel => PFuel end.
(** [position!()] *)
Definition ppos : P nat := fun i => PMatch (fst i) i.

Notation "'on' x <- p ; k" := (pbind p (fun x => k))
  (at level 200, x pattern, p at level 100, k at level 200, right associativity).
Notation "p >> k" := (pbind p (fun _ => k)) (at level 61, k at level 200, right associativity).
Notation "p <|> q" := (palt p q) (at level 62, q at level 62, right associativity).

(** One character of a class. *)
Definition pchar (f : N -> bool) : P N :=
  fun i => match snd i with
           | c :: t => if f c then PMatch c (fst i + N.to_nat (utf8_len c), t) else PFail
           | [] => PFail
           end.
Definition is_c (c d : N) : bool := (c =? d)%N.
(** A literal text. *)
Fixpoint plit (s : rstring) : P unit :=
  match s with [] => pret tt | c :: t => pchar (is_c c) >> plit t end.
(** [$(class* )]: the longest run. *)
Fixpoint prun_go (f : N -> bool) (n : nat) (s : rstring) : rstring * inp :=
  match s with
  | c :: t => if f c then let (r, i) := prun_go f (n + N.to_nat (utf8_len c)) t in (c :: r, i)
              else ([], (n, s))
  | [] => ([], (n, s))
  end.
Definition prun (f : N -> bool) : P rstring :=
  fun i => let (r, i') := prun_go f (fst i) (snd i) in PMatch r i'.
(** [$(class+)] *)
Definition prun1 (f : N -> bool) : P rstring :=
  on r <- prun f; match r with [] => pfail | _ => pret r end.

(** [p*].  The bound is never reached by a [p] that consumes input. *)
Fixpoint pstar_go {A} (n : nat) (p : P A) : P (list A) :=
  match n with
  | O => fun _ => PFuel
  | S n' => fun i => match p i with
                     | PMatch a i' =>
                         match pstar_go n' p i' with
                         | PMatch l j => PMatch (a :: l) j
                         | PFail => PFail
                         | PFuel => PFuel
                         end
                     | PFail => PMatch [] i
                     | PFuel => PFuel
                     end
  end.
Definition pstar {A} (p : P A) : P (list A) := fun i => pstar_go (S (length (snd i))) p i.
(** [p ++ sep] and [p ** sep]: a separator is only consumed when an item follows. *)
Definition psep1 {A B} (p : P A) (sep : P B) : P (list A) :=
  on a <- p; on l <- pstar (sep >> p); pret (a :: l).
Definition psep {A B} (p : P A) (sep : P B) : P (list A) :=
  psep1 p sep <|> pret [].

(** ** Lexical rules *)

Definition is_digit (c : N) : bool := ((48 <=? c) && (c <=? 57))%N.
Definition is_lower (c : N) : bool := ((97 <=? c) && (c <=? 122))%N.
Definition is_upper (c : N) : bool := ((65 <=? c) && (c <=? 90))%N.
Definition is_hex (c : N) : bool :=
  is_digit c || ((97 <=? c) && (c <=? 102))%N || ((65 <=? c) && (c <=? 70))%N.
Definition is_start (c : N) : bool := is_lower c || is_upper c || (c =? 95)%N.
Definition is_word (c : N) : bool := is_start c || is_digit c.
Definition any (c : N) : bool := true.

(** parser.rs:15 *)
Definition r_TERM : P unit :=
  (popt (plit [13%N]) >> plit [10%N]) <|> plit (str ";").
(** parser.rs:16 *)
Definition r_COMMENT : P unit :=
  plit (str "//") >> pstar (pnot r_TERM >> pchar any) >> pret tt.
(** parser.rs:17 *)
Definition r_TERMINATOR : P unit := popt r_COMMENT >> r_TERM.
(** parser.rs:18 *)
Definition is_simple_ws (c : N) : bool :=
  ((c =? 32) || (c =? 9) || (c =? 11) || (c =? 12) || (c =? 160))%N.
(** parser.rs:19 *)
Definition r_WHITESPACE : P unit :=
  (pchar is_simple_ws >> pret tt) <|> (plit [92%N] >> r_TERM).
(** parser.rs:21-23 *)
Definition ws_ : P unit := pstar (r_WHITESPACE <|> r_TERMINATOR <|> r_COMMENT) >> pret tt.
Definition ws1 : P unit :=
  let one := r_WHITESPACE <|> r_COMMENT in one >> pstar one >> pret tt.
Definition ws0 : P unit := prun is_simple_ws >> pret tt.

(** parser.rs:25-26 *)
Definition commasep {A} (x : P A) : P (list A) :=
  ws_ >> on v <- psep (ws_ >> on y <- x; ws_ >> pret y) (plit (str ","));
  popt (plit (str ",")) >> ws_ >> pret v.
Definition commasepp {A} (x : P A) : P (list A) :=
  ws_ >> on v <- psep1 (ws_ >> on y <- x; ws_ >> pret y) (plit (str ","));
  popt (plit (str ",")) >> ws_ >> pret v.

(** parser.rs:28 *)
Definition kw (id : rstring) : P unit := plit id >> pnot (pchar is_word).

(** parser.rs:32 *)
Definition reserved : list rstring :=
  [str "true"; str "false"; str "none"; str "let"; str "fn"; str "include"; str "with"; str "as"; str "while"; str "for"; str "in"; str "return"; str "switch"; str "default"; str "case"; str "external"].
(** parser.rs:30-38 *)
Definition r_IDENT : P rstring :=
  on c <- pchar is_start; on t <- prun is_word;
  if existsb (seqb (c :: t)) reserved then pfail else pret (c :: t).

Definition or0 (o : option Z) : Z := match o with Some z => z | None => 0%Z end.
Definition is_bin (c : N) : bool := ((48 <=? c) && (c <=? 49))%N.
Definition is_oct (c : N) : bool := ((48 <=? c) && (c <=? 55))%N.
(** parser.rs:40-45 and 47-52: the same rule for the two widths, given by the conversion. *)
Definition r_int (parse : N -> rstring -> option Z) : P Z :=
  (plit (str "0b") >> on i <- prun1 is_bin; pret (or0 (parse 2%N i)))
  <|> (plit (str "0x") >> on i <- prun1 is_hex; pret (or0 (parse 16%N i)))
  <|> (plit (str "0o") >> on i <- prun1 is_oct; pret (or0 (parse 8%N i)))
  <|> (on s <- popt (plit (str "-")); on i <- prun1 is_digit;
       pret (or0 (parse 10%N (match s with Some _ => 45%N :: i | None => i end)))).
Definition r_INT : P Z := r_int parse_i64.
Definition r_INT32 : P Z := r_int parse_i32.

(** parser.rs:54-56 *)
Definition r_FLOAT (o : oracle) : P f64 :=
  on s <- popt (plit (str "-")); on i <- prun1 is_digit; plit (str ".") >>
  pnot (plit (str ".")) >> on fr <- prun is_digit;
  let t := (match s with Some _ => [45%N] | None => [] end) ++ i ++ [46%N] ++ fr in
  pret (match o_f64_parse o t with Some f => f | None => fzero end).

(** u8::from_str_radix(_, 16) of the standard library. *)
Definition u8_hex (s : rstring) : option N :=
  match parse_int 0 255 16 s with Some z => Some (Z.to_N z) | None => None end.
Definition u8_or (d : N) (s : rstring) : N := match u8_hex s with Some n => n | None => d end.
Fixpoint trim_hash (s : rstring) : rstring :=
  match s with c :: t => if (c =? 35)%N then trim_hash t else s | [] => [] end.
(** parser.rs:300-322.  The only caller passes hex digits, so bytes are characters.
    [r * 17] cannot overflow: one digit is at most 15. *)
Definition hex_to_rgba (text : rstring) : option (N * N * N * N) :=
  let hex := trim_hash text in
  let sub (i j : nat) := firstn (j - i) (skipn i hex) in
  if length hex =? 3 then
    Some (17 * u8_or 0 (sub 0 1)%nat, 17 * u8_or 0 (sub 1 2)%nat, 17 * u8_or 0 (sub 2 3)%nat, 255)%N
  else if (length hex <? 6) || (8 <? length hex) then None
  else Some (u8_or 0 (sub 0 2), u8_or 0 (sub 2 4), u8_or 0 (sub 4 6),
             if length hex =? 8 then u8_or 255 (sub 6 8) else 255%N).

(** parser.rs:58-65 *)
Definition r_HEX : P (N * N * N * N) :=
  plit (str "#") >> on s <- prun1 is_hex;
  match hex_to_rgba s with Some c => pret c | None => pfail end.

(** parser.rs:67-74.  The second alternative of [doubleQuotedCharacter] starts with a
    backslash, so it can only be tried on a quote and never matches. *)
Definition r_STRING : P rstring :=
  plit [34%N] >> on s <- prun (fun c => negb (c =? 34)%N); plit [34%N] >> pret s.

Section Grammar.
Context (o : oracle) (src_id : nat).

(** parser.rs:76-86 *)
Fixpoint r_literal (fuel : nat) : P literal :=
  match fuel with
  | O => fun _ => PFuel
  | S fuel' =>
      (kw (str "true") >> pret (LBool true))
      <|> (kw (str "false") >> pret (LBool false))
      <|> (kw (str "none") >> pret LNone)
      <|> (on h <- r_HEX; let '(r, g, b, a) := h in pret (LColor r g b a))
      <|> (on f <- r_FLOAT o; pret (LFloat f))
      <|> (on s <- r_INT32; ws_ >> plit (str ":") >> ws_ >> on e <- r_INT32; pret (LRange s e))
      <|> (on i <- r_INT; pret (LInt i))
      <|> (on s <- r_STRING; pret (LString s))
      <|> (plit (str "(") >> ws_ >> on h <- r_literal fuel'; ws_ >> plit (str ",") >> ws_ >>
           on t <- r_literal fuel'; ws_ >> plit (str ")") >> pret (LPair h t))
      <|> (plit (str "[") >> ws_ >> on e <- commasep (r_literal fuel'); ws_ >>
           plit (str "]") >> pret (LArray e))
  end.

(** parser.rs:12-13 *)
Definition sp_of {A} (p : P A) : P (A * span) :=
  on s <- ppos; on n <- p; on e <- ppos; pret (n, mkSpan s e src_id).
Definition ident : P (spanned rstring) := sp_of r_IDENT.

(** parser.rs:324-378, the part below the last statement: bodies that are the value of
    the last expression are completed as well. *)
Fixpoint settle (n : node) (sp : span) {struct n} : node :=
  let body := fix body (l : list nodeS) : list nodeS :=
    match l with
    | [] => [(NLiteral LNone, sp)]
    | (x, xs) :: t =>
        match t with
        | [] => match x with
                | NReturn _ => l
                | _ => if is_expression x then [(settle x xs, xs)]
                       else [(x, xs); (NLiteral LNone, xs)]
                end
        | _ :: _ => (x, xs) :: body t
        end
    end in
  match n with
  | NBlock b => NBlock (body b)
  | NConditional c t e => NConditional c (body t) (match e with Some b => Some (body b) | None => None end)
  | NFor v i b => NFor v i (body b)
  | NMultiFor v i b => NMultiFor v i (body b)
  | NWhile c b => NWhile c (body b)
  | NContext f a v b => NContext f a v (body b)
  | _ => n
  end.

(** parser.rs:324-378 *)
Fixpoint add_implicit_none (body : list nodeS) (sp : span) (is_function : bool) : list nodeS :=
  match body with
  | [] => [(if is_function then NReturn None else NLiteral LNone, sp)]
  | (x, xs) :: t =>
      match t with
      | [] =>
          match x with
          | NReturn _ => body
          | _ =>
              if is_expression x then
                [((if is_function then NReturn (Some (settle x xs, xs)) else settle x xs), xs)]
              else [(x, xs); (if is_function then NReturn None else NLiteral LNone, xs)]
          end
      | _ :: _ => (x, xs) :: add_implicit_none t sp is_function
      end
  end.

(** parser.rs:126-140 *)
Definition r_op : P op :=
  (plit (str "+") >> pret OAdd) <|> (plit (str "-") >> pret OSub)
  <|> (plit (str "*") >> pret OMul) <|> (plit (str "/") >> pret ODiv)
  <|> (plit (str "%") >> pret OMod) <|> (plit (str "**") >> pret OPow)
  <|> (plit (str "&&") >> pret OAnd) <|> (plit (str "||") >> pret OOr)
  <|> (plit (str "&") >> pret OBitwiseAnd) <|> (plit (str "|") >> pret OBitwiseOr)
  <|> (plit (str "^") >> pret OBitwiseXor) <|> (plit (str "<<") >> pret OBitwiseLeftShift)
  <|> (plit (str ">>") >> pret OBitwiseRightShift) <|> (plit (str "..") >> pret OJoin).

(** parser.rs:210-250: the infix operators with their level in the table, in the order
    they are tried; [None] is the range operator.  Every one is left associative. *)
Definition infixes : list (nat * (rstring * option op)) :=
  [ (8, (str ":", None));
    (9, (str "&&", Some OAnd)); (9, (str "||", Some OOr));
    (10, (str "==", Some OEq)); (10, (str "!=", Some ONeq)); (10, (str ">=", Some OGte));
    (10, (str "<=", Some OLte)); (10, (str ">", Some OGt)); (10, (str "<", Some OLt));
    (11, (str "&", Some OBitwiseAnd)); (11, (str "|", Some OBitwiseOr));
    (11, (str "^", Some OBitwiseXor)); (11, (str "<<", Some OBitwiseLeftShift));
    (11, (str ">>", Some OBitwiseRightShift)); (11, (str "~", Some OBitwiseNot));
    (12, (str "..", Some OJoin));
    (13, (str "+", Some OAdd)); (13, (str "-", Some OSub));
    (14, (str "*", Some OMul)); (14, (str "/", Some ODiv)); (14, (str "%", Some OMod));
    (15, (str "**", Some OPow)) ].
(** parser.rs:252-254; the operand is at level 17. *)
Definition prefixes : list (rstring * op) :=
  [(str "!", ONot); (str "-", ONeg); (str "~", OBitwiseNot)].

(** Ordered choice over a list. *)
Definition pfirst {A} (l : list (P A)) : P A := fold_right palt pfail l.

Section Rules.
(** The rules that refer to [node] take it as a parameter: [climb k] is [node] entered at
    level [k] of the precedence table. *)
Context (climb : nat -> P nodeS).
Definition r_node : P nodeS := climb 0.

(** parser.rs:283-288 *)
Definition r_block (is_function : bool) : P (list nodeS) :=
  on s <- ppos; plit (str "{") >> ws_ >> on code <- psep r_node (plit (str ";") <|> ws_);
  ws_ >> plit (str "}") >> on e <- ppos;
  pret (add_implicit_none code (mkSpan s e src_id) is_function).

(** parser.rs:88-101 *)
Fixpoint r_if (fuel : nat) : P node :=
  match fuel with
  | O => fun _ => PFuel
  | S fuel' =>
      let elif_ : P (list nodeS) :=
        on s <- ppos; ws_ >> on c <- r_if fuel'; ws_ >> on e <- ppos; pret [(c, mkSpan s e src_id)] in
      let else_ : P (list nodeS) := kw (str "else") >> ws_ >> (r_block false <|> elif_) in
      ws_ >> kw (str "if") >> ws_ >> on c <- r_node; ws_ >> on t <- r_block false; ws_ >>
      on e <- popt else_; ws_ >> pret (NConditional c t e)
  end.

(** parser.rs:103-124 *)
Definition r_case : P (list nodeS * list nodeS) :=
  ws_ >> kw (str "case") >> ws_ >> on v <- psep1 r_node (ws_ >> plit (str ",") >> ws_);
  ws_ >> on c <- r_block false; ws_ >> pret (v, c).
Definition r_default : P (list nodeS) :=
  ws_ >> kw (str "default") >> ws_ >> on c <- r_block false; ws_ >> pret c.
Definition r_switch : P node :=
  ws_ >> kw (str "switch") >> ws_ >> on v <- r_node; ws_ >> plit (str "{") >> ws_ >>
  on cs <- psep r_case ws_; ws_ >> on d <- popt r_default; ws_ >> plit (str "}") >> ws_ >>
  pret (NSwitch v (flat_map (fun vc => map (fun x => (x, snd vc)) (fst vc)) cs) d).

Definition args_ : P (list nodeS) :=
  plit (str "(") >> ws_ >> on a <- commasep r_node; ws_ >> plit (str ")") >> pret a.

(** The sugar of [let x += e] and [x += e] (parser.rs:150-176). *)
Definition with_op (i : spanned rstring) (f : option op) (n : nodeS) : nodeS :=
  match f with
  | Some f => (NBinary f (NIdentifier (fst i), snd i) n, snd n)
  | None => n
  end.

(** parser.rs:145-281: the rules that do not start with an operand, in order.  Those that
    end in one enter the table one level higher. *)
Definition prefix_atoms (fuel : nat) : list (P node) :=
  [ (* 145 *) kw (str "return") >> popt ws1 >> on e <- popt r_node; pret (NReturn e);
    (* 147-149 *)
    kw (str "external") >> ws_ >> on i <- ident; ws_ >> plit (str "=") >> ws_ >>
      on n <- climb 3; pret (NExternal i n);
    (* 150-159 *)
    kw (str "let") >> ws_ >> on i <- ident; ws_ >> on f <- popt r_op; plit (str "=") >> ws_ >>
      on n <- climb 3; pret (NDeclaration (VarDecl i) (with_op i f n));
    (* 160 *)
    kw (str "let") >> ws_ >> on i <- commasepp ident; ws_ >> plit (str "=") >> ws_ >>
      on n <- climb 3; pret (NDeclaration (VarMulti i) n);
    (* 161-170 *)
    on i <- ident; ws_ >> on f <- popt r_op; plit (str "=") >> ws_ >>
      on n <- climb 3; pret (NAssignment i (with_op i f n));
    (* 182-192 *)
    kw (str "fn") >> ws_ >> on name <- popt ident; ws_ >> plit (str "(") >> ws_ >>
      on a <- commasep ident; ws_ >> plit (str ")") >> ws_ >> on b <- r_block true;
      pret (match name with Some n => NFunction n a b | None => NLambda a b end);
    (* 194-195 *)
    r_if fuel;
    r_switch;
    (* 197-202 *)
    kw (str "while") >> ws_ >> on c <- r_node; ws_ >> on b <- r_block false; pret (NWhile c b);
    (* 203-209 *)
    kw (str "for") >> ws_ >> on v <- ident; ws_ >> kw (str "in") >> ws_ >> on i <- r_node; ws_ >>
      on b <- r_block false; pret (NFor v i b);
    (* 210-216 *)
    kw (str "for") >> ws_ >> on v <- commasepp ident; ws_ >> kw (str "in") >> ws_ >>
      on i <- r_node; ws_ >> on b <- r_block false; pret (NMultiFor v i b);
    (* 218-229 *)
    kw (str "with") >> ws_ >> on name <- (plit (str "@") >> ws_ >> ident); ws_ >>
      on a <- args_;
      on v <- popt (ws_ >> kw (str "as") >> ws_ >> commasep ident); ws_ >>
      on b <- r_block false;
      pret (NContext name a (match v with
                             | Some [x] => Some (VarDecl x)
                             | Some l => Some (VarMulti l)
                             | None => None
                             end) b);
    (* 231 *) kw (str "include") >> ws_ >> on s <- sp_of r_STRING; pret (NInclude s None);
    (* 233 *) on s <- r_INT32; ws_ >> plit (str ":") >> ws_ >> on e <- r_INT32;
      pret (NLiteral (LRange s e)) ]
  ++ map (fun x => plit (fst x) >> ws_ >> on e <- climb 17; pret (NUnary (snd x) e)) prefixes
  ++ [ (* 268 *) on l <- r_literal fuel; pret (NLiteral l);
    (* 270 *) plit (str "[") >> ws_ >> on e <- commasep r_node; ws_ >> plit (str "]") >> pret (NArray e);
    (* 271 *) plit (str "(") >> ws_ >> on l <- r_node; ws_ >> plit (str ",") >> ws_ >>
      on r <- r_node; ws_ >> plit (str ")") >> pret (NPair l r);
    (* 272 *) plit (str "(") >> ws_ >> on l <- r_literal fuel; ws_ >> plit (str ",") >> ws_ >>
      on r <- r_literal fuel; ws_ >> plit (str ")") >> pret (NLiteral (LPair l r));
    (* 273 *) plit (str "@") >> on i <- ident; ws0 >> on a <- args_; pret (NBuiltinCall i a);
    (* 277 *) on i <- r_IDENT; pret (NIdentifier i);
    (* 278 *) plit (str "(") >> ws_ >> on e <- r_node; ws_ >> plit (str ")") >> pret (fst e);
    (* 279 *) on b <- r_block false; pret (NBlock b) ].

(** What may follow the operand [lhs]: infix operators at or above [min], a call, an index. *)
Definition posts (min : nat) (lhs : nodeS) : list (P node) :=
  map (fun x => if min <=? fst x then
                  ws_ >> plit (fst (snd x)) >> ws_ >> on y <- climb (S (fst x));
                  pret (match snd (snd x) with Some f => NBinary f lhs y | None => NRange lhs y end)
                else pfail) infixes
  ++ [ (* 275 *) ws0 >> on a <- args_; pret (NCall lhs a);
       (* 276 *) ws_ >> plit (str "[") >> ws_ >> on i <- r_node; ws_ >> plit (str "]") >>
                 pret (NIndexGet lhs i) ].

(** The operator loop of precedence climbing; [start] is where the operand began. *)
Fixpoint post_loop (n : nat) (min start : nat) (lhs : nodeS) : P nodeS :=
  match n with
  | O => fun _ => PFuel
  | S n' => fun i =>
      match pfirst (posts min lhs) i with
      | PMatch x i' => post_loop n' min start (x, mkSpan start (fst i') src_id) i'
      | PFail => PMatch lhs i
      | PFuel => PFuel
      end
  end.
End Rules.

(** parser.rs:142-281 *)
Fixpoint climb (fuel : nat) (min : nat) : P nodeS :=
  match fuel with
  | O => fun _ => PFuel
  | S fuel' => fun i =>
      match pfirst (prefix_atoms (climb fuel') fuel') i with
      | PMatch x i' =>
          post_loop (climb fuel') (S (length (snd i'))) min (fst i)
                    (x, mkSpan (fst i) (fst i') src_id) i'
      | PFail => PFail
      | PFuel => PFuel
      end
  end.

(** parser.rs:290-295 *)
Definition r_code (fuel : nat) : P (list nodeS) :=
  ws_ >> on s <- ppos; on code <- popt (psep (climb fuel 0) (plit (str ";") <|> ws_));
  on e <- ppos; ws_ >>
  pret (add_implicit_none (match code with Some c => c | None => [] end) (mkSpan s e src_id) false).
End Grammar.

(** The whole text has to be consumed. *)
Definition whole {A} (p : P A) (s : rstring) : pres A :=
  match p (0, s) with
  | PMatch a i => match snd i with [] => PMatch a i | _ => PFail end
  | PFail => PFail
  | PFuel => PFuel
  end.

(** parser/src/lib.rs:36-41 and 43-48; the contents of a syntax error are not modelled. *)
Definition parse_literal (o : oracle) (fuel : nat) (s : rstring) : pres literal :=
  whole (r_literal o fuel) s.
Definition parse_code (o : oracle) (fuel : nat) (s : rstring) (src_id : nat) : pres (list nodeS) :=
  whole (r_code o src_id fuel) s.
