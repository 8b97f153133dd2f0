(** Specifications for the parser properties (C40-C42). *)
From Verif Require Import Base Float Ast SpecArith.

(** ** Bodies (C40) *)

(** Statements that leave no value behind. *)
Definition no_value (n : node) : Prop :=
  match n with
  | NDeclaration _ _ | NExternal _ _ | NFunction _ _ _ | NInclude _ _ => True
  | _ => False
  end.

(** A body ends in an expression or a return; the body of a function in a return. *)
Definition good_body (is_function : bool) (b : list nodeS) : Prop :=
  exists before n sp, b = before ++ [(n, sp)] /\
    if is_function then exists v, n = NReturn v else ~ no_value n.

(** The bodies directly inside a node; [true] marks function bodies. *)
Definition opt_list {A B} (f : A -> list B) (o : option A) : list B :=
  match o with Some a => f a | None => [] end.
Definition bodies (n : node) : list (bool * list nodeS) :=
  match n with
  | NFunction _ _ b | NLambda _ b => [(true, b)]
  | NBlock b | NFor _ _ b | NMultiFor _ _ b | NWhile _ b | NContext _ _ _ b => [(false, b)]
  | NConditional _ t e => (false, t) :: opt_list (fun b => [(false, b)]) e
  | NSwitch _ cs d => map (fun c => (false, snd c)) cs ++ opt_list (fun b => [(false, b)]) d
  | NInclude _ b => opt_list (fun b => [(false, b)]) b
  | _ => []
  end.

(** The nodes directly inside a node. *)
Definition children (n : node) : list nodeS :=
  match n with
  | NLiteral _ | NIdentifier _ => []
  | NArray l => l
  | NPair a b | NRange a b | NBinary _ a b | NIndexGet a b => [a; b]
  | NDeclaration _ v | NExternal _ v | NAssignment _ v | NUnary _ v => [v]
  | NFunction _ _ b | NLambda _ b | NBlock b => b
  | NConditional c t e => c :: t ++ opt_list (fun b => b) e
  | NSwitch v cs d => v :: flat_map (fun c => fst c :: snd c) cs ++ opt_list (fun b => b) d
  | NFor _ i b | NMultiFor _ i b | NWhile i b => i :: b
  | NCall f a => f :: a
  | NBuiltinCall _ a => a
  | NContext _ a _ b => a ++ b
  | NInclude _ b => opt_list (fun b => b) b
  | NReturn v => opt_list (fun v => [v]) v
  end.

(** A node at any depth. *)
Inductive inside : node -> node -> Prop :=
| inside_self n : inside n n
| inside_child n c sp d : In (c, sp) (children n) -> inside d c -> inside d n.

(** Every body in the tree is good. *)
Definition complete (n : node) : Prop :=
  forall d is_function b, inside d n -> In (is_function, b) (bodies d) -> good_body is_function b.
Definition complete_all (l : list nodeS) : Prop := forall n sp, In (n, sp) l -> complete n.

(** What is put where nothing is returned. *)
Definition nothing (is_function : bool) : node :=
  if is_function then NReturn None else NLiteral LNone.

(** [finished f sp written b]: the body [b] is what was written, with its last expression
    returned if it is a function body, and with nothing more added than a missing value. *)
Inductive finished (is_function : bool) (sp : span) : list nodeS -> list nodeS -> Prop :=
| fi_empty : finished is_function sp [] [(nothing is_function, sp)]
| fi_return l v sp' :
    finished is_function sp (l ++ [(NReturn v, sp')]) (l ++ [(NReturn v, sp')])
| fi_statement l n sp' : no_value n ->
    finished is_function sp (l ++ [(n, sp')]) (l ++ [(n, sp'); (nothing is_function, sp')])
| fi_value l n sp' : ~ no_value n -> (forall v, n <> NReturn v) ->
    finished is_function sp (l ++ [(n, sp')])
      (l ++ [(if is_function then NReturn (Some (n, sp')) else n, sp')]).

(** ** Hex digits (C41) *)
Definition hex_digit (c : N) (v : N) : Prop :=
  exists k, (k < 16)%nat /\ v = N.of_nat k /\
    (c = nth k (str "0123456789abcdef") 0%N \/ c = nth k (str "0123456789ABCDEF") 0%N).

(** ** Decimal numerals (C42): leading zeros allowed. *)
Definition numeral (radix : Z) (text : rstring) (n : Z) : Prop :=
  exists ds, ds <> [] /\ Forall (fun d => 0 <= d < radix)%Z ds /\
             text = map digit_text ds /\ digits_value radix ds = n.
