(** The size of a syntax tree, counted in the table entries its code can need: the
    hypothesis "the program is small enough" of the theorems about compiled programs. *)
From Verif Require Import Base Float Ast.

Definition var_weight (v : var) : nat :=
  match v with VarDecl _ => 2 | VarMulti xs => length xs end.

Fixpoint weight (n : node) : nat :=
  let one (e : nodeS) := weight (fst e) in
  let many := fold_right (fun e a => weight (fst e) + a) 0 in
  let opt (o : option (list nodeS)) := match o with Some l => many l | None => 0 end in
  match n with
  | NLiteral _ => 1
  | NArray l => many l
  | NPair a b | NRange a b => one a + one b
  | NIdentifier _ => 1
  | NDeclaration v e => one e + var_weight v
  | NExternal _ e => one e + 1
  | NAssignment _ e => one e + 1
  | NFunction _ args b => length args + many b + 4
  | NLambda args b => length args + many b + 2
  | NBlock b => many b
  | NConditional c t o => one c + many t + opt o
  | NSwitch v cs d =>
      one v + fold_right (fun cb a => weight (fst (fst cb)) + fold_right (fun e a => weight (fst e) + a) 0 (snd cb) + a) 0 cs
      + opt d
  | NFor _ i b => one i + many b + 3
  | NMultiFor xs i b => one i + many b + length xs + 2
  | NWhile c b => one c + many b
  | NBinary _ a b => one a + one b
  | NUnary _ a => one a + 1
  | NCall f args => one f + many args
  | NBuiltinCall _ args => many args + 1
  | NContext _ args v b => many args + many b + 1 + match v with Some v => var_weight v | None => 0 end
  | NIndexGet t i => one i + one t
  | NInclude _ b => opt b
  | NReturn e => match e with Some v => one v | None => 0 end
  end.
Definition weights (l : list nodeS) : nat := fold_right (fun e a => weight (fst e) + a) 0 l.
Definition case_weights (l : list (nodeS * list nodeS)) : nat :=
  fold_right (fun cb a => weight (fst (fst cb)) + weights (snd cb) + a) 0 l.
Definition opt_weights (o : option (list nodeS)) : nat := match o with Some l => weights l | None => 0 end.

Definition weight1 (n : node) : nat :=
  match n with
  | NLiteral _ => 1
  | NArray l => weights l
  | NPair a b | NRange a b => weight (fst a) + weight (fst b)
  | NIdentifier _ => 1
  | NDeclaration v e => weight (fst e) + var_weight v
  | NExternal _ e => weight (fst e) + 1
  | NAssignment _ e => weight (fst e) + 1
  | NFunction _ args b => length args + weights b + 4
  | NLambda args b => length args + weights b + 2
  | NBlock b => weights b
  | NConditional c t o => weight (fst c) + weights t + opt_weights o
  | NSwitch v cs d => weight (fst v) + case_weights cs + opt_weights d
  | NFor _ i b => weight (fst i) + weights b + 3
  | NMultiFor xs i b => weight (fst i) + weights b + length xs + 2
  | NWhile c b => weight (fst c) + weights b
  | NBinary _ a b => weight (fst a) + weight (fst b)
  | NUnary _ a => weight (fst a) + 1
  | NCall f args => weight (fst f) + weights args
  | NBuiltinCall _ args => weights args + 1
  | NContext _ args v b => weights args + weights b + 1 + match v with Some v => var_weight v | None => 0 end
  | NIndexGet t i => weight (fst i) + weight (fst t)
  | NInclude _ b => opt_weights b
  | NReturn e => match e with Some v => weight (fst v) | None => 0 end
  end.
Lemma weight_eq n : weight n = weight1 n.
Proof. destruct n; reflexivity. Qed.
