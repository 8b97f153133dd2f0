(** Induction over syntax trees, and facts about the global names of a compiled script. *)
From Verif Require Import Base RleVec Pool SpecContainers ProofContainers Vecc Float Bytecode Chunk
  Value Ast Compiler.

(** ** Induction over syntax trees *)
Section NodeInd.
Variable P : node -> Prop.
Let PS (e : nodeS) : Prop := P (fst e).
Let PL (l : list nodeS) : Prop := Forall PS l.
Let PO (o : option (list nodeS)) : Prop := match o with Some l => PL l | None => True end.
Hypothesis h_literal : forall l, P (NLiteral l).
Hypothesis h_array : forall l, PL l -> P (NArray l).
Hypothesis h_pair : forall a b, PS a -> PS b -> P (NPair a b).
Hypothesis h_range : forall a b, PS a -> PS b -> P (NRange a b).
Hypothesis h_ident : forall x, P (NIdentifier x).
Hypothesis h_decl : forall v e, PS e -> P (NDeclaration v e).
Hypothesis h_ext : forall x e, PS e -> P (NExternal x e).
Hypothesis h_assign : forall x e, PS e -> P (NAssignment x e).
Hypothesis h_function : forall x a b, PL b -> P (NFunction x a b).
Hypothesis h_lambda : forall a b, PL b -> P (NLambda a b).
Hypothesis h_block : forall b, PL b -> P (NBlock b).
Hypothesis h_cond : forall c t o, PS c -> PL t -> PO o -> P (NConditional c t o).
Hypothesis h_switch : forall v cs d, PS v -> Forall (fun cb => PS (fst cb) /\ PL (snd cb)) cs -> PO d ->
  P (NSwitch v cs d).
Hypothesis h_for : forall x i b, PS i -> PL b -> P (NFor x i b).
Hypothesis h_mfor : forall x i b, PS i -> PL b -> P (NMultiFor x i b).
Hypothesis h_while : forall c b, PS c -> PL b -> P (NWhile c b).
Hypothesis h_binary : forall o a b, PS a -> PS b -> P (NBinary o a b).
Hypothesis h_unary : forall o a, PS a -> P (NUnary o a).
Hypothesis h_call : forall f a, PS f -> PL a -> P (NCall f a).
Hypothesis h_builtin : forall x a, PL a -> P (NBuiltinCall x a).
Hypothesis h_context : forall x a v b, PL a -> PL b -> P (NContext x a v b).
Hypothesis h_index : forall t i, PS t -> PS i -> P (NIndexGet t i).
Hypothesis h_include : forall x b, PO b -> P (NInclude x b).
Hypothesis h_return : forall e, match e with Some v => PS v | None => True end -> P (NReturn e).

Fixpoint node_ind' (n : node) : P n :=
  let one (e : nodeS) : PS e := node_ind' (fst e) in
  let many := (fix many (l : list nodeS) : PL l :=
    match l with
    | [] => Forall_nil _
    | e :: t => Forall_cons e (node_ind' (fst e) : PS e) (many t)
    end) in
  let opt (o : option (list nodeS)) : PO o :=
    match o with Some l => many l | None => Logic.I end in
  let cases := (fix cases (l : list (nodeS * list nodeS)) : Forall (fun cb => PS (fst cb) /\ PL (snd cb)) l :=
    match l with
    | [] => Forall_nil _
    | cb :: t => Forall_cons cb (conj (node_ind' (fst (fst cb)) : PS (fst cb)) (many (snd cb))) (cases t)
    end) in
  match n with
  | NLiteral l => h_literal l
  | NArray l => h_array l (many l)
  | NPair a b => h_pair a b (one a) (one b)
  | NRange a b => h_range a b (one a) (one b)
  | NIdentifier x => h_ident x
  | NDeclaration v e => h_decl v e (one e)
  | NExternal x e => h_ext x e (one e)
  | NAssignment x e => h_assign x e (one e)
  | NFunction x a b => h_function x a b (many b)
  | NLambda a b => h_lambda a b (many b)
  | NBlock b => h_block b (many b)
  | NConditional c t o => h_cond c t o (one c) (many t) (opt o)
  | NSwitch v cs d => h_switch v cs d (one v) (cases cs) (opt d)
  | NFor x i b => h_for x i b (one i) (many b)
  | NMultiFor x i b => h_mfor x i b (one i) (many b)
  | NWhile c b => h_while c b (one c) (many b)
  | NBinary o a b => h_binary o a b (one a) (one b)
  | NUnary o a => h_unary o a (one a)
  | NCall f a => h_call f a (one f) (many a)
  | NBuiltinCall x a => h_builtin x a (many a)
  | NContext x a v b => h_context x a v b (many a) (many b)
  | NIndexGet t i => h_index t i (one t) (one i)
  | NInclude x b => h_include x b (opt b)
  | NReturn e => h_return e (match e with Some v => node_ind' (fst v) | None => Logic.I end)
  end.
End NodeInd.

(** ** A property of the compiler state that does not look at levels *)
Section Pres.
Context (m : mode) (Pg : pool rstring -> list N -> Prop).
Definition pres {A} (x : M A) : Prop :=
  forall c, Pg (c_globals c) (c_externals c) -> Pg (c_globals (snd (x c))) (c_externals (snd (x c))).
Hypothesis H_sym : forall s, pres (add_global_symbol s).
Hypothesis H_ext : forall x sp, pres (do off <- add_global_symbol (fst x); add_external off (fst x) (snd x) ;; write_op_u16 op_DefineGlobalDefaulted off sp).

Lemma pres_ret {A} (a : A) : pres (ret a). Proof. intros c H; exact H. Qed.
Lemma pres_fail {A} er sp : pres (fail er sp : M A). Proof. intros c H; exact H. Qed.
Lemma pres_crash {A} : pres (crash : M A). Proof. intros c H; exact H. Qed.
Lemma pres_bind {A B} (x : M A) (k : A -> M B) : pres x -> (forall a, pres (k a)) -> pres (bind x k).
Proof.
  intros Hx Hk c H. unfold bind. specialize (Hx c H). destruct (x c) as [[a|er sp|] c']; cbn in *; auto.
  apply Hk; auto.
Qed.
Lemma pres_get : pres get_level. Proof. intros c H; exact H. Qed.
Lemma pres_set l : pres (set_level l). Proof. intros c H; exact H. Qed.
Lemma pres_enter l : pres (enter_level l). Proof. intros c H; exact H. Qed.
Lemma pres_exit : pres exit_level.
Proof. intros c H. unfold exit_level. destruct (c_enclosing c); exact H. Qed.
Lemma pres_up x : pres (resolve_upvalue_m x).
Proof. intros c H. unfold resolve_upvalue_m. destruct (resolve_upvalue _ _ _) as [[l ps] r]. exact H. Qed.

Ltac pp := repeat first
  [ assumption
  | apply pres_ret | apply pres_fail | apply pres_crash | apply pres_get | apply pres_set | apply pres_enter
  | apply pres_exit | apply pres_up | apply H_sym
  | match goal with |- pres (bind _ _) => apply pres_bind; [|intros ?] end
  | match goal with |- pres (let (_, _) := ?x in _) => destruct x end
  | match goal with |- pres (if ?b then _ else _) => destruct b end
  | match goal with |- pres (match ?x with _ => _ end) => destruct x end ].

Lemma pres_mod f : pres (mod_level f). Proof. unfold mod_level. pp. Qed.
Lemma pres_op o sp : pres (write_op o sp). Proof. apply pres_mod. Qed.
Lemma pres_u8 o sp : pres (write_u8 o sp). Proof. apply pres_mod. Qed.
Lemma pres_u16 o sp : pres (write_u16 o sp). Proof. apply pres_mod. Qed.
Lemma pres_op_u8 o b sp : pres (write_op_u8 o b sp).
Proof. apply pres_bind; [apply pres_op|intros; apply pres_u8]. Qed.
Lemma pres_op_u16 o b sp : pres (write_op_u16 o b sp).
Proof. apply pres_bind; [apply pres_op|intros; apply pres_u16]. Qed.
Lemma pres_patch o v : pres (patch_u16 o v). Proof. unfold patch_u16. pp. Qed.
Lemma pres_len : pres code_len. Proof. unfold code_len. pp. Qed.
Lemma pres_jump o sp : pres (write_jump o sp).
Proof. unfold write_jump. apply pres_bind; [apply pres_op_u16|intros]. unfold code_len. pp. Qed.
Lemma pres_back o sp : pres (write_jump_backward o sp).
Proof. unfold write_jump_backward. apply pres_bind; [apply pres_len|intros]. pp; try apply pres_op_u16. Qed.
Lemma pres_pjump o sp : pres (patch_jump o sp).
Proof. unfold patch_jump. apply pres_bind; [apply pres_len|intros]. pp; try apply pres_patch. Qed.
Lemma pres_const v : pres (add_constant v). Proof. unfold add_constant. pp. Qed.
Lemma pres_sym v : pres (add_symbol v). Proof. unfold add_symbol. pp. Qed.
Lemma pres_is_global : pres is_global. Proof. unfold is_global. pp. Qed.
Lemma pres_scope : pres enter_scope. Proof. apply pres_mod. Qed.
Lemma pres_flush q sp : pres (flush_pops q sp).
Proof. unfold flush_pops. pp; first [apply pres_op_u16 | apply pres_op]. Qed.
Lemma pres_pops ops sp : forall q, pres (emit_pops ops q sp).
Proof.
  induction ops as [|[] ops IH]; intros q; cbn [emit_pops]; auto using pres_flush.
  apply pres_bind; [apply pres_flush|intros]. apply pres_bind; [apply pres_op|intros]. auto.
Qed.
Lemma pres_exit_scope sp : pres (exit_scope sp).
Proof.
  unfold exit_scope. apply pres_bind; [apply pres_mod|intros].
  apply pres_bind; [apply pres_get|intros l]. destruct (leaving _ _) as [ops rest].
  apply pres_bind; [apply pres_set|intros]. destruct ops; [apply pres_ret|].
  apply pres_bind; [apply pres_op|intros]. apply pres_bind; [apply pres_pops|intros]. apply pres_op.
Qed.
Lemma pres_var a b c x sp : pres (variable_op a b c x sp).
Proof.
  unfold variable_op. apply pres_bind; [apply pres_get|intros l].
  destruct (snd _); [apply pres_op_u16|]. apply pres_bind; [apply pres_up|intros [i|]]; [apply pres_op_u16|].
  apply pres_bind; [apply H_sym|intros]. apply pres_op_u16.
Qed.
Lemma pres_define x b : pres (define_local x b).
Proof.
  unfold define_local. apply pres_bind; [apply pres_get|intros l].
  apply pres_bind; [|intros; apply pres_mod]. destruct (declared_here _ _ _); [apply pres_mod|].
  apply pres_bind; [apply pres_sym|intros; apply pres_ret].
Qed.
Lemma pres_defines l : pres (define_locals l).
Proof. induction l; cbn [define_locals]; [apply pres_ret|]. apply pres_bind; [apply pres_define|auto]. Qed.
Lemma pres_temps n : pres (reserve_temps n).
Proof.
  induction n; cbn [reserve_temps]; [apply pres_ret|]. apply pres_bind; [apply pres_get|intros].
  apply pres_bind; [apply pres_define|auto].
Qed.
Lemma pres_fin k sp : pres (fin k sp).
Proof. destruct k as [|[]]; cbn; [apply pres_ret|apply pres_op|apply pres_ret]. Qed.
Lemma pres_ups us sp : pres (write_upvalues us sp).
Proof.
  induction us as [|[i b] us IH]; cbn [write_upvalues]; [apply pres_ret|].
  apply pres_bind; [apply pres_u8|intros]. apply pres_bind; [apply pres_u16|auto].
Qed.
Lemma pres_globals l : pres (define_globals l).
Proof.
  induction l as [|[x sp] l IH]; cbn [define_globals]; [apply pres_ret|].
  apply pres_bind; [apply H_sym|intros]. apply pres_bind; [apply pres_op_u16|auto].
Qed.
Lemma pres_patches l sp : pres (patch_all l sp).
Proof. induction l; cbn [patch_all]; [apply pres_ret|]. apply pres_bind; [apply pres_pjump|auto]. Qed.

Lemma pres_stmnts f l : Forall (fun e : nodeS => forall p sp, pres (f p (fst e) sp)) l -> pres (stmnts_with f l).
Proof.
  induction 1 as [|e l He Hl IH]; cbn [stmnts_with]; [apply pres_ret|]. destruct l.
  - apply pres_bind; [apply He|intros; apply pres_ret].
  - apply pres_bind; [apply He|intros; exact IH].
Qed.
Lemma pres_each f l : Forall (fun e : nodeS => forall sp, pres (f (fst e) sp)) l -> pres (each_with f l).
Proof.
  induction 1 as [|e l He Hl IH]; cbn [each_with]; [apply pres_ret|].
  apply pres_bind; [apply He|intros; exact IH].
Qed.
Lemma pres_each_rev f l : Forall (fun e : nodeS => forall sp, pres (f (fst e) sp)) l -> pres (each_rev_with f l).
Proof.
  induction 1 as [|e l He Hl IH]; cbn [each_rev_with]; [apply pres_ret|].
  apply pres_bind; [exact IH|intros; apply He].
Qed.
Lemma pres_block f l : Forall (fun e : nodeS => forall p sp, pres (f p (fst e) sp)) l -> pres (block_with f l).
Proof.
  intros H. apply pres_bind; [apply pres_scope|intros]. apply pres_bind; [apply pres_stmnts; auto|intros].
  apply pres_exit_scope.
Qed.
Lemma pres_function f nm args body sp : Forall (fun e : nodeS => forall p sp, pres (f p (fst e) sp)) body ->
  pres (function_with f nm args body sp).
Proof.
  intros H. unfold function_with. destruct (over255 args); [apply pres_fail|].
  apply pres_bind; [apply pres_get|intros]. apply pres_bind; [apply pres_enter|intros].
  apply pres_bind; [apply pres_scope|intros]. apply pres_bind; [apply pres_define|intros].
  apply pres_bind; [apply pres_defines|intros]. apply pres_bind; [apply pres_stmnts; auto|intros].
  apply pres_bind; [apply pres_exit|intros fu]. apply pres_bind; [apply pres_const|intros].
  destruct (snd fu); [apply pres_op_u16|]. apply pres_bind; [apply pres_op_u16|intros; apply pres_ups].
Qed.

Ltac pb := match goal with
  | |- pres (bind (write_op _ _) _) => apply pres_bind; [apply pres_op|intros]
  | |- pres (bind (write_op_u16 _ _ _) _) => apply pres_bind; [apply pres_op_u16|intros]
  | |- pres (bind (write_op_u8 _ _ _) _) => apply pres_bind; [apply pres_op_u8|intros]
  | |- pres (bind (write_u16 _ _) _) => apply pres_bind; [apply pres_u16|intros]
  | |- pres (bind (write_u8 _ _) _) => apply pres_bind; [apply pres_u8|intros]
  | |- pres (bind (write_jump _ _) _) => apply pres_bind; [apply pres_jump|intros]
  | |- pres (bind (write_jump_backward _ _) _) => apply pres_bind; [apply pres_back|intros]
  | |- pres (bind (patch_jump _ _) _) => apply pres_bind; [apply pres_pjump|intros]
  | |- pres (bind (patch_all _ _) _) => apply pres_bind; [apply pres_patches|intros]
  | |- pres (bind code_len _) => apply pres_bind; [apply pres_len|intros]
  | |- pres (bind get_level _) => apply pres_bind; [apply pres_get|intros]
  | |- pres (bind is_global _) => apply pres_bind; [apply pres_is_global|intros]
  | |- pres (bind enter_scope _) => apply pres_bind; [apply pres_scope|intros]
  | |- pres (bind (exit_scope _) _) => apply pres_bind; [apply pres_exit_scope|intros]
  | |- pres (bind (reserve_temps _) _) => apply pres_bind; [apply pres_temps|intros]
  | |- pres (bind (define_local _ _) _) => apply pres_bind; [apply pres_define|intros]
  | |- pres (bind (define_locals _) _) => apply pres_bind; [apply pres_defines|intros]
  | |- pres (bind (add_constant _) _) => apply pres_bind; [apply pres_const|intros]
  | |- pres (bind (add_global_symbol _) _) => apply pres_bind; [apply H_sym|intros]
  | |- pres (bind (set_variable _ _) _) => apply pres_bind; [apply pres_var|intros]
  | |- pres (bind (get_variable _ _) _) => apply pres_bind; [apply pres_var|intros]
  | |- pres (bind (function_with _ _ _ _ _) _) => apply pres_bind; [apply pres_function; auto|intros]
  | |- pres (bind (stmnts_with _ _) _) => apply pres_bind; [apply pres_stmnts; auto|intros]
  | |- pres (bind (block_with _ _) _) => apply pres_bind; [apply pres_block; auto|intros]
  | |- pres (bind (each_with _ _) _) => apply pres_bind; [apply pres_each; auto|intros]
  | |- pres (bind (each_rev_with _ _) _) => apply pres_bind; [apply pres_each_rev; auto|intros]
  | |- pres (bind (cnode _ _ _ _) _) => apply pres_bind; [auto|intros]
  | |- pres (bind (if _ then _ else _) _) => apply pres_bind; [|intros]
  | |- pres (bind (match _ with _ => _ end) _) => apply pres_bind; [|intros]
  | |- pres (if ?b then _ else _) => destruct b
  | |- pres (match ?x with _ => _ end) => destruct x
  | |- pres (fail _ _) => apply pres_fail
  | |- pres crash => apply pres_crash
  | |- pres (fin _ _) => apply pres_fin
  | |- pres (write_op _ _) => apply pres_op
  | |- pres (write_op_u16 _ _ _) => apply pres_op_u16
  | |- pres (write_op_u8 _ _ _) => apply pres_op_u8
  | |- pres (set_variable _ _) => apply pres_var
  | |- pres (define_globals _) => apply pres_globals
  | |- pres (define_locals _) => apply pres_defines
  | |- pres (block_with _ _) => apply pres_block; auto
  | |- pres (each_with _ _) => apply pres_each; auto
  | |- pres (cnode _ _ _ _) => auto
  end.

Definition pres_node (n : node) : Prop := forall k sp, pres (cnode m k n sp).
Lemma pres_list (l : list nodeS) : Forall (fun e => pres_node (fst e)) l ->
  Forall (fun e : nodeS => forall p sp, pres (cnode m (KStmt p) (fst e) sp)) l.
Proof. intros H. eapply Forall_impl; [|exact H]. intros a Ha p sp. apply Ha. Qed.
Lemma pres_exprs (l : list nodeS) k : Forall (fun e => pres_node (fst e)) l ->
  Forall (fun e : nodeS => forall sp, pres (cnode m k (fst e) sp)) l.
Proof. intros H. eapply Forall_impl; [|exact H]. intros a Ha sp. apply Ha. Qed.

Lemma pres_cnode n : pres_node n.
Proof.
  induction n using node_ind'; unfold pres_node in *; intros k sp; cbn [cnode];
    repeat match goal with H : Forall (fun e : nodeS => forall k sp, pres (cnode m k (fst e) sp)) ?l |- _ =>
      pose proof (pres_list l H); pose proof (pres_exprs l KExpr H); pose proof (pres_exprs l (KStmt true) H); clear H end.
  all: try (destruct l; repeat pb; fail).
  all: try (repeat pb; fail).
  - (* External *)
    destruct x as [x vsp]. destruct k; [apply pres_fail|]. apply pres_bind; [auto|intros].
    apply pres_bind; [apply pres_is_global|intros g]. destruct (negb g); [apply pres_fail|].
    apply (H_ext (x, vsp) vsp).
  - (* Conditional *)
    repeat pb. apply pres_list. auto.
  - (* Switch *)
    repeat pb. apply pres_bind; [|intros].
    + clear H. induction H0 as [|cb cs [Ha Hb] Hcs IH]; cbn [cases_with]; [apply pres_ret|].
      apply pres_bind; [apply Ha|intros]. repeat pb.
      * apply pres_list in Hb. auto.
      * apply pres_bind; [exact IH|intros; apply pres_ret].
    + repeat pb. apply pres_list. auto.
  - destruct x as [x vsp]. repeat pb. apply pres_exprs. auto.
Qed.
End Pres.
