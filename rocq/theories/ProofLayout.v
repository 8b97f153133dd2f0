(** Positions do not change what is compiled (C87). *)
From Verif Require Import Base RleVec Pool Vecc Float Bytecode Chunk Value Ast Compiler ProofCompiler SpecRel SpecLayout.

(** ** Trees *)
Definition alike (n n' : node) : Prop := bare n = bare n'.
Definition alike1 (e e' : nodeS) : Prop := alike (fst e) (fst e').
Lemma same_trees_2 l l' : same_trees l l' -> Forall2 alike1 l l'.
Proof.
  revert l'. induction l as [|e l IH]; intros [|e' l'] H; try discriminate; constructor.
  - injection H as H _. exact H.
  - injection H as _ H. apply IH, H.
Qed.
Lemma two_same_trees l l' : Forall2 alike1 l l' -> same_trees l l'.
Proof. induction 1 as [|e e' l l' H _ IH]; [reflexivity|]. unfold same_trees in *. cbn. rewrite IH. f_equal. exact H. Qed.
Lemma ones l l' : map (fun e : nodeS => (bare (fst e), default_span)) l = map (fun e : nodeS => (bare (fst e), default_span)) l' -> Forall2 alike1 l l'.
Proof.
  revert l'. induction l as [|e l IH]; intros [|e' l'] H; try discriminate; constructor.
  - injection H as H _. exact H.
  - injection H as _ H. apply IH, H.
Qed.
Lemma names_same xs ys : map bare_name xs = map bare_name ys -> map fst xs = map fst ys.
Proof.
  revert ys. induction xs as [|x xs IH]; intros [|y ys] H; try discriminate; [reflexivity|]. injection H as H1 H2. cbn. f_equal; auto.
Qed.
Lemma names_len (xs ys : list (spanned rstring)) : map fst xs = map fst ys -> length xs = length ys.
Proof. intros H. apply (f_equal (@length rstring)) in H. rewrite !map_length in H. exact H. Qed.
Definition alike_opt (o o' : option (list nodeS)) : Prop :=
  match o, o' with Some l, Some l' => Forall2 alike1 l l' | None, None => True | _, _ => False end.
Lemma opts o o' : option_map (map (fun e : nodeS => (bare (fst e), default_span))) o = option_map (map (fun e : nodeS => (bare (fst e), default_span))) o' -> alike_opt o o'.
Proof. destruct o, o'; cbn; intros H; try discriminate; auto. injection H as H. apply ones; auto. Qed.
Definition alike_case (c c' : nodeS * list nodeS) : Prop := alike1 (fst c) (fst c') /\ Forall2 alike1 (snd c) (snd c').
Lemma cases_alike cs cs' : map (fun c : nodeS * list nodeS => ((bare (fst (fst c)), default_span), map (fun e : nodeS => (bare (fst e), default_span)) (snd c))) cs =
  map (fun c : nodeS * list nodeS => ((bare (fst (fst c)), default_span), map (fun e : nodeS => (bare (fst e), default_span)) (snd c))) cs' -> Forall2 alike_case cs cs'.
Proof.
  revert cs'. induction cs as [|c cs IH]; intros [|c' cs'] H; try discriminate; constructor.
  - injection H as H1 H2 _. split; [exact H1|apply ones; auto].
  - injection H as _ _ H. apply IH, H.
Qed.
Definition alike_var (v w : var) : Prop :=
  match v, w with VarDecl x, VarDecl y => fst x = fst y | VarMulti xs, VarMulti ys => map fst xs = map fst ys | _, _ => False end.
Lemma vars v w : bare_var v = bare_var w -> alike_var v w.
Proof. destruct v, w; cbn; intros H; try discriminate; injection H as H; [auto|apply names_same; auto]. Qed.

(** What two trees with the same bare tree look like. *)
Inductive alike_ : node -> node -> Prop :=
| al_literal l : alike_ (NLiteral l) (NLiteral l)
| al_array l l' : Forall2 alike1 l l' -> alike_ (NArray l) (NArray l')
| al_pair a b a' b' : alike1 a a' -> alike1 b b' -> alike_ (NPair a b) (NPair a' b')
| al_range a b a' b' : alike1 a a' -> alike1 b b' -> alike_ (NRange a b) (NRange a' b')
| al_ident x : alike_ (NIdentifier x) (NIdentifier x)
| al_decl v e v' e' : alike_var v v' -> alike1 e e' -> alike_ (NDeclaration v e) (NDeclaration v' e')
| al_ext x s s' e e' : alike1 e e' -> alike_ (NExternal (x, s) e) (NExternal (x, s') e')
| al_assign x s s' e e' : alike1 e e' -> alike_ (NAssignment (x, s) e) (NAssignment (x, s') e')
| al_function x s s' a a' b b' : map fst a = map fst a' -> Forall2 alike1 b b' -> alike_ (NFunction (x, s) a b) (NFunction (x, s') a' b')
| al_lambda a a' b b' : map fst a = map fst a' -> Forall2 alike1 b b' -> alike_ (NLambda a b) (NLambda a' b')
| al_block b b' : Forall2 alike1 b b' -> alike_ (NBlock b) (NBlock b')
| al_cond c t o c' t' o' : alike1 c c' -> Forall2 alike1 t t' -> alike_opt o o' -> alike_ (NConditional c t o) (NConditional c' t' o')
| al_switch v cs d v' cs' d' : alike1 v v' -> Forall2 alike_case cs cs' -> alike_opt d d' -> alike_ (NSwitch v cs d) (NSwitch v' cs' d')
| al_for x s s' i b i' b' : alike1 i i' -> Forall2 alike1 b b' -> alike_ (NFor (x, s) i b) (NFor (x, s') i' b')
| al_mfor xs xs' i b i' b' : map fst xs = map fst xs' -> alike1 i i' -> Forall2 alike1 b b' -> alike_ (NMultiFor xs i b) (NMultiFor xs' i' b')
| al_while c b c' b' : alike1 c c' -> Forall2 alike1 b b' -> alike_ (NWhile c b) (NWhile c' b')
| al_binary o a b a' b' : alike1 a a' -> alike1 b b' -> alike_ (NBinary o a b) (NBinary o a' b')
| al_unary o a a' : alike1 a a' -> alike_ (NUnary o a) (NUnary o a')
| al_call f a f' a' : alike1 f f' -> Forall2 alike1 a a' -> alike_ (NCall f a) (NCall f' a')
| al_builtin x s s' a a' : Forall2 alike1 a a' -> alike_ (NBuiltinCall (x, s) a) (NBuiltinCall (x, s') a')
| al_context x s s' a a' v v' b b' : Forall2 alike1 a a' -> match v, v' with Some v, Some v' => alike_var v v' | None, None => True | _, _ => False end ->
    Forall2 alike1 b b' -> alike_ (NContext (x, s) a v b) (NContext (x, s') a' v' b')
| al_index t i t' i' : alike1 t t' -> alike1 i i' -> alike_ (NIndexGet t i) (NIndexGet t' i')
| al_include x s s' b b' : alike_opt b b' -> alike_ (NInclude (x, s) b) (NInclude (x, s') b')
| al_return e e' : match e, e' with Some v, Some v' => alike1 v v' | None, None => True | _, _ => False end -> alike_ (NReturn e) (NReturn e').
Lemma alike_inv n n' : alike n n' -> alike_ n n'.
Proof.
  unfold alike. intros H. destruct n, n'; cbn [bare] in H; try discriminate; injection H; clear H;
    repeat match goal with x : spanned rstring |- _ => destruct x end; cbn [bare_name fst]; intros; subst; try constructor; unfold alike1, alike;
    auto using ones, names_same, opts, cases_alike, vars.
  - destruct variable, variable0; cbn in *; try discriminate; auto. apply vars. congruence.
  - destruct value, value0; cbn in *; try discriminate; auto. congruence.
Qed.

(** ** Two compilers at the same point of the same program *)
Record lsim (l l' : level) : Prop := {
  ls_name : fst (lv_name l) = fst (lv_name l'); ls_arity : lv_arity l = lv_arity l'; ls_upcount : lv_upcount l = lv_upcount l';
  ls_len : chunk_len (lv_chunk l) = chunk_len (lv_chunk l'); ls_locals : lv_locals l = lv_locals l';
  ls_upvalues : lv_upvalues l = lv_upvalues l'; ls_depth : lv_depth l = lv_depth l'; ls_syms : lv_syms l = lv_syms l' }.
Record csim (c c' : compiler) : Prop := {
  cs_level : lsim (c_level c) (c_level c'); cs_enclosing : Forall2 lsim (c_enclosing c) (c_enclosing c');
  cs_globals : c_globals c = c_globals c'; cs_externals : c_externals c = c_externals c' }.
Definition msim {A B} (Q : A -> B -> Prop) (x : M A) (y : M B) : Prop :=
  forall c c', csim c c' ->
  match x c, y c' with
  | (COk a, d), (COk b, d') => Q a b /\ csim d d'
  | (CErr e _, _), (CErr e' _, _) => e = e'
  | (CPanic, _), (CPanic, _) => True
  | _, _ => False
  end.
Definition tt2 (_ _ : unit) : Prop := True.

Lemma ms_ret {A B} (Q : A -> B -> Prop) a b : Q a b -> msim Q (ret a) (ret b).
Proof. intros H c c' HC. split; auto. Qed.
Lemma ms_tt : msim tt2 (ret tt) (ret tt). Proof. apply ms_ret. exact Logic.I. Qed.
Lemma ms_fail {A B} (Q : A -> B -> Prop) e sp sp' : msim Q (fail e sp) (fail e sp').
Proof. intros c c' HC. reflexivity. Qed.
Lemma ms_crash {A B} (Q : A -> B -> Prop) : msim Q crash crash.
Proof. intros c c' HC. exact Logic.I. Qed.
Lemma ms_bind {A B A' B'} (Q : A -> A' -> Prop) (R : B -> B' -> Prop) x x' k k' :
  msim Q x x' -> (forall a a', Q a a' -> msim R (k a) (k' a')) -> msim R (bind x k) (bind x' k').
Proof.
  intros HX HK c c' HC. unfold bind. specialize (HX c c' HC). destruct (x c) as [[a|e sp|] d], (x' c') as [[a'|e' sp'|] d']; try contradiction; auto.
  destruct HX as [HQ HC']. exact (HK a a' HQ d d' HC').
Qed.
Lemma ms_seq {B B'} (R : B -> B' -> Prop) (x x' : M unit) k k' : msim tt2 x x' -> msim R k k' -> msim R (bind x (fun _ => k)) (bind x' (fun _ => k')).
Proof. intros HX HK. eapply ms_bind; [exact HX|]. auto. Qed.
Lemma ms_get : msim lsim get_level get_level.
Proof. intros c c' HC. split; [apply HC|exact HC]. Qed.
Lemma ms_set l l' : lsim l l' -> msim tt2 (set_level l) (set_level l').
Proof. intros HL c c' [H1 H2 H3 H4]. split; [exact Logic.I|]. constructor; auto. Qed.
Lemma ms_mod f g : (forall l l', lsim l l' -> lsim (f l) (g l')) -> msim tt2 (mod_level f) (mod_level g).
Proof. intros H. eapply ms_bind; [apply ms_get|]. intros l l' HL. apply ms_set. auto. Qed.
Lemma ms_eqq {A} (x : M A) (Q : A -> A -> Prop) : msim eq x x -> (forall a, Q a a) -> msim Q x x.
Proof.
  intros H HQ c c' HC. specialize (H c c' HC). destruct (x c) as [[a|e sp|] d], (x c') as [[a'|e' sp'|] d']; try contradiction; auto.
  destruct H as [-> H]. auto.
Qed.
