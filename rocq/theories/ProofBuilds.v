(** A checked build that does not abort does what the release build does: operators, builtins and the compiler (C105). *)
From Verif Require Import Base RleVec Pool Vecc Float NumText Bytecode Chunk Value Ast Arith VmOps Args Builtins Compiler Vm Std Console ProofCompiler.
Ltac Zify.zify_post_hook ::= Z.div_mod_to_equations.

Definition less {A} (x y : res A) : Prop := x = Panic \/ x = y.
Lemma less_refl {A} (x : res A) : less x x. Proof. now right. Qed.
Lemma less_bind {A B} (x y : res A) (f g : A -> res B) : less x y -> (forall a, less (f a) (g a)) -> less (rbind x f) (rbind y g).
Proof. intros [->| ->] H; [now left|]. destruct y; cbn [rbind]; auto using less_refl. Qed.
Lemma less_ov z : less (ov64 Debug z) (ov64 Release z).
Proof. unfold ov64. destruct (in_i64 z); [now right|now left]. Qed.
Lemma less_avg a b : less (u8_avg Debug a b) (u8_avg Release a b).
Proof. unfold u8_avg. destruct (_ <? _)%N; [now left|now right]. Qed.
Lemma less_shift r : less (shift_amount Debug r) (shift_amount Release r).
Proof. unfold shift_amount. destruct (_ && _); [now right|now left]. Qed.
Lemma less_index i n : less (fix_index Debug i n) (fix_index Release i n).
Proof.
  unfold fix_index. apply less_bind; [|intros; apply less_refl]. destruct (_ <? 0)%Z; [|apply less_refl].
  apply less_bind; [apply less_ov|intros z]. destruct (z >? _)%Z; [apply less_refl|]. cbv zeta. destruct (_ <=? _)%N; [now left|now right].
Qed.
Ltac le := repeat first [apply less_refl|apply less_ov|apply less_avg|apply less_shift|apply less_index|(apply less_bind; [|intros])].

Section Ops.
Context {Fn : Type} (o : oracle) (fi : fn_info Fn) (feq : Fn -> Fn -> res bool).
Notation val := (gvalue Fn).
Lemma less_negate v : less (v_negate Debug fi v) (v_negate Release fi v).
Proof. destruct v; cbn [v_negate]; le. Qed.
Lemma less_add x a b : less (v_add Debug fi x a b) (v_add Release fi x a b).
Proof. destruct a, b; cbn [v_add]; le. Qed.
Lemma less_subtract a b : less (v_subtract Debug fi a b) (v_subtract Release fi a b).
Proof. destruct a, b; cbn [v_subtract]; le. Qed.
Lemma less_multiply x a b : less (v_multiply Debug fi x a b) (v_multiply Release fi x a b).
Proof.
  destruct a, b; cbn [v_multiply]; le. destruct (_ <? 0)%Z; le. cbv zeta. set (p := (_ * _)%N).
  destruct (2 ^ 64 <=? p)%N eqn:E; [now left|]. apply N.leb_gt in E. unfold usize_wrap. rewrite N.mod_small by exact E. le.
Qed.
Lemma less_power a b : less (v_power Debug o fi a b) (v_power Release o fi a b).
Proof. destruct a, b; cbn [v_power]; le. Qed.
Lemma less_join x y a b : less (v_join Debug o fi x y a b) (v_join Release o fi x y a b).
Proof. destruct a, b; cbn [v_join]; le. Qed.
Lemma less_shl a b : less (v_shl Debug fi a b) (v_shl Release fi a b).
Proof. unfold v_shl. destruct a, b; cbn [v_int2]; le. Qed.
Lemma less_shr a b : less (v_shr Debug fi a b) (v_shr Release fi a b).
Proof. unfold v_shr. destruct a, b; cbn [v_int2]; le. Qed.
Definition less2 (f g : option (val -> val -> res val)) : Prop :=
  match f, g with Some f, Some g => forall a b, less (f a b) (g a b) | None, None => True | _, _ => False end.
Lemma less_binary x y p : less2 (binary_fn Debug o fi feq x y p) (binary_fn Release o fi feq x y p).
Proof.
  destruct p; cbn [binary_fn less2]; try exact Logic.I; intros a b;
    first [apply less_add|apply less_subtract|apply less_multiply|apply less_power|apply less_join|apply less_shl|apply less_shr|apply less_refl].
Qed.
Definition less1 (f g : option (val -> res val)) : Prop :=
  match f, g with Some f, Some g => forall a, less (f a) (g a) | None, None => True | _, _ => False end.
Lemma less_unary p : less1 (unary_fn Debug fi p) (unary_fn Release fi p).
Proof. destruct p; cbn [unary_fn less1]; try exact Logic.I; intros a; first [apply less_negate|apply less_refl]. Qed.
Lemma less_get i v : less (v_index Debug fi i v) (v_index Release fi i v).
Proof. destruct i; cbn [v_index]; le. destruct v; le. Qed.
Lemma less_iter i v : less (v_iter Debug fi i v) (v_iter Release fi i v).
Proof. destruct v; cbn [v_iter]; le. cbv zeta. destruct (in_i32 _); [le|now left]. Qed.

(** The library. *)
Fixpoint lsig (ps : list param) : sig (Fn := Fn) ps -> sig (Fn := Fn) ps -> Prop :=
  match ps return sig (Fn := Fn) ps -> sig (Fn := Fn) ps -> Prop with
  | [] => fun f g => less f g
  | Req k :: t => fun f g => forall x, lsig t (f x) (g x)
  | Opt k :: t => fun f g => forall x, lsig t (f x) (g x)
  end.
Lemma less_wrap ps : forall f g args, lsig ps f g -> less (call fi ps f args) (call fi ps g args).
Proof.
  induction ps as [|[k|k] ps IH]; intros f g args H; cbn [call lsig] in *; (apply less_bind; [apply less_refl|intros p]); [exact H|apply IH, H|apply IH, H].
Qed.
Lemma less_slice l a b : less (b_slice Debug l a b) (b_slice Release (Fn := Fn) l a b).
Proof.
  assert (K : forall n x y, less (slice_bound Debug n x y) (slice_bound Release n x y)).
  { intros n x y. unfold slice_bound. destruct (_ <? 0)%Z; le. destruct (_ <? _)%Z; le. }
  unfold b_slice. cbv zeta. apply less_bind; [apply K|intros s]. apply less_bind; [apply K|intros e]. apply less_refl.
Qed.
Lemma less_call y name args : less (std_call Debug o fi feq y name args) (std_call Release o fi feq y name args).
Proof.
  assert (H : Forall2 (fun b c : rstring * (list val -> res val) => fst b = fst c /\ forall args, less (snd b args) (snd c args)) (std_list Debug o fi feq y) (std_list Release o fi feq y)).
  { unfold std_list, core_list, math_list, colors_list, strings_list, testing_list. cbn [app].
    repeat (apply Forall2_cons; [split; [reflexivity|intros l; cbn [snd reg]; first [apply less_refl|apply less_wrap; cbn [lsig]; intros]]|]). all: try apply Forall2_nil.
    - unfold b_get. le.
    - unfold b_set. le.
    - apply less_slice.
    - unfold b_abs. destruct x; le. }
  unfold std_call. revert H. generalize (std_list Debug o fi feq y) (std_list Release o fi feq y). intros l l' H.
  induction H as [|[n f] [n' g] l l' [E F] H IH]; cbn [alookup]; [apply less_refl|]. cbn [fst snd] in *. subst n'. destruct (seqb _ _); auto.
Qed.
End Ops.

(** The compiler. *)
Definition comes {A} (x y : M A) : Prop := forall c, fst (x c) = CPanic \/ x c = y c.
Lemma comes_refl {A} (x : M A) : comes x x. Proof. intros c. now right. Qed.
Lemma comes_bind {A B} (x y : M A) (f g : A -> M B) : comes x y -> (forall a, comes (f a) (g a)) -> comes (bind x f) (bind y g).
Proof.
  intros H K c. unfold bind. destruct (H c) as [E|E].
  - left. destruct (x c) as [[a|e sp|] c']; try discriminate E. reflexivity.
  - rewrite <- E. destruct (x c) as [[a|e sp|] c']; [apply K|now right|now left].
Qed.
Lemma comes_stmnts f g l : Forall (fun e : nodeS => forall p, comes (f p (fst e) (snd e)) (g p (fst e) (snd e))) l -> comes (stmnts_with f l) (stmnts_with g l).
Proof.
  induction 1 as [|e l He Hl IH]; cbn [stmnts_with]; [apply comes_refl|]. destruct l; (apply comes_bind; [apply He|intros]); [apply comes_refl|exact IH].
Qed.
Lemma comes_each f g l : Forall (fun e : nodeS => comes (f (fst e) (snd e)) (g (fst e) (snd e))) l -> comes (each_with f l) (each_with g l).
Proof. induction 1 as [|e l He Hl IH]; cbn [each_with]; [apply comes_refl|]. apply comes_bind; [apply He|intros; exact IH]. Qed.
Lemma comes_each_rev f g l : Forall (fun e : nodeS => comes (f (fst e) (snd e)) (g (fst e) (snd e))) l -> comes (each_rev_with f l) (each_rev_with g l).
Proof. induction 1 as [|e l He Hl IH]; cbn [each_rev_with]; [apply comes_refl|]. apply comes_bind; [exact IH|intros; apply He]. Qed.
Lemma comes_block f g l : Forall (fun e : nodeS => forall p, comes (f p (fst e) (snd e)) (g p (fst e) (snd e))) l -> comes (block_with f l) (block_with g l).
Proof. intros H. apply comes_bind; [apply comes_refl|intros]. apply comes_bind; [now apply comes_stmnts|intros; apply comes_refl]. Qed.
Lemma comes_function f g nm args body sp : Forall (fun e : nodeS => forall p, comes (f p (fst e) (snd e)) (g p (fst e) (snd e))) body ->
  comes (function_with f nm args body sp) (function_with g nm args body sp).
Proof.
  intros H. unfold function_with. destruct (over255 args); [apply comes_refl|].
  do 5 (apply comes_bind; [apply comes_refl|intros]). apply comes_bind; [now apply comes_stmnts|intros; apply comes_refl].
Qed.
Lemma comes_cases f g (l : list (nodeS * list nodeS)) : Forall (fun c => (forall k, comes (f k (fst (fst c)) (snd (fst c))) (g k (fst (fst c)) (snd (fst c)))) /\
    Forall (fun e : nodeS => forall p, comes (f (KStmt p) (fst e) (snd e)) (g (KStmt p) (fst e) (snd e))) (snd c)) l -> comes (cases_with f l) (cases_with g l).
Proof.
  induction 1 as [|c l [H1 H2] H IH]; cbn [cases_with]; [apply comes_refl|]. apply comes_bind; [apply H1|intros].
  do 2 (apply comes_bind; [apply comes_refl|intros]). apply comes_bind; [exact (comes_block (fun p => f (KStmt p)) (fun p => g (KStmt p)) _ H2)|intros].
  do 2 (apply comes_bind; [apply comes_refl|intros]). apply comes_bind; [exact IH|intros; apply comes_refl].
Qed.

Definition en (n : node) : Prop := forall k sp, comes (cnode Debug k n sp) (cnode Release k n sp).
Lemma en_stmts l : Forall (fun e : nodeS => en (fst e)) l -> Forall (fun e : nodeS => forall p, comes (cnode Debug (KStmt p) (fst e) (snd e)) (cnode Release (KStmt p) (fst e) (snd e))) l.
Proof. intros H. eapply Forall_impl; [|exact H]. intros a Ha p. apply Ha. Qed.
Lemma en_exprs k l : Forall (fun e : nodeS => en (fst e)) l -> Forall (fun e : nodeS => comes (cnode Debug k (fst e) (snd e)) (cnode Release k (fst e) (snd e))) l.
Proof. intros H. eapply Forall_impl; [|exact H]. intros a Ha. apply Ha. Qed.
Lemma fold_less o n : fold_unary Debug o n = Some Panic \/ fold_unary Debug o n = fold_unary Release o n.
Proof.
  destruct o; try now right. destruct n as [[]| | | | | | | | | | | | | | | | | | | | | | |]; try now right.
  cbn [fold_unary]. destruct (less_ov (- z)) as [E|E]; rewrite E; [now left|now right].
Qed.
Ltac ce := match goal with
  | |- comes ?x ?x => apply comes_refl
  | |- comes (stmnts_with _ _) _ => apply comes_stmnts; solve [auto]
  | |- comes (block_with _ _) _ => apply comes_block; solve [auto]
  | |- comes (each_with _ _) _ => apply comes_each; solve [auto]
  | |- comes (each_rev_with _ _) _ => apply comes_each_rev; solve [auto]
  | |- comes (function_with _ _ _ _ _) _ => apply comes_function; solve [auto]
  | |- comes (cnode _ _ _ _) _ => solve [auto]
  | |- comes (bind _ _) _ => apply comes_bind; [|intros]
  | |- comes (if ?b then _ else _) _ => destruct b
  | |- comes (match ?x with _ => _ end) _ => destruct x
  end.
Lemma en_cnode n : en n.
Proof.
  induction n using node_ind'; unfold en; intros k sp; cbn [cnode].
  all: repeat match goal with
    | H : Forall (fun e : nodeS => en (fst e)) ?l |- _ => pose proof (en_stmts l H); pose proof (en_exprs KExpr l H); pose proof (en_exprs (KStmt true) l H); clear H
    | H : en (fst ?e) |- _ => assert (forall k sp, comes (cnode Debug k (fst e) sp) (cnode Release k (fst e) sp)) by exact H; clear H
    end.
  all: try (repeat ce; fail).
  all: try match goal with H : match ?o with Some _ => _ | None => True end |- _ => destruct o; [|repeat ce; fail] end.
  all: repeat match goal with
    | H : Forall (fun e : nodeS => en (fst e)) ?l |- _ => pose proof (en_stmts l H); pose proof (en_exprs KExpr l H); pose proof (en_exprs (KStmt true) l H); clear H
    | H : en (fst ?e) |- _ => assert (forall k sp, comes (cnode Debug k (fst e) sp) (cnode Release k (fst e) sp)) by exact H; clear H
    end.
  all: try (repeat ce; fail).
  - (* Switch *)
    assert (K : comes (cases_with (cnode Debug) cs) (cases_with (cnode Release) cs)).
    { apply comes_cases. eapply Forall_impl; [|exact H0]. intros c [A B]. split; [intros; apply A|now apply en_stmts]. }
    apply comes_bind; [apply comes_refl|intros]. apply comes_bind; [auto|intros]. apply comes_bind; [exact K|intros].
    apply comes_bind; [|intros; apply comes_refl]. destruct d as [b|]; [|apply comes_refl]. pose proof (en_stmts b H1). repeat ce.
  - (* Unary *)
    apply comes_bind; [|intros; apply comes_refl]. destruct (fold_less o (fst a)) as [E|E]; rewrite E; [intros c; now left|].
    destruct (fold_unary Release o (fst a)) as [[]|]; repeat ce.
Qed.
Theorem compile_comes ast : compile Debug ast = CPanic \/ compile Debug ast = compile Release ast.
Proof.
  unfold compile. assert (H : comes (set_main_span ast ;; compile_stmnts Debug ast) (set_main_span ast ;; compile_stmnts Release ast)).
  { apply comes_bind; [apply comes_refl|intros]. apply comes_stmnts. apply Forall_forall. intros e _ p. apply en_cnode. }
  destruct (H (compiler_new main_name)) as [E|E]; [|rewrite E; now right]. left.
  destruct ((set_main_span ast ;; compile_stmnts Debug ast) (compiler_new main_name)) as [[a|e sp|] c]; try discriminate E. reflexivity.
Qed.
