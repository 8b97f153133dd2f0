(** The position in a compile error is a position of the program (C92). *)
From Verif Require Import Base RleVec Pool Vecc Float NumText Bytecode Chunk Value Ast Compiler Vm
                          SpecParse SpecPos ProofCompiler ProofPos1.

Section Errors.
Context (P : span -> Prop).
Definition er {A} (x : M A) : Prop := forall c, match x c with (CErr _ sp, _) => P sp | _ => True end.
Lemma er_ret {A} (a : A) : er (ret a). Proof using. intros c; exact Logic.I. Qed.
Lemma er_fail {A} e sp : P sp -> er (fail e sp : M A). Proof using. intros H c; exact H. Qed.
Lemma er_crash {A} : er (crash : M A). Proof using. intros c; exact Logic.I. Qed.
Lemma er_bind {A B} (x : M A) (k : A -> M B) : er x -> (forall a, er (k a)) -> er (bind x k).
Proof using.
  intros Hx Hk c. unfold bind. specialize (Hx c). destruct (x c) as [[a|e sp|] c']; auto. apply Hk.
Qed.
Lemma er_get : er get_level. Proof using. intros c; exact Logic.I. Qed.
Lemma er_set l : er (set_level l). Proof using. intros c; exact Logic.I. Qed.
Lemma er_mod f : er (mod_level f). Proof using. intros c; exact Logic.I. Qed.
Lemma er_op o sp : er (write_op o sp). Proof using. intros c; exact Logic.I. Qed.
Lemma er_u8 o sp : er (write_u8 o sp). Proof using. intros c; exact Logic.I. Qed.
Lemma er_u16 o sp : er (write_u16 o sp). Proof using. intros c; exact Logic.I. Qed.
Lemma er_op_u8 o b sp : er (write_op_u8 o b sp). Proof using. intros c; exact Logic.I. Qed.
Lemma er_op_u16 o b sp : er (write_op_u16 o b sp). Proof using. intros c; exact Logic.I. Qed.
Lemma er_len : er code_len. Proof using. intros c; exact Logic.I. Qed.
Lemma er_jump o sp : er (write_jump o sp). Proof using. intros c; exact Logic.I. Qed.
Lemma er_back o sp : P sp -> er (write_jump_backward o sp).
Proof using. intros H. apply er_bind; [apply er_len|intros n]. cbv zeta. destruct (_ <? _)%N; [now apply er_fail|apply er_op_u16]. Qed.
Lemma er_pjump o sp : P sp -> er (patch_jump o sp).
Proof using.
  intros H. apply er_bind; [apply er_len|intros n]. cbv zeta. destruct (_ <? _)%N; [now apply er_fail|].
  apply er_bind; [apply er_get|intros l]. destruct (chunk_patch_u16 _ _ _); try apply er_crash. apply er_set.
Qed.
Lemma er_const v : er (add_constant v).
Proof using. apply er_bind; [apply er_get|intros l]. destruct (pool_add _ _ _). apply er_bind; [apply er_set|intros; apply er_ret]. Qed.
Lemma er_sym v : er (add_symbol v).
Proof using. apply er_bind; [apply er_get|intros l]. destruct (pool_add _ _ _). apply er_bind; [apply er_set|intros; apply er_ret]. Qed.
Lemma er_gsym v : er (add_global_symbol v).
Proof using. intros c. unfold add_global_symbol. destruct (pool_add _ _ _). exact Logic.I. Qed.
Lemma er_is_global : er is_global. Proof using. intros c; exact Logic.I. Qed.
Lemma er_ext off x sp : P sp -> er (add_external off x sp).
Proof using. intros H c. unfold add_external. destruct (existsb _ _); [exact H|exact Logic.I]. Qed.
Lemma er_scope : er enter_scope. Proof using. intros c; exact Logic.I. Qed.
Lemma er_flush q sp : er (flush_pops q sp).
Proof using. unfold flush_pops. destruct (_ <=? _)%N; [apply er_op_u16|]. destruct (_ =? _)%N; [apply er_op|apply er_ret]. Qed.
Lemma er_pops ops sp : forall q, er (emit_pops ops q sp).
Proof using.
  induction ops as [|[] ops IH]; intros q; cbn [emit_pops]; auto using er_flush.
  apply er_bind; [apply er_flush|intros]. apply er_bind; [apply er_op|intros]. auto.
Qed.
Lemma er_exit_scope sp : er (exit_scope sp).
Proof using.
  unfold exit_scope. apply er_bind; [apply er_mod|intros]. apply er_bind; [apply er_get|intros l].
  destruct (leaving _ _) as [ops rest]. apply er_bind; [apply er_set|intros]. destruct ops; [apply er_ret|].
  apply er_bind; [apply er_op|intros]. apply er_bind; [apply er_pops|intros]. apply er_op.
Qed.
Lemma er_up x : er (resolve_upvalue_m x).
Proof using. intros c. unfold resolve_upvalue_m. destruct (resolve_upvalue _ _ _) as [[l ps] r]. exact Logic.I. Qed.
Lemma er_var a b c x sp : er (variable_op a b c x sp).
Proof using.
  unfold variable_op. apply er_bind; [apply er_get|intros l]. destruct (snd _); [apply er_op_u16|].
  apply er_bind; [apply er_up|intros [i|]]; [apply er_op_u16|]. apply er_bind; [apply er_gsym|intros]. apply er_op_u16.
Qed.
Lemma er_define x b : er (define_local x b).
Proof using.
  unfold define_local. apply er_bind; [apply er_get|intros l]. apply er_bind; [|intros; apply er_mod].
  destruct (declared_here _ _ _); [apply er_mod|]. apply er_bind; [apply er_sym|intros; apply er_ret].
Qed.
Lemma er_defines l : er (define_locals l).
Proof using. induction l; cbn [define_locals]; [apply er_ret|]. apply er_bind; [apply er_define|auto]. Qed.
Lemma er_temps n : er (reserve_temps n).
Proof using. induction n; cbn [reserve_temps]; [apply er_ret|]. apply er_bind; [apply er_get|intros]. apply er_bind; [apply er_define|auto]. Qed.
Lemma er_fin k sp : er (fin k sp).
Proof using. destruct k as [|[]]; cbn; [apply er_ret|apply er_op|apply er_ret]. Qed.
Lemma er_ups us sp : er (write_upvalues us sp).
Proof using.
  induction us as [|[i b] us IH]; cbn [write_upvalues]; [apply er_ret|].
  apply er_bind; [apply er_u8|intros]. apply er_bind; [apply er_u16|auto].
Qed.
Lemma er_globals l : er (define_globals l).
Proof using.
  induction l as [|[x sp] l IH]; cbn [define_globals]; [apply er_ret|].
  apply er_bind; [apply er_gsym|intros]. apply er_bind; [apply er_op_u16|auto].
Qed.
Lemma er_patches l sp : P sp -> er (patch_all l sp).
Proof using. intros H. induction l; cbn [patch_all]; [apply er_ret|]. apply er_bind; [now apply er_pjump|auto]. Qed.
Lemma er_enter l : er (enter_level l). Proof using. intros c; exact Logic.I. Qed.
Lemma er_exit : er exit_level. Proof using. intros c. unfold exit_level. destruct (c_enclosing c); exact Logic.I. Qed.

Lemma er_stmnts f l : Forall (fun e : nodeS => forall p, er (f p (fst e) (snd e))) l -> er (stmnts_with f l).
Proof using.
  induction 1 as [|e l He Hl IH]; cbn [stmnts_with]; [apply er_ret|]. destruct l.
  - apply er_bind; [apply He|intros; apply er_ret].
  - apply er_bind; [apply He|intros; exact IH].
Qed.
Lemma er_each f l : Forall (fun e : nodeS => er (f (fst e) (snd e))) l -> er (each_with f l).
Proof using. induction 1 as [|e l He Hl IH]; cbn [each_with]; [apply er_ret|]. apply er_bind; [apply He|intros; exact IH]. Qed.
Lemma er_each_rev f l : Forall (fun e : nodeS => er (f (fst e) (snd e))) l -> er (each_rev_with f l).
Proof using. induction 1 as [|e l He Hl IH]; cbn [each_rev_with]; [apply er_ret|]. apply er_bind; [exact IH|intros; apply He]. Qed.
Lemma er_block f l : Forall (fun e : nodeS => forall p, er (f p (fst e) (snd e))) l -> er (block_with f l).
Proof using.
  intros H. apply er_bind; [apply er_scope|intros]. apply er_bind; [now apply er_stmnts|intros]. apply er_exit_scope.
Qed.
Lemma er_function f nm args body sp : P sp -> Forall (fun e : nodeS => forall p, er (f p (fst e) (snd e))) body ->
  er (function_with f nm args body sp).
Proof using.
  intros Hs H. unfold function_with. destruct (over255 args); [now apply er_fail|].
  apply er_bind; [apply er_get|intros]. apply er_bind; [apply er_enter|intros].
  apply er_bind; [apply er_scope|intros]. apply er_bind; [apply er_define|intros].
  apply er_bind; [apply er_defines|intros]. apply er_bind; [now apply er_stmnts|intros].
  apply er_bind; [apply er_exit|intros fu]. apply er_bind; [apply er_const|intros].
  destruct (snd fu); [apply er_op_u16|]. apply er_bind; [apply er_op_u16|intros; apply er_ups].
Qed.

Ltac pe := match goal with
  | |- er (bind (if _ then _ else _) _) => apply er_bind; [|intros]
  | |- er (bind (match _ with _ => _ end) _) => apply er_bind; [|intros]
  | |- er (bind _ _) => apply er_bind; [solve [first
      [apply er_op|apply er_op_u16|apply er_op_u8|apply er_u16|apply er_u8|apply er_jump|apply er_back; auto
      |apply er_pjump; auto|apply er_patches; auto|apply er_len|apply er_get|apply er_is_global|apply er_scope
      |apply er_exit_scope|apply er_temps|apply er_define|apply er_defines|apply er_const|apply er_gsym
      |apply er_ext; auto|apply er_var|apply er_function; auto|apply er_stmnts; auto|apply er_block; auto
      |apply er_each; auto|apply er_each_rev; auto|auto]]|intros]
  | |- er (if ?b then _ else _) => destruct b
  | |- er (match ?x with _ => _ end) => destruct x eqn:?
  | |- er (fail _ _) => apply er_fail; auto
  | |- er crash => apply er_crash
  | |- er (ret _) => apply er_ret
  | |- er (fin _ _) => apply er_fin
  | |- er (write_op _ _) => apply er_op
  | |- er (write_op_u16 _ _ _) => apply er_op_u16
  | |- er (write_op_u8 _ _ _) => apply er_op_u8
  | |- er (set_variable _ _) => apply er_var
  | |- er (define_globals _) => apply er_globals
  | |- er (define_locals _) => apply er_defines
  | |- er (block_with _ _) => apply er_block; auto
  | |- er (each_with _ _) => apply er_each; auto
  | |- er (cnode _ _ _ _) => auto
  end.

Context (m : mode).
Definition en (n : node) : Prop := forall sp, allpos P [(n, sp)] -> forall k, er (cnode m k n sp).
Definition eS (e : nodeS) : Prop := forall k, er (cnode m k (fst e) (snd e)).
Lemma en_list n sp (l : list nodeS) : allpos P [(n, sp)] -> (forall e, In e l -> In e (children n)) -> Forall (fun e => en (fst e)) l -> Forall eS l.
Proof using.
  intros Hn Hi H. rewrite Forall_forall in *. intros [c csp] Hc. intros k. cbn [fst snd]. apply (H _ Hc). clear k.
  destruct (allpos_in _ _ n sp Hn (or_introl eq_refl)) as (_ & _ & K).
  intros x Hx. apply K. eapply position_mono; [|exact Hx]. intros y [<-|[]]. auto.
Qed.
Lemma es_stmts l : Forall eS l -> Forall (fun e : nodeS => forall p, er (cnode m (KStmt p) (fst e) (snd e))) l.
Proof using. intros H. eapply Forall_impl; [|exact H]. intros a Ha p. apply Ha. Qed.
Lemma es_exprs l k : Forall eS l -> Forall (fun e : nodeS => er (cnode m k (fst e) (snd e))) l.
Proof using. intros H. eapply Forall_impl; [|exact H]. intros a Ha. apply Ha. Qed.
Lemma en_cnode n : en n.
Proof using.
  induction n using node_ind'; unfold en; intros sp L k; cbn [cnode].
  all: destruct (allpos_in _ _ _ sp L (or_introl eq_refl)) as (W1 & W2 & _); cbn [names_of] in W2.
  all: repeat match goal with
    | H : Forall (fun e : nodeS => en (fst e)) ?l |- _ =>
       let K := fresh "K" in
       assert (K : Forall eS l)
         by (refine (en_list _ sp l L _ H); cbn [children opt_list]; intros e0 He0; cbn [In]; rewrite ?in_app_iff; auto);
       pose proof (es_stmts l K); pose proof (es_exprs l KExpr K); pose proof (es_exprs l (KStmt true) K); clear H K
    | H : en (fst ?e) |- _ =>
       let K := fresh "K" in
       assert (K : P (snd e) /\ eS e)
         by (split; [apply L; eapply po_node, oc_in; [apply oc_top; now left|]; rewrite <- surjective_pairing; cbn; rewrite ?in_app_iff; auto
             |refine (Forall_inv (en_list _ sp [e] L _ (Forall_cons e H (Forall_nil _)))); intros e0 [<-|[]]; cbn; rewrite ?in_app_iff; auto]);
       destruct K as [? K]; assert (forall k, er (cnode m k (fst e) (snd e))) by exact K; clear H K
    | H : Forall _ (?x :: _) |- _ => inversion H; clear H; subst
    | x : spanned rstring |- _ => destruct x; cbn [fst snd] in *
    end.
  all: try (repeat pe; fail).
  - (* Conditional *)
    assert (K2 : forall b, o = Some b -> Forall (fun e : nodeS => forall p, er (cnode m (KStmt p) (fst e) (snd e))) b).
    { intros b ->. apply es_stmts. refine (en_list _ sp b L _ _); [|auto]. cbn. intros e He. right. apply in_app_iff. auto. }
    repeat pe.
  - (* Switch *)
    assert (K2 : forall b, d = Some b -> Forall (fun e : nodeS => forall p, er (cnode m (KStmt p) (fst e) (snd e))) b).
    { intros b ->. apply es_stmts. refine (en_list _ sp b L _ _); [|auto]. cbn. intros e He. right. apply in_app_iff. auto. }
    assert (K3 : er (cases_with (cnode m) cs)).
    { assert (I : forall cb, In cb cs -> P (snd (fst cb)) /\ (forall k, er (cnode m k (fst (fst cb)) (snd (fst cb)))) /\
        Forall (fun e : nodeS => forall p, er (cnode m (KStmt p) (fst e) (snd e))) (snd cb)).
      { rewrite Forall_forall in H0. intros cb Hcb. destruct (H0 _ Hcb) as [Ha Hb].
        assert (J : forall e, In e (fst cb :: snd cb) -> In e (children (NSwitch v cs d))).
        { intros e He. cbn. right. apply in_app_iff. left. apply in_flat_map. eauto. }
        split; [|split].
        - apply L. eapply po_node, oc_in; [apply oc_top; now left|]. rewrite <- surjective_pairing. apply J. now left.
        - refine (Forall_inv (en_list _ sp [fst cb] L _ (Forall_cons (P := fun e => en (fst e)) (fst cb) Ha (Forall_nil _)))). intros e0 [<-|[]]. apply J. now left.
        - apply es_stmts. refine (en_list _ sp _ L _ Hb). intros e He. apply J. now right. }
      clear - I. induction cs as [|cb cs IH]; cbn [cases_with]; [apply er_ret|].
      destruct (I cb (or_introl eq_refl)) as (Hp & Ha & Hb).
      apply er_bind; [apply Ha|intros]. repeat pe.
      apply er_bind; [apply IH; intros; apply I; now right|intros; apply er_ret]. }
    repeat pe.
  - (* Include *)
    assert (K2 : forall c, b = Some c -> Forall (fun e : nodeS => er (cnode m (KStmt true) (fst e) (snd e))) c).
    { intros c ->. apply es_exprs. refine (en_list _ sp c L _ _); [|auto]. cbn. auto. }
    repeat pe.
  - (* Return *)
    assert (K2 : forall v, e = Some v -> forall k, er (cnode m k (fst v) (snd v))).
    { intros v ->. refine (Forall_inv (en_list _ sp [v] L _ (Forall_cons (P := fun e => en (fst e)) v H (Forall_nil _)))). intros e0 [<-|[]]. cbn. auto. }
    repeat pe.
Qed.
End Errors.

Lemma compile_error_position m ast e sp : compile m ast = CErr e sp -> position_of ast sp.
Proof.
  unfold compile.
  assert (K : er (position_of ast) (set_main_span ast ;; compile_stmnts m ast)).
  { apply er_bind.
    - unfold set_main_span. destruct ast as [|x ast]; [apply er_ret|apply er_mod].
    - intros _. apply er_stmnts. apply Forall_forall. intros [n nsp] Hn p. apply en_cnode.
      intros x Hx. eapply position_mono; [|exact Hx]. intros y [<-|[]]. exact Hn. }
  specialize (K (compiler_new main_name)).
  destruct ((set_main_span ast ;; compile_stmnts m ast) (compiler_new main_name)) as [[a|er sp'|] c]; try discriminate.
  now intros [= <- <-].
Qed.
