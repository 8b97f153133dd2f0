(** Every position in compiled code is a position of the program (C92). *)
From Verif Require Import Base RleVec Pool Vecc Float NumText Bytecode Chunk Value Ast Compiler Vm
                          SpecParse SpecReady SpecPos ProofCompiler ProofReady ProofHeight3 ProofPos1 ProofSpans.

Section Compile.
Context (P : span -> Prop) (Hd : P default_span).
Notation ok := (vok (sgood P)).
Definition lv_ok (l : level) : Prop :=
  P (snd (lv_name l)) /\ Forall (fun r => P (snd r)) (ck_spans (lv_chunk l)) /\ Forall ok (p_entries (lv_consts l)).
Definition c_ok (c : compiler) : Prop := Forall lv_ok (c_level c :: c_enclosing c).
Definition kc {A} (Q : A -> Prop) (x : M A) : Prop :=
  forall c, c_ok c -> c_ok (snd (x c)) /\ match fst (x c) with COk a => Q a | CErr _ sp => P sp | CPanic => True end.
Definition any {A} (_ : A) : Prop := True.

Lemma kc_ret {A} (Q : A -> Prop) a : Q a -> kc Q (ret a). Proof. intros H c Hc; cbn; auto. Qed.
Lemma kc_ret_ {A} (a : A) : kc any (ret a). Proof. apply kc_ret. exact Logic.I. Qed.
Lemma kc_fail {A} (Q : A -> Prop) er sp : P sp -> kc Q (fail er sp : M A). Proof. intros Hp c Hc; cbn; auto. Qed.
Lemma kc_crash {A} (Q : A -> Prop) : kc Q (crash : M A). Proof. intros c Hc; cbn; auto. Qed.
Lemma kc_bind {A B} (R : A -> Prop) (Q : B -> Prop) (x : M A) (k : A -> M B) :
  kc R x -> (forall a, R a -> kc Q (k a)) -> kc Q (bind x k).
Proof.
  intros Hx Hk c H. unfold bind. specialize (Hx c H). destruct (x c) as [[a|er sp|] c']; cbn in *; try tauto.
  apply Hk; tauto.
Qed.
Lemma kc_get : kc lv_ok get_level. Proof. intros c H. split; [exact H|]. now inversion H. Qed.
Lemma kc_set l : lv_ok l -> kc any (set_level l).
Proof. intros Hl c H. split; [|exact Logic.I]. inversion H; subst. now constructor. Qed.
Lemma kc_mod f : (forall l, lv_ok l -> lv_ok (f l)) -> kc any (mod_level f).
Proof. intros H. eapply kc_bind; [apply kc_get|intros l Hl]. apply kc_set. auto. Qed.
Lemma push_ok n (r : rle span) sp : Forall (fun x => P (snd x)) r -> P sp -> Forall (fun x => P (snd x)) (rle_push_n span_eqb r sp n).
Proof.
  intros H Hp. induction H as [|[c v] r H1 H2 IH]; cbn [rle_push_n]; [now repeat constructor|]. destruct r.
  - destruct (span_eqb v sp); repeat constructor; auto.
  - constructor; auto.
Qed.
Lemma kc_op o sp : P sp -> kc any (write_op o sp).
Proof. intros Hp. apply kc_mod. intros l (A & B & C). split; [exact A|split; [now apply push_ok|exact C]]. Qed.
Lemma kc_u8 o sp : P sp -> kc any (write_u8 o sp).
Proof. intros Hp. apply kc_mod. intros l (A & B & C). split; [exact A|split; [now apply push_ok|exact C]]. Qed.
Lemma kc_u16 o sp : P sp -> kc any (write_u16 o sp).
Proof. intros Hp. apply kc_mod. intros l (A & B & C). split; [exact A|split; [now apply push_ok|exact C]]. Qed.
Lemma kc_op_u8 o b sp : P sp -> kc any (write_op_u8 o b sp).
Proof. intros Hp. eapply kc_bind; [now apply kc_op|intros; now apply kc_u8]. Qed.
Lemma kc_op_u16 o b sp : P sp -> kc any (write_op_u16 o b sp).
Proof. intros Hp. eapply kc_bind; [now apply kc_op|intros; now apply kc_u16]. Qed.
Lemma kc_patch o v : kc any (patch_u16 o v).
Proof. eapply kc_bind; [apply kc_get|intros l Hl]. unfold chunk_patch_u16. destruct (bc_patch_u16 _ _ _); cbn [rbind]; try apply kc_crash. now apply kc_set. Qed.
Lemma kc_len : kc any code_len. Proof. eapply kc_bind; [apply kc_get|intros; apply kc_ret_]. Qed.
Lemma kc_jump o sp : P sp -> kc any (write_jump o sp).
Proof. intros Hp. eapply kc_bind; [now apply kc_op_u16|intros]. eapply kc_bind; [apply kc_len|intros; apply kc_ret_]. Qed.
Lemma kc_back o sp : P sp -> kc any (write_jump_backward o sp).
Proof. intros Hp. eapply kc_bind; [apply kc_len|intros]. cbv zeta. destruct (_ <? _)%N; [now apply kc_fail|now apply kc_op_u16]. Qed.
Lemma kc_pjump o sp : P sp -> kc any (patch_jump o sp).
Proof. intros Hp. eapply kc_bind; [apply kc_len|intros]. cbv zeta. destruct (_ <? _)%N; [now apply kc_fail|apply kc_patch]. Qed.
Lemma kc_const v : ok v -> kc any (add_constant v).
Proof.
  intros Hv. eapply kc_bind; [apply kc_get|intros l Hl]. unfold pool_add, pool_add_force.
  destruct (alookup _ _ _).
  - eapply kc_bind; [now apply kc_set|intros; apply kc_ret_].
  - eapply kc_bind; [|intros; apply kc_ret_]. apply kc_set. destruct Hl as (A & B & C). split; [exact A|split; [exact B|]]. cbn. apply Forall_app. auto.
Qed.
Lemma kc_sym v : kc any (add_symbol v).
Proof.
  eapply kc_bind; [apply kc_get|intros l Hl]. destruct (pool_add _ _ _).
  eapply kc_bind; [now apply kc_set|intros; apply kc_ret_].
Qed.
Lemma kc_gsym v : kc any (add_global_symbol v).
Proof. intros c Hc. unfold add_global_symbol. destruct (pool_add _ _ _). split; [exact Hc|exact Logic.I]. Qed.
Lemma kc_is_global : kc any is_global. Proof. eapply kc_bind; [apply kc_get|intros; apply kc_ret_]. Qed.
Lemma kc_ext off x sp : P sp -> kc any (add_external off x sp).
Proof. intros Hp.
  intros c Hc. unfold add_external. repeat match goal with |- context [if ?b then _ else _] => destruct b end; split; try exact Hc; first [exact Logic.I|exact Hp].
Qed.
Lemma kc_scope : kc any enter_scope. Proof. apply kc_mod. auto. Qed.
Lemma kc_flush q sp : P sp -> kc any (flush_pops q sp).
Proof. intros Hp. unfold flush_pops. destruct (_ <=? _)%N; [now apply kc_op_u16|]. destruct (_ =? _)%N; [now apply kc_op|apply kc_ret_]. Qed.
Lemma kc_pops ops sp : P sp -> forall q, kc any (emit_pops ops q sp).
Proof. intros Hp.
  induction ops as [|[] ops IH]; intros q; cbn [emit_pops]; auto using kc_flush.
  eapply kc_bind; [now apply kc_flush|intros]. eapply kc_bind; [now apply kc_op|intros]. auto.
Qed.
Lemma kc_exit_scope sp : P sp -> kc any (exit_scope sp).
Proof. intros Hp.
  unfold exit_scope. eapply kc_bind; [apply kc_mod; auto|intros].
  eapply kc_bind; [apply kc_get|intros l Hl]. destruct (leaving _ _) as [ops rest].
  eapply kc_bind; [now apply kc_set|intros]. destruct ops; [apply kc_ret_|].
  eapply kc_bind; [now apply kc_op|intros]. eapply kc_bind; [now apply kc_pops|intros]. now apply kc_op.
Qed.
Lemma add_up_ok l i b : lv_ok l -> lv_ok (fst (add_upvalue l i b)).
Proof. intros H. unfold add_upvalue. destruct (position _ _); exact H. Qed.
Lemma resolve_ok name : forall ps l, Forall lv_ok (l :: ps) ->
  Forall lv_ok (fst (fst (resolve_upvalue l ps name)) :: snd (fst (resolve_upvalue l ps name))).
Proof.
  induction ps as [|p ps IH]; intros l H; cbn [resolve_upvalue]; [exact H|].
  inversion H as [|? ? Hl H1]; subst. inversion H1 as [|? ? Hp H2]; subst.
  destruct (resolve_local _ _ _) as [ls [i|]].
  - pose proof (add_up_ok l i true Hl). destruct (add_upvalue l i true) as [l' k]. cbn [fst snd] in *. constructor; [assumption|]. constructor; [exact Hp|assumption].
  - specialize (IH p H1). destruct (resolve_upvalue p ps name) as [[p' rest'] [i|]]; cbn in IH.
    + pose proof (add_up_ok l i false Hl). destruct (add_upvalue l i false) as [l' k]. cbn in *. constructor; auto.
    + cbn. constructor; auto.
Qed.
Lemma kc_up x : kc any (resolve_upvalue_m x).
Proof.
  intros c H. unfold resolve_upvalue_m. pose proof (resolve_ok x _ _ H) as K.
  destruct (resolve_upvalue _ _ _) as [[l ps] r]. split; [exact K|exact Logic.I].
Qed.
Lemma kc_var a b c x sp : P sp -> kc any (variable_op a b c x sp).
Proof. intros Hp.
  unfold variable_op. eapply kc_bind; [apply kc_get|intros l Hl].
  destruct (snd _); [now apply kc_op_u16|]. eapply kc_bind; [apply kc_up|intros [i|] _]; [now apply kc_op_u16|].
  eapply kc_bind; [apply kc_gsym|intros]. now apply kc_op_u16.
Qed.
Lemma kc_define x b : kc any (define_local x b).
Proof.
  unfold define_local. eapply kc_bind; [apply kc_get|intros l Hl].
  eapply kc_bind; [|intros; apply kc_mod; auto]. destruct (declared_here _ _ _); [apply kc_mod; auto|].
  eapply kc_bind; [apply kc_sym|intros; apply kc_ret_].
Qed.
Lemma kc_defines l : kc any (define_locals l).
Proof. induction l; cbn [define_locals]; [apply kc_ret_|]. eapply kc_bind; [apply kc_define|auto]. Qed.
Lemma kc_temps n : kc any (reserve_temps n).
Proof.
  induction n; cbn [reserve_temps]; [apply kc_ret_|]. eapply kc_bind; [apply kc_get|intros].
  eapply kc_bind; [apply kc_define|auto].
Qed.
Lemma kc_fin k sp : P sp -> kc any (fin k sp).
Proof. intros Hp. destruct k as [|[]]; cbn; [apply kc_ret_|now apply kc_op|apply kc_ret_]. Qed.
Lemma kc_ups us sp : P sp -> kc any (write_upvalues us sp).
Proof. intros Hp.
  induction us as [|[i b] us IH]; cbn [write_upvalues]; [apply kc_ret_|].
  eapply kc_bind; [now apply kc_u8|intros]. eapply kc_bind; [now apply kc_u16|auto].
Qed.
Lemma kc_globals l : Forall (fun x : spanned rstring => P (snd x)) l -> kc any (define_globals l).
Proof.
  induction 1 as [|[x sp] l Hp Hl IH]; cbn [define_globals]; [apply kc_ret_|].
  eapply kc_bind; [apply kc_gsym|intros]. eapply kc_bind; [now apply kc_op_u16|auto].
Qed.
Lemma kc_patches l sp : P sp -> kc any (patch_all l sp).
Proof. intros Hp. induction l; cbn [patch_all]; [apply kc_ret_|]. eapply kc_bind; [now apply kc_pjump|auto]. Qed.
Lemma kc_enter l : lv_ok l -> kc any (enter_level l).
Proof. intros Hl c Hc. split; [|exact Logic.I]. constructor; [exact Hl|exact Hc]. Qed.
Lemma last_ok (r : rle span) s : Forall (fun x => P (snd x)) r -> rle_last r = Some s -> P s.
Proof.
  induction 1 as [|[n v] r H1 H2 IH]; cbn [rle_last]; [discriminate|]. destruct r; [intros [= <-]; exact H1|exact IH].
Qed.
Lemma finish_ok l : lv_ok l -> sok P (fst (level_finish l)).
Proof.
  intros (A & B & C). unfold level_finish. cbn [fst]. constructor; cbn [fn_nspan fn_chunk]; [exact A| |].
  - destruct (_ =? 0); [|exact B]. cbn. apply push_ok; [exact B|]. unfold chunk_last_span. cbn.
    destruct (rle_last _) eqn:E; [eapply last_ok; eauto|exact Hd].
  - intros c q Hc Hq. rewrite Forall_forall in C. apply (C c); [|exact Hq]. revert Hc. destruct (_ =? 0); auto.
Qed.
Lemma kc_exit : kc (fun fu => sok P (fst fu)) exit_level.
Proof.
  intros c Hc. unfold exit_level. inversion Hc; subst. destruct (c_enclosing c) eqn:E; [split; [exact Hc|exact Logic.I]|].
  split; [assumption|]. now apply finish_ok.
Qed.

Lemma kc_stmnts f l : Forall (fun e : nodeS => P (snd e)) l -> Forall (fun e : nodeS => forall p, kc any (f p (fst e) (snd e))) l -> kc P (stmnts_with f l).
Proof.
  induction 1 as [|e l Hp Hl IH]; intros H; cbn [stmnts_with]; [now apply kc_ret|]. inversion H; subst. destruct l.
  - eapply kc_bind; [auto|intros; now apply kc_ret].
  - eapply kc_bind; [auto|intros; now apply IH].
Qed.
Lemma kc_each f l : Forall (fun e : nodeS => kc any (f (fst e) (snd e))) l -> kc any (each_with f l).
Proof. induction 1 as [|e l He Hl IH]; cbn [each_with]; [apply kc_ret_|]. eapply kc_bind; [apply He|intros; exact IH]. Qed.
Lemma kc_each_rev f l : Forall (fun e : nodeS => kc any (f (fst e) (snd e))) l -> kc any (each_rev_with f l).
Proof. induction 1 as [|e l He Hl IH]; cbn [each_rev_with]; [apply kc_ret_|]. eapply kc_bind; [exact IH|intros; apply He]. Qed.
Lemma kc_block f l : Forall (fun e : nodeS => P (snd e)) l -> Forall (fun e : nodeS => forall p, kc any (f p (fst e) (snd e))) l -> kc any (block_with f l).
Proof.
  intros Hp H. eapply kc_bind; [apply kc_scope|intros]. eapply kc_bind; [apply kc_stmnts; auto|intros].
  now apply kc_exit_scope.
Qed.
Lemma kc_any {A} (Q : A -> Prop) (x : M A) : kc Q x -> kc any x.
Proof. intros H c Hc. destruct (H c Hc) as [H1 H2]. split; [exact H1|]. destruct (fst (x c)); auto. exact Logic.I. Qed.
Lemma kc_function f nm args body sp : P sp -> P (snd nm) -> Forall (fun e : nodeS => P (snd e)) body ->
  Forall (fun e : nodeS => forall p, kc any (f p (fst e) (snd e))) body -> kc any (function_with f nm args body sp).
Proof.
  intros Hs Hn Hp H. unfold function_with. destruct (over255 args); [now apply kc_fail|].
  eapply kc_bind; [apply kc_get|intros]. eapply kc_bind; [apply kc_enter; split; [exact Hn|split; constructor]|intros].
  eapply kc_bind; [apply kc_scope|intros]. eapply kc_bind; [apply kc_define|intros].
  eapply kc_bind; [apply kc_defines|intros]. eapply kc_bind; [apply kc_stmnts; auto|intros].
  eapply kc_bind; [apply kc_exit|intros fu Hfu].
  eapply kc_bind; [apply kc_const; intros q Hq; inversion Hq; subst; exact Hfu|intros].
  destruct (snd fu); [now apply kc_op_u16|]. eapply kc_bind; [now apply kc_op_u16|intros; now apply kc_ups].
Qed.
Lemma lit_ok l : ok (literal_to_value l).
Proof. intros q Hq. destruct (literal_no_fn _ _ Hq). Qed.

Ltac pe := match goal with
  | |- kc any (bind (if _ then _ else _) _) => eapply (kc_bind any); [|intros]
  | |- kc any (bind (match _ with _ => _ end) _) => eapply (kc_bind any); [|intros]
  | |- kc any (bind _ _) => eapply kc_bind; [solve [first
      [apply kc_op; auto|apply kc_op_u16; auto|apply kc_op_u8; auto|apply kc_u16; auto|apply kc_u8; auto|apply kc_jump; auto|apply kc_back; auto
      |apply kc_pjump; auto|apply kc_patches; auto|apply kc_len|apply kc_get|apply kc_is_global|apply kc_scope
      |apply kc_exit_scope; auto|apply kc_temps|apply kc_define|apply kc_defines|apply kc_const, lit_ok|apply kc_gsym
      |apply kc_ext; auto|apply kc_var; auto|apply kc_function; auto|apply kc_stmnts; auto|apply kc_block; auto
      |apply kc_each; auto|apply kc_each_rev; auto|auto]]|intros]
  | W : Forall _ (var_names (VarDecl _)) |- P _ => inversion W; assumption
  | W : Forall _ (opt_list var_names (Some (VarDecl _))) |- P _ => inversion W; assumption
  | |- kc any (if ?b then _ else _) => destruct b
  | |- kc any (match ?x with _ => _ end) => destruct x eqn:?
  | |- kc any (fail _ _) => apply kc_fail; auto
  | |- kc any crash => apply kc_crash
  | |- kc any (ret _) => apply kc_ret_
  | |- kc any (fin _ _) => apply kc_fin; auto
  | |- kc any (write_op _ _) => apply kc_op; auto
  | |- kc any (write_op_u16 _ _ _) => apply kc_op_u16; auto
  | |- kc any (write_op_u8 _ _ _) => apply kc_op_u8; auto
  | |- kc any (set_variable _ _) => apply kc_var; auto
  | |- kc any (define_globals _) => apply kc_globals; auto
  | |- kc any (define_locals _) => apply kc_defines
  | |- kc any (block_with _ _) => apply kc_block; auto
  | |- kc any (each_with _ _) => apply kc_each; auto
  | |- kc any (cnode _ _ _ _) => auto
  end.

Context (m : mode).
Definition en (n : node) : Prop := forall sp, allpos P [(n, sp)] -> forall k, kc any (cnode m k n sp).
Definition eS (e : nodeS) : Prop := forall k, kc any (cnode m k (fst e) (snd e)).
Lemma en_list n sp (l : list nodeS) : allpos P [(n, sp)] -> (forall e, In e l -> In e (children n)) -> Forall (fun e => en (fst e)) l -> Forall eS l.
Proof.
  intros Hn Hi H. rewrite Forall_forall in *. intros [c csp] Hc. intros k. cbn [fst snd]. apply (H _ Hc). clear k.
  destruct (allpos_in _ _ n sp Hn (or_introl eq_refl)) as (_ & _ & K).
  intros x Hx. apply K. eapply position_mono; [|exact Hx]. intros y [<-|[]]. auto.
Qed.
Lemma ps_list n sp (l : list nodeS) : allpos P [(n, sp)] -> (forall e, In e l -> In e (children n)) -> Forall (fun e : nodeS => P (snd e)) l.
Proof.
  intros Hn Hi. apply Forall_forall. intros [c csp] Hc. apply Hn. eapply po_node. eapply oc_in; [apply oc_top; left; reflexivity|]. exact (Hi _ Hc).
Qed.
Lemma es_stmts l : Forall eS l -> Forall (fun e : nodeS => forall p, kc any (cnode m (KStmt p) (fst e) (snd e))) l.
Proof. intros H. eapply Forall_impl; [|exact H]. intros a Ha p. apply Ha. Qed.
Lemma es_exprs l k : Forall eS l -> Forall (fun e : nodeS => kc any (cnode m k (fst e) (snd e))) l.
Proof. intros H. eapply Forall_impl; [|exact H]. intros a Ha. apply Ha. Qed.
Lemma en_cnode n : en n.
Proof.
  induction n using node_ind'; unfold en; intros sp L k; cbn [cnode].
  all: destruct (allpos_in _ _ _ sp L (or_introl eq_refl)) as (W1 & W2 & _); cbn [names_of] in W2.
  all: repeat match goal with
    | H : Forall (fun e : nodeS => en (fst e)) ?l |- _ =>
       let K := fresh "K" in
       assert (K : Forall eS l)
         by (refine (en_list _ sp l L _ H); cbn [children opt_list]; intros e0 He0; cbn [In]; rewrite ?in_app_iff; auto);
       assert (Forall (fun e : nodeS => P (snd e)) l)
         by (refine (ps_list _ sp l L _); cbn [children opt_list]; intros e0 He0; cbn [In]; rewrite ?in_app_iff; auto);
       pose proof (es_stmts l K); pose proof (es_exprs l KExpr K); pose proof (es_exprs l (KStmt true) K); clear H K
    | H : en (fst ?e) |- _ =>
       let K := fresh "K" in
       assert (K : P (snd e) /\ eS e)
         by (split; [apply L; eapply po_node, oc_in; [apply oc_top; now left|]; rewrite <- surjective_pairing; cbn; rewrite ?in_app_iff; auto
             |refine (Forall_inv (en_list _ sp [e] L _ (Forall_cons e H (Forall_nil _)))); intros e0 [<-|[]]; cbn; rewrite ?in_app_iff; auto]);
       destruct K as [? K]; assert (forall k, kc any (cnode m k (fst e) (snd e))) by exact K; clear H K
    | H : Forall _ (?x :: _) |- _ => inversion H; clear H; subst
    | x : spanned rstring |- _ => destruct x; cbn [fst snd] in *
    end.
  all: try (repeat pe; fail).
  - (* Conditional *)
    assert (K0 : forall b, o = Some b -> Forall (fun e : nodeS => P (snd e)) b).
    { intros b ->. refine (ps_list _ sp b L _). cbn. intros e He. right. apply in_app_iff. auto. }
    assert (K2 : forall b, o = Some b -> Forall (fun e : nodeS => forall p, kc any (cnode m (KStmt p) (fst e) (snd e))) b).
    { intros b ->. apply es_stmts. refine (en_list _ sp b L _ _); [|auto]. cbn. intros e He. right. apply in_app_iff. auto. }
    repeat pe.
  - (* Switch *)
    assert (K0 : forall b, d = Some b -> Forall (fun e : nodeS => P (snd e)) b).
    { intros b ->. refine (ps_list _ sp b L _). cbn. intros e He. right. apply in_app_iff. auto. }
    assert (K2 : forall b, d = Some b -> Forall (fun e : nodeS => forall p, kc any (cnode m (KStmt p) (fst e) (snd e))) b).
    { intros b ->. apply es_stmts. refine (en_list _ sp b L _ _); [|auto]. cbn. intros e He. right. apply in_app_iff. auto. }
    assert (K3 : kc any (cases_with (cnode m) cs)).
    { assert (I : forall cb, In cb cs -> P (snd (fst cb)) /\ Forall (fun e : nodeS => P (snd e)) (snd cb) /\ (forall k, kc any (cnode m k (fst (fst cb)) (snd (fst cb)))) /\
        Forall (fun e : nodeS => forall p, kc any (cnode m (KStmt p) (fst e) (snd e))) (snd cb)).
      { rewrite Forall_forall in H0. intros cb Hcb. destruct (H0 _ Hcb) as [Ha Hb].
        assert (J : forall e, In e (fst cb :: snd cb) -> In e (children (NSwitch v cs d))).
        { intros e He. cbn. right. apply in_app_iff. left. apply in_flat_map. eauto. }
        split; [|split; [|split]].
        - apply L. eapply po_node, oc_in; [apply oc_top; now left|]. rewrite <- surjective_pairing. apply J. now left.
        - refine (ps_list _ sp _ L _). intros e He. apply J. now right.
        - refine (Forall_inv (en_list _ sp [fst cb] L _ (Forall_cons (P := fun e => en (fst e)) (fst cb) Ha (Forall_nil _)))). intros e0 [<-|[]]. apply J. now left.
        - apply es_stmts. refine (en_list _ sp _ L _ Hb). intros e He. apply J. now right. }
      clear - I Hd. induction cs as [|cb cs IH]; cbn [cases_with]; [apply kc_ret_|].
      destruct (I cb (or_introl eq_refl)) as (Hp & Hq & Ha & Hb).
      eapply kc_bind; [apply Ha|intros]. repeat pe.
      eapply kc_bind; [apply IH; intros; apply I; now right|intros; apply kc_ret_]. }
    repeat pe. eapply kc_bind; [exact K3|intros]. repeat pe.
  - (* Include *)
    assert (K2 : forall c, b = Some c -> Forall (fun e : nodeS => kc any (cnode m (KStmt true) (fst e) (snd e))) c).
    { intros c ->. apply es_exprs. refine (en_list _ sp c L _ _); [|auto]. cbn. auto. }
    repeat pe.
  - (* Return *)
    assert (K2 : forall v, e = Some v -> forall k, kc any (cnode m k (fst v) (snd v))).
    { intros v ->. refine (Forall_inv (en_list _ sp [v] L _ (Forall_cons (P := fun e => en (fst e)) v H (Forall_nil _)))). intros e0 [<-|[]]. cbn. auto. }
    repeat pe.
Qed.

Lemma stmnts_ok ast : allpos P ast -> kc P (compile_stmnts m ast).
Proof.
  intros H. apply kc_stmnts.
  - apply Forall_forall. intros [n sp] Hn. exact (proj1 (allpos_in _ _ _ _ H Hn)).
  - apply Forall_forall. intros [n sp] Hn p. apply en_cnode. intros x Hx. apply H. eapply position_mono; [|exact Hx].
    intros y [<-|[]]. exact Hn.
Qed.
Lemma new_ok name : c_ok (compiler_new name).
Proof. constructor; [|constructor]. split; [exact Hd|split; constructor]. Qed.
Lemma script_ok c : c_ok c -> sok P (sc_function (as_script c)).
Proof. intros H. inversion H; subst. now apply finish_ok. Qed.
Lemma reset_ok name c : c_ok c -> c_ok (compiler_reset name c).
Proof. intros H. inversion H as [|? ? (A & B & C)]; subst. constructor; [|constructor]. split; [exact Hd|split; [constructor|exact C]]. Qed.
Lemma compile_ok ast sc : allpos P ast -> compile m ast = COk sc -> sok P (sc_function sc).
Proof.
  intros H. unfold compile.
  assert (K : kc any (set_main_span ast ;; compile_stmnts m ast)).
  { eapply (kc_bind any); [|intros; now apply (kc_any P), stmnts_ok]. unfold set_main_span.
    destruct ast as [|[n sp] ast]; [apply kc_ret_|apply kc_mod]. intros l (A & B & C). split; [|now split]. cbn.
    exact (proj1 (allpos_in _ _ _ _ H (or_introl eq_refl))). }
  specialize (K _ (new_ok main_name)).
  destruct ((set_main_span ast ;; compile_stmnts m ast) (compiler_new main_name)) as [[a|er sp|] c]; try discriminate.
  intros [= <-]. apply script_ok. exact (proj1 K).
Qed.
End Compile.
