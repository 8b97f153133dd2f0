(** Every name in a compiled program is one of the source or made up (C101). *)
From Verif Require Import Base RleVec Pool Vecc Float NumText Bytecode Chunk Value Ast Compiler Vm
                          SpecArith SpecParse SpecPos SpecNames ProofCompiler ProofText.

Section Names.
Context (P : rstring -> Prop) (P_main : P main_name) (P_lambda : P lambda_name) (P_temp : forall n, P (temp_name n)).

Inductive kept : value -> Prop :=
| kp_lit l : kept (literal_to_value l)
| kp_fn f : P (fn_name f) -> Forall P (ck_syms (fn_chunk f)) -> (forall c, In c (ck_consts (fn_chunk f)) -> kept c) ->
    kept (VFn (MFun f)).

Definition lv_ok (l : level) : Prop :=
  P (fst (lv_name l)) /\ Forall P (p_entries (lv_syms l)) /\ Forall kept (p_entries (lv_consts l)).
Definition c_ok (c : compiler) : Prop := Forall lv_ok (c_level c :: c_enclosing c) /\ Forall P (p_entries (c_globals c)).
Definition kc {A} (Q : A -> Prop) (x : M A) : Prop :=
  forall c, c_ok c -> c_ok (snd (x c)) /\ match fst (x c) with COk a => Q a | _ => True end.
Definition any {A} (_ : A) : Prop := True.

Lemma kc_ret {A} (Q : A -> Prop) a : Q a -> kc Q (ret a). Proof. intros H c Hc; cbn; auto. Qed.
Lemma kc_ret_ {A} (a : A) : kc any (ret a). Proof. apply kc_ret. exact Logic.I. Qed.
Lemma kc_fail {A} (Q : A -> Prop) er sp : kc Q (fail er sp : M A). Proof. intros c Hc; cbn; auto. Qed.
Lemma kc_crash {A} (Q : A -> Prop) : kc Q (crash : M A). Proof. intros c Hc; cbn; auto. Qed.
Lemma kc_bind {A B} (R : A -> Prop) (Q : B -> Prop) (x : M A) (k : A -> M B) :
  kc R x -> (forall a, R a -> kc Q (k a)) -> kc Q (bind x k).
Proof.
  intros Hx Hk c H. unfold bind. specialize (Hx c H). destruct (x c) as [[a|er sp|] c']; cbn in *; try tauto.
  apply Hk; tauto.
Qed.
Lemma kc_get : kc lv_ok get_level. Proof. intros c H. split; [exact H|]. destruct H as [H _]. now inversion H. Qed.
Lemma kc_set l : lv_ok l -> kc any (set_level l).
Proof. intros Hl c [H G]. split; [|exact Logic.I]. split; [|exact G]. inversion H; subst. now constructor. Qed.
Lemma kc_mod f : (forall l, lv_ok l -> lv_ok (f l)) -> kc any (mod_level f).
Proof. intros H. eapply kc_bind; [apply kc_get|intros l Hl]. apply kc_set. auto. Qed.
Lemma kc_op o sp : kc any (write_op o sp). Proof. apply kc_mod. auto. Qed.
Lemma kc_u8 o sp : kc any (write_u8 o sp). Proof. apply kc_mod. auto. Qed.
Lemma kc_u16 o sp : kc any (write_u16 o sp). Proof. apply kc_mod. auto. Qed.
Lemma kc_op_u8 o b sp : kc any (write_op_u8 o b sp).
Proof. eapply kc_bind; [apply kc_op|intros; apply kc_u8]. Qed.
Lemma kc_op_u16 o b sp : kc any (write_op_u16 o b sp).
Proof. eapply kc_bind; [apply kc_op|intros; apply kc_u16]. Qed.
Lemma kc_patch o v : kc any (patch_u16 o v).
Proof. eapply kc_bind; [apply kc_get|intros l Hl]. destruct (chunk_patch_u16 _ _ _); try apply kc_crash. now apply kc_set. Qed.
Lemma kc_len : kc any code_len. Proof. eapply kc_bind; [apply kc_get|intros; apply kc_ret_]. Qed.
Lemma kc_jump o sp : kc any (write_jump o sp).
Proof. eapply kc_bind; [apply kc_op_u16|intros]. eapply kc_bind; [apply kc_len|intros; apply kc_ret_]. Qed.
Lemma kc_back o sp : kc any (write_jump_backward o sp).
Proof. eapply kc_bind; [apply kc_len|intros]. cbv zeta. destruct (_ <? _)%N; [apply kc_fail|apply kc_op_u16]. Qed.
Lemma kc_pjump o sp : kc any (patch_jump o sp).
Proof. eapply kc_bind; [apply kc_len|intros]. cbv zeta. destruct (_ <? _)%N; [apply kc_fail|apply kc_patch]. Qed.
Lemma kc_const v : kept v -> kc any (add_constant v).
Proof.
  intros Hv. eapply kc_bind; [apply kc_get|intros l Hl]. unfold pool_add, pool_add_force.
  destruct (alookup _ _ _).
  - eapply kc_bind; [now apply kc_set|intros; apply kc_ret_].
  - eapply kc_bind; [|intros; apply kc_ret_]. apply kc_set. destruct Hl as (H1 & H2 & H3). split; [exact H1|]. split; [exact H2|]. cbn. apply Forall_app. auto.
Qed.
Lemma pool_add_all (p : pool rstring) x : P x -> Forall P (p_entries p) -> Forall P (p_entries (fst (pool_add seqb p x))).
Proof.
  intros Hx H. unfold pool_add, pool_add_force. destruct (alookup _ _ _); [exact H|]. cbn. apply Forall_app. auto.
Qed.
Lemma kc_sym v : P v -> kc any (add_symbol v).
Proof.
  intros Hv. eapply kc_bind; [apply kc_get|intros l (H1 & H2 & H3)].
  pose proof (pool_add_all (lv_syms l) v Hv H2) as K. destruct (pool_add _ _ _) as [p i].
  eapply kc_bind; [|intros; apply kc_ret_]. apply kc_set. split; [exact H1|]. split; [exact K|exact H3].
Qed.
Lemma kc_gsym v : P v -> kc any (add_global_symbol v).
Proof.
  intros Hv c [Hc Hg]. unfold add_global_symbol. pose proof (pool_add_all (c_globals c) v Hv Hg) as K.
  destruct (pool_add _ _ _) as [p i]. split; [|exact Logic.I]. split; [exact Hc|exact K].
Qed.
Lemma kc_is_global : kc any is_global. Proof. eapply kc_bind; [apply kc_get|intros; apply kc_ret_]. Qed.
Lemma kc_ext off x sp : kc any (add_external off x sp).
Proof.
  intros c Hc. unfold add_external. repeat match goal with |- context [if ?b then _ else _] => destruct b end; split; try exact Hc; exact Logic.I.
Qed.
Lemma kc_scope : kc any enter_scope. Proof. apply kc_mod. auto. Qed.
Lemma kc_flush q sp : kc any (flush_pops q sp).
Proof. unfold flush_pops. destruct (_ <=? _)%N; [apply kc_op_u16|]. destruct (_ =? _)%N; [apply kc_op|apply kc_ret_]. Qed.
Lemma kc_pops ops sp : forall q, kc any (emit_pops ops q sp).
Proof.
  induction ops as [|[] ops IH]; intros q; cbn [emit_pops]; auto using kc_flush.
  eapply kc_bind; [apply kc_flush|intros]. eapply kc_bind; [apply kc_op|intros]. auto.
Qed.
Lemma kc_exit_scope sp : kc any (exit_scope sp).
Proof.
  unfold exit_scope. eapply kc_bind; [apply kc_mod; auto|intros].
  eapply kc_bind; [apply kc_get|intros l Hl]. destruct (leaving _ _) as [ops rest].
  eapply kc_bind; [now apply kc_set|intros]. destruct ops; [apply kc_ret_|].
  eapply kc_bind; [apply kc_op|intros]. eapply kc_bind; [apply kc_pops|intros]. apply kc_op.
Qed.
Lemma add_up_ok l i b : lv_ok l -> lv_ok (fst (add_upvalue l i b)).
Proof. intros H. unfold add_upvalue. destruct (position _ _); exact H. Qed.
Lemma resolve_ok name : forall ps l, Forall lv_ok (l :: ps) ->
  Forall lv_ok (fst (fst (resolve_upvalue l ps name)) :: snd (fst (resolve_upvalue l ps name))).
Proof.
  induction ps as [|p ps IH]; intros l H; cbn [resolve_upvalue]; [exact H|].
  inversion H as [|? ? Hl H1]; subst. inversion H1 as [|? ? Hp H2]; subst.
  destruct (resolve_local _ _ _) as [ls [i|]].
  - pose proof (add_up_ok l i true Hl). destruct (add_upvalue l i true) as [l' k]. cbn [fst snd] in *. constructor; [assumption|]. constructor; [exact Hp|exact H2].
  - specialize (IH p H1). destruct (resolve_upvalue p ps name) as [[p' rest'] [i|]]; cbn in IH.
    + pose proof (add_up_ok l i false Hl). destruct (add_upvalue l i false) as [l' k]. cbn in *. constructor; auto.
    + cbn. constructor; auto.
Qed.
Lemma kc_up x : kc any (resolve_upvalue_m x).
Proof.
  intros c [H G]. unfold resolve_upvalue_m. pose proof (resolve_ok x _ _ H) as K.
  destruct (resolve_upvalue _ _ _) as [[l ps] r]. split; [|exact Logic.I]. split; [exact K|exact G].
Qed.
Lemma kc_var a b c x sp : P x -> kc any (variable_op a b c x sp).
Proof.
  intros Hx.  unfold variable_op. eapply kc_bind; [apply kc_get|intros l Hl].
  destruct (snd _); [apply kc_op_u16|]. eapply kc_bind; [apply kc_up|intros [i|] _]; [apply kc_op_u16|].
  eapply kc_bind; [apply kc_gsym; exact Hx|intros]. apply kc_op_u16.
Qed.
Lemma kc_define x b : P x -> kc any (define_local x b).
Proof.
  intros Hx. unfold define_local. eapply kc_bind; [apply kc_get|intros l Hl].
  eapply kc_bind; [|intros; apply kc_mod; auto]. destruct (declared_here (lv_depth l) x (lv_locals l)).
  - apply kc_mod. intros l' (H1 & H2 & H3). split; [exact H1|]. split; [|exact H3]. cbn. apply Forall_app. auto.
  - eapply kc_bind; [apply kc_sym; exact Hx|intros; apply kc_ret_].
Qed.
Lemma kc_defines l : Forall P l -> kc any (define_locals l).
Proof. induction 1; cbn [define_locals]; [apply kc_ret_|]. eapply kc_bind; [apply kc_define; assumption|auto]. Qed.
Lemma kc_temps n : kc any (reserve_temps n).
Proof.
  induction n; cbn [reserve_temps]; [apply kc_ret_|]. eapply kc_bind; [apply kc_get|intros].
  eapply kc_bind; [apply kc_define, P_temp|auto].
Qed.
Lemma kc_fin k sp : kc any (fin k sp).
Proof. destruct k as [|[]]; cbn; [apply kc_ret_|apply kc_op|apply kc_ret_]. Qed.
Lemma kc_ups us sp : kc any (write_upvalues us sp).
Proof.
  induction us as [|[i b] us IH]; cbn [write_upvalues]; [apply kc_ret_|].
  eapply kc_bind; [apply kc_u8|intros]. eapply kc_bind; [apply kc_u16|auto].
Qed.
Lemma kc_globals (l : list (spanned rstring)) : Forall P (map fst l) -> kc any (define_globals l).
Proof.
  induction l as [|[x sp] l IH]; cbn [define_globals map fst]; [intros; apply kc_ret_|].
  intros H. inversion H; subst. eapply kc_bind; [apply kc_gsym; assumption|intros]. eapply kc_bind; [apply kc_op_u16|auto].
Qed.
Lemma kc_patches l sp : kc any (patch_all l sp).
Proof. induction l; cbn [patch_all]; [apply kc_ret_|]. eapply kc_bind; [apply kc_pjump|auto]. Qed.
Lemma kc_enter l : lv_ok l -> kc any (enter_level l).
Proof. intros Hl c [Hc Hg]. split; [|exact Logic.I]. split; [|exact Hg]. constructor; [exact Hl|exact Hc]. Qed.
Lemma finish_ok l : lv_ok l -> kept (VFn (MFun (fst (level_finish l)))).
Proof.
  intros (H1 & H2 & H3). rewrite Forall_forall in H3. unfold level_finish. cbn [fst].
  apply kp_fn; [exact H1| |]; destruct (_ =? 0); cbn; auto.
Qed.
Lemma kc_exit : kc (fun fu => kept (VFn (MFun (fst fu)))) exit_level.
Proof.
  intros c H0. pose proof H0 as [Hc Hg]. unfold exit_level. inversion Hc; subst.
  destruct (c_enclosing c) eqn:E; [split; [exact H0|exact Logic.I]|].
  split; [split; [assumption|exact Hg]|]. cbn. now apply finish_ok.
Qed.

Lemma kc_stmnts f l : Forall (fun e : nodeS => forall p sp, kc any (f p (fst e) sp)) l -> kc any (stmnts_with f l).
Proof.
  induction 1 as [|e l He Hl IH]; cbn [stmnts_with]; [apply kc_ret_|]. destruct l.
  - eapply kc_bind; [apply He|intros; apply kc_ret_].
  - eapply kc_bind; [apply He|intros; exact IH].
Qed.
Lemma kc_each f l : Forall (fun e : nodeS => forall sp, kc any (f (fst e) sp)) l -> kc any (each_with f l).
Proof.
  induction 1 as [|e l He Hl IH]; cbn [each_with]; [apply kc_ret_|].
  eapply kc_bind; [apply He|intros; exact IH].
Qed.
Lemma kc_each_rev f l : Forall (fun e : nodeS => forall sp, kc any (f (fst e) sp)) l -> kc any (each_rev_with f l).
Proof.
  induction 1 as [|e l He Hl IH]; cbn [each_rev_with]; [apply kc_ret_|].
  eapply kc_bind; [exact IH|intros; apply He].
Qed.
Lemma kc_block f l : Forall (fun e : nodeS => forall p sp, kc any (f p (fst e) sp)) l -> kc any (block_with f l).
Proof.
  intros H. eapply kc_bind; [apply kc_scope|intros]. eapply kc_bind; [apply kc_stmnts; auto|intros].
  apply kc_exit_scope.
Qed.
Lemma kc_function f (nm : spanned rstring) (args : list (spanned rstring)) body sp : P (fst nm) -> Forall P (map fst args) -> Forall (fun e : nodeS => forall p sp, kc any (f p (fst e) sp)) body ->
  kc any (function_with f nm args body sp).
Proof.
  intros Hn Ha H. unfold function_with. destruct (over255 args); [apply kc_fail|].
  eapply kc_bind; [apply kc_get|intros]. eapply kc_bind; [apply kc_enter; split; [exact Hn|split; constructor]|intros].
  eapply kc_bind; [apply kc_scope|intros]. eapply kc_bind; [apply kc_define; exact Hn|intros].
  eapply kc_bind; [apply kc_defines; exact Ha|intros]. eapply kc_bind; [apply kc_stmnts; auto|intros].
  eapply kc_bind; [apply kc_exit|intros fu Hfu]. eapply kc_bind; [apply kc_const; exact Hfu|intros].
  destruct (snd fu); [apply kc_op_u16|]. eapply kc_bind; [apply kc_op_u16|intros; apply kc_ups].
Qed.

Lemma map_rev_all (l : list (spanned rstring)) : Forall P (map fst l) -> Forall P (map fst (rev l)).
Proof using. rewrite map_rev. apply Forall_rev. Qed.
Ltac nm := subst; cbn [names_said names_of var_names opt_list map fst snd app] in *;
  repeat match goal with H : Forall P (_ :: _) |- _ => inversion H; subst; clear H end;
  first [assumption | apply map_rev_all; assumption | exact P_lambda].
Ltac pb := match goal with
  | |- kc any (bind (write_op _ _) _) => eapply kc_bind; [apply kc_op|intros]
  | |- kc any (bind (write_op_u16 _ _ _) _) => eapply kc_bind; [apply kc_op_u16|intros]
  | |- kc any (bind (write_op_u8 _ _ _) _) => eapply kc_bind; [apply kc_op_u8|intros]
  | |- kc any (bind (write_u16 _ _) _) => eapply kc_bind; [apply kc_u16|intros]
  | |- kc any (bind (write_u8 _ _) _) => eapply kc_bind; [apply kc_u8|intros]
  | |- kc any (bind (write_jump _ _) _) => eapply kc_bind; [apply kc_jump|intros]
  | |- kc any (bind (write_jump_backward _ _) _) => eapply kc_bind; [apply kc_back|intros]
  | |- kc any (bind (patch_jump _ _) _) => eapply kc_bind; [apply kc_pjump|intros]
  | |- kc any (bind (patch_all _ _) _) => eapply kc_bind; [apply kc_patches|intros]
  | |- kc any (bind code_len _) => eapply kc_bind; [apply kc_len|intros]
  | |- kc any (bind get_level _) => eapply kc_bind; [apply kc_get|intros]
  | |- kc any (bind is_global _) => eapply kc_bind; [apply kc_is_global|intros]
  | |- kc any (bind enter_scope _) => eapply kc_bind; [apply kc_scope|intros]
  | |- kc any (bind (exit_scope _) _) => eapply kc_bind; [apply kc_exit_scope|intros]
  | |- kc any (bind (reserve_temps _) _) => eapply kc_bind; [apply kc_temps|intros]
  | |- kc any (bind (define_local _ _) _) => eapply kc_bind; [apply kc_define; nm|intros]
  | |- kc any (bind (define_locals _) _) => eapply kc_bind; [apply kc_defines; nm|intros]
  | |- kc any (bind (add_constant _) _) => eapply kc_bind; [apply kc_const, kp_lit|intros]
  | |- kc any (bind (add_global_symbol _) _) => eapply kc_bind; [apply kc_gsym; nm|intros]
  | |- kc any (bind (add_external _ _ _) _) => eapply kc_bind; [apply kc_ext|intros]
  | |- kc any (bind (set_variable _ _) _) => eapply kc_bind; [apply kc_var; nm|intros]
  | |- kc any (bind (get_variable _ _) _) => eapply kc_bind; [apply kc_var; nm|intros]
  | |- kc any (bind (function_with _ _ _ _ _) _) => eapply kc_bind; [apply kc_function; [nm|nm|auto]|intros]
  | |- kc any (bind (stmnts_with _ _) _) => eapply kc_bind; [apply kc_stmnts; auto|intros]
  | |- kc any (bind (block_with _ _) _) => eapply kc_bind; [apply kc_block; auto|intros]
  | |- kc any (bind (each_with _ _) _) => eapply kc_bind; [apply kc_each; auto|intros]
  | |- kc any (bind (each_rev_with _ _) _) => eapply kc_bind; [apply kc_each_rev; auto|intros]
  | |- kc any (bind (cnode _ _ _ _) _) => eapply kc_bind; [auto|intros]
  | |- kc any (bind (if _ then _ else _) _) => eapply (kc_bind any); [|intros]
  | |- kc any (bind (match _ with _ => _ end) _) => eapply (kc_bind any); [|intros]
  | |- kc any (if ?b then _ else _) => destruct b
  | |- kc any (match ?x with _ => _ end) => destruct x eqn:?
  | |- kc any (fail _ _) => apply kc_fail
  | |- kc any crash => apply kc_crash
  | |- kc any (ret _) => apply kc_ret_
  | |- kc any (fin _ _) => apply kc_fin
  | |- kc any (write_op _ _) => apply kc_op
  | |- kc any (write_op_u16 _ _ _) => apply kc_op_u16
  | |- kc any (write_op_u8 _ _ _) => apply kc_op_u8
  | |- kc any (set_variable _ _) => apply kc_var; nm
  | |- kc any (define_globals _) => apply kc_globals; nm
  | |- kc any (define_locals _) => apply kc_defines; nm
  | |- kc any (block_with _ _) => apply kc_block; auto
  | |- kc any (each_with _ _) => apply kc_each; auto
  | |- kc any (cnode _ _ _ _) => auto
  end.

Section Nodes.
Context (m : mode).
Definition lits (n : node) : Prop := forall b, inside b n -> Forall P (names_said b).
Definition kn (n : node) : Prop := lits n -> forall k sp, kc any (cnode m k n sp).
Lemma lits_child n c sp : In (c, sp) (children n) -> lits n -> lits c.
Proof. intros Hi H l Hl. apply H. eapply inside_child; eauto. Qed.
Lemma kn_list n (l : list nodeS) : lits n -> (forall e, In e l -> In e (children n)) -> Forall (fun e => kn (fst e)) l ->
  Forall (fun e : nodeS => forall k sp, kc any (cnode m k (fst e) sp)) l.
Proof.
  intros Hn Hi H. rewrite Forall_forall in *. intros [c sp] Hc. apply (H _ Hc). eapply lits_child; eauto.
Qed.
Lemma kn_stmts (l : list nodeS) : Forall (fun e : nodeS => forall k sp, kc any (cnode m k (fst e) sp)) l ->
  Forall (fun e : nodeS => forall p sp, kc any (cnode m (KStmt p) (fst e) sp)) l.
Proof. intros H. eapply Forall_impl; [|exact H]. intros a Ha p sp. apply Ha. Qed.
Lemma kn_exprs (l : list nodeS) k : Forall (fun e : nodeS => forall k sp, kc any (cnode m k (fst e) sp)) l ->
  Forall (fun e : nodeS => forall sp, kc any (cnode m k (fst e) sp)) l.
Proof. intros H. eapply Forall_impl; [|exact H]. intros a Ha sp. apply Ha. Qed.

Lemma kn_cnode n : kn n.
Proof.
  induction n using node_ind'; unfold kn; intros L k sp; cbn [cnode]; pose proof (L _ (inside_self _)) as L0.
  all: repeat match goal with
    | H : Forall (fun e : nodeS => kn (fst e)) ?l |- _ =>
       let K := fresh "K" in
       assert (K : Forall (fun e : nodeS => forall k sp, kc any (cnode m k (fst e) sp)) l)
         by (refine (kn_list _ l L _ H); cbn [children opt_list]; intros e0 He0; cbn [In]; rewrite ?in_app_iff; auto);
       pose proof (kn_stmts l K); pose proof (kn_exprs l KExpr K); pose proof (kn_exprs l (KStmt true) K); clear H
    | H : kn (fst ?e) |- _ =>
       assert (forall k sp, kc any (cnode m k (fst e) sp))
         by (apply H; refine (lits_child _ (fst e) (snd e) _ L); rewrite <- surjective_pairing; cbn; rewrite ?in_app_iff; auto);
       clear H
    end.
  all: try (repeat pb; fail).
  - (* Conditional *)
    assert (K2 : forall b, o = Some b -> Forall (fun e : nodeS => forall p sp, kc any (cnode m (KStmt p) (fst e) sp)) b).
    { intros b ->. apply kn_stmts. refine (kn_list _ b L _ _); [|auto].
      cbn. intros e He. right. apply in_app_iff. auto. }
    repeat pb.
  - (* Switch *)
    assert (K2 : forall b, d = Some b -> Forall (fun e : nodeS => forall p sp, kc any (cnode m (KStmt p) (fst e) sp)) b).
    { intros b ->. apply kn_stmts. refine (kn_list _ b L _ _); [|auto].
      cbn. intros e He. right. apply in_app_iff. auto. }
    assert (K3 : kc any (cases_with (cnode m) cs)).
    { assert (I : forall cb, In cb cs -> (forall k sp, kc any (cnode m k (fst (fst cb)) sp)) /\
        Forall (fun e : nodeS => forall p sp, kc any (cnode m (KStmt p) (fst e) sp)) (snd cb)).
      { rewrite Forall_forall in H0. intros cb Hcb. destruct (H0 _ Hcb) as [Ha Hb].
        assert (J : forall e, In e (fst cb :: snd cb) -> In e (children (NSwitch v cs d))).
        { intros e He. cbn. right. apply in_app_iff. left. apply in_flat_map. eauto. }
        split.
        - apply Ha. refine (lits_child _ _ (snd (fst cb)) _ L). apply J. rewrite <- surjective_pairing. now left.
        - apply kn_stmts. refine (kn_list _ _ L _ Hb). intros e He. apply J. now right. }
      clear - I. induction cs as [|cb cs IH]; cbn [cases_with]; [apply kc_ret_|].
      destruct (I cb (or_introl eq_refl)) as [Ha Hb].
      eapply kc_bind; [apply Ha|intros]. repeat pb.
      eapply kc_bind; [apply IH; intros; apply I; now right|intros; apply kc_ret_]. }
    repeat pb. eapply kc_bind; [exact K3|intros]. repeat pb.
  - (* Include *)
    assert (K2 : forall c, b = Some c -> Forall (fun e : nodeS => forall sp, kc any (cnode m (KStmt true) (fst e) sp)) c).
    { intros c ->. apply kn_exprs. refine (kn_list _ c L _ _); [|auto]. cbn. auto. }
    repeat pb.
  - (* Return *)
    assert (K2 : forall v, e = Some v -> forall k sp, kc any (cnode m k (fst v) sp)).
    { intros v ->. apply H. refine (lits_child _ (fst v) (snd v) _ L). rewrite <- surjective_pairing. now left. }
    repeat pb.
Qed.
End Nodes.

Lemma stmnts_ok m ast : (forall x, said ast x -> P x) -> kc any (compile_stmnts m ast).
Proof.
  intros H. apply kc_stmnts. apply Forall_forall. intros [n sp] Hn p sp'. apply kn_cnode.
  intros b Hb. apply Forall_forall. intros x Hx. apply H. exists n, sp, b. auto.
Qed.
Lemma new_ok : c_ok (compiler_new main_name).
Proof using P_main. split; [|constructor]. repeat constructor. exact P_main. Qed.
Lemma compile_kept m ast sc : (forall x, said ast x -> P x) -> compile m ast = COk sc ->
  kept (VFn (MFun (sc_function sc))) /\ Forall P (p_entries (sc_globals sc)).
Proof.
  intros H. unfold compile.
  assert (K : kc any (set_main_span ast ;; compile_stmnts m ast)).
  { eapply (kc_bind any); [|intros; now apply stmnts_ok]. unfold set_main_span.
    destruct ast as [|e ast]; [apply kc_ret_|apply kc_mod; auto]. }
  specialize (K _ new_ok).
  destruct ((set_main_span ast ;; compile_stmnts m ast) (compiler_new main_name)) as [[a|er sp|] c]; try discriminate.
  intros [= <-]. destruct K as [[K G] _]. inversion K; subst. split; [|exact G]. now apply finish_ok.
Qed.
Lemma kept_part f g : kept (VFn (MFun f)) -> part f g -> kept (VFn (MFun g)).
Proof.
  intros Hf H. induction H as [|g h H IH Hi]; [exact Hf|]. inversion IH as [l E|f' _ _ K E]; [destruct l; discriminate E|]. subst. auto.
Qed.
Lemma compile_knows m ast sc x : (forall x, said ast x -> P x) -> compile m ast = COk sc -> knows sc x -> P x.
Proof.
  intros H E K. destruct (compile_kept m ast sc H E) as [Hf Hg].
  destruct K as [K|(g & Hp & K)]; [rewrite Forall_forall in Hg; auto|].
  pose proof (kept_part _ _ Hf Hp) as Kg. inversion Kg as [l El|f' K1 K2 _ Ef]; [destruct l; discriminate El|]. subst.
  destruct K as [->|K]; [exact K1|]. rewrite Forall_forall in K2. auto.
Qed.
End Names.

Lemma temp_made_up n : made_up (temp_name n).
Proof.
  right. right. destruct (decimal_radix (N.of_nat n)) as (ds & H & E). exists (Z.of_N (N.of_nat n)), ds. split; [exact H|].
  unfold temp_name. now rewrite E.
Qed.
Lemma compiled_names m ast sc x : compile m ast = COk sc -> knows sc x -> said ast x \/ made_up x.
Proof.
  apply (compile_knows (fun x => said ast x \/ made_up x)); auto.
  - right. left. reflexivity.
  - right. right. left. reflexivity.
  - intros n. right. apply temp_made_up.
Qed.
Lemma made_up_apart x : identifier x -> ~ made_up x.
Proof.
  intros Hi [->|[->|(n & ds & _ & ->)]]; destruct Hi as [H _]; revert H; cbn; unfold letter; lia.
Qed.
