(** Positions do not change what is compiled: every step of the compiler (C87). *)
From Verif Require Import Base RleVec Pool Vecc Float Bytecode Chunk Value Ast Compiler ProofCompiler SpecRel SpecLayout ProofLayout.

Ltac lsim_tac := intros; match goal with H : lsim ?l ?l' |- _ => destruct H; constructor; cbn; auto; try congruence end.
Lemma ms_write_op o o' sp sp' : msim tt2 (write_op o sp) (write_op o' sp').
Proof. apply ms_mod. lsim_tac. unfold chunk_len, chunk_write_op, chunk_write_u8, bc_write_u8 in *. cbn. rewrite !app_length. cbn. lia. Qed.
Lemma ms_write_u8 o o' sp sp' : msim tt2 (write_u8 o sp) (write_u8 o' sp').
Proof. apply ms_write_op. Qed.
Lemma ms_write_u16 o o' sp sp' : msim tt2 (write_u16 o sp) (write_u16 o' sp').
Proof. apply ms_mod. lsim_tac. unfold chunk_len, chunk_write_u16, bc_write_u16 in *. cbn. rewrite !app_length. cbn. lia. Qed.
Lemma ms_write_op_u8 o o' b b' sp sp' : msim tt2 (write_op_u8 o b sp) (write_op_u8 o' b' sp').
Proof. apply ms_seq; [apply ms_write_op|apply ms_write_u8]. Qed.
Lemma ms_write_op_u16 o o' b b' sp sp' : msim tt2 (write_op_u16 o b sp) (write_op_u16 o' b' sp').
Proof. apply ms_seq; [apply ms_write_op|apply ms_write_u16]. Qed.
Lemma set_same i b b' (ops ops' : bytes) : length ops = length ops' ->
  match bc_set i b ops, bc_set i b' ops' with Ok x, Ok y => length x = length ops /\ length y = length ops' | Panic, Panic => True | _, _ => False end.
Proof. intros H. unfold bc_set. rewrite H. destruct (_ <? _) eqn:E; [|exact Logic.I]. split; rewrite upd_length; auto. Qed.

Lemma ms_patch_u16 i v v' : msim tt2 (patch_u16 i v) (patch_u16 i v').
Proof.
  eapply ms_bind; [apply ms_get|]. intros l l' HL. unfold chunk_patch_u16, bc_patch_u16.
  pose proof (ls_len _ _ HL) as HE. unfold chunk_len in HE.
  pose proof (set_same i (le_lo v) (le_lo v') _ _ HE) as H1.
  destruct (bc_set i (le_lo v) _) as [x| |], (bc_set i (le_lo v') _) as [y| |]; try contradiction; cbn [rbind]; [|apply ms_crash].
  destruct H1 as [HX HY]. pose proof (set_same (i + 1) (le_hi v) (le_hi v') x y ltac:(congruence)) as H2.
  destruct (bc_set (i + 1) (le_hi v) _) as [x1| |], (bc_set (i + 1) (le_hi v') _) as [y1| |]; try contradiction; cbn [rbind]; [|apply ms_crash].
  destruct H2. apply ms_set. destruct HL; constructor; cbn; auto. unfold chunk_len. cbn. congruence.
Qed.
Lemma ms_code_len : msim eq code_len code_len.
Proof. eapply ms_bind; [apply ms_get|]. intros l l' HL. apply ms_ret, HL. Qed.
Lemma ms_write_jump o o' sp sp' : msim eq (write_jump o sp) (write_jump o' sp').
Proof. apply ms_seq; [apply ms_write_op_u16|]. eapply ms_bind; [apply ms_code_len|]. intros ? ? ->. apply ms_ret. reflexivity. Qed.
Lemma ms_write_jump_backward n sp sp' : msim tt2 (write_jump_backward n sp) (write_jump_backward n sp').
Proof. eapply ms_bind; [apply ms_code_len|]. intros ? ? ->. cbv zeta. destruct (_ <? _)%N; [apply ms_fail|apply ms_write_op_u16]. Qed.
Lemma ms_patch_jump n sp sp' : msim tt2 (patch_jump n sp) (patch_jump n sp').
Proof. eapply ms_bind; [apply ms_code_len|]. intros ? ? ->. cbv zeta. destruct (_ <? _)%N; [apply ms_fail|apply ms_patch_u16]. Qed.
Lemma ms_add_constant v v' : msim (fun _ _ => True) (add_constant v) (add_constant v').
Proof.
  eapply ms_bind; [apply ms_get|]. intros l l' HL. destruct (pool_add _ (lv_consts l) v) as [p i], (pool_add _ (lv_consts l') v') as [p' i'].
  apply ms_seq; [|apply ms_ret; exact Logic.I]. apply ms_set. lsim_tac.
Qed.
Lemma ms_add_symbol s : msim eq (add_symbol s) (add_symbol s).
Proof.
  eapply ms_bind; [apply ms_get|]. intros l l' HL. rewrite (ls_syms _ _ HL). destruct (pool_add _ (lv_syms l') s) as [p i].
  apply ms_seq; [|apply ms_ret; reflexivity]. apply ms_set. lsim_tac.
Qed.
Lemma ms_add_global_symbol s : msim eq (add_global_symbol s) (add_global_symbol s).
Proof. intros c c' [H1 H2 H3 H4]. unfold add_global_symbol. rewrite H3. destruct (pool_add _ _ s) as [p i]. split; [reflexivity|]. constructor; auto. Qed.
Lemma ms_enter_level l l' : lsim l l' -> msim tt2 (enter_level l) (enter_level l').
Proof. intros HL c c' [H1 H2 H3 H4]. split; [exact Logic.I|]. constructor; cbn; auto. Qed.
Lemma finish_len l l' : lsim l l' -> length (ck_ops (fn_chunk (fst (level_finish l)))) = length (ck_ops (fn_chunk (fst (level_finish l')))).
Proof.
  intros HL. unfold level_finish. cbn [fst fn_chunk]. rewrite (ls_depth _ _ HL). pose proof (ls_len _ _ HL) as HE. unfold chunk_len in HE.
  destruct (lv_depth l' =? 0); cbn; unfold bc_write_u8; rewrite ?app_length; cbn; lia.
Qed.
Lemma ms_exit_level : msim (fun x y => snd x = snd y) exit_level exit_level.
Proof.
  intros c c' [H1 H2 H3 H4]. unfold exit_level. destruct H2 as [|e e' r r' HE HR]; [exact Logic.I|]. split; [apply H1|]. constructor; auto.
Qed.
Lemma ms_enter_scope : msim tt2 enter_scope enter_scope.
Proof. apply ms_mod. lsim_tac. Qed.
Lemma ms_flush q sp sp' : msim tt2 (flush_pops q sp) (flush_pops q sp').
Proof. unfold flush_pops. destruct (_ <=? _)%N; [apply ms_write_op_u16|]. destruct (_ =? _)%N; [apply ms_write_op|apply ms_tt]. Qed.
Lemma ms_emit ops : forall q sp sp', msim tt2 (emit_pops ops q sp) (emit_pops ops q sp').
Proof.
  induction ops as [|[] t IH]; intros q sp sp'; cbn [emit_pops]; [apply ms_flush| |apply IH].
  apply ms_seq; [apply ms_flush|]. apply ms_seq; [apply ms_write_op|]. apply IH.
Qed.
Lemma ms_exit_scope sp sp' : msim tt2 (exit_scope sp) (exit_scope sp').
Proof.
  apply ms_seq; [apply ms_mod; lsim_tac|]. eapply ms_bind; [apply ms_get|]. intros l l' HL. rewrite (ls_depth _ _ HL), (ls_locals _ _ HL).
  destruct (leaving _ _) as [ops rest]. apply ms_seq; [apply ms_set; lsim_tac|].
  destruct ops; [apply ms_tt|]. apply ms_seq; [apply ms_write_op|]. apply ms_seq; [apply ms_emit|apply ms_write_op].
Qed.
Lemma add_up l l' i b : lsim l l' -> lsim (fst (add_upvalue l i b)) (fst (add_upvalue l' i b)) /\ snd (add_upvalue l i b) = snd (add_upvalue l' i b).
Proof.
  intros HL. unfold add_upvalue. rewrite (ls_upvalues _ _ HL). destruct (position _ _); cbn [fst snd]; split; auto. lsim_tac.
Qed.
Lemma resolve_up x : forall ps ps' l l', lsim l l' -> Forall2 lsim ps ps' ->
  match resolve_upvalue l ps x, resolve_upvalue l' ps' x with (k, qs, r), (k', qs', r') => lsim k k' /\ Forall2 lsim qs qs' /\ r = r' end.
Proof.
  induction ps as [|p ps IH]; intros ps' l l' HL HP; inversion HP as [|? p' ? ps1 HP1 HP2]; subst; cbn [resolve_upvalue]; [auto|].
  rewrite (ls_locals _ _ HP1). destruct (resolve_local (lv_locals p') x true) as [ls [i|]].
  - pose proof (add_up l l' i true HL) as [HA HB]. destruct (add_upvalue l i true), (add_upvalue l' i true). cbn in HA, HB. subst. split; [exact HA|]. split; [|reflexivity]. constructor; auto. clear HA HL. lsim_tac.
  - specialize (IH ps1 p p' HP1 HP2). destruct (resolve_upvalue p ps x) as [[k qs] r], (resolve_upvalue p' ps1 x) as [[k' qs'] r']. destruct IH as (H1 & H2 & <-).
    destruct r as [i|]; [|split; [exact HL|]; split; [constructor; auto|reflexivity]].
    pose proof (add_up l l' i false HL) as [HA HB]. destruct (add_upvalue l i false), (add_upvalue l' i false). cbn in HA, HB. subst. split; [exact HA|]. split; [constructor; auto|reflexivity].
Qed.
Lemma ms_resolve x : msim eq (resolve_upvalue_m x) (resolve_upvalue_m x).
Proof.
  intros c c' [H1 H2 H3 H4]. unfold resolve_upvalue_m. pose proof (resolve_up x _ _ _ _ H1 H2) as H.
  destruct (resolve_upvalue (c_level c) _ x) as [[k qs] r], (resolve_upvalue (c_level c') _ x) as [[k' qs'] r']. destruct H as (HA & HB & <-).
  split; [reflexivity|]. constructor; auto.
Qed.
Lemma ms_variable a b d x sp sp' : msim tt2 (variable_op a b d x sp) (variable_op a b d x sp').
Proof.
  eapply ms_bind; [apply ms_get|]. intros l l' HL. rewrite (ls_locals _ _ HL). destruct (snd _); [apply ms_write_op_u16|].
  eapply ms_bind; [apply ms_resolve|]. intros ? r ->. destruct r; [apply ms_write_op_u16|].
  eapply ms_bind; [apply ms_add_global_symbol|]. intros. apply ms_write_op_u16.
Qed.
Lemma ms_define x b : msim tt2 (define_local x b) (define_local x b).
Proof.
  eapply ms_bind; [apply ms_get|]. intros l l' HL. rewrite (ls_locals _ _ HL), (ls_depth _ _ HL). apply ms_seq.
  - destruct (declared_here _ _ _); [apply ms_mod; lsim_tac|]. eapply ms_bind; [apply ms_add_symbol|]. intros. apply ms_tt.
  - apply ms_mod. lsim_tac.
Qed.
Lemma ms_defines xs : msim tt2 (define_locals xs) (define_locals xs).
Proof. induction xs; cbn [define_locals]; [apply ms_tt|]. apply ms_seq; [apply ms_define|auto]. Qed.
Lemma ms_temps n : msim tt2 (reserve_temps n) (reserve_temps n).
Proof.
  induction n; cbn [reserve_temps]; [apply ms_tt|]. eapply ms_bind; [apply ms_get|]. intros l l' HL. rewrite (ls_locals _ _ HL).
  apply ms_seq; [apply ms_define|auto].
Qed.
Lemma ms_fin k sp sp' : msim tt2 (fin k sp) (fin k sp').
Proof. destruct k as [|[]]; cbn [fin]; auto using ms_tt, ms_write_op. Qed.
Lemma ms_global : msim eq is_global is_global.
Proof. eapply ms_bind; [apply ms_get|]. intros l l' HL. apply ms_ret. rewrite (ls_depth _ _ HL). reflexivity. Qed.
Lemma ms_external off x sp sp' : msim tt2 (add_external off x sp) (add_external off x sp').
Proof.
  intros c c' [H1 H2 H3 H4]. unfold add_external. rewrite H4. destruct (existsb _ _); [reflexivity|]. split; [exact Logic.I|]. constructor; cbn; auto.
Qed.
Lemma ms_patch_all js sp sp' : msim tt2 (patch_all js sp) (patch_all js sp').
Proof. induction js; cbn [patch_all]; [apply ms_tt|]. apply ms_seq; [apply ms_patch_jump|auto]. Qed.
Lemma ms_upvalues us sp sp' : msim tt2 (write_upvalues us sp) (write_upvalues us sp').
Proof. induction us as [|[i b] us IH]; cbn [write_upvalues]; [apply ms_tt|]. apply ms_seq; [apply ms_write_u8|]. apply ms_seq; [apply ms_write_u16|auto]. Qed.
Lemma ms_define_globals xs : forall ys, map fst xs = map fst ys -> msim tt2 (define_globals xs) (define_globals ys).
Proof.
  induction xs as [|[x s] xs IH]; intros [|[y s'] ys] H; try discriminate; cbn [define_globals]; [apply ms_tt|]. injection H as <- H.
  eapply ms_bind; [apply ms_add_global_symbol|]. intros. apply ms_seq; [apply ms_write_op_u16|auto].
Qed.

(** ** Loops over parts *)
Definition node_sim (m : mode) (n : node) : Prop := forall n', alike n n' -> forall k sp sp', msim tt2 (cnode m k n sp) (cnode m k n' sp').
Section Parts.
Context (m : mode).
Let PS (e : nodeS) : Prop := node_sim m (fst e).
Lemma part k e e' : PS e -> alike1 e e' -> msim tt2 (cnode m k (fst e) (snd e)) (cnode m k (fst e') (snd e')).
Proof. intros H HA. apply H, HA. Qed.
Lemma ms_stmnts l : Forall PS l -> forall l', Forall2 alike1 l l' ->
  msim (fun _ _ => True) (stmnts_with (fun p => cnode m (KStmt p)) l) (stmnts_with (fun p => cnode m (KStmt p)) l').
Proof.
  induction 1 as [|e l HE HL IH]; intros l' HA; inversion HA as [|? e' ? l1 HA1 HA2]; subst; cbn [stmnts_with]; [apply ms_ret; exact Logic.I|].
  specialize (IH _ HA2). inversion HA2; subst.
  - apply ms_seq; [apply part; auto|]. apply ms_ret. exact Logic.I.
  - apply ms_seq; [apply part; auto|]. exact IH.
Qed.
Lemma ms_each k l : Forall PS l -> forall l', Forall2 alike1 l l' -> msim tt2 (each_with (cnode m k) l) (each_with (cnode m k) l').
Proof.
  induction 1 as [|e l HE HL IH]; intros l' HA; inversion HA as [|? e' ? l1 HA1 HA2]; subst; cbn [each_with]; [apply ms_tt|].
  apply ms_seq; [apply part; auto|]. apply IH; auto.
Qed.
Lemma ms_each_rev k l : Forall PS l -> forall l', Forall2 alike1 l l' -> msim tt2 (each_rev_with (cnode m k) l) (each_rev_with (cnode m k) l').
Proof.
  induction 1 as [|e l HE HL IH]; intros l' HA; inversion HA as [|? e' ? l1 HA1 HA2]; subst; cbn [each_rev_with]; [apply ms_tt|].
  apply ms_seq; [apply IH; auto|]. apply part; auto.
Qed.
Lemma ms_block l l' : Forall PS l -> Forall2 alike1 l l' ->
  msim tt2 (block_with (fun p => cnode m (KStmt p)) l) (block_with (fun p => cnode m (KStmt p)) l').
Proof. intros H HA. apply ms_seq; [apply ms_enter_scope|]. eapply ms_bind; [apply ms_stmnts; eauto|]. intros. apply ms_exit_scope. Qed.
Lemma ms_cases cs : Forall (fun cb => PS (fst cb) /\ Forall PS (snd cb)) cs -> forall cs', Forall2 alike_case cs cs' ->
  msim eq (cases_with (cnode m) cs) (cases_with (cnode m) cs').
Proof.
  induction 1 as [|c cs [HC HB] HL IH]; intros cs' HA; inversion HA as [|? c' ? l1 [HA1 HA3] HA2]; subst; cbn [cases_with]; [apply ms_ret; reflexivity|].
  apply ms_seq; [apply part; auto|]. eapply ms_bind; [apply ms_write_jump|]. intros ? j ->.
  apply ms_seq; [apply ms_write_op_u16|]. apply ms_seq; [apply ms_block; auto|]. eapply ms_bind; [apply ms_write_jump|]. intros ? j2 ->.
  apply ms_seq; [apply ms_patch_jump|]. eapply ms_bind; [apply IH; auto|]. intros ? js ->. apply ms_ret. reflexivity.
Qed.
Lemma f2_length {A B} (R : A -> B -> Prop) l l' : Forall2 R l l' -> length l = length l'.
Proof. induction 1; cbn; auto. Qed.
Lemma over_same {A B} (l : list A) (l' : list B) : length l = length l' -> over255 l = over255 l'.
Proof. unfold over255. intros ->. reflexivity. Qed.
Lemma ms_function x x' a a' b b' sp sp' : fst x = fst x' -> map fst a = map fst a' -> Forall PS b -> Forall2 alike1 b b' ->
  msim tt2 (function_with (fun p => cnode m (KStmt p)) x a b sp) (function_with (fun p => cnode m (KStmt p)) x' a' b' sp').
Proof.
  intros HX HA HP HB. unfold function_with. rewrite (over_same _ _ (names_len _ _ HA)). match goal with |- msim _ (if ?b then _ else _) (if ?d then _ else _) => change d with b; destruct b end; [apply ms_fail|].
  eapply ms_bind; [apply ms_get|]. intros l l' HL. apply ms_seq.
  { apply ms_enter_level. constructor; cbn; auto; [|apply HL]. unfold len8. rewrite (names_len _ _ HA). reflexivity. }
  apply ms_seq; [apply ms_enter_scope|]. rewrite HX, HA. apply ms_seq; [apply ms_define|]. apply ms_seq; [apply ms_defines|].
  eapply ms_bind; [apply ms_stmnts; eauto|]. intros _ _ _. eapply ms_bind; [apply ms_exit_level|]. intros fu fu' HU.
  eapply ms_bind; [apply ms_add_constant|]. intros i i' _. rewrite HU. destruct (snd fu'); [apply ms_write_op_u16|].
  apply ms_seq; [apply ms_write_op_u16|apply ms_upvalues].
Qed.
Definition opt_block (o : option (list nodeS)) (sp : span) : M unit :=
  match o with Some b => write_op_u16 op_PopMany 2 sp ;; block_with (fun p => cnode m (KStmt p)) b | None => write_op op_Pop sp end.
Lemma ms_opt_block o o' sp sp' : match o with Some l => Forall PS l | None => True end -> alike_opt o o' ->
  msim tt2 (opt_block o sp) (opt_block o' sp').
Proof.
  destruct o, o'; cbn; intros HP HA; try contradiction; [|apply ms_write_op]. apply ms_seq; [apply ms_write_op_u16|]. apply ms_block; auto.
Qed.
End Parts.
Lemma fold_alike m o n n' : alike n n' -> fold_unary m o n = fold_unary m o n'.
Proof. intros H. destruct (alike_inv _ _ H); try reflexivity. Qed.

Ltac mstep :=
  match goal with
  | |- msim tt2 (ret tt) (ret tt) => apply ms_tt
  | |- msim _ (ret _) (ret _) => apply ms_ret
  | |- msim _ (fail _ _) (fail _ _) => apply ms_fail
  | |- msim _ crash crash => apply ms_crash
  | |- msim _ (write_op _ _) _ => apply ms_write_op
  | |- msim _ (write_u8 _ _) _ => apply ms_write_u8
  | |- msim _ (write_u16 _ _) _ => apply ms_write_u16
  | |- msim _ (write_op_u8 _ _ _) _ => apply ms_write_op_u8
  | |- msim _ (write_op_u16 _ _ _) _ => apply ms_write_op_u16
  | |- msim _ (write_jump _ _) _ => apply ms_write_jump
  | |- msim _ (write_jump_backward _ _) _ => apply ms_write_jump_backward
  | |- msim _ (patch_jump _ _) _ => apply ms_patch_jump
  | |- msim _ (patch_all _ _) _ => apply ms_patch_all
  | |- msim _ code_len _ => apply ms_code_len
  | |- msim _ get_level _ => apply ms_get
  | |- msim _ is_global _ => apply ms_global
  | |- msim _ enter_scope _ => apply ms_enter_scope
  | |- msim _ (exit_scope _) _ => apply ms_exit_scope
  | |- msim _ (add_constant _) _ => apply ms_add_constant
  | |- msim _ (add_global_symbol _) _ => apply ms_add_global_symbol
  | |- msim _ (add_external _ _ _) _ => apply ms_external
  | |- msim _ (define_local _ _) _ => apply ms_define
  | |- msim _ (define_locals _) _ => apply ms_defines
  | |- msim _ (define_globals _) _ => apply ms_define_globals; assumption
  | |- msim _ (reserve_temps _) _ => apply ms_temps
  | |- msim _ (fin _ _) _ => apply ms_fin
  | |- msim _ (get_variable _ _) _ => apply ms_variable
  | |- msim _ (set_variable _ _) _ => apply ms_variable
  | |- msim _ (function_with _ _ _ _ _) _ => apply ms_function; auto
  | |- msim _ (block_with _ _) _ => apply ms_block; assumption
  | |- msim _ (stmnts_with _ _) _ => apply ms_stmnts; assumption
  | |- msim _ (each_rev_with _ _) _ => apply ms_each_rev; assumption
  | |- msim _ (each_with _ _) _ => apply ms_each; assumption
  | |- msim _ (cases_with _ _) _ => apply ms_cases; assumption
  | |- msim _ (cnode _ _ _ _) _ => apply part; assumption
  | |- msim _ (match ?o with Some _ => _ | None => write_op op_Pop _ end) _ => apply ms_opt_block; assumption
  | |- msim _ (bind _ _) (bind _ _) => eapply ms_bind; [mstep|intros]
  end.
Ltac if_tac := match goal with |- msim _ (if ?b then _ else _) (if ?d then _ else _) => change d with b; destruct b end.
Ltac len_tac := match goal with
  | H : Forall2 alike1 ?a ?b |- context [over255 ?a] => rewrite (over_same a b (f2_length _ _ _ H)); if_tac
  | H : map fst ?a = map fst ?b |- context [over255 ?a] => rewrite (over_same a b (names_len _ _ H)); if_tac end.
Ltac mgo := repeat first [mstep | len_tac | progress subst | progress (cbn [fst snd])
  | match goal with
    | H : lsim ?l ?l' |- msim _ (if _ then _ else _) _ => rewrite (ls_depth _ _ H); destruct (_ : bool)
    | |- msim _ (if ?b then _ else _) (if ?b then _ else _) => destruct b
    | |- msim _ (match ?b with Some _ => _ | None => _ end) (match ?b with Some _ => _ | None => _ end) => destruct b
    end].
Lemma rev_names (xs ys : list (spanned rstring)) : map fst xs = map fst ys -> map fst (rev xs) = map fst (rev ys).
Proof. intros H. rewrite !map_rev. f_equal. exact H. Qed.
Ltac names_tac := match goal with H : map fst ?xs = map fst ?ys |- context [map fst (rev ?xs)] => rewrite (rev_names xs ys H) end.
Theorem all_nodes m n : node_sim m n.
Proof.
  induction n using node_ind'; unfold node_sim; intros n' HA; apply alike_inv in HA; inversion HA; subst; clear HA; intros k sp sp'; cbn [cnode].
  all: try (mgo; fail).
  all: try (destruct k; mgo; fail).
  - destruct l; mgo.
  - destruct k; [mgo|]. apply ms_seq; [mgo|]. destruct v as [[x s]|xs], v' as [[y s']|ys]; cbn [alike_var fst] in *; try contradiction; subst; mgo. names_tac. mgo.
  - apply ms_seq; [mgo|]. len_tac; [mgo|]. names_tac. mgo.
  - apply ms_seq; [mgo|]. apply ms_seq; [mgo|]. apply ms_seq; [|mgo]. destruct (binary_opcode o); mgo.
  - match goal with H : alike1 _ _ |- _ => rewrite (fold_alike m o _ _ H) end. apply ms_seq; [|mgo].
    destruct (fold_unary m o (fst a')) as [[]|]; mgo.
  - len_tac; [mgo|]. do 2 (apply ms_seq; [mgo|]). eapply ms_bind; [mgo|]. intros ? off ->. do 3 (apply ms_seq; [mgo|]). apply ms_seq; [|mgo].
    destruct v as [[[x s1]|xs]|], v' as [[[y s2]|ys]|]; cbn [alike_var fst] in *; try contradiction; subst; try (mgo; fail). len_tac; [mgo|]. names_tac. mgo.
  - destruct k; [mgo|]. eapply ms_bind; [mgo|]. intros l l' HL. rewrite (ls_depth _ _ HL). destruct (0 <? _); [mgo|].
    destruct b, b'; cbn [alike_opt] in *; try contradiction; mgo.
  - destruct k; [mgo|]. eapply ms_bind; [mgo|]. intros l l' HL. rewrite (ls_depth _ _ HL). destruct (_ =? 0); [mgo|].
    destruct e, e'; try contradiction; mgo.
Qed.

Lemma stmnts_alike m l l' : Forall2 alike1 l l' ->
  msim (fun _ _ => True) (stmnts_with (fun p => cnode m (KStmt p)) l) (stmnts_with (fun p => cnode m (KStmt p)) l').
Proof. intros H. apply ms_stmnts; auto. apply Forall_forall. intros e _. apply all_nodes. Qed.
Theorem compile_alike m l l' : same_trees l l' -> same_outcome (compile m l) (compile m l').
Proof.
  intros H. apply same_trees_2 in H. unfold compile.
  assert (HM : msim (fun _ _ => True) (set_main_span l ;; compile_stmnts m l) (set_main_span l' ;; compile_stmnts m l')).
  { apply ms_seq; [|apply stmnts_alike; auto]. destruct H; cbn [set_main_span]; [apply ms_tt|]. apply ms_mod. lsim_tac. }
  assert (HC : csim (compiler_new main_name) (compiler_new main_name)) by (constructor; [constructor|constructor| |]; reflexivity).
  specialize (HM _ _ HC). destruct ((set_main_span l ;; compile_stmnts m l) _) as [[a|e sp|] c], ((set_main_span l' ;; compile_stmnts m l') _) as [[a'|e' sp'|] c']; try contradiction; auto.
  destruct HM as [_ [H1 H2 H3 H4]]. cbn. repeat split; auto. apply finish_len, H1.
Qed.
