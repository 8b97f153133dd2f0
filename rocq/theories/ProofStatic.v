(** What a program that compiles must look like. *)
From Verif Require Import Base RleVec Pool SpecContainers ContainerHist ProofContainers Vecc Float NumText Bytecode Chunk
  Value Ast Arith VmOps Compiler SpecParse SpecStatic ProofValue ProofCompiler ProofCode.

Tactic Notation "mbi" hyp(H) "as" ident(a) ident(c1) ident(H1) :=
  apply bind_inv in H; destruct H as (a & c1 & H1 & H).

Record accepted (p : place) (n : node) : Prop := {
  ac_counts : Forall (fun k => k <= 255) (counts n);
  ac_value : p = Value -> is_statement n = false;
  ac_return : p = Top -> forall v, n <> NReturn v;
  ac_external : forall x v, n = NExternal x v -> p = Top;
  ac_include : forall x b, n = NInclude x b -> p = Top /\ b <> None }.

Inductive below (p : place) (n : node) : place -> node -> Prop :=
| below_self : below p n p n
| below_part q c sp r d : In (q, (c, sp)) (parts p n) -> below q c r d -> below p n r d.
Definition all_ok (p : place) (n : node) : Prop := forall r d, below p n r d -> accepted r d.
Lemma all_ok_intro p n : accepted p n -> Forall (fun e => all_ok (fst e) (fst (snd e))) (parts p n) -> all_ok p n.
Proof.
  intros H1 H2 r d H. inversion H; subst; auto. rewrite Forall_forall in H2.
  exact (H2 (q, (c, sp)) H0 r d H3).
Qed.

(** ** Judgements about successful compilation *)
Definition shape (c : compiler) : list nat := map lv_depth (c_level c :: c_enclosing c).
Definition ext (c : compiler) (E : list rstring) : Prop :=
  Forall2 (fun i x => pool_id seqb (c_globals c) x = Some i) (c_externals c) E /\ NoDup E.
Definition tri {A} (S : list nat) (E : list rstring) (x : M A) (S' : list nat) (E' : list rstring) (Q : A -> Prop) : Prop :=
  forall c a c', x c = (COk a, c') -> shape c = S -> ext c E -> shape c' = S' /\ ext c' E' /\ Q a.

Definition tru {A} : A -> Prop := fun _ => True.
Lemma tri_bind {A B} S E (x : M A) S1 E1 Q1 (k : A -> M B) S2 E2 Q2 :
  tri S E x S1 E1 Q1 -> (forall a, Q1 a -> tri S1 E1 (k a) S2 E2 Q2) -> tri S E (bind x k) S2 E2 Q2.
Proof.
  intros H1 H2 c a c' H Hs He. mbi H as a0 c1 H0. destruct (H1 _ _ _ H0 Hs He) as (A1 & A2 & A3).
  exact (H2 _ A3 _ _ _ H A1 A2).
Qed.
Lemma tri_imp {A} S E (x : M A) S' E' (Q Q' : A -> Prop) : tri S E x S' E' Q -> (forall a, Q a -> Q' a) -> tri S E x S' E' Q'.
Proof. intros H1 H2 c a c' H Hs He. destruct (H1 _ _ _ H Hs He) as (A1 & A2 & A3). auto. Qed.
Lemma tri_last {A} S E (x : M A) S' E' (P : Prop) : tri S E x S' E' tru -> P -> tri S E x S' E' (fun _ => P).
Proof. intros H1 H2. eapply tri_imp; [exact H1|auto]. Qed.
Lemma tri_ret {A} S E (a : A) : tri S E (ret a) S E (fun b => b = a).
Proof. intros c b c' H Hs He. injection H as <- <-. auto. Qed.
Lemma tri_fail {A} S E er sp S' E' Q : tri S E (fail er sp : M A) S' E' Q.
Proof. intros c b c' H. discriminate. Qed.
Lemma tri_crash {A} S E S' E' Q : tri S E (crash : M A) S' E' Q.
Proof. intros c b c' H. discriminate. Qed.

(** Steps that change neither the depths nor the globals. *)
Lemma tri_get d t E : tri (d :: t) E get_level (d :: t) E (fun l => lv_depth l = d).
Proof. intros c b c' H Hs He. injection H as <- <-. injection Hs as <- <-. auto. Qed.
Lemma tri_mod S E f : (forall l, lv_depth (f l) = lv_depth l) -> tri S E (mod_level f) S E tru.
Proof. intros Hf c b c' H Hs He. injection H as <- <-. unfold shape in *. cbn. rewrite Hf. split; [auto|]. split; [exact He|exact I]. Qed.
Lemma tri_mod' d t E f k : (forall l, lv_depth (f l) = k (lv_depth l)) -> tri (d :: t) E (mod_level f) (k d :: t) E tru.
Proof. intros Hf c b c' H Hs He. injection H as <- <-. unfold shape in *. cbn in *. rewrite Hf. injection Hs as <- <-. split; [auto|]. split; [exact He|exact I]. Qed.
Lemma tri_set d t E l : lv_depth l = d -> tri (d :: t) E (set_level l) (d :: t) E tru.
Proof. intros Hf c b c' H Hs He. injection H as <- <-. unfold shape in *. cbn in *. injection Hs as _ <-. subst. split; [auto|]. split; [exact He|exact I]. Qed.
Lemma tri_op S E o sp : tri S E (write_op o sp) S E tru. Proof. apply tri_mod; auto. Qed.
Lemma tri_u8 S E o sp : tri S E (write_u8 o sp) S E tru. Proof. apply tri_mod; auto. Qed.
Lemma tri_u16 S E o sp : tri S E (write_u16 o sp) S E tru. Proof. apply tri_mod; auto. Qed.
Lemma tri_op8 S E o b sp : tri S E (write_op_u8 o b sp) S E tru.
Proof. eapply tri_bind; [apply tri_op|intros; apply tri_u8]. Qed.
Lemma tri_op16 S E o b sp : tri S E (write_op_u16 o b sp) S E tru.
Proof. eapply tri_bind; [apply tri_op|intros; apply tri_u16]. Qed.
Lemma tri_patch S E o v : tri S E (patch_u16 o v) S E tru.
Proof.
  intros c a c' H Hs He. unfold patch_u16 in H. mbi H as a0 c1 H0. injection H0 as <- <-.
  destruct (chunk_patch_u16 _ _ _); try discriminate. injection H as <- <-. split; [exact Hs|]. split; [exact He|exact I].
Qed.
Lemma tri_len S E : tri S E code_len S E tru.
Proof. intros c a c' H Hs He. injection H as <- <-. split; [exact Hs|]. split; [exact He|exact I]. Qed.
Lemma tri_jump S E o sp : tri S E (write_jump o sp) S E tru.
Proof. eapply tri_bind; [apply tri_op16|intros]. eapply tri_bind; [apply tri_len|intros]. eapply tri_imp; [apply tri_ret|constructor]. Qed.
Lemma tri_back S E o sp : tri S E (write_jump_backward o sp) S E tru.
Proof. eapply tri_bind; [apply tri_len|intros]. cbv zeta. destruct (_ <? _)%N; [apply tri_fail|apply tri_op16]. Qed.
Lemma tri_pjump S E o sp : tri S E (patch_jump o sp) S E tru.
Proof. eapply tri_bind; [apply tri_len|intros]. cbv zeta. destruct (_ <? _)%N; [apply tri_fail|apply tri_patch]. Qed.
Lemma tri_patches S E l sp : tri S E (patch_all l sp) S E tru.
Proof. induction l; cbn [patch_all]; [eapply tri_imp; [apply tri_ret|constructor]|]. eapply tri_bind; [apply tri_pjump|auto]. Qed.
Lemma tri_const S E v : tri S E (add_constant v) S E tru.
Proof.
  intros c a c' H Hs He. unfold add_constant in H. mbi H as a0 c1 H0. injection H0 as <- <-.
  destruct (pool_add _ _ _) as [p i]. mbi H as a0 c1 H0. injection H0 as <- <-. injection H as <- <-. split; [exact Hs|]. split; [exact He|exact I].
Qed.
Lemma tri_sym S E v : tri S E (add_symbol v) S E tru.
Proof.
  intros c a c' H Hs He. unfold add_symbol in H. mbi H as a0 c1 H0. injection H0 as <- <-.
  destruct (pool_add _ _ _) as [p i]. mbi H as a0 c1 H0. injection H0 as <- <-. injection H as <- <-. split; [exact Hs|]. split; [exact He|exact I].
Qed.
Lemma pool_add_keeps (p : pool rstring) s x i : pool_id seqb p x = Some i -> pool_id seqb (fst (pool_add seqb p s)) x = Some i.
Proof.
  unfold pool_add, pool_id. destruct (alookup seqb s (p_dups p)) eqn:E; cbn; auto. intros H.
  destruct (seqb x s) eqn:Ex; auto. apply seqb_eq in Ex. subst. congruence.
Qed.
Lemma pool_add_id (p : pool rstring) s : pool_id seqb (fst (pool_add seqb p s)) s = Some (snd (pool_add seqb p s)).
Proof.
  unfold pool_add, pool_id. destruct (alookup seqb s (p_dups p)) eqn:E; cbn; auto. rewrite seqb_refl. auto.
Qed.
Lemma ext_grow c c' E : c_externals c' = c_externals c ->
  (forall x i, pool_id seqb (c_globals c) x = Some i -> pool_id seqb (c_globals c') x = Some i) -> ext c E -> ext c' E.
Proof. intros H1 H2 [H3 H4]. split; auto. rewrite H1. eapply F2_impl; [|exact H3]. cbn. auto. Qed.
Lemma tri_gsym S E s : tri S E (add_global_symbol s) S E tru.
Proof.
  intros c a c' H Hs He. unfold add_global_symbol in H. destruct (pool_add _ _ _) as [p i] eqn:Ep. injection H as <- <-.
  split; [exact Hs|]. split; [|exact I]. apply (ext_grow c); [reflexivity| |exact He]. intros x j Hj.
  pose proof (pool_add_keeps (c_globals c) s x j Hj) as X. rewrite Ep in X. exact X.
Qed.
Lemma tri_external S E x s sp : tri S E (do off <- add_global_symbol x; add_external off x s ;; write_op_u16 op_DefineGlobalDefaulted off sp) S (x :: E) tru.
Proof.
  intros c a c' H Hs He. mbi H as a0 c1 H0. mbi H as a1 c2 H1.
  destruct (tri_gsym S E _ _ _ _ H0 Hs He) as (Y1 & [Y2 Y3] & _).
  assert (X : pool_id seqb (c_globals c1) x = Some a0).
  { unfold add_global_symbol in H0. pose proof (pool_add_id (c_globals c) x) as X.
    destruct (pool_add _ _ _) as [p i]. injection H0 as <- <-. exact X. }
  unfold add_external in H1. destruct (existsb _ _) eqn:Ex; try discriminate. injection H1 as <- <-.
  refine (tri_op16 S (x :: E) _ _ _ _ _ _ H Y1 _). split; cbn.
  - constructor; auto.
  - constructor; auto. intros Hin.
    assert (Hf : existsb (N.eqb a0) (c_externals c1) = true); [|congruence].
    apply existsb_exists. clear - Y2 Hin X. induction Y2 as [|i y li ly Hy Hl IHY2]; [destruct Hin|]. destruct Hin as [->|Hin].
    + exists i. split; [left; auto|]. apply N.eqb_eq. congruence.
    + destruct (IHY2 Hin) as (z & Hz & Ez). exists z. split; [right; auto|auto].
Qed.
Lemma tri_is_global d t E : tri (d :: t) E is_global (d :: t) E (fun g => g = (d =? 0)).
Proof. intros c a c' H Hs He. injection H as <- <-. injection Hs as <- <-. auto. Qed.
Lemma tri_enter d t E : tri (d :: t) E enter_scope (S d :: t) E tru.
Proof. unfold enter_scope. apply tri_mod' with (k := S). auto. Qed.
Lemma tri_flush S E q sp : tri S E (flush_pops q sp) S E tru.
Proof. unfold flush_pops. destruct (_ <=? _)%N; [apply tri_op16|]. destruct (_ =? _)%N; [apply tri_op|]. eapply tri_imp; [apply tri_ret|constructor]. Qed.
Lemma tri_pops S E sp ops : forall q, tri S E (emit_pops ops q sp) S E tru.
Proof.
  induction ops as [|[] ops IH]; intros q; cbn [emit_pops]; auto using tri_flush.
  eapply tri_bind; [apply tri_flush|intros]. eapply tri_bind; [apply tri_op|intros]. auto.
Qed.
Lemma tri_exit d t E sp : tri (S d :: t) E (exit_scope sp) (d :: t) E tru.
Proof.
  unfold exit_scope. eapply tri_bind; [apply tri_mod' with (k := pred); auto|intros]. cbn [pred].
  eapply tri_bind; [apply tri_get|intros l Hl]. destruct (leaving _ _) as [ops rest].
  eapply tri_bind; [apply tri_set; auto|intros]. destruct ops; [eapply tri_imp; [apply tri_ret|constructor]|].
  eapply tri_bind; [apply tri_op|intros]. eapply tri_bind; [apply tri_pops|intros]. apply tri_op.
Qed.
Lemma resolve_depth name ps : forall l l' ps' r, resolve_upvalue l ps name = (l', ps', r) ->
  map lv_depth (l' :: ps') = map lv_depth (l :: ps).
Proof.
  induction ps as [|p ps IH]; intros l l' ps' r H; cbn in H; [injection H as <- <- <-; auto|].
  assert (A : forall i b, lv_depth (fst (add_upvalue l i b)) = lv_depth l).
  { intros i b. unfold add_upvalue. destruct (position _ _); auto. }
  destruct (resolve_local _ _ _) as [ls [i|]].
  - specialize (A i true). destruct (add_upvalue _ _ _) as [l1 k]. injection H as <- <- <-. cbn in *. congruence.
  - destruct (resolve_upvalue p ps name) as [[p' rest'] [i|]] eqn:E; apply IH in E.
    + specialize (A i false). destruct (add_upvalue _ _ _) as [l1 k]. injection H as <- <- <-. cbn in *. congruence.
    + injection H as <- <- <-. cbn in *. congruence.
Qed.
Lemma tri_up S E x : tri S E (resolve_upvalue_m x) S E tru.
Proof.
  intros c a c' H Hs He. unfold resolve_upvalue_m in H. destruct (resolve_upvalue _ _ _) as [[l ps] r] eqn:Er.
  injection H as <- <-. apply resolve_depth in Er. split; [|split; [exact He|exact I]]. unfold shape in *. cbn [c_level c_enclosing]. congruence.
Qed.
Lemma tri_var d t E a b g x sp : tri (d :: t) E (variable_op a b g x sp) (d :: t) E tru.
Proof.
  unfold variable_op. eapply tri_bind; [apply tri_get|intros l Hl].
  destruct (snd _); [apply tri_op16|]. eapply tri_bind; [apply tri_up|intros [i|] _]; [apply tri_op16|].
  eapply tri_bind; [apply tri_gsym|intros]. apply tri_op16.
Qed.
Lemma tri_define d t E x b : tri (d :: t) E (define_local x b) (d :: t) E tru.
Proof.
  unfold define_local. eapply tri_bind; [apply tri_get|intros l Hl].
  eapply tri_bind; [|intros; apply tri_mod; auto]. destruct (declared_here _ _ _); [apply tri_mod; auto|].
  eapply tri_bind; [apply tri_sym|intros]. eapply tri_imp; [apply tri_ret|constructor].
Qed.
Lemma tri_defines d t E l : tri (d :: t) E (define_locals l) (d :: t) E tru.
Proof. induction l; cbn [define_locals]; [eapply tri_imp; [apply tri_ret|constructor]|]. eapply tri_bind; [apply tri_define|auto]. Qed.
Lemma tri_temps d t E n : tri (d :: t) E (reserve_temps n) (d :: t) E tru.
Proof.
  induction n; cbn [reserve_temps]; [eapply tri_imp; [apply tri_ret|constructor]|]. eapply tri_bind; [apply tri_get|intros].
  eapply tri_bind; [apply tri_define|auto].
Qed.
Lemma tri_fin S E k sp : tri S E (fin k sp) S E tru.
Proof. destruct k as [|[]]; cbn; try apply tri_op; (eapply tri_imp; [apply tri_ret|constructor]). Qed.
Lemma tri_ups S E us sp : tri S E (write_upvalues us sp) S E tru.
Proof.
  induction us as [|[i b] us IH]; cbn [write_upvalues]; [eapply tri_imp; [apply tri_ret|constructor]|].
  eapply tri_bind; [apply tri_u8|intros]. eapply tri_bind; [apply tri_u16|auto].
Qed.
Lemma tri_globals S E l : tri S E (define_globals l) S E tru.
Proof.
  induction l as [|[x sp] l IH]; cbn [define_globals]; [eapply tri_imp; [apply tri_ret|constructor]|].
  eapply tri_bind; [apply tri_gsym|intros]. eapply tri_bind; [apply tri_op16|auto].
Qed.
Lemma tri_enter_level d t E l : lv_depth l = d -> tri t E (enter_level l) (d :: t) E tru.
Proof. intros Hl c a c' H Hs He. injection H as <- <-. unfold shape in *. cbn in *. subst. split; [congruence|]. split; [exact He|exact I]. Qed.
Lemma tri_exit_level d t E : tri (d :: t) E exit_level t E tru.
Proof.
  intros c a c' H Hs He. unfold exit_level in H. destruct (c_enclosing c) as [|e r] eqn:Ec; [discriminate|]. injection H as <- <-.
  unfold shape in *. cbn in *. rewrite Ec in Hs. injection Hs as _ <-. split; [auto|]. split; [exact He|exact I].
Qed.

(** ** The whole compiler *)
Definition fits (k : kind) (d : nat) (p : place) : Prop :=
  match k, d with
  | KExpr, _ => p = Value
  | KStmt _, O => p = Top
  | KStmt _, S _ => p = Nested
  end.

Section Compile.
Context (m : mode).
Definition node_ok (n : node) : Prop := forall k sp d t p E, fits k d p ->
  tri (d :: t) E (cnode m k n sp) (d :: t) (rev (declares n) ++ E) (fun _ => all_ok p n).
Notation oks p l := (Forall (fun e : nodeS => all_ok p (fst e)) l).

Lemma value_no_ext n : is_statement n = false -> declares n = [].
Proof. destruct n; cbn; auto; discriminate. Qed.
Lemma nested_no_ext n : all_ok Nested n -> declares n = [].
Proof.
  intros H. pose proof (H _ _ (below_self _ _)) as [_ _ _ H1 H2]. destruct n; cbn; auto.
  - specialize (H1 _ _ eq_refl). discriminate.
  - destruct (H2 _ _ eq_refl). discriminate.
Qed.
Lemma expr_ok n : node_ok n -> forall sp d t E,
  tri (d :: t) E (cnode m KExpr n sp) (d :: t) E (fun _ => all_ok Value n).
Proof.
  intros H sp d t E c a c' Hc Hs He. destruct (H KExpr sp d t Value E eq_refl c a c' Hc Hs He) as (A1 & A2 & A3).
  rewrite value_no_ext in A2; [auto|]. exact (ac_value _ _ (A3 _ _ (below_self _ _)) eq_refl).
Qed.
Lemma nested_ok n : node_ok n -> forall p sp d t E,
  tri (S d :: t) E (cnode m (KStmt p) n sp) (S d :: t) E (fun _ => all_ok Nested n).
Proof.
  intros H p sp d t E c a c' Hc Hs He. destruct (H (KStmt p) sp (S d) t Nested E eq_refl c a c' Hc Hs He) as (A1 & A2 & A3).
  rewrite nested_no_ext in A2; auto.
Qed.
Notation PL l := (Forall (fun e : nodeS => node_ok (fst e)) l).
Lemma each_ok l : PL l -> forall d t E, tri (d :: t) E (each_with (cnode m KExpr) l) (d :: t) E (fun _ => oks Value l).
Proof.
  induction 1 as [|e l He Hl IH]; intros d t E; cbn [each_with].
  - eapply tri_imp; [apply tri_ret|auto].
  - eapply tri_bind; [apply expr_ok; auto|intros ? H1]. eapply tri_imp; [apply IH|auto].
Qed.
Lemma each_rev_ok l : PL l -> forall d t E, tri (d :: t) E (each_rev_with (cnode m KExpr) l) (d :: t) E (fun _ => oks Value l).
Proof.
  induction 1 as [|e l He Hl IH]; intros d t E; cbn [each_rev_with].
  - eapply tri_imp; [apply tri_ret|auto].
  - eapply tri_bind; [apply IH|intros ? H1]. eapply tri_imp; [apply expr_ok; auto|auto].
Qed.
Lemma stmnts_ok l : PL l -> forall d t E,
  tri (S d :: t) E (stmnts_with (fun p => cnode m (KStmt p)) l) (S d :: t) E (fun _ => oks Nested l).
Proof.
  induction 1 as [|e l He Hl IH]; intros d t E; cbn [stmnts_with].
  - eapply tri_imp; [apply tri_ret|auto].
  - destruct l.
    + eapply tri_bind; [apply nested_ok; auto|intros ? H1]. eapply tri_imp; [apply tri_ret|auto].
    + eapply tri_bind; [apply nested_ok; auto|intros ? H1]. eapply tri_imp; [apply IH|auto].
Qed.
Lemma top_ok l : PL l -> forall t E,
  tri (0 :: t) E (stmnts_with (fun p => cnode m (KStmt p)) l) (0 :: t) (rev (externals_of l) ++ E) (fun _ => oks Top l).
Proof.
  induction 1 as [|e l He Hl IH]; intros t E; cbn [stmnts_with].
  - eapply tri_imp; [apply tri_ret|auto].
  - unfold externals_of. cbn [flat_map]. rewrite rev_app_distr, <- app_assoc. destruct l.
    + eapply tri_bind; [apply He; reflexivity|intros ? H1]. eapply tri_imp; [apply tri_ret|auto].
    + eapply tri_bind; [apply He; reflexivity|intros ? H1]. eapply tri_imp; [apply IH|auto].
Qed.
Lemma include_ok l : PL l -> forall t E,
  tri (0 :: t) E (each_with (fun n sp => cnode m (KStmt true) n sp) l) (0 :: t) (rev (externals_of l) ++ E) (fun _ => oks Top l).
Proof.
  induction 1 as [|e l He Hl IH]; intros t E; cbn [each_with].
  - eapply tri_imp; [apply tri_ret|auto].
  - unfold externals_of. cbn [flat_map]. rewrite rev_app_distr, <- app_assoc.
    eapply tri_bind; [apply He; reflexivity|intros ? H1]. eapply tri_imp; [apply IH|auto].
Qed.
Lemma block_ok l : PL l -> forall d t E,
  tri (d :: t) E (block_with (fun p => cnode m (KStmt p)) l) (d :: t) E (fun _ => oks Nested l).
Proof.
  intros H d t E. eapply tri_bind; [apply tri_enter|intros]. eapply tri_bind; [apply stmnts_ok; auto|intros sp H1].
  apply tri_last; [apply tri_exit|auto].
Qed.
Lemma function_ok nm args body sp : PL body -> forall d t E,
  tri (d :: t) E (function_with (fun p => cnode m (KStmt p)) nm args body sp) (d :: t) E
    (fun _ => length args <= 255 /\ oks Nested body).
Proof.
  intros H d t E. unfold function_with. destruct (over255 args) eqn:Eo; [apply tri_fail|].
  apply Nat.ltb_ge in Eo.
  eapply tri_bind; [apply tri_get|intros l Hl].
  eapply tri_bind; [apply (tri_enter_level d); auto|intros]. eapply tri_bind; [apply tri_enter|intros].
  eapply tri_bind; [apply tri_define|intros]. eapply tri_bind; [apply tri_defines|intros].
  eapply tri_bind; [apply stmnts_ok; auto|intros ? H9]. eapply tri_bind; [apply tri_exit_level|intros fu _].
  eapply tri_bind; [apply tri_const|intros]. destruct (snd fu); [apply tri_last; [apply tri_op16|auto]|].
  eapply tri_bind; [apply tri_op16|intros]. apply tri_last; [apply tri_ups|auto].
Qed.

Lemma map_oks p q l : oks p l -> q = p -> Forall (fun e => all_ok (fst e) (fst (snd e))) (map (pair q) l).
Proof. intros H ->. induction H; cbn; auto. Qed.
Lemma fa_one p (e : nodeS) l : all_ok p (fst e) -> Forall (fun e => all_ok (fst e) (fst (snd e))) l ->
  Forall (fun e => all_ok (fst e) (fst (snd e))) ((p, e) :: l).
Proof. auto. Qed.
Lemma over_le {A} (l : list A) : over255 l = false -> length l <= 255.
Proof. intros H. apply Nat.ltb_ge in H. auto. Qed.
Lemma acc_plain p n : is_statement n = false -> Forall (fun k => k <= 255) (counts n) -> accepted p n.
Proof. intros H1 H2. constructor; auto; intros; try (intros ?); subst; cbn in H1; discriminate. Qed.

Ltac step_ := lazymatch goal with
  | |- tri _ _ (bind (write_op _ _) _) _ _ _ => eapply tri_bind; [apply tri_op|intros ? _]
  | |- tri _ _ (bind (write_op_u16 _ _ _) _) _ _ _ => eapply tri_bind; [apply tri_op16|intros ? _]
  | |- tri _ _ (bind (write_op_u8 _ _ _) _) _ _ _ => eapply tri_bind; [apply tri_op8|intros ? _]
  | |- tri _ _ (bind (write_u16 _ _) _) _ _ _ => eapply tri_bind; [apply tri_u16|intros ? _]
  | |- tri _ _ (bind (write_u8 _ _) _) _ _ _ => eapply tri_bind; [apply tri_u8|intros ? _]
  | |- tri _ _ (bind (write_jump _ _) _) _ _ _ => eapply tri_bind; [apply tri_jump|intros ? _]
  | |- tri _ _ (bind (write_jump_backward _ _) _) _ _ _ => eapply tri_bind; [apply tri_back|intros ? _]
  | |- tri _ _ (bind (patch_jump _ _) _) _ _ _ => eapply tri_bind; [apply tri_pjump|intros ? _]
  | |- tri _ _ (bind (patch_all _ _) _) _ _ _ => eapply tri_bind; [apply tri_patches|intros ? _]
  | |- tri _ _ (bind code_len _) _ _ _ => eapply tri_bind; [apply tri_len|intros ? _]
  | |- tri _ _ (bind get_level _) _ _ _ => eapply tri_bind; [apply tri_get|intros ? ?]
  | |- tri _ _ (bind is_global _) _ _ _ => eapply tri_bind; [apply tri_is_global|intros ? ?]
  | |- tri _ _ (bind enter_scope _) _ _ _ => eapply tri_bind; [apply tri_enter|intros ? _]
  | |- tri _ _ (bind (exit_scope _) _) _ _ _ => eapply tri_bind; [apply tri_exit|intros ? _]
  | |- tri _ _ (bind (reserve_temps _) _) _ _ _ => eapply tri_bind; [apply tri_temps|intros ? _]
  | |- tri _ _ (bind (define_local _ _) _) _ _ _ => eapply tri_bind; [apply tri_define|intros ? _]
  | |- tri _ _ (bind (define_locals _) _) _ _ _ => eapply tri_bind; [apply tri_defines|intros ? _]
  | |- tri _ _ (bind (add_constant _) _) _ _ _ => eapply tri_bind; [apply tri_const|intros ? _]
  | |- tri _ _ (bind (add_global_symbol _) _) _ _ _ => eapply tri_bind; [apply tri_gsym|intros ? _]
  | |- tri _ _ (bind (set_variable _ _) _) _ _ _ => eapply tri_bind; [apply tri_var|intros ? _]
  | |- tri _ _ (bind (get_variable _ _) _) _ _ _ => eapply tri_bind; [apply tri_var|intros ? _]
  | |- tri _ _ (bind (cnode _ KExpr _ _) _) _ _ _ => eapply tri_bind; [apply expr_ok; assumption|intros ? ?]
  | |- tri _ _ (bind (each_with _ _) _) _ _ _ => eapply tri_bind; [apply each_ok; assumption|intros ? ?]
  | |- tri _ _ (bind (each_rev_with _ _) _) _ _ _ => eapply tri_bind; [apply each_rev_ok; assumption|intros ? ?]
  | |- tri _ _ (bind (stmnts_with _ _) _) _ _ _ => eapply tri_bind; [apply stmnts_ok; assumption|intros ? ?]
  | |- tri _ _ (bind (block_with _ _) _) _ _ _ => eapply tri_bind; [apply block_ok; assumption|intros ? ?]
  | |- tri _ _ (bind (function_with _ _ _ _ _) _) _ _ _ => eapply tri_bind; [apply function_ok; assumption|intros ? [? ?]]
  | |- tri _ _ (fail _ _) _ _ _ => apply tri_fail
  | |- tri _ _ (if over255 ?l then _ else _) _ _ _ =>
      let E := fresh "Eo" in destruct (over255 l) eqn:E; [apply tri_fail|apply over_le in E]
  | |- tri _ _ (if ?b then _ else _) _ _ _ => destruct b eqn:?
  | |- tri _ _ (fin _ _) _ _ _ => apply tri_last; [apply tri_fin|]
  | |- tri _ _ (write_op _ _) _ _ _ => apply tri_last; [apply tri_op|]
  | |- tri _ _ (write_op_u16 _ _ _) _ _ _ => apply tri_last; [apply tri_op16|]
  | |- tri _ _ (set_variable _ _) _ _ _ => apply tri_last; [apply tri_var|]
  | |- tri _ _ (define_globals _) _ _ _ => apply tri_last; [apply tri_globals|]
  | |- tri _ _ (define_locals _) _ _ _ => apply tri_last; [apply tri_defines|]
  end.
Ltac fa := repeat first
  [ apply fa_one; [assumption|] | apply Forall_nil | (eapply map_oks; [eassumption|reflexivity])
  | apply Forall_app; split ].
Ltac okp := cbv beta in *; apply all_ok_intro; [apply acc_plain; [reflexivity|cbn; auto]|cbn [parts map opt_list flat_map]; fa].

Lemma fits_stmt b d p : fits (KStmt b) d p -> p = match d with O => Top | S _ => Nested end.
Proof. destruct d; auto. Qed.
Lemma acc_stmt p n : p <> Value -> Forall (fun k => k <= 255) (counts n) ->
  (forall v, n <> NReturn v) -> (forall x v, n <> NExternal x v) -> (forall x b, n <> NInclude x b) -> accepted p n.
Proof. intros H1 H2 H3 H4 H5. constructor; auto.
  - congruence.
  - intros x v Hn. destruct (H4 _ _ Hn).
  - intros x b Hn. destruct (H5 _ _ Hn). Qed.

Lemma static_ok n : node_ok n.
Proof using.
  induction n using node_ind'; unfold node_ok; intros k sp dd tl0 p EE Hk; cbn [cnode declares rev app].
  - (* literal *) destruct l; repeat step_; okp.
  - repeat step_; okp.
  - repeat step_; okp.
  - repeat step_; okp.
  - repeat step_; okp.
  - (* declaration *)
    destruct k; [apply tri_fail|]. step_.
    assert (Hp : p <> Value) by (apply fits_stmt in Hk; destruct dd; subst; discriminate).
    assert (F : forall v, Forall (fun k => k <= 255) (counts (NDeclaration v e)) -> all_ok p (NDeclaration v e)).
    { intros v0 Hv. apply all_ok_intro; [apply acc_stmt; auto; discriminate|cbv beta in *; cbn [parts]; fa]. }
    destruct v as [[x xs]|xs]; repeat step_; apply F; cbn; auto.
  - (* external *)
    destruct x as [x vsp]. destruct k; [apply tri_fail|]. step_. step_. cbv beta in *. subst a0.
    destruct dd; cbn [Nat.eqb negb]; [|apply tri_fail]. cbn in Hk. subst p.
    cbn [fst]. apply tri_last; [apply tri_external|]. apply all_ok_intro; [|cbv beta in *; cbn [parts]; fa].
    constructor; cbn; auto; intros; try discriminate.
  - destruct x as [x vsp]. repeat step_; okp.
  - (* function *)
    destruct k; [apply tri_fail|].
    assert (Hp : p <> Value) by (apply fits_stmt in Hk; destruct dd; subst; discriminate).
    step_.
    assert (F : all_ok p (NFunction x a b)).
    { apply all_ok_intro; [apply acc_stmt; cbn; auto; discriminate|cbv beta in *; cbn [parts]; fa]. }
    repeat step_; exact F.
  - repeat step_; okp.
  - repeat step_; okp.
  - (* conditional *)
    repeat step_. destruct o as [b|].
    + eapply tri_bind; [eapply tri_bind; [apply tri_op16|intros ? _]; apply block_ok; assumption|intros ? ?]. repeat step_; okp.
    + eapply tri_bind; [apply tri_op|intros ? _]. repeat step_; okp.
  - (* switch *)
    repeat step_. eapply tri_bind with (Q1 := fun _ => Forall (fun cb => all_ok Value (fst (fst cb)) /\ oks Nested (snd cb)) cs) (S1 := dd :: tl0) (E1 := EE).
    + clear - H0. revert EE. induction H0 as [|cb cs [Ha Hb] Hcs IH]; intros EE; cbn [cases_with].
      * eapply tri_imp; [apply tri_ret|auto].
      * repeat step_. eapply tri_bind; [apply IH|intros ? ?]. eapply tri_imp; [apply tri_ret|auto].
    + intros js Hcs.
      assert (F : Forall (fun e => all_ok (fst e) (fst (snd e))) (flat_map (fun c => (Value, fst c) :: map (fun e => (Nested, e)) (snd c)) cs)).
      { clear - Hcs. induction Hcs as [|cb cs [A B] _ IH]; cbn; auto. constructor; [exact A|]. apply Forall_app. split; auto.
        eapply map_oks; [exact B|reflexivity]. }
      destruct d as [b|].
      * eapply tri_bind; [eapply tri_bind; [apply tri_op16|intros ? _]; apply block_ok; assumption|intros ? ?]. repeat step_; okp; auto.
      * eapply tri_bind; [apply tri_op|intros ? _]. repeat step_; okp; auto.
  - destruct x as [x xs]. repeat step_; okp.
  - repeat step_; okp.
  - repeat step_; okp.
  - repeat step_. eapply tri_bind with (Q1 := tru) (S1 := dd :: tl0) (E1 := EE); [destruct (binary_opcode o); [apply tri_op|apply tri_crash]|intros ? _]. step_. okp.
  - (* unary *)
    eapply tri_bind with (Q1 := fun _ => all_ok Value (fst a)) (S1 := dd :: tl0) (E1 := EE).
    + unfold fold_unary. assert (G : tri (dd :: tl0) EE (cnode m KExpr (fst a) (snd a);; match unary_opcode o with Some c => write_op c sp | None => crash end) (dd :: tl0) EE (fun _ => all_ok Value (fst a))).
      { step_. apply tri_last; [|auto]. destruct (unary_opcode o); [apply tri_op|apply tri_crash]. }
      assert (L : forall l, fst a = NLiteral l -> all_ok Value (fst a)).
      { intros l ->. okp. }
      destruct (match o with ONeg => _ | _ => _ end) as [[lit|er|]|] eqn:Ef; [|apply tri_crash|apply tri_crash|exact G].
      step_. apply tri_last; [apply tri_op16|]. destruct (fst a); eauto; destruct o; discriminate.
    + intros ? ?. step_. okp.
  - repeat step_; okp.
  - destruct x as [x xs]. repeat step_; okp.
  - (* context *)
    destruct x as [x xs]. repeat step_. destruct v as [[[vn vsp]|names]|].
    + eapply tri_bind; [eapply tri_bind; [apply tri_define|intros ? _]; apply tri_var|intros ? _]. repeat step_; okp.
    + eapply tri_bind with (Q1 := fun _ => length names <= 255) (S1 := S dd :: tl0) (E1 := EE).
      * step_. eapply tri_bind; [apply tri_op8|intros ? _]. apply tri_last; [apply tri_defines|auto].
      * intros ? ?. repeat step_; okp.
    + eapply tri_bind; [apply tri_op|intros ? _]. repeat step_; okp.
  - repeat step_; okp.
  - (* include *)
    destruct x as [x vsp]. destruct k; [apply tri_fail|]. step_. destruct dd; cbn [Nat.ltb Nat.leb].
    2:{ rewrite H0. apply tri_fail. }
    rewrite H0. cbn [Nat.ltb Nat.leb]. cbn in Hk. subst p. destruct b as [b|]; [|apply tri_fail].
    replace ((fix go (l : list nodeS) : list rstring := match l with [] => [] | e :: t0 => declares (fst e) ++ go t0 end) b)
      with (externals_of b) by (unfold externals_of; clear; induction b; cbn; congruence).
    eapply tri_imp; [apply include_ok; auto|]. intros ? Hb. apply all_ok_intro.
    + constructor; cbn; auto; intros; try discriminate. injection H1 as <- <-. split; [auto|discriminate].
    + cbv beta in *. cbn [parts opt_list]. fa.
  - (* return *)
    destruct k; [apply tri_fail|]. step_. rewrite H0. destruct dd; cbn [Nat.eqb]; [apply tri_fail|].
    cbn in Hk. subst p.
    assert (A : accepted Nested (NReturn e)) by (constructor; cbn; auto; intros; discriminate).
    destruct e as [e|].
    + step_. step_. apply all_ok_intro; [auto|cbv beta in *; cbn [parts opt_list]; fa].
    + eapply tri_bind; [apply tri_op|intros ? _]. step_. apply all_ok_intro; [auto|cbv beta in *; cbn [parts opt_list]; fa].
Qed.
End Compile.
