From Verif Require Import Base RleVec Pool Vecc Float NumText Bytecode Chunk Value Ast Arith VmOps
                          Compiler Vm SpecVm Repl SpecRepl ProofValue ProofCompiler ProofVm ProofVm2 ProofStatic ExProg.

Section Repl.
Context {D : Type} (m : mode) (hst : host D) (fuel : nat).
Notation vm := (vm D).

Lemma rejected_machine (r : repl D) l o r' : execute m hst fuel r l = (o, r') -> rejected o -> rp_vm r' = rp_vm r.
Proof using.
  unfold execute. destruct l as [ast|]; [|injection 1 as <- <-; auto].
  destruct (compile_stmnts m ast (rp_compiler r)) as [[u|e sp|] c]; intros H Ho; injection H as <- <-; auto; contradiction.
Qed.
Lemma rejected_syntax (r : repl D) l r' : execute m hst fuel r l = (OSyntax, r') -> r' = r.
Proof using.
  unfold execute. destruct l as [ast|]; [|injection 1 as <-; auto].
  destruct (compile_stmnts m ast (rp_compiler r)) as [[u|e sp|] c]; discriminate.
Qed.

(** Names keep their numbers. *)
Definition grows (g0 : pool rstring) (g : pool rstring) (ex : list N) : Prop :=
  forall x i, pool_id seqb g0 x = Some i -> pool_id seqb g x = Some i.
Lemma grows_sym g0 n : pres (grows g0) (add_global_symbol n).
Proof using.
  intros c H. unfold add_global_symbol. pose proof (fun x i => pool_add_keeps (c_globals c) n x i) as K.
  destruct (pool_add seqb (c_globals c) n) as [p i]. intros x j Hx. apply K, H, Hx.
Qed.
Lemma grows_ext g0 (x : rstring * span) sp : pres (grows g0)
  (do off <- add_global_symbol (fst x); add_external off (fst x) (snd x) ;; write_op_u16 op_DefineGlobalDefaulted off sp).
Proof using.
  intros c H. pose proof (fun y i => pool_add_keeps (c_globals c) (fst x) y i) as K.
  cbv beta iota zeta delta [bind add_global_symbol add_external write_op_u16 write_op write_u16 mod_level get_level set_level].
  destruct (pool_add seqb (c_globals c) (fst x)) as [p i]. cbn [fst snd c_externals c_globals] in *.
  destruct (existsb (N.eqb i) (c_externals c)); intros y j Hy; apply K, H, Hy.
Qed.
Lemma stmnts_grow ast c : grows (c_globals c) (c_globals (snd (compile_stmnts m ast c))) [].
Proof using.
  assert (H : pres (grows (c_globals c)) (compile_stmnts m ast)).
  { apply pres_stmnts. apply Forall_forall. intros x _ p sp.
    apply (pres_cnode m _ (grows_sym (c_globals c)) (grows_ext (c_globals c))). }
  apply (H c). intros x i Hx; exact Hx.
Qed.
Lemma builtins_grow bs : forall (s : vm) x i, pool_id seqb (v_gsyms s) x = Some i ->
  pool_id seqb (v_gsyms (fold_left (fun s l => add_builtins_list l s) bs s)) x = Some i /\
  v_globals (fold_left (fun s l => add_builtins_list l s) bs s) = v_globals s /\
  v_opts (fold_left (fun s l => add_builtins_list l s) bs s) = v_opts s /\
  v_sp (fold_left (fun s l => add_builtins_list l s) bs s) = v_sp s /\
  v_stack (fold_left (fun s l => add_builtins_list l s) bs s) = v_stack s.
Proof using.
  assert (G : forall l (s : vm), (forall x i, pool_id seqb (v_gsyms s) x = Some i -> pool_id seqb (v_gsyms (add_builtins_list l s)) x = Some i) /\
     v_globals (add_builtins_list l s) = v_globals s /\ v_opts (add_builtins_list l s) = v_opts s /\ v_sp (add_builtins_list l s) = v_sp s /\ v_stack (add_builtins_list l s) = v_stack s).
  { induction l as [|[n b] t IH]; intros s; cbn [add_builtins_list]; [auto|].
    pose proof (pool_add_keeps (v_gsyms s) n) as K. destruct (pool_add seqb (v_gsyms s) n) as [p i]. cbn [fst] in K.
    destruct (IH (set_builtins (ainsert i b (v_builtins s)) (set_gsyms p s))) as (A & B & C & E & F). repeat split; auto. }
  induction bs as [|l t IH]; intros s x i Hx; cbn [fold_left]; [auto|].
  destruct (G l s) as (A & B & C & E & F). destruct (IH (add_builtins_list l s) x i (A _ _ Hx)) as (A' & B' & C' & E' & F').
  repeat split; auto; congruence.
Qed.

Lemma started_global (r : repl D) ast (s : vm) n : started m r ast s -> known_name r n -> global_of s n = session_global r n.
Proof using.
  intros (u & c & Hc & ->) Hn. unfold known_name, session_global in *.
  destruct (pool_id seqb (c_globals (rp_compiler r)) n) as [i|] eqn:Ei; [|congruence].
  pose proof (stmnts_grow ast (rp_compiler r) n i Ei) as G. rewrite Hc in G. cbn [snd] in G.
  destruct (builtins_grow (rp_builtins r) (update_script (as_script c) (rp_vm r)) n i G) as (A & B & _).
  unfold global_of. rewrite A, B. reflexivity.
Qed.

(** The names of the machine do not change while it runs. *)
Section Syms.
Context (g : pool rstring).
Let I (s : vm) := length (v_stack s) = o_stack_size (v_opts s) /\ v_sp s <= o_stack_size (v_opts s) /\ v_gsyms s = g.
Let J (s : vm) := length (v_stack s) = o_stack_size (v_opts s) /\ v_gsyms s = g.
Lemma syms_stable : stable hst I J.
Proof using.
  constructor; unfold I, J; cbn; try tauto; intros; intuition (auto; try congruence; try lia).
Qed.
End Syms.
Lemma loop_syms n : forall (s : vm), length (v_stack s) = o_stack_size (v_opts s) -> v_sp s <= o_stack_size (v_opts s) ->
  match loop m hst n s with
  | RDone _ s' | RErr _ _ s' | ROut s' => length (v_stack s') = o_stack_size (v_opts s') /\ v_gsyms s' = v_gsyms s
  | RPanic => True end.
Proof using.
  induction n as [|n IH]; intros s H1 H2; cbn [loop]; [auto|].
  pose proof (inv_step m hst _ _ (fun s0 (H : _ /\ _ /\ _) => conj (proj1 H) (proj2 (proj2 H))) (syms_stable (v_gsyms s)) s) as K. cbv zeta beta in K. specialize (K (conj H1 (conj H2 eq_refl))).
  destruct (step m hst s) as [s1|v s1|e sp s1|]; auto.
  - destruct K as (K1 & K2 & K3). specialize (IH s1 K1 K2). rewrite K3 in IH. exact IH.
  - destruct K as (_ & s0 & (K1 & K2 & K3) & ->). cbn. auto.
Qed.

Lemma update_stack sc (s : vm) : v_stack (update_script sc s) = v_stack s /\ v_opts (update_script sc s) = v_opts s /\ v_sp (update_script sc s) = 0.
Proof using. auto. Qed.
Lemma fold_misc bs : forall (s : vm), 
  v_opts (fold_left (fun s l => add_builtins_list l s) bs s) = v_opts s /\
  v_sp (fold_left (fun s l => add_builtins_list l s) bs s) = v_sp s /\
  v_stack (fold_left (fun s l => add_builtins_list l s) bs s) = v_stack s.
Proof using.
  assert (G : forall l (s : vm), v_opts (add_builtins_list l s) = v_opts s /\ v_sp (add_builtins_list l s) = v_sp s /\ v_stack (add_builtins_list l s) = v_stack s).
  { induction l as [|[n b] t IH]; intros s; cbn [add_builtins_list]; [auto|]. destruct (pool_add seqb (v_gsyms s) n) as [p i].
    destruct (IH (set_builtins (ainsert i b (v_builtins s)) (set_gsyms p s))) as (A & B & C). auto. }
  induction bs as [|l t IH]; intros s; cbn [fold_left]; [auto|]. destruct (G l s) as (A & B & C). destruct (IH (add_builtins_list l s)) as (A' & B' & C').
  repeat split; congruence.
Qed.
Definition rp_ok (r : repl D) : Prop := length (v_stack (rp_vm r)) = o_stack_size (v_opts (rp_vm r)).
Lemma execute_ok r l : rp_ok r -> rp_ok (snd (execute m hst fuel r l)).
Proof using.
  intros H. unfold execute. destruct l as [ast|]; auto.
  destruct (compile_stmnts m ast (rp_compiler r)) as [[u|e sp|] c]; auto. cbn [snd]. unfold rp_ok. cbn [rp_vm].
  set (s := fold_left _ _ _). destruct (fold_misc (rp_builtins r) (update_script (as_script c) (rp_vm r))) as (A & B & C). fold s in A, B, C.
  assert (Hs : length (v_stack s) = o_stack_size (v_opts s)) by (rewrite A, C; exact H).
  pose proof (loop_syms fuel (set_count 0 0 s)) as K. cbn in K. specialize (K Hs). rewrite B in K. specialize (K ltac:(apply Nat.le_0_l)).
  unfold run. destruct (loop m hst fuel (set_count 0 0 s)); cbn [after]; try apply K. exact Hs.
Qed.
Lemma entered_ok d o bs r : entered m hst fuel d o bs r -> rp_ok r.
Proof using.
  induction 1; [|apply execute_ok; auto]. unfold rp_ok. cbn. apply repeat_length.
Qed.

(** After a run the session knows what the machine knew. *)
Lemma ended_global d o bs (r : repl D) ast res r' n : entered m hst fuel d o bs r ->
  execute m hst fuel r (Some ast) = (ORun res, r') -> known_name r' n ->
  session_global r' n = match res with RDone _ s | RErr _ _ s | ROut s => global_of s n | RPanic => session_global r' n end.
Proof using.
  intros He H Hn. pose proof (entered_ok _ _ _ _ He) as Hok. unfold execute in H.
  destruct (compile_stmnts m ast (rp_compiler r)) as [[u|e sp|] c] eqn:Ec; try discriminate. injection H as <- <-.
  set (s := fold_left _ _ _) in *. destruct (fold_misc (rp_builtins r) (update_script (as_script c) (rp_vm r))) as (A & B & C). fold s in A, B, C.
  assert (Hs : length (v_stack s) = o_stack_size (v_opts s)) by (rewrite A, C; exact Hok).
  pose proof (loop_syms fuel (set_count 0 0 s)) as K. cbn in K. specialize (K Hs). rewrite B in K. specialize (K ltac:(apply Nat.le_0_l)).
  unfold known_name, session_global in *. cbn [rp_compiler rp_vm compiler_reset c_globals] in *.
  destruct (pool_id seqb (c_globals c) n) as [i|] eqn:Ei; [|congruence].
  destruct (builtins_grow (rp_builtins r) (update_script (as_script c) (rp_vm r)) n i Ei) as (X & _). fold s in X.
  unfold run in *. unfold global_of. destruct (loop m hst fuel (set_count 0 0 s)); cbn [after]; auto; destruct K as [_ ->]; rewrite X; reflexivity.
Qed.
End Repl.
