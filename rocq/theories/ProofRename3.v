(** Runs of renamed programs (C103): the machine. *)
From Verif Require Import Base RleVec Pool Vecc Float NumText Bytecode Chunk Value Ast Arith VmOps Compiler Vm SpecNames SpecRel SpecRename ProofRel ProofStdRel ProofRename ProofRename2.

Lemma grel_mono {A B} (R R' : A -> B -> Prop) : (forall x y, R x y -> R' x y) -> forall v w, grel R v w -> grel R' v w.
Proof.
  intros H. fix IH 3. intros v w G. destruct G; constructor; auto.
  induction H0; constructor; auto.
Qed.

Section Machine.
Context {D : Type} (r : rstring -> rstring) (rn : renaming r) (mv : span -> span) (mo : moving mv) (unknown : r (str "unkown???") = str "unkown???") (K : rstring -> Prop).
Context (m : mode) (hst : host D).
Notation vm := (vm D).
Notation rel := (renamed_value r mv K).
Notation crel := (renamed_closure r mv K).

Definition urel (x y : upvalue) : Prop := match x, y with Open l, Open l' => l = l' | Closed v, Closed w => rel v w | _, _ => False end.
Record frel (f g : frame) : Prop := {
  fr_fn : renamed_fn r mv (f_fn f) (f_fn g); fr_named : named K (f_fn f); fr_ups : f_ups f = f_ups g; fr_ip : f_ip f = f_ip g; fr_st : f_st f = f_st g }.
Record prel (p p' : pool rstring) : Prop := {
  pr_entries : p_entries p' = map r (p_entries p); pr_ids : forall x, pool_id seqb p' (r x) = pool_id seqb p x }.
Definition brel (x y : N * builtin D) : Prop := x = y /\ blind r mv K (snd x).
Definition calm (x : xfn D) : Prop := forall d e, snd (x d) = Err e -> renamed_error r e = e.
Record vsim (s s' : vm) : Prop := {
  vs_data : v_data s = v_data s'; vs_builtins : v_builtins s = v_builtins s';
  vs_blind : forall b x, alookup N.eqb b (v_builtins s) = Some x -> blind r mv K x;
  vs_exits : v_exits s = v_exits s'; vs_calm : Forall calm (v_exits s);
  vs_blocks : Forall2 rel (v_blocks s) (v_blocks s');
  vs_globals : Forall2 (fun x y => fst x = fst y /\ rel (snd x) (snd y)) (v_globals s) (v_globals s');
  vs_gsyms : prel (v_gsyms s) (v_gsyms s'); vs_externals : v_externals s = v_externals s'; vs_opens : v_opens s = v_opens s';
  vs_heap : Forall2 urel (v_heap s) (v_heap s'); vs_frames : Forall2 frel (v_frames s) (v_frames s'); vs_frame : frel (v_frame s) (v_frame s');
  vs_stack : Forall2 rel (v_stack s) (v_stack s'); vs_sp : v_sp s = v_sp s'; vs_reads : v_reads s = v_reads s'; vs_n : v_n s = v_n s'; vs_opts : v_opts s = v_opts s' }.

Definition asim {A} (Q : A -> A -> Prop) (x y : act D A) : Prop := forall s s', vsim s s' ->
  match x s, y s' with
  | AOk a t, AOk b t' => Q a b /\ vsim t t'
  | AErr e sp t, AErr e' sp' t' => e' = renamed_error r e /\ sp' = mv sp /\ vsim t t'
  | APanic, _ => True
  | _, _ => False
  end.
Definition any2 {A} (_ _ : A) : Prop := True.

Lemma a_ret {A} (Q : A -> A -> Prop) a b : Q a b -> asim Q (aret a) (aret b).
Proof. intros H s s' HS. split; auto. Qed.
Lemma a_bind {A B} (Q : A -> A -> Prop) (R : B -> B -> Prop) x y k l :
  asim Q x y -> (forall a b, Q a b -> asim R (k a) (l b)) -> asim R (abind x k) (abind y l).
Proof.
  intros HX HK s s' HS. unfold abind. specialize (HX s s' HS). destruct (x s), (y s'); try contradiction; auto.
  destruct HX as [HQ HT]. exact (HK _ _ HQ _ _ HT).
Qed.
Lemma a_then {A B} (Q : A -> A -> Prop) (R : B -> B -> Prop) x y k l :
  asim Q x y -> asim R k l -> asim R (abind x (fun _ => k)) (abind y (fun _ => l)).
Proof. intros H1 H2. eapply a_bind; [exact H1|auto]. Qed.
Lemma a_panic {A} (Q : A -> A -> Prop) y : asim Q apanic y. Proof. intros s s' _. exact Logic.I. Qed.
Lemma a_gets {A} (Q : A -> A -> Prop) f g : (forall s s', vsim s s' -> Q (f s) (g s')) -> asim Q (agets f) (agets g).
Proof. intros H s s' HS. split; auto. Qed.
Lemma a_mod f g : (forall s s', vsim s s' -> vsim (f s) (g s')) -> asim eq (amod f) (amod g).
Proof. intros H s s' HS. split; auto. Qed.
Lemma a_fun {A} (Q : A -> A -> Prop) (k l : vm -> act D A) : (forall s s', vsim s s' -> asim Q (k s) (l s')) -> asim Q (fun s => k s s) (fun s => l s s).
Proof. intros H s s' HS. exact (H s s' HS s s' HS). Qed.

Lemma chunk_same s s' : vsim s s' -> ck_ops (cur_chunk s') = ck_ops (cur_chunk s) /\ ck_spans (cur_chunk s') = move_spans mv (ck_spans (cur_chunk s)) /\
  Forall2 (renamed_const r mv) (ck_consts (cur_chunk s)) (ck_consts (cur_chunk s')) /\ named K (f_fn (v_frame s)).
Proof. intros H. destruct (vs_frame _ _ H) as [F N _ _ _]. unfold cur_chunk, fr_chunk. revert N. destruct F; cbn; auto. Qed.
Lemma span_same s s' i : vsim s s' -> chunk_get_span (cur_chunk s') i = mv (chunk_get_span (cur_chunk s) i).
Proof. intros H. unfold chunk_get_span. destruct (chunk_same s s' H) as (_ & -> & _). rewrite get_r. destruct (rle_get _ _); [reflexivity|]. symmetry. apply (mv_kept mv mo). Qed.
Lemma ip_same s s' : vsim s s' -> ip s' = ip s.
Proof. intros H. symmetry. apply (vs_frame _ _ H). Qed.
Lemma a_err0 {A} (Q : A -> A -> Prop) e e' : e' = renamed_error r e -> asim Q (error_0 e) (error_0 e').
Proof. intros -> s s' H. unfold error_0. rewrite (span_same s s' _ H), (ip_same s s' H). auto. Qed.
Lemma a_err1 {A} (Q : A -> A -> Prop) e e' : e' = renamed_error r e -> asim Q (error_1 e) (error_1 e').
Proof. intros -> s s' H. unfold error_1. rewrite (span_same s s' _ H), (ip_same s s' H). auto. Qed.
Lemma a_errf {A} (Q : A -> A -> Prop) e e' : e' = renamed_error r e -> asim Q (errorf e) (errorf e').
Proof.
  intros -> s s' H. unfold errorf. rewrite (span_same s s' _ H), (ip_same s s' H). split; [reflexivity|]. split; [|exact H].
  destruct (vs_frames _ _ H); [reflexivity|]. now destruct (vs_frame _ _ H) as [[] _ _ _ _].
Qed.
Lemma a_lift {A} (Q : A -> A -> Prop) x y : rr Q x y -> nl x -> asim Q (lift_1 x) (lift_1 y).
Proof.
  intros H N. destruct x as [a|e|], y as [b|e'|]; cbn in H; try contradiction; try (apply a_panic).
  - now apply a_ret.
  - subst. apply a_err1. symmetry. apply nameless_same, N. reflexivity.
Qed.

(** The stack. *)
Lemma vs_set_stack s s' st st' sp : vsim s s' -> Forall2 rel st st' -> vsim (set_stack st sp s) (set_stack st' sp s').
Proof. intros [] H. constructor; cbn; auto. Qed.
Lemma a_push v w : rel v w -> asim eq (push v) (push w).
Proof.
  intros Hv s s' H. unfold push. rewrite (vs_opts _ _ H), (vs_sp _ _ H). destruct (_ <=? _); [apply (a_err0 eq EStackOverflow); auto|].
  rewrite (f2_length _ _ _ (vs_stack _ _ H)). destruct (_ <? _); [|exact Logic.I]. split; [reflexivity|].
  apply vs_set_stack; [exact H|]. apply f2_upd; [apply H|exact Hv].
Qed.
Lemma a_push_unchecked v w : rel v w -> asim eq (push_unchecked v) (push_unchecked w).
Proof.
  intros Hv s s' H. unfold push_unchecked. rewrite (vs_sp _ _ H).
  rewrite (f2_length _ _ _ (vs_stack _ _ H)). destruct (_ <? _); [|exact Logic.I]. split; [reflexivity|].
  apply vs_set_stack; [exact H|]. apply f2_upd; [apply H|exact Hv].
Qed.
Lemma a_push_many n : asim eq (push_many n) (push_many n).
Proof.
  intros s s' H. unfold push_many. cbn [set_stack v_sp v_opts]. rewrite (vs_opts _ _ H), (vs_sp _ _ H).
  assert (G : vsim (set_stack (v_stack s) (v_sp s' + n) s) (set_stack (v_stack s') (v_sp s' + n) s')) by (apply vs_set_stack; [exact H|apply H]).
  destruct (_ <=? _); [apply (a_err1 eq EStackOverflow); auto|]. split; auto.
Qed.
Lemma a_slot i : asim rel (slot i) (slot i).
Proof.
  intros s s' H. unfold slot. pose proof (f2_nth _ _ _ i (vs_stack _ _ H)) as E. destruct (nth_error (v_stack s) i), (nth_error (v_stack s') i); try contradiction; auto.
Qed.
Lemma a_set_slot i v w : rel v w -> asim eq (set_slot i v) (set_slot i w).
Proof.
  intros Hv s s' H. unfold set_slot. rewrite (f2_length _ _ _ (vs_stack _ _ H)), (vs_sp _ _ H). destruct (_ <? _); [|exact Logic.I]. split; [reflexivity|].
  apply vs_set_stack; [exact H|]. apply f2_upd; [apply H|exact Hv].
Qed.
Lemma a_pop : asim rel pop pop.
Proof.
  intros s s' H. unfold pop. rewrite (vs_sp _ _ H). destruct (v_sp s') as [|k]; [exact Logic.I|]. apply a_slot. apply vs_set_stack; [exact H|apply H].
Qed.
Lemma a_pop_many n : asim eq (pop_many n) (pop_many n).
Proof.
  intros s s' H. unfold pop_many. rewrite (vs_sp _ _ H). destruct (_ <? _); [exact Logic.I|]. split; [reflexivity|]. apply vs_set_stack; [exact H|apply H].
Qed.
Lemma a_swap_out : asim rel pop_swap_out pop_swap_out.
Proof.
  eapply a_bind; [apply a_pop|intros v w Hv]. eapply a_bind; [apply (a_gets eq); intros; apply vs_sp; assumption|intros a ? <-].
  eapply a_then; [apply a_set_slot; constructor|]. now apply a_ret.
Qed.
Definition rel2 (x y : value * value) : Prop := rel (fst x) (fst y) /\ rel (snd x) (snd y).
Lemma a_double : asim rel2 pop_double pop_double.
Proof. eapply a_bind; [apply a_pop|intros v w Hv]. eapply a_bind; [apply a_pop|intros v' w' Hv']. apply a_ret. now split. Qed.
Lemma a_peekn n : asim rel (peekn n) (peekn n).
Proof. intros s s' H. unfold peekn. rewrite (vs_sp _ _ H). destruct (_ <? _); [exact Logic.I|]. now apply a_slot. Qed.
Lemma a_pop_peek : asim rel2 pop_peek pop_peek.
Proof. eapply a_bind; [apply a_pop|intros v w Hv]. eapply a_bind; [apply a_peekn|intros v' w' Hv']. apply a_ret. now split. Qed.
Lemma a_swap : asim eq swap swap.
Proof.
  intros s s' H. unfold swap. rewrite (vs_sp _ _ H). destruct (v_sp s') as [|[|k]] eqn:Ek; try exact Logic.I.
  pose proof (f2_nth _ _ _ k (vs_stack _ _ H)) as E1. pose proof (f2_nth _ _ _ (S k) (vs_stack _ _ H)) as E2.
  destruct (nth_error (v_stack s) k), (nth_error (v_stack s') k); try contradiction; try exact Logic.I.
  destruct (nth_error (v_stack s) (S k)), (nth_error (v_stack s') (S k)); try contradiction; try exact Logic.I.
  split; [reflexivity|]. rewrite <- Ek. apply vs_set_stack; [exact H|]. apply f2_upd; [apply f2_upd; [apply H|exact E1]|exact E2].
Qed.
Lemma const_rel f v w : named K f -> In v (ck_consts (fn_chunk f)) -> renamed_const r mv v w -> rel v w.
Proof.
  intros N I H. destruct H as [g g' Hg|v Hv].
  - constructor. constructor; [exact Hg|]. intros h Hh. apply N. clear Hg. induction Hh; [eapply pa_in; [apply pa_self|exact I]|]. eapply pa_in; eassumption.
  - refine (grel_mono _ _ _ _ _ Hv). intros ? ? [].
Qed.
Lemma a_const i : asim rel (get_constant i) (get_constant i).
Proof.
  intros s s' H. destruct (chunk_same s s' H) as (_ & _ & C & N). unfold get_constant, chunk_get_constant.
  pose proof (f2_nth _ _ _ (N.to_nat i) C) as E. revert E.
  destruct (nth_error (ck_consts (cur_chunk s)) (N.to_nat i)) eqn:E1, (nth_error (ck_consts (cur_chunk s')) (N.to_nat i)); intros E; try contradiction; try exact Logic.I.
  split; [|exact H]. eapply const_rel; [exact N|eapply nth_error_In; exact E1|exact E].
Qed.
Lemma a_name id : asim (fun x y => y = r x) (global_name id) (global_name id).
Proof.
  apply a_gets. intros s s' H. destruct (vs_gsyms _ _ H) as [E _]. unfold pool_get. rewrite E, nth_error_map.
  destruct (nth_error _ _); cbn; auto.
Qed.

(** Cells. *)
Lemma vs_set_cells s s' o h h' : vsim s s' -> Forall2 urel h h' -> vsim (set_cells o h s) (set_cells o h' s').
Proof. intros [] H. constructor; cbn; auto. Qed.
Lemma f2_upd_u i x y : urel x y -> forall l l', Forall2 urel l l' -> Forall2 urel (upd i x l) (upd i y l').
Proof. intros Hx l l' H. revert i. induction H; intros [|i]; cbn; constructor; auto. Qed.
Lemma a_up_get c : asim rel (up_get c) (up_get c).
Proof.
  intros s s' H. unfold up_get. pose proof (f2_nth _ _ _ c (vs_heap _ _ H)) as E.
  destruct (nth_error (v_heap s) c) as [[l|v]|], (nth_error (v_heap s') c) as [[l'|v']|]; cbn in E; try contradiction; try exact Logic.I.
  - subst. now apply a_slot.
  - now split.
Qed.
Lemma a_up_set c v w : rel v w -> asim eq (up_set c v) (up_set c w).
Proof.
  intros Hv s s' H. unfold up_set. pose proof (f2_nth _ _ _ c (vs_heap _ _ H)) as E.
  destruct (nth_error (v_heap s) c) as [[l|x]|], (nth_error (v_heap s') c) as [[l'|x']|]; cbn in E; try contradiction; try exact Logic.I.
  - subst. now apply a_set_slot.
  - split; [reflexivity|]. rewrite (vs_opens _ _ H). apply vs_set_cells; [exact H|]. apply f2_upd_u; [exact Hv|apply H].
Qed.
Lemma open_at_same h h' l c : Forall2 urel h h' -> is_open_at h' l c = is_open_at h l c.
Proof.
  intros H. unfold is_open_at. pose proof (f2_nth _ _ _ c H) as E. destruct (nth_error h c) as [[|]|], (nth_error h' c) as [[|]|]; cbn in E; try contradiction; auto.
Qed.
Lemma open_same h h' c : Forall2 urel h h' -> is_open h' c = is_open h c.
Proof.
  intros H. unfold is_open. pose proof (f2_nth _ _ _ c H) as E. destruct (nth_error h c) as [[|]|], (nth_error h' c) as [[|]|]; cbn in E; try contradiction; auto.
Qed.
Lemma find_same h h' l os : Forall2 urel h h' -> find (is_open_at h' l) os = find (is_open_at h l) os.
Proof. intros H. induction os as [|c os IH]; cbn [find]; [reflexivity|]. now rewrite (open_at_same h h' l c H), IH. Qed.
Lemma filter_same h h' os : Forall2 urel h h' -> filter (is_open h') os = filter (is_open h) os.
Proof. intros H. induction os as [|c os IH]; cbn [filter]; [reflexivity|]. now rewrite (open_same h h' c H), IH. Qed.
Lemma a_capture l : asim eq (capture_upvalue l) (capture_upvalue l).
Proof.
  intros s s' H. unfold capture_upvalue. rewrite (vs_opens _ _ H), (find_same _ _ l (v_opens s') (vs_heap _ _ H)), (f2_length _ _ _ (vs_heap _ _ H)).
  destruct (find _ _); [now split|]. split; [reflexivity|]. apply vs_set_cells; [exact H|]. apply Forall2_app; [apply H|]. constructor; [reflexivity|constructor].
Qed.
Lemma cells_same l v w os : rel v w -> forall h h', Forall2 urel h h' -> Forall2 urel (close_cells l v os h) (close_cells l w os h').
Proof.
  intros Hv. unfold close_cells. induction os as [|c os IH]; intros h h' H; cbn [fold_left]; [exact H|]. apply IH.
  rewrite (open_at_same h h' l c H). destruct (is_open_at h l c); [apply f2_upd_u; [exact Hv|exact H]|exact H].
Qed.
Lemma a_close l : asim eq (close_upvalues l) (close_upvalues l).
Proof.
  intros s s' H. unfold close_upvalues. pose proof (f2_nth _ _ _ l (vs_stack _ _ H)) as E.
  destruct (nth_error (v_stack s) l), (nth_error (v_stack s') l); try contradiction; [|now split]. split; [reflexivity|].
  rewrite (vs_opens _ _ H). pose proof (cells_same l _ _ (v_opens s') E _ _ (vs_heap _ _ H)) as C. rewrite (filter_same _ _ (v_opens s') C). now apply vs_set_cells.
Qed.
Lemma a_range n : forall from, asim eq (close_range from n) (close_range from n).
Proof. induction n as [|n IH]; intros from; cbn [close_range]; [now apply a_ret|]. eapply a_then; [apply a_close|apply IH]. Qed.

Lemma vs_set_count s s' a b : vsim s s' -> vsim (set_count a b s) (set_count a b s').
Proof. intros []. constructor; cbn; auto. Qed.
Lemma a_time : asim eq (has_runtime_exceeded hst) (has_runtime_exceeded hst).
Proof.
  unfold has_runtime_exceeded. eapply a_bind; [apply (a_gets eq); intros; apply vs_reads; assumption|intros a ? <-].
  eapply a_then; [apply a_mod; intros s s' H; rewrite (vs_reads _ _ H), (vs_n _ _ H); now apply vs_set_count|].
  eapply a_bind; [apply (a_gets eq); intros s s' H; now rewrite (vs_opts _ _ H)|intros b ? <-].
  destruct (_ <? _)%N; [now apply a_errf|now apply a_ret].
Qed.
Lemma a_pop_items n : asim (Forall2 rel) (pop_items n) (pop_items n).
Proof.
  induction n as [|n IH]; cbn [pop_items]; [apply a_ret; constructor|]. eapply a_bind; [apply a_pop|intros v w Hv]. eapply a_bind; [exact IH|intros l l' Hl].
  apply a_ret. now constructor.
Qed.
Lemma a_push_items l l' : Forall2 rel l l' -> asim eq (push_items l) (push_items l').
Proof. induction 1; cbn [push_items]; [now apply a_ret|]. eapply a_then; [now apply a_push|assumption]. Qed.
Lemma vs_set_frames s s' fs fs' f f' : vsim s s' -> Forall2 frel fs fs' -> frel f f' -> vsim (set_frames fs f s) (set_frames fs' f' s').
Proof. intros [] H1 H2. constructor; cbn; auto. Qed.
Lemma vs_set_ip s s' i : vsim s s' -> vsim (set_ip i s) (set_ip i s').
Proof. intros H. unfold set_ip. apply vs_set_frames; [exact H|apply H|]. destruct (vs_frame _ _ H). constructor; cbn; auto. Qed.
Lemma a_captures n : asim eq (read_captures n) (read_captures n).
Proof.
  induction n as [|n IH]; cbn [read_captures]; [now apply a_ret|].
  eapply a_bind with (Q := vsim); [now apply a_gets|intros s s' H]. destruct (chunk_same s s' H) as (-> & _). rewrite (ip_same s s' H).
  destruct (vs_frame _ _ H) as [_ _ E1 _ E2]. rewrite E1, E2.
  destruct (bc_read_u8 _ _); try apply a_panic. destruct (bc_read_u16 _ _); try apply a_panic.
  eapply a_then; [apply a_mod; intros; now apply vs_set_ip|].
  eapply a_bind with (Q := eq); [|intros c ? <-; eapply a_bind; [exact IH|intros l ? <-; now apply a_ret]].
  destruct (_ =? 1)%N; [apply a_capture|]. destruct (nth_error _ _); [now apply a_ret|apply a_panic].
Qed.
Lemma a_jump off : asim eq (jump_forward off) (jump_forward off).
Proof. apply a_mod. intros s s' H. rewrite (ip_same s s' H). now apply vs_set_ip. Qed.
Lemma a_args n : asim (Forall2 rel) (take_args n) (take_args n).
Proof.
  intros s s' H. unfold take_args. rewrite (vs_sp _ _ H), (f2_length _ _ _ (vs_stack _ _ H)). destruct (v_sp s' <? n); [apply (a_err0 (Forall2 rel) EStackUnderflow); auto|].
  destruct (_ <? _); [exact Logic.I|]. split; [apply f2_firstn, f2_skipn, H|]. apply vs_set_stack; [exact H|apply H].
Qed.
Lemma vs_set_data s s' d : vsim s s' -> vsim (set_data d s) (set_data d s').
Proof. intros []. constructor; cbn; auto. Qed.
Lemma a_builtin f l l' : blind_fn r mv K f -> Forall2 rel l l' -> asim rel (run_builtin f l) (run_builtin f l').
Proof.
  intros Hf Hl s s' H. unfold run_builtin. rewrite (vs_data _ _ H), (vs_opts _ _ H). destruct (Hf (v_data s') l l' (v_opts s') Hl) as [E1 E2].
  destruct (f (v_data s') l (v_opts s')) as [d x], (f (v_data s') l' (v_opts s')) as [d' x']. cbn [fst snd] in E1, E2. subst d'.
  pose proof (vs_set_data s s' d H) as G. destruct x as [v|e|], x' as [v'|e'|]; try contradiction; try exact Logic.I.
  - exact (a_ret rel v v' E2 _ _ G).
  - exact (a_err1 rel e e' E2 _ _ G).
Qed.

(** Comparing functions. *)
Lemma up_list_rel veq veq' h h' : (forall v w v' w', rel v w -> rel v' w' -> rr eq (veq v v') (veq' w w')) -> Forall2 urel h h' ->
  forall us vs, rr eq (up_list_eq veq h us vs) (up_list_eq veq' h' us vs).
Proof.
  intros HV H. induction us as [|u us IH]; intros [|v vs]; cbn [up_list_eq]; try reflexivity.
  pose proof (f2_nth _ _ _ u H) as E1. pose proof (f2_nth _ _ _ v H) as E2.
  destruct (nth_error h u) as [[l|x]|], (nth_error h' u) as [[l'|x']|]; cbn in E1; try contradiction; try exact Logic.I;
  destruct (nth_error h v) as [[k|y]|], (nth_error h' v) as [[k'|y']|]; cbn in E2; try contradiction; try exact Logic.I; try reflexivity.
  - subst. destruct (_ =? _); [apply IH|reflexivity].
  - eapply rr_bind; [now apply HV|]. intros a ? <-. destruct a; [apply IH|reflexivity].
Qed.
Lemma fn_eq_rel k : forall h h' x y x' y', Forall2 urel h h' -> crel x y -> crel x' y' -> rr eq (fn_eq k h x x') (fn_eq k h' y y').
Proof.
  induction k as [|k IH]; intros h h' x y x' y' H H1 H2; cbn [fn_eq]; [exact Logic.I|].
  destruct H1 as [f g Hf _|f g us Hf _], H2 as [f' g' Hf' _|f' g' us' Hf' _]; try reflexivity; rewrite (function_r r rn mv mo feqb false f g f' g' Hf Hf').
  - reflexivity.
  - destruct (negb _); [reflexivity|]. destruct (negb _); [reflexivity|]. apply up_list_rel; [|exact H]. intros. eapply grel_eqb; [|eassumption..]. intros. now apply IH.
Qed.
Lemma fn_eq_nl k : forall h x y, nl (fn_eq k h x y).
Proof.
  induction k as [|k IH]; intros h x y; cbn [fn_eq]; [apply nl_panic|]. destruct x as [f|f us], y as [g|g vs]; try apply nl_ok.
  destruct (negb _); [apply nl_ok|]. destruct (negb _); [apply nl_ok|]. revert vs. induction us as [|u us IHu]; intros [|v vs]; cbn [up_list_eq]; try apply nl_ok.
  destruct (nth_error h u) as [[]|]; try apply nl_panic; destruct (nth_error h v) as [[]|]; try apply nl_panic; try apply nl_ok.
  - destruct (_ =? _); [apply IHu|apply nl_ok].
  - apply nl_bind; [apply nl_geqb; intros; apply IH|]. intros []; [apply IHu|apply nl_ok].
Qed.
Lemma type_same x y : crel x y -> fi_type mfi x = fi_type mfi y.
Proof. destruct 1; reflexivity. Qed.
Lemma feq_same s s' : vsim s s' -> forall x y x' y', crel x y -> crel x' y' -> rr eq (feq_at hst s x x') (feq_at hst s' y y').
Proof. intros H x y x' y' H1 H2. unfold feq_at. apply fn_eq_rel; [apply H|assumption..]. Qed.

(** Instructions. *)
Lemma globals_same s s' i : vsim s s' -> orel rel (alookup N.eqb i (v_globals s)) (alookup N.eqb i (v_globals s')).
Proof.
  intros H. induction (vs_globals _ _ H) as [|[a v] [b w] l l' [E Hv] Hl IH]; cbn [alookup fst snd] in *; [exact Logic.I|]. subst b.
  destruct (_ =? _)%N; [exact Hv|exact IH].
Qed.
Lemma vs_set_globals s s' i v w : vsim s s' -> rel v w -> vsim (set_globals (ainsert i v (v_globals s)) s) (set_globals (ainsert i w (v_globals s')) s').
Proof. intros [] H. constructor; cbn; auto. constructor; auto. Qed.
Lemma vs_set_blocks s s' b b' : vsim s s' -> Forall2 rel b b' -> vsim (set_blocks b s) (set_blocks b' s').
Proof. intros [] H. constructor; cbn; auto. Qed.
Lemma vs_set_exits s s' x : vsim s s' -> Forall calm x -> vsim (set_exits x s) (set_exits x s').
Proof. intros [] H. constructor; cbn; auto. Qed.
Lemma a_global i : asim (orel rel) (agets (fun s => alookup N.eqb i (v_globals s))) (agets (fun s => alookup N.eqb i (v_globals s))).
Proof. apply a_gets. intros. now apply globals_same. Qed.
Lemma a_undefined {A} (Q : A -> A -> Prop) id : asim Q (abind (global_name id) (fun n => error_1 (ENameUndefined n))) (abind (global_name id) (fun n => error_1 (ENameUndefined n))).
Proof. eapply a_bind; [apply a_name|intros x ? ->]. now apply a_err1. Qed.
Lemma a_no_builtin {A} (Q : A -> A -> Prop) id : asim Q (abind (global_name id) (fun n => error_1 (EUndefinedBuiltin n))) (abind (global_name id) (fun n => error_1 (EUndefinedBuiltin n))).
Proof. eapply a_bind; [apply a_name|intros x ? ->]. now apply a_err1. Qed.
Lemma a_sp : asim eq (agets v_sp) (agets v_sp). Proof. apply a_gets. intros. now apply vs_sp. Qed.
Lemma a_st : asim eq (agets (fun s => f_st (v_frame s))) (agets (fun s => f_st (v_frame s))).
Proof. apply a_gets. intros s s' H. apply (vs_frame _ _ H). Qed.
Lemma a_up i : asim eq (agets (fun s => nth_error (f_ups (v_frame s)) i)) (agets (fun s => nth_error (f_ups (v_frame s)) i)).
Proof. apply a_gets. intros s s' H. destruct (vs_frame _ _ H) as [_ _ E _ _]. now rewrite E. Qed.
Lemma a_amax : asim eq (agets (fun s => o_array_max (v_opts s))) (agets (fun s => o_array_max (v_opts s))).
Proof. apply a_gets. intros s s' H. now rewrite (vs_opts _ _ H). Qed.
Lemma a_calm x s s' : calm x -> vsim s s' ->
  match (let (d, q) := x (v_data s) in lift_1 q (set_data d s)), (let (d, q) := x (v_data s') in lift_1 q (set_data d s')) with
  | AOk a t, AOk b t' => a = b /\ vsim t t'
  | AErr e sp t, AErr e' sp' t' => e' = renamed_error r e /\ sp' = mv sp /\ vsim t t'
  | APanic, _ => True
  | _, _ => False
  end.
Proof.
  intros C H. rewrite (vs_data _ _ H). specialize (C (v_data s')). destruct (x (v_data s')) as [d [u|e|]]; cbn [snd] in C; pose proof (vs_set_data s s' d H) as G.
  - exact (a_ret eq u u eq_refl _ _ G).
  - exact (a_err1 (@eq unit) e e (eq_sym (C e eq_refl)) _ _ G).
  - exact Logic.I.
Qed.
Lemma rtype v w : rel v w -> ntype mfi v = ntype mfi w.
Proof. exact (grel_ntype _ mfi mfi type_same v w). Qed.

Lemma a_exec i : asim eq (exec m hst i) (exec m hst i).
Proof.
  destruct i; cbn [exec].
  - now apply a_err1.
  - apply a_panic.
  - eapply a_then; [apply a_pop|]. now apply a_ret.
  - apply a_pop_many.
  - apply a_swap.
  - eapply a_then; [apply a_swap|]. eapply a_then; [apply a_pop|]. now apply a_ret.
  - eapply a_bind; [apply a_const|intros v w Hv]. now apply a_push.
  - eapply a_bind; [apply a_st|intros st ? <-]. eapply a_bind; [apply a_slot|intros v w Hv]. now apply a_push.
  - eapply a_bind; [apply a_peekn|intros v w Hv]. eapply a_bind; [apply a_st|intros st ? <-]. now apply a_set_slot.
  - eapply a_bind; [apply a_pop|intros v w Hv]. apply a_mod. intros. now apply vs_set_globals.
  - eapply a_bind; [apply a_up|intros [c|] ? <-]; [|apply a_panic]. eapply a_bind; [apply a_up_get|intros v w Hv]. now apply a_push.
  - eapply a_bind; [apply a_peekn|intros v w Hv]. eapply a_bind; [apply a_up|intros [c|] ? <-]; [now apply a_up_set|apply a_panic].
  - eapply a_bind; [apply a_global|intros [v|] [w|] Hv]; try contradiction; [now apply a_push|apply a_undefined].
  - eapply a_bind; [apply a_peekn|intros v w Hv]. eapply a_bind; [apply a_global|intros [x|] [y|] Hx]; try contradiction; [|apply a_undefined].
    apply a_mod. intros. now apply vs_set_globals.
  - eapply a_bind; [apply a_pop|intros v w Hv]. apply a_mod. intros s s' H. pose proof (globals_same s s' i H) as G.
    destruct (alookup N.eqb i (v_globals s)), (alookup N.eqb i (v_globals s')); try contradiction; [exact H|now apply vs_set_globals].
  - eapply a_bind; [apply a_sp|intros [|k] ? <-]; [apply a_panic|]. eapply a_then; [apply a_close|]. eapply a_then; [apply a_pop|]. now apply a_ret.
  - eapply a_bind; [apply a_const|intros v w Hv]. destruct Hv as [| | | | | | | | | | |f g []]; try (now apply a_err0).
    apply a_push. constructor. now constructor.
  - eapply a_bind; [apply a_const|intros v w Hv]. destruct Hv as [| | | | | | | | | | |f g [f0 g0 Hf Hn|]]; try (now apply a_err0).
    assert (E : fn_upcount g0 = fn_upcount f0) by (destruct Hf; reflexivity). rewrite E.
    eapply a_bind; [apply a_captures|intros us ? <-]. apply a_push. constructor. now constructor.
  - eapply a_bind; [apply a_double|intros [a b] [a' b'] [Ha Hb]]. cbn [fst snd] in *. apply a_push_unchecked. now constructor.
  - eapply a_bind; [apply a_pop_items|intros l l' Hl]. eapply a_bind; [apply a_amax|intros mx ? <-].
    eapply a_bind; [apply a_lift; [apply array_rel, Hl|apply nl_array]|intros x y Hx]. now apply a_push.
  - eapply a_bind; [apply a_double|intros [a b] [a' b'] [Ha Hb]]. cbn [fst snd] in *.
    eapply a_bind; [apply a_lift; [eapply range_rel; [exact type_same|exact Ha|exact Hb]|apply nl_range]|intros x y Hx]. now apply a_push.
  - eapply a_bind; [apply a_peekn|intros v w Hv]. intros s s' H. rewrite (vs_opts _ _ H), (f2_length _ _ _ (vs_frames _ _ H)).
    destruct (_ <=? _); [now apply (a_err0 eq EStackOverflow)|].
    assert (T : ENotCallable (ntype mfi w) = renamed_error r (ENotCallable (ntype mfi v))) by (cbn [renamed_error]; now rewrite (rtype v w Hv)).
    pose proof (a_err1 (@eq unit) _ _ T s s' H) as G. destruct Hv as [| | | | | | | | | | |c c' Hc]; try exact G.
    assert (X : renamed_fn r mv (mfn_function c) (mfn_function c') /\ named K (mfn_function c) /\
      match c with MFun _ => [] | MClo _ us => us end = match c' with MFun _ => [] | MClo _ us => us end) by (destruct Hc; auto).
    destruct X as (X1 & X2 & X3). cbv zeta. rewrite X3, (vs_sp _ _ H), (vs_data _ _ H).
    assert (E : fn_arity (mfn_function c') = fn_arity (mfn_function c) /\ fn_name (mfn_function c') = r (fn_name (mfn_function c))) by (destruct X1; auto).
    destruct E as [E1 E2]. rewrite E1, E2. destruct (_ =? _)%N; [|exact (a_err0 (@eq unit) (EMismatchedArity _ _ _) _ eq_refl s s' H)].
    split; [reflexivity|]. apply vs_set_data, vs_set_frames; [exact H|constructor; apply H|]. constructor; cbn; auto.
  - eapply a_bind with (Q := fun x y => x = y /\ forall b, x = Some b -> blind r mv K b).
    { apply a_gets. intros s s' H. split; [now rewrite (vs_builtins _ _ H)|]. apply (vs_blind _ _ H). }
    intros [[f|f x]|] ? [<- Hb]; [|now apply a_err0|apply a_no_builtin]; specialize (Hb _ eq_refl); cbn [blind] in Hb.
    eapply a_bind; [apply a_args|intros l l' Hl]. eapply a_bind; [now apply a_builtin|intros v w Hv]. eapply a_then; [now apply a_push|]. apply a_time.
  - eapply a_bind with (Q := fun x y => x = y /\ forall b, x = Some b -> blind r mv K b).
    { apply a_gets. intros s s' H. split; [now rewrite (vs_builtins _ _ H)|]. apply (vs_blind _ _ H). }
    intros [[f|f x]|] ? [<- Hb]; [| |apply a_no_builtin]; specialize (Hb _ eq_refl); cbn [blind] in Hb.
    + eapply a_bind; [apply a_args|intros l l' Hl]. eapply a_then; [now apply (a_ret eq tt tt)|]. eapply a_bind; [now apply a_builtin|intros v w Hv]. now apply a_push.
    + destruct Hb as [Hf Hc]. eapply a_bind; [apply a_args|intros l l' Hl].
      eapply a_then; [apply a_mod; intros s s' H; rewrite (vs_exits _ _ H); apply vs_set_exits; [exact H|]; constructor; [exact Hc|rewrite <- (vs_exits _ _ H); apply H]|].
      eapply a_bind; [now apply a_builtin|intros v w Hv]. now apply a_push.
  - eapply a_bind with (Q := fun x y => x = y /\ Forall calm x); [apply a_gets; intros s s' H; split; apply H|intros [|x l] ? [<- Hx]]; [now apply a_ret|].
    inversion Hx; subst. eapply a_then; [apply a_mod; intros; now apply vs_set_exits|]. intros s s' H. now apply a_calm.
  - eapply a_bind; [apply a_swap_out|intros v w Hv]. apply a_mod. intros s s' H. apply vs_set_blocks; [exact H|]. constructor; [exact Hv|apply H].
  - eapply a_bind with (Q := Forall2 rel); [apply a_gets; intros s s' H; apply H|]. intros b b' [|v w l l' Hv Hl]; [now apply a_err0|].
    eapply a_then; [apply a_mod; intros; now apply vs_set_blocks|]. now apply a_push.
  - eapply a_bind; [apply a_peekn|intros v w Hv]. eapply a_bind; [apply a_lift; [eapply truthy_rel; [exact type_same|exact Hv]|apply nl_truthy]|intros b ? <-].
    destruct b; [now apply a_ret|apply a_jump].
  - eapply a_bind; [apply a_pop_peek|intros [a b] [a' b'] [Ha Hb]]. cbn [fst snd] in *. intros s s' H.
    pose proof (grel_eqb _ _ _ (feq_same s s' H) a a' b b' Ha Hb) as E. destruct (geqb (feq_at hst s) a b) as [x|e|]; try exact Logic.I.
    destruct (geqb (feq_at hst s') a' b') as [y|e|]; try contradiction. cbn in E. subst y. destruct x; [now split|now apply a_jump].
  - apply a_jump.
  - intros s s' H. rewrite (ip_same s s' H). destruct (_ <? _); [exact Logic.I|]. split; [reflexivity|now apply vs_set_ip].
  - eapply a_bind; [apply a_swap_out|intros v w Hv].
    eapply a_bind; [apply a_lift; [eapply unpack_rel; [exact type_same|exact Hv]|apply nl_unpack]|intros x y Hx]. apply a_push_items.
    clear - Hx. induction Hx; cbn [rev]; [constructor|]. apply Forall2_app; [assumption|]. constructor; auto.
  - apply a_push. constructor.
  - apply a_push_many.
  - apply a_push. constructor.
  - eapply a_bind; [apply a_sp|intros k ? <-]. destruct (k <? 3); [apply a_panic|]. eapply a_bind; [apply a_slot|intros v w Hv].
    destruct Hv; try (now apply a_err1). eapply a_then; [apply a_set_slot; constructor|]. eapply a_bind; [apply a_slot|intros v w Hv].
    eapply a_bind; [apply a_lift; [eapply iter_rel; [exact type_same|exact Hv]|apply nl_iter]|intros [x|] [y|] Hx]; try contradiction; [now apply a_push|apply a_jump].
  - eapply a_bind; [apply a_pop|intros v w Hv]. eapply a_bind; [apply a_pop|intros v' w' Hv'].
    eapply a_bind; [apply a_lift; [eapply index_rel; [exact type_same|exact Hv'|exact Hv]|apply nl_index]|intros x y Hx]. now apply a_push.
  - eapply a_bind; [apply a_pop|intros v w Hv]. destruct (unary_fn m mfi o) as [f|] eqn:E; [|apply a_panic].
    destruct (unary_rel crel m mfi mfi type_same o f E) as (g & E' & Hg). rewrite E in E'. injection E' as <-.
    eapply a_bind; [apply a_lift; [now apply Hg|now apply (nl_unary m mfi o)]|intros x y Hx]. now apply a_push_unchecked.
  - eapply a_bind; [apply a_double|intros [a b] [a' b'] [Ha Hb]]. cbn [fst snd] in *. intros s s' H. rewrite (vs_opts _ _ H).
    destruct (binary_fn m (h_oracle hst) mfi (feq_at hst s) _ _ o) as [f|] eqn:E; [|exact Logic.I].
    destruct (binary_rel crel m (h_oracle hst) mfi mfi _ _ _ _ type_same (feq_same s s' H) o f E) as (g & E' & Hg). rewrite E'.
    refine (a_bind rel eq _ _ _ _ (a_lift rel _ _ (Hg _ _ _ _ Ha Hb) _) _ s s' H); [|intros x y Hx; now apply a_push_unchecked].
    eapply nl_binary; [|exact E]. intros x y. apply fn_eq_nl.
Qed.

Definition ssim (a b : sres D) : Prop :=
  match a, b with
  | SNext t, SNext t' => vsim t t'
  | SDone v t, SDone v' t' => rel v v' /\ vsim t t'
  | SErr e sp t, SErr e' sp' t' => e' = renamed_error r e /\ sp' = mv sp /\ vsim t t'
  | SPanic, _ => True
  | _, _ => False
  end.
Lemma return_sim s s' : vsim s s' -> ssim (do_return m hst s) (do_return m hst s').
Proof.
  intros H. unfold do_return. pose proof (a_pop s s' H) as P. destruct (pop s) as [v s1|e sp s1|], (pop s') as [w s1'|e' sp' s1'|]; try contradiction; try exact Logic.I; [|exact P].
  destruct P as [Hv H1]. rewrite (vs_sp _ _ H1). destruct (vs_frame _ _ H1) as [_ _ _ _ E]. rewrite E.
  pose proof (a_range (v_sp s1' - f_st (v_frame s1')) (f_st (v_frame s1')) s1 s1' H1) as P.
  destruct (close_range _ _ s1) as [u s2|e sp s2|], (close_range _ _ s1') as [u' s2'|e' sp' s2'|]; try contradiction; try exact Logic.I; [|exact P].
  destruct P as [_ H2]. destruct (vs_frame _ _ H2) as [_ _ _ _ E2]. pose proof (vs_frames _ _ H2) as HF.
  destruct HF as [|fr fr' rest rest' Hfr Hrest].
  - rewrite (vs_sp _ _ H2), E2.
    assert (G : vsim (set_stack (v_stack s2) (f_st (v_frame s2')) s2) (set_stack (v_stack s2') (f_st (v_frame s2')) s2')) by (apply vs_set_stack; [exact H2|apply H2]).
    destruct m; [|exact (conj Hv G)]. destruct (v_sp s2'); [exact (conj Hv G)|exact Logic.I].
  - cbv zeta. pose proof (vs_set_data s2 s2' (h_leave hst (v_data s2)) H2) as H3. rewrite (vs_data _ _ H2) in H3 at 2. change (f_st (v_frame (set_data (h_leave hst (v_data s2)) s2))) with (f_st (v_frame s2)). rewrite E2.
    change (f_st (v_frame (set_data (h_leave hst (v_data s2')) s2'))) with (f_st (v_frame s2')).
    set (t := set_data (h_leave hst (v_data s2)) s2) in *. set (t' := set_data (h_leave hst (v_data s2')) s2') in *.
    pose proof (vs_set_frames _ _ rest rest' fr fr' (vs_set_stack t t' _ _ (f_st (v_frame s2')) H3 (vs_stack _ _ H3)) Hrest Hfr) as H5.
    pose proof (a_push v w Hv _ _ H5) as P. destruct (push v _) as [x s6|e sp s6|], (push w _) as [y s6'|e' sp' s6'|]; try contradiction; try exact Logic.I; [apply P|exact P].
Qed.
Lemma a_tick : asim eq (tick hst) (tick hst).
Proof.
  unfold tick. eapply a_bind; [apply (a_gets eq); intros; apply vs_n; assumption|intros n ? <-]. destruct (64 <? n).
  - eapply a_then; [apply a_time|]. apply a_mod. intros s s' H. rewrite (vs_reads _ _ H). now apply vs_set_count.
  - apply a_mod. intros s s' H. rewrite (vs_reads _ _ H), (vs_n _ _ H). now apply vs_set_count.
Qed.
Lemma step_sim s s' : vsim s s' -> ssim (step m hst s) (step m hst s').
Proof.
  intros H. unfold step. pose proof (a_tick s s' H) as T. destruct (tick hst s) as [x t|e sp t|], (tick hst s') as [x' t'|e' sp' t'|]; try contradiction; try exact Logic.I; [|exact T].
  destruct T as [_ HT]. destruct (chunk_same t t' HT) as (E1 & E2 & _). rewrite (ip_same t t' HT). unfold chunk_len. rewrite E1.
  destruct (_ <=? _); [cbn [ssim]; rewrite (span_same t t' _ HT); auto|].
  destruct (decode _ _) as [[i next]| |]; try exact Logic.I. pose proof (vs_set_ip t t' next HT) as G.
  pose proof (a_exec i _ _ G) as X. pose proof (return_sim _ _ G) as Y.
  assert (Z : ssim match exec m hst i (set_ip next t) with AOk _ s' => SNext s' | AErr e sp s' => SErr e sp s' | APanic => SPanic end
                   match exec m hst i (set_ip next t') with AOk _ s' => SNext s' | AErr e sp s' => SErr e sp s' | APanic => SPanic end).
  { destruct (exec m hst i (set_ip next t)), (exec m hst i (set_ip next t')); try contradiction; try exact Logic.I; [apply X|exact X]. }
  clear X. destruct i; first [exact Y|exact Z].
Qed.
Lemma loop_sim k : forall s s', vsim s s' ->
  match loop m hst k s, loop m hst k s' with
  | RDone v t, RDone v' t' => rel v v' /\ vsim t t'
  | RErr e sp t, RErr e' sp' t' => e' = renamed_error r e /\ sp' = mv sp /\ vsim t t'
  | ROut t, ROut t' => vsim t t'
  | RPanic, _ => True
  | _, _ => False
  end.
Proof.
  induction k as [|k IH]; intros s s' H; cbn [loop]; [exact H|]. pose proof (step_sim s s' H) as X.
  destruct (step m hst s), (step m hst s'); cbn [ssim] in X; try contradiction; try exact Logic.I; [apply IH, X|exact X|exact X].
Qed.
Lemma run_sim k s s' : vsim s s' ->
  match run m hst k s, run m hst k s' with
  | RDone v t, RDone v' t' => rel v v' /\ vsim t t'
  | RErr e sp t, RErr e' sp' t' => e' = renamed_error r e /\ sp' = mv sp /\ vsim t t'
  | ROut t, ROut t' => vsim t t'
  | RPanic, _ => True
  | _, _ => False
  end.
Proof. intros H. apply loop_sim. now apply vs_set_count. Qed.

(** Sessions. *)
Lemma prel_add p p' x : prel p p' -> prel (fst (pool_add seqb p x)) (fst (pool_add seqb p' (r x))) /\ snd (pool_add seqb p' (r x)) = snd (pool_add seqb p x).
Proof.
  intros [E I]. pose proof (I x) as Ix. unfold pool_id in Ix, I. unfold pool_add. rewrite Ix. destruct (alookup seqb x (p_dups p)); [cbn; split; [split|]; auto|].
  unfold pool_add_force. cbn [fst snd]. rewrite E, map_length. split; [|reflexivity]. split; cbn [p_entries]; [now rewrite map_app|].
  intros y. unfold pool_id, ainsert. cbn [p_dups alookup]. now rewrite (seqb_r r rn), I.
Qed.
Lemma add_sim l : (forall n b, In (n, b) l -> blind r mv K b) -> forall s s', vsim s s' -> vsim (add_builtins_list l s) (add_builtins_list (rename_builtins r l) s').
Proof.
  induction l as [|[n b] l IH]; intros Hl s s' H; [exact H|]. cbn [rename_builtins map add_builtins_list fst snd].
  destruct (prel_add (v_gsyms s) (v_gsyms s') n (vs_gsyms _ _ H)) as [P E]. destruct (pool_add seqb (v_gsyms s) n) as [p id], (pool_add seqb (v_gsyms s') (r n)) as [p' id'].
  cbn [fst snd] in *. subst id'. apply IH; [intros; eapply Hl; right; eauto|]. destruct H. constructor; cbn; auto.
  - unfold ainsert. now rewrite vs_builtins0.
  - intros j x. unfold ainsert. cbn [alookup]. destruct (_ =? _)%N; [intros [= <-]; apply (Hl n); now left|apply vs_blind0].
Qed.
Lemma script_frame sc sc' ups i st : renamed_script r mv sc sc' -> named K (sc_function sc) -> frel (mkFrame (sc_function sc) ups i st) (mkFrame (sc_function sc') ups i st).
Proof. intros [] H. constructor; cbn; auto. Qed.
Lemma script_gsyms sc sc' : renamed_script r mv sc sc' -> prel (sc_globals sc) (sc_globals sc').
Proof. intros []. constructor; auto. Qed.
Lemma new_sim d sc sc' o bs : renamed_script r mv sc sc' -> named K (sc_function sc) -> (forall l n b, In l bs -> In (n, b) l -> blind r mv K b) ->
  vsim (vm_new_with d sc o bs) (vm_new_with d sc' o (map (rename_builtins r) bs)).
Proof.
  intros Hs Hn Hb. unfold vm_new_with.
  assert (G : vsim (vm_new d sc o) (vm_new d sc' o)).
  { constructor; cbn; auto; try (constructor; fail); try discriminate.
    - now apply script_gsyms.
    - symmetry. apply Hs.
    - now apply script_frame.
    - induction (o_stack_size o); cbn; constructor; auto. constructor. }
  revert G. generalize (vm_new d sc o) (vm_new d sc' o). induction bs as [|l bs IH]; intros s s' G; [exact G|]. cbn [map fold_left].
  apply IH; [intros x n b Hx; apply (Hb x); now right|]. apply add_sim; [intros n b; apply (Hb l); now left|exact G].
Qed.
Lemma paired_sim s s' : paired r mv K m hst s s' -> vsim s s'.
Proof.
  induction 1 as [d sc sc' o bs Hs Hn Hb|n v v' s s' P IH Hv|n v v' s s' t t' P IH Hv E E'|d s s' P IH|sc sc' s s' P IH Hs Hn|k v v' s s' t t' P IH E E'|k e e' sp sp' s s' t t' P IH E E'].
  - now apply new_sim.
  - unfold insert_global. destruct (prel_add (v_gsyms s) (v_gsyms s') n (vs_gsyms _ _ IH)) as [Q E].
    destruct (pool_add seqb (v_gsyms s) n) as [p id], (pool_add seqb (v_gsyms s') (r n)) as [p' id']. cbn [fst snd] in *. subst id'.
    destruct IH. constructor; cbn; auto. constructor; auto.
  - unfold set_external in *. destruct (vs_gsyms _ _ IH) as [_ I]. rewrite I in E'. rewrite <- (vs_externals _ _ IH) in E'. destruct (pool_id _ _ _); [|discriminate].
    destruct (existsb _ _); [|discriminate]. injection E as <-. injection E' as <-. now apply vs_set_globals.
  - now apply vs_set_data.
  - destruct IH. destruct vs_frame0. unfold update_script, reset_state. constructor; cbn; auto.
    + now apply script_gsyms.
    + rewrite fr_ups0. now apply script_frame.
  - pose proof (run_sim k s s' IH) as R. rewrite E, E' in R. apply R.
  - pose proof (run_sim k s s' IH) as R. rewrite E, E' in R. apply R.
Qed.
Lemma line_same f f' off : frel f f' -> TFrame (fn_name (f_fn f')) (chunk_get_span (fr_chunk f') (f_ip f' - off)) = rename_line r mv (TFrame (fn_name (f_fn f)) (chunk_get_span (fr_chunk f) (f_ip f - off))).
Proof. intros [F _ _ E _]. unfold fr_chunk. rewrite <- E. cbn [rename_line]. destruct F; cbn [fn_name fn_chunk]. f_equal. unfold chunk_get_span. cbn [ck_spans]. rewrite get_r. destruct (rle_get _ _); [reflexivity|]. symmetry. apply (mv_kept mv mo). Qed.
Lemma trace_same s s' : vsim s s' -> trace_back s' = map (rename_line r mv) (trace_back s).
Proof.
  intros H. unfold trace_back. cbn [map]. rewrite (line_same _ _ 1 (vs_frame _ _ H)). f_equal. pose proof (vs_frames _ _ H) as HF. rewrite !map_app. f_equal; [|f_equal].
  - assert (G : Forall2 frel (removelast (v_frames s)) (removelast (v_frames s'))).
    { clear H. induction HF as [|f f' l l' Hf Hl IH]; [constructor|]. cbn [removelast]. destruct Hl; [constructor|]. constructor; auto. }
    revert G. generalize (removelast (v_frames s)) (removelast (v_frames s')). generalize 8. clear - mo. intros n l l' G. revert n.
    induction G as [|f f' l l' Hf Hl IH]; intros [|n]; cbn [firstn map]; auto. rewrite (line_same _ _ 1 Hf). f_equal. apply IH.
  - rewrite (ProofRel.f2_length _ _ _ HF). destruct (10 <? _); reflexivity.
  - assert (G : Forall2 frel (rev (v_frames s)) (rev (v_frames s'))).
    { clear H. induction HF; cbn [rev]; [constructor|]. apply Forall2_app; [assumption|]. constructor; auto. }
    destruct G as [|f f' l l' Hf Hl]; [reflexivity|]. cbn [map]. now rewrite (line_same _ _ 0 Hf).
Qed.

Definition known_line (l : trace_line) : Prop := match l with TFrame x _ => K x | TMore _ => True end.
Lemma trace_known s s' : vsim s s' -> Forall known_line (trace_back s).
Proof.
  intros H. assert (G : Forall (fun f => K (fn_name (f_fn f))) (v_frames s)).
  { pose proof (vs_frames _ _ H) as HF. induction HF as [|f f' l l' Hf Hl IH]; constructor; [|assumption]. apply (fr_named _ _ Hf), pa_self. }
  unfold trace_back. constructor; [apply (fr_named _ _ (vs_frame _ _ H)), pa_self|]. rewrite !Forall_app. repeat split.
  - apply Forall_map. cbn [known_line]. rewrite Forall_forall in *. intros f I. apply G.
    assert (J : In f (removelast (v_frames s))). { rewrite <- (firstn_skipn 8 (removelast (v_frames s))). apply in_or_app. now left. }
    clear -J. revert J. induction (v_frames s) as [|x l IH]; [intros []|]. cbn [removelast]. destruct l; [intros []|]. intros [->|J]; [now left|right; now apply IH].
  - destruct (10 <? _); repeat constructor.
  - apply Forall_rev in G. destruct G; constructor; [assumption|constructor].
Qed.
Lemma failed_known k s s' e sp t : paired r mv K m hst s s' -> run m hst k s = RErr e sp t -> Forall known_line (trace_back t).
Proof.
  intros P E. pose proof (run_sim k s s' (paired_sim s s' P)) as R. rewrite E in R.
  destruct (run m hst k s') as [v' t'|e' sp' t'| |t']; try contradiction. destruct R as (_ & _ & R). exact (trace_known _ _ R).
Qed.

Theorem run_renamed k s s' : paired r mv K m hst s s' ->
  match run m hst k s with
  | RDone v t => exists v' t', run m hst k s' = RDone v' t' /\ renamed_value r mv K v v' /\ v_data t' = v_data t
  | RErr e sp t => exists t', run m hst k s' = RErr (renamed_error r e) (mv sp) t' /\ v_data t' = v_data t /\ trace_back t' = map (rename_line r mv) (trace_back t)
  | ROut t => exists t', run m hst k s' = ROut t' /\ v_data t' = v_data t
  | RPanic => True
  end.
Proof.
  intros P. pose proof (run_sim k s s' (paired_sim s s' P)) as R.
  destruct (run m hst k s) as [v t|e sp t| |t], (run m hst k s') as [v' t'|e' sp' t'| |t']; try contradiction; try exact Logic.I.
  - destruct R as [R1 R2]. exists v', t'. split; [reflexivity|]. split; [exact R1|]. symmetry. apply R2.
  - destruct R as (-> & -> & R2). exists t'. split; [reflexivity|]. split; [symmetry; apply R2|now apply trace_same].
  - exists t'. split; [reflexivity|]. symmetry. apply R.
Qed.
End Machine.
