(** The positions in the code a machine holds: whatever it does, every position it reports is one
    of them (C92). *)
From Verif Require Import Base RleVec Pool Vecc Float NumText Bytecode Chunk Value Ast Arith VmOps
                          Compiler Vm SpecReady SpecRel ProofRel ProofReady ProofHeld.

(** Functions all of whose positions, and those of the functions among their constants, satisfy [P]. *)
Inductive sok (P : span -> Prop) (f : function) : Prop :=
| sok_intro : P (fn_nspan f) -> Forall (fun r => P (snd r)) (ck_spans (fn_chunk f)) ->
    (forall c q, In c (ck_consts (fn_chunk f)) -> fn_in q c -> sok P (mfn_function q)) -> sok P f.
Definition sgood (P : span -> Prop) (g : mfn) : Prop := sok P (mfn_function g).
Lemma get_ok (P : span -> Prop) (r : rle span) : Forall (fun x => P (snd x)) r -> forall i s, rle_get r i = Some s -> P s.
Proof. induction 1 as [|[n v] r H H1 IH]; intros i s E; cbn [rle_get] in E; [discriminate|]. destruct (_ <? _); [injection E as <-; exact H|eauto]. Qed.
Lemma span_ok (P : span -> Prop) f i : P default_span -> sok P f -> P (chunk_get_span (fn_chunk f) i).
Proof. intros Hd []. unfold chunk_get_span. destruct (rle_get _ _) eqn:E; [eapply get_ok; eauto|exact Hd]. Qed.
Lemma const_ok (P : span -> Prop) f c : sok P f -> In c (ck_consts (fn_chunk f)) -> vok (sgood P) c.
Proof. intros [? ? H] Hc q Hq. exact (H _ _ Hc Hq). Qed.

(** ** The machine *)
Notation "'let*' x ':=' e 'in' k" := (abind e (fun x => k))
  (at level 200, x pattern, e at level 100, k at level 200, right associativity).

Lemma in_firstn {A} (x : A) n l : In x (firstn n l) -> In x l.
Proof. intros H. rewrite <- (firstn_skipn n l). apply in_or_app. now left. Qed.
Lemma in_removelast {A} (x : A) l : In x (removelast l) -> In x l.
Proof.
  induction l as [|a l IH]; [intros []|]. cbn [removelast]. destruct l; [intros []|]. intros [<-|H]; [now left|right; auto].
Qed.

Ltac nf := let q := fresh in let H := fresh in intros q H; inversion H.
Section Machine.
Context {D : Type} (m : mode) (hst : host D) (P : span -> Prop) (Hd : P default_span).
Notation ok := (vok (sgood P)).
Notation vm := (vm D).

Definition fine (f : frame) : Prop := sok P (f_fn f).
Definition cell_fine (u : upvalue) : Prop := match u with Closed v => ok v | Open _ => True end.
Record inv (s : vm) : Prop := {
  in_stack : Forall ok (v_stack s);
  in_blocks : Forall ok (v_blocks s);
  in_globals : Forall (fun kv => ok (snd kv)) (v_globals s);
  in_heap : Forall cell_fine (v_heap s);
  in_frame : fine (v_frame s);
  in_frames : Forall fine (v_frames s);
  in_builtins : Forall (fun kb => honest_builtin (snd kb)) (v_builtins s) }.

Definition keeps {A} (Q : A -> Prop) (x : act D A) : Prop :=
  forall s, inv s -> match x s with AOk a s' => inv s' /\ Q a | AErr _ sp s' => inv s' /\ P sp | APanic => True end.
Definition tru {A} (_ : A) : Prop := True.

Lemma k_bind {A B} (R : A -> Prop) (Q : B -> Prop) (x : act D A) k :
  keeps R x -> (forall a, R a -> keeps Q (k a)) -> keeps Q (abind x k).
Proof using Hd.
  intros Hx Hk s Hs. unfold abind. specialize (Hx s Hs). destruct (x s) as [a s1|e sp s1|]; auto.
  destruct Hx as [H1 H2]. exact (Hk a H2 s1 H1).
Qed.
Lemma k_ret {A} (Q : A -> Prop) a : Q a -> keeps Q (aret a).
Proof using Hd. intros H s Hs. cbn. auto. Qed.
Lemma k_gets {A} (Q : A -> Prop) f : (forall s, inv s -> Q (f s)) -> keeps Q (agets f).
Proof using Hd. intros H s Hs. cbn. auto. Qed.
Lemma k_mod f : (forall s, inv s -> inv (f s)) -> keeps tru (amod f).
Proof using Hd. intros H s Hs. cbn. unfold tru. auto. Qed.
Lemma here_ok s i : inv s -> P (chunk_get_span (cur_chunk s) i).
Proof using Hd. intros H. exact (span_ok P (f_fn (v_frame s)) i Hd (in_frame s H)). Qed.
Lemma k_e0 {A} (Q : A -> Prop) e : keeps Q (error_0 e). Proof using Hd. intros s Hs. split; [exact Hs|now apply here_ok]. Qed.
Lemma k_e1 {A} (Q : A -> Prop) e : keeps Q (error_1 e). Proof using Hd. intros s Hs. split; [exact Hs|now apply here_ok]. Qed.
Lemma k_ef {A} (Q : A -> Prop) e : keeps Q (errorf e).
Proof using Hd.
  intros s Hs. split; [exact Hs|]. destruct (v_frames s); [now apply here_ok|]. destruct (in_frame _ Hs). assumption.
Qed.
Lemma k_panic {A} (Q : A -> Prop) : keeps Q apanic. Proof using Hd. intros s Hs. exact Logic.I. Qed.
Lemma k_lift {A} (Q : A -> Prop) (r : res A) : (forall a, r = Ok a -> Q a) -> keeps Q (lift_1 r).
Proof using Hd. intros H. destruct r; [apply k_ret; auto|apply k_e1|apply k_panic]. Qed.
Lemma k_weak {A} (Q R : A -> Prop) x : keeps Q x -> (forall a, Q a -> R a) -> keeps R x.
Proof using Hd. intros H HR s Hs. specialize (H s Hs). destruct (x s); auto. destruct H; auto. Qed.
Lemma k_tru {A} (Q : A -> Prop) x : keeps Q x -> keeps tru x.
Proof using Hd. intros H. eapply k_weak; [exact H|]. intros; exact Logic.I. Qed.

Lemma inv_set_stack s st k : inv s -> Forall ok st -> inv (set_stack st k s).
Proof using Hd. intros [] H. constructor; auto. Qed.
Lemma inv_set_cells s o h : inv s -> Forall cell_fine h -> inv (set_cells o h s).
Proof using Hd. intros [] H. constructor; auto. Qed.
Lemma inv_set_ip s i : inv s -> inv (set_ip i s).
Proof using Hd. intros []. constructor; auto. Qed.

Lemma k_slot i : keeps ok (slot i).
Proof using Hd. intros s H. unfold slot. destruct (nth_error _ _) eqn:E; auto. split; auto. eapply nth_forall; [apply H|eauto]. Qed.
Lemma k_set_slot i v : ok v -> keeps tru (set_slot i v).
Proof using Hd.
  intros Hv s H. unfold set_slot. destruct (_ <? _); auto. split; [|exact Logic.I].
  apply inv_set_stack; auto. apply upd_forall; [apply H|auto].
Qed.
Lemma k_push v : ok v -> keeps tru (push v).
Proof using Hd.
  intros Hv s H. unfold push. destruct (_ <=? _); [now apply (k_e0 (tru (A := unit)))|]. destruct (_ <? _); auto. split; [|exact Logic.I].
  apply inv_set_stack; auto. apply upd_forall; [apply H|auto].
Qed.
Lemma k_push_unchecked v : ok v -> keeps tru (push_unchecked v).
Proof using Hd.
  intros Hv s H. unfold push_unchecked. destruct (_ <? _); auto. split; [|exact Logic.I].
  apply inv_set_stack; auto. apply upd_forall; [apply H|auto].
Qed.
Lemma k_push_many n : keeps tru (push_many n).
Proof using Hd.
  intros s H. unfold push_many. cbv zeta.
  assert (inv (set_stack (v_stack s) (v_sp s + n) s)) by (apply inv_set_stack; [auto|apply H]).
  destruct (_ <=? _); [now apply (k_e1 (tru (A := unit)))|]. split; [auto|exact Logic.I].
Qed.
Lemma k_pop : keeps ok pop.
Proof using Hd.
  intros s H. unfold pop. destruct (v_sp s) as [|k]; [exact Logic.I|].
  apply (k_slot k). apply inv_set_stack; [auto|apply H].
Qed.
Lemma k_pop_many n : keeps tru (pop_many n).
Proof using Hd. intros s H. unfold pop_many. destruct (_ <? _); auto. split; [apply inv_set_stack; [auto|apply H]|exact Logic.I]. Qed.
Lemma k_pop_swap_out : keeps ok pop_swap_out.
Proof using Hd.
  unfold pop_swap_out. eapply k_bind; [apply k_pop|intros v Hv]. eapply k_bind; [apply (k_gets tru); intros; exact Logic.I|intros k _].
  eapply k_bind; [apply k_set_slot; nf|intros _ _]. now apply k_ret.
Qed.
Lemma k_pop_double : keeps (fun ab => ok (fst ab) /\ ok (snd ab)) pop_double.
Proof using Hd.
  unfold pop_double. eapply k_bind; [apply k_pop|intros b Hb]. eapply k_bind; [apply k_pop|intros a Ha]. now apply k_ret.
Qed.
Lemma k_peekn n : keeps ok (peekn n).
Proof using Hd. intros s H. unfold peekn. destruct (_ <? _); [exact Logic.I|]. now apply k_slot. Qed.
Lemma k_pop_peek : keeps (fun ab => ok (fst ab) /\ ok (snd ab)) pop_peek.
Proof using Hd.
  unfold pop_peek. eapply k_bind; [apply k_pop|intros b Hb]. eapply k_bind; [apply k_peekn|intros a Ha]. now apply k_ret.
Qed.
Lemma k_swap : keeps tru swap.
Proof using Hd.
  intros s H. unfold swap. destruct (v_sp s) as [|[|k]] eqn:E; auto.
  destruct (nth_error (v_stack s) k) eqn:E1; auto. destruct (nth_error (v_stack s) (S k)) eqn:E2; auto.
  split; [|exact Logic.I]. apply inv_set_stack; auto.
  apply upd_forall; [apply upd_forall; [apply H|]|]; eapply nth_forall; [apply H| |apply H|]; eauto.
Qed.
Lemma k_const i : keeps ok (get_constant i).
Proof using Hd.
  intros s H. unfold get_constant, chunk_get_constant. destruct (nth_error _ _) eqn:E; [|exact Logic.I].
  split; [auto|]. eapply const_ok; [apply (in_frame _ H)|eapply nth_error_In; eauto].
Qed.
Lemma k_up_get c : keeps ok (up_get c).
Proof using Hd.
  intros s H. unfold up_get. destruct (nth_error (v_heap s) c) as [[l|v]|] eqn:E; auto.
  - now apply k_slot.
  - split; auto. exact (nth_forall _ _ _ _ (in_heap _ H) E).
Qed.
Lemma k_up_set c v : ok v -> keeps tru (up_set c v).
Proof using Hd.
  intros Hv s H. unfold up_set. destruct (nth_error (v_heap s) c) as [[l|w]|] eqn:E; auto.
  - now apply k_set_slot.
  - split; [|exact Logic.I]. apply inv_set_cells; auto. apply upd_forall; [apply H|exact Hv].
Qed.
Lemma k_capture l : keeps tru (capture_upvalue l).
Proof using Hd.
  intros s H. unfold capture_upvalue. destruct (find _ _); [split; [auto|exact Logic.I]|].
  split; [|exact Logic.I]. apply inv_set_cells; auto. apply Forall_app. split; [apply H|repeat constructor].
Qed.
Lemma cells_fine last v opens : ok v -> forall h, Forall cell_fine h -> Forall cell_fine (close_cells last v opens h).
Proof using Hd.
  intros Hv. unfold close_cells. induction opens as [|c t IH]; intros h Hh; cbn; auto.
  apply IH. destruct (is_open_at _ _ _); auto. apply upd_forall; auto.
Qed.
Lemma k_close l : keeps tru (close_upvalues l).
Proof using Hd.
  intros s H. unfold close_upvalues. destruct (nth_error _ _) eqn:E; [|split; [auto|exact Logic.I]].
  split; [|exact Logic.I]. apply inv_set_cells; auto. apply cells_fine; [|apply H]. eapply nth_forall; [apply H|eauto].
Qed.
Lemma k_close_range n : forall l, keeps tru (close_range l n).
Proof using Hd.
  induction n as [|n IH]; intros l; cbn [close_range]; [apply k_ret; exact Logic.I|].
  eapply k_bind; [apply k_close|intros _ _]. apply IH.
Qed.
Lemma inv_count r n s : inv s -> inv (set_count r n s).
Proof using Hd. intros []. constructor; auto. Qed.
Lemma k_runtime : keeps tru (has_runtime_exceeded hst).
Proof using Hd.
  unfold has_runtime_exceeded. eapply k_bind; [apply (k_gets tru); intros; exact Logic.I|intros r _].
  eapply k_bind; [apply k_mod; intros; now apply inv_count|intros _ _].
  eapply k_bind; [apply (k_gets tru); intros; exact Logic.I|intros l _].
  destruct (_ <? _)%N; [|apply k_ret; exact Logic.I]. apply k_ef.
Qed.
Lemma k_tick : keeps tru (tick hst).
Proof using Hd.
  unfold tick. eapply k_bind; [apply (k_gets tru); intros; exact Logic.I|intros r _]. destruct (_ <? _).
  - eapply k_bind; [apply k_runtime|intros _ _]. apply k_mod. intros; now apply inv_count.
  - apply k_mod. intros; now apply inv_count.
Qed.
Lemma k_pop_items n : keeps (Forall ok) (pop_items n).
Proof using Hd.
  induction n as [|n IH]; cbn [pop_items]; [apply k_ret; constructor|].
  eapply k_bind; [apply k_pop|intros v Hv]. eapply k_bind; [apply IH|intros l Hl]. apply k_ret. now constructor.
Qed.
Lemma k_push_items l : Forall ok l -> keeps tru (push_items l).
Proof using Hd.
  induction 1 as [|v l Hv Hl IH]; cbn [push_items]; [apply k_ret; exact Logic.I|].
  eapply k_bind; [now apply k_push|intros _ _]. exact IH.
Qed.
Lemma k_captures n : keeps tru (read_captures n).
Proof using Hd.
  induction n as [|n IH]; cbn [read_captures]; [apply k_ret; exact Logic.I|].
  eapply k_bind; [apply (k_gets tru); intros; exact Logic.I|intros s _].
  destruct (bc_read_u8 _ _); try apply k_panic. destruct (bc_read_u16 _ _); try apply k_panic.
  eapply k_bind; [apply k_mod; intros; now apply inv_set_ip|intros _ _].
  eapply k_bind; [|intros c _; eapply k_bind; [apply IH|intros; apply k_ret; exact Logic.I]].
  destruct (_ =? _)%N; [apply k_capture|]. destruct (nth_error _ _); [apply k_ret; exact Logic.I|apply k_panic].
Qed.
Lemma k_jump off : keeps tru (jump_forward off).
Proof using Hd. apply k_mod. intros; now apply inv_set_ip. Qed.
Lemma k_name i : keeps tru (global_name i).
Proof using Hd. apply k_gets. intros; exact Logic.I. Qed.

Lemma k_take n : keeps (Forall ok) (take_args n).
Proof using Hd.
  intros s H. unfold take_args. destruct (_ <? _); [now apply (k_e0 (Forall ok))|]. destruct (_ <? _); [exact Logic.I|].
  split; [apply inv_set_stack; [auto|apply H]|]. apply Forall_forall. intros x Hx.
  pose proof (in_stack _ H) as K. rewrite Forall_forall in K. apply K.
  rewrite <- (firstn_skipn (v_sp s - n) (v_stack s)). apply in_or_app. right.
  rewrite <- (firstn_skipn n (skipn _ _)). apply in_or_app. now left.
Qed.
Lemma k_builtin f args : honest f -> Forall ok args -> keeps ok (run_builtin f args).
Proof using Hd.
  intros Hf Ha s H. unfold run_builtin. destruct (f _ _ _) as [d r] eqn:E.
  assert (K : inv (set_data d s)) by (destruct H; constructor; auto).
  destruct r as [v|e|]; cbn; auto.
  - split; [exact K|]. intros g Hg. destruct (Hf _ _ _ _ _ _ E Hg) as (x & Hx & Hy). rewrite Forall_forall in Ha. exact (Ha _ Hx _ Hy).
  - now apply (k_e1 (tru (A := value)) e).
Qed.
Lemma inv_globals s g : inv s -> Forall (fun kv => ok (snd kv)) g -> inv (set_globals g s).
Proof using Hd. intros [] H. constructor; auto. Qed.
Lemma inv_blocks s g : inv s -> Forall ok g -> inv (set_blocks g s).
Proof using Hd. intros [] H. constructor; auto. Qed.
Lemma k_exec i : keeps tru (exec m hst i).
Proof using Hd.
  destruct i; cbn [exec]; try (apply k_push; nf; fail); try apply k_e1; try apply k_panic.
  - eapply k_bind; [apply k_pop|]. intros; apply k_ret; exact Logic.I.
  - apply k_pop_many.
  - apply k_swap.
  - eapply k_bind; [apply k_swap|intros _ _]. eapply k_bind; [apply k_pop|intros _ _]. apply k_ret; exact Logic.I.
  - eapply k_bind; [apply k_const|intros v Hv]. now apply k_push.
  - eapply k_bind; [apply (k_gets tru); intros; exact Logic.I|intros st _].
    eapply k_bind; [apply k_slot|intros v Hv]. now apply k_push.
  - eapply k_bind; [apply k_peekn|intros v Hv].
    eapply k_bind; [apply (k_gets tru); intros; exact Logic.I|intros st _]. now apply k_set_slot.
  - eapply k_bind; [apply k_pop|intros v Hv]. apply k_mod. intros s Hs. apply inv_globals; [auto|].
    apply ainsert_forall; [apply Hs|auto].
  - eapply k_bind; [apply (k_gets tru); intros; exact Logic.I|intros [c|] _]; [|apply k_panic].
    eapply k_bind; [apply k_up_get|intros v Hv]. now apply k_push.
  - eapply k_bind; [apply k_peekn|intros v Hv].
    eapply k_bind; [apply (k_gets tru); intros; exact Logic.I|intros [c|] _]; [|apply k_panic]. now apply k_up_set.
  - eapply k_bind; [apply (k_gets (fun o => match o with Some v => ok v | None => True end))|intros [v|] Hv].
    + intros s Hs. destruct (alookup _ _ _) eqn:E; [|exact Logic.I].
      exact (alookup_forall _ _ _ _ (in_globals _ Hs) E).
    + now apply k_push.
    + eapply k_bind; [apply k_name|intros; apply k_e1].
  - eapply k_bind; [apply k_peekn|intros v Hv].
    eapply k_bind; [apply (k_gets tru); intros; exact Logic.I|intros [w|] _].
    + apply k_mod. intros s Hs. apply inv_globals; [auto|]. apply ainsert_forall; [apply Hs|auto].
    + eapply k_bind; [apply k_name|intros; apply k_e1].
  - eapply k_bind; [apply k_pop|intros v Hv]. apply k_mod. intros s Hs. destruct (alookup _ _ _); [auto|].
    apply inv_globals; [auto|]. apply ainsert_forall; [apply Hs|auto].
  - eapply k_bind; [apply (k_gets tru); intros; exact Logic.I|intros [|k] _]; [apply k_panic|].
    eapply k_bind; [apply k_close|intros _ _]. eapply k_bind; [apply k_pop|intros _ _]. apply k_ret; exact Logic.I.
  - eapply k_bind; [apply k_const|intros v Hv].
    destruct v as [| | | | | | | | | | |f]; try apply k_e0. destruct f; try apply k_e0. apply k_push. nf; subst. apply (Hv (MFun _)). constructor.
  - eapply k_bind; [apply k_const|intros v Hv].
    destruct v as [| | | | | | | | | | |f]; try apply k_e0. destruct f; try apply k_e0.
    eapply k_bind; [apply k_captures|intros us _]. apply k_push. nf; subst. apply (Hv (MFun _)). constructor.
  - eapply k_bind; [apply k_pop_double|intros [a b] [Ha Hb]]. apply k_push_unchecked. nf; subst; auto.
  - eapply k_bind; [apply k_pop_items|intros l Hl].
    eapply k_bind; [apply (k_gets tru); intros; exact Logic.I|intros am _].
    eapply k_bind; [apply (k_lift ok)|intros v Hv; now apply k_push]. intros v E. eapply (array_vok (sgood P)); eauto.
  - eapply k_bind; [apply k_pop_double|intros [a b] [Ha Hb]].
    eapply k_bind; [apply (k_lift ok)|intros v Hv; now apply k_push]. intros v E. exact (range_vok (sgood P) a b v Ha Hb E).
  - eapply k_bind; [apply k_peekn|intros v Hv]. intros s Hs. destruct (_ <=? _); [now apply (k_e0 (tru (A := unit)))|].
    destruct v as [| | | | | | | | | | |f]; try now apply (k_e1 (tru (A := unit))).
    cbv zeta. destruct (_ =? _)%N; [|now apply (k_e0 (tru (A := unit)))]. split; [|exact Logic.I].
    assert (K : sok P (mfn_function f)) by (apply (Hv f); constructor).
    destruct Hs. constructor; auto. constructor; auto.
  - eapply k_bind; [apply (k_gets (fun o => match o with Some b => honest_builtin b | None => True end))|intros [[f|f x]|] Hb].
    + intros s Hs. destruct (alookup _ _ _) eqn:E; [|exact Logic.I]. exact (alookup_forall (fun x => honest_builtin x) _ _ _ (in_builtins _ Hs) E).
    + eapply k_bind; [apply k_take|intros args Ha]. eapply k_bind; [now apply k_builtin|intros r Hr].
      eapply k_bind; [now apply k_push|intros _ _]. apply k_runtime.
    + apply k_e0.
    + eapply k_bind; [apply k_name|intros; apply k_e1].
  - eapply k_bind; [apply (k_gets (fun o => match o with Some b => honest_builtin b | None => True end))|intros [bi|] Hb].
    + intros s Hs. destruct (alookup _ _ _) eqn:E; [|exact Logic.I]. exact (alookup_forall (fun x => honest_builtin x) _ _ _ (in_builtins _ Hs) E).
    + set (ex := match bi with BFn f => (f, None) | BContext e x => (e, Some x) end).
      assert (Hg : honest (fst ex)) by (destruct bi; exact Hb). destruct ex as [entry exit_]. cbn [fst] in Hg.
      eapply k_bind; [apply k_take|intros args Ha].
      eapply k_bind; [destruct exit_; [apply k_mod; intros s []; constructor; auto|apply k_ret; exact Logic.I]|intros _ _].
      eapply k_bind; [now apply k_builtin|intros r Hr]. now apply k_push.
    + eapply k_bind; [apply k_name|intros; apply k_e1].
  - eapply k_bind; [apply (k_gets tru); intros; exact Logic.I|intros [|x rest] _]; [apply k_ret; exact Logic.I|].
    eapply k_bind; [apply k_mod; intros s []; constructor; auto|intros _ _].
    intros s Hs. destruct (x (v_data s)) as [d r]. assert (inv (set_data d s)) by (destruct Hs; constructor; auto).
    destruct r; cbn; auto; [split; [auto|exact Logic.I]|]. now apply (k_e1 (tru (A := unit)) e).
  - eapply k_bind; [apply k_pop_swap_out|intros v Hv]. apply k_mod. intros s Hs. apply inv_blocks; [auto|].
    constructor; [auto|apply Hs].
  - eapply k_bind; [apply (k_gets (Forall ok)); intros s Hs; apply Hs|intros [|v rest] Hb]; [apply k_e0|].
    inversion Hb; subst. eapply k_bind; [apply k_mod; intros s Hs; now apply inv_blocks|intros _ _]. now apply k_push.
  - eapply k_bind; [apply k_peekn|intros v Hv]. eapply k_bind; [apply (k_lift tru); intros; exact Logic.I|intros [] _].
    + apply k_ret; exact Logic.I.
    + apply k_jump.
  - eapply k_bind; [apply k_pop_peek|intros [v c] _]. intros s Hs.
    destruct (geqb _ _ _) as [[]| |]; try exact Logic.I; [split; [auto|exact Logic.I]|]. now apply k_jump.
  - apply k_jump.
  - intros s Hs. destruct (_ <? _); [exact Logic.I|]. split; [now apply inv_set_ip|exact Logic.I].
  - eapply k_bind; [apply k_pop_swap_out|intros v Hv].
    eapply k_bind; [apply (k_lift (Forall ok)); intros; eapply (unpack_vok (sgood P)); eauto|intros l Hl].
    apply k_push_items. now apply Forall_rev.
  - apply k_push_many.
  - eapply k_bind; [apply (k_gets tru); intros; exact Logic.I|intros sp _]. destruct (_ <? _); [apply k_panic|].
    eapply k_bind; [apply k_slot|intros c Hc]. destruct c; try apply k_e1.
    eapply k_bind; [apply k_set_slot; nf|intros _ _]. eapply k_bind; [apply k_slot|intros it Hit].
    eapply k_bind; [apply (k_lift (fun r => match r with Some v => ok v | None => True end))|intros [v|] Hv].
    + intros [v|] E; [eapply (iter_vok m (sgood P)); eauto|exact Logic.I].
    + now apply k_push.
    + apply k_jump.
  - eapply k_bind; [apply k_pop|intros v Hv]. eapply k_bind; [apply k_pop|intros i Hi].
    eapply k_bind; [apply (k_lift ok)|intros r Hr; now apply k_push]. intros r E. exact (index_vok m (sgood P) i v r Hi Hv E).
  - eapply k_bind; [apply k_pop|intros v Hv]. destruct (unary_fn m mfi o) eqn:Eo; [|apply k_panic].
    eapply k_bind; [apply (k_lift ok)|intros w Hw; now apply k_push_unchecked]. intros w E. eapply (unary_vok m (sgood P)); eauto.
  - eapply k_bind; [apply k_pop_double|intros [a b] [Ha Hb]]. intros s Hs.
    destruct (binary_fn _ _ _ _ _ _ _) eqn:Eo; [|exact Logic.I].
    refine (k_bind ok tru _ _ (k_lift ok _ _) (fun w Hw => k_push_unchecked w Hw) s Hs).
    intros w E. exact (binary_vok m (sgood P) _ _ _ _ _ _ a b w Eo Ha Hb E).
Qed.

Definition after_step (r : sres D) : Prop :=
  match r with SNext s' => inv s' | SDone v s' => inv s' /\ ok v | SErr _ sp s' => inv s' /\ P sp | SPanic => True end.
Lemma return_inv s : inv s -> after_step (do_return m hst s).
Proof using Hd.
  intros Hs. unfold do_return. pose proof (k_pop s Hs) as K. destruct (pop s) as [v s1|e sp s1|]; [|exact K|exact Logic.I].
  destruct K as [K1 Hv].
  pose proof (k_close_range (v_sp s1 - f_st (v_frame s1)) (f_st (v_frame s1)) s1 K1) as K.
  destruct (close_range _ _ s1) as [u s2|e sp s2|]; [|exact K|exact Logic.I]. destruct K as [K2 _].
  destruct (v_frames s2) as [|fr rest] eqn:Ef.
  - assert (after_step (SDone v (set_stack (v_stack s2) (f_st (v_frame s2)) s2))) as K.
    { split; [apply inv_set_stack; [auto|apply K2]|auto]. }
    destruct m; [destruct (v_sp s2); [exact K|exact Logic.I]|exact K].
  - cbv zeta. match goal with |- context [push v ?x] => set (s5 := x) end.
    assert (K5 : inv s5).
    { destruct K2 as [A1 A2 A3 A4 A5 A6 A7]. rewrite Ef in A6. inversion A6; subst. constructor; auto. }
    pose proof (k_push v Hv s5 K5) as K. destruct (push v s5); [apply K|exact K|exact Logic.I].
Qed.
Lemma step_inv s : inv s -> after_step (step m hst s).
Proof using Hd.
  intros Hs. unfold step. pose proof (k_tick s Hs) as K. destruct (tick hst s) as [[] s1|e sp s1|] eqn:Et; [|exact K|exact Logic.I].
  destruct K as [K1 _]. destruct (_ <=? _); [split; [exact K1|now apply here_ok]|].
  destruct (decode _ _) as [[i ip']| |] eqn:Ed; [|exact Logic.I|exact Logic.I].
  assert (K2 : inv (set_ip ip' s1)) by now apply inv_set_ip.
  pose proof (k_exec i _ K2) as K.
  destruct i; try (destruct (exec _ _ _ _); first [exact K|exact (proj1 K)]). now apply return_inv.
Qed.
Definition after_run (r : rres D) : Prop :=
  match r with RDone v s' => inv s' /\ ok v | RErr _ sp s' => inv s' /\ P sp | ROut s' => inv s' | RPanic => True end.
Lemma loop_inv k : forall s, inv s -> after_run (loop m hst k s).
Proof using Hd.
  induction k as [|k IH]; intros s Hs; cbn [loop]; [exact Hs|].
  pose proof (step_inv s Hs) as K. destruct (step m hst s); auto.
Qed.
Lemma run_inv k s : inv s -> after_run (run m hst k s).
Proof using Hd. intros H. apply loop_inv. now apply inv_count. Qed.
Lemma trace_ok s n sp : inv s -> In (TFrame n sp) (trace_back s) -> P sp.
Proof using Hd.
  intros H. unfold trace_back. assert (K : forall f, In f (v_frame s :: v_frames s) -> fine f).
  { intros f [<-|Hf]; [apply H|]. pose proof (in_frames _ H) as K. rewrite Forall_forall in K. auto. }
  assert (L : forall f i, In f (v_frame s :: v_frames s) -> P (chunk_get_span (fr_chunk f) i)).
  { intros f i Hf. exact (span_ok P (f_fn f) i Hd (K f Hf)). }
  cbv zeta. intros [E|Hi].
  - injection E as <- <-. apply L. now left.
  - apply in_app_or in Hi as [Hi|Hi].
    + apply in_map_iff in Hi as (f & E & Hf). injection E as <- <-. apply L. right.
      apply in_firstn in Hf. now apply in_removelast in Hf.
    + apply in_app_or in Hi as [Hi|Hi]; [destruct (10 <? _); [destruct Hi as [Hi|[]]; discriminate|destruct Hi]|].
      destruct (rev (v_frames s)) as [|f l] eqn:E; [destruct Hi|]. destruct Hi as [Hi|[]]. injection Hi as <- <-.
      apply L. right. apply in_rev. rewrite E. now left.
Qed.

Lemma inv_builtins l : forall s, inv s -> Forall (fun nb => honest_builtin (snd nb)) l -> inv (add_builtins_list l s).
Proof using Hd.
  induction l as [|[n b] l IH]; intros s Hs Hl; cbn [add_builtins_list]; [exact Hs|]. inversion Hl; subst.
  destruct (pool_add _ _ _) as [p id]. apply IH; [|auto]. destruct Hs. constructor; auto. constructor; auto.
Qed.
Lemma new_inv d sc o : sok P (sc_function sc) -> inv (vm_new d sc o).
Proof using Hd.
  intros H. constructor; cbn; auto. apply Forall_forall. intros x Hx. apply repeat_spec in Hx. subst. intros q Hq. inversion Hq.
Qed.
Lemma global_inv n v s : inv s -> ok v -> inv (insert_global n v s).
Proof using Hd. intros H Hv. unfold insert_global. destruct (pool_add _ _ _) as [p id]. destruct H. constructor; auto. constructor; auto. Qed.
Lemma external_inv n v s s' : inv s -> ok v -> set_external n v s = Ok s' -> inv s'.
Proof using Hd.
  intros H Hv E. unfold set_external in E. destruct (pool_id _ _ _); [|discriminate]. destruct (existsb _ _); [|discriminate].
  injection E as <-. destruct H. constructor; auto. constructor; auto.
Qed.
Lemma update_inv sc s : inv s -> sok P (sc_function sc) -> inv (update_script sc s).
Proof using Hd. intros [] H. constructor; auto; constructor. Qed.
Lemma prepared_inv sc s : sok P (sc_function sc) -> prepared sc s -> inv s.
Proof using Hd.
  intros H0. induction 1.
  - now apply new_inv.
  - now apply inv_builtins.
  - apply global_inv; [assumption|]. intros q Hq. destruct (H1 _ Hq).
  - eapply external_inv; [eassumption| |eassumption]. intros q Hq. destruct (H1 _ Hq).
  - now apply inv_count.
Qed.
Lemma data_inv d s : inv s -> inv (set_data d s).
Proof using Hd. intros []. constructor; auto. Qed.
End Machine.
