(** The values a machine holds stay within their types. *)
From Verif Require Import Base RleVec Pool Vecc Float NumText Bytecode Chunk Value Ast Arith VmOps
                          Compiler Vm SpecArith SpecReady SpecHeld SpecRel ProofRel ProofReady ProofStd ProofHeld.

Definition calls_ok (g : mfn) : Prop := forall c, In c (ck_consts (fn_chunk (mfn_function g))) -> proper c.

Lemma proper_iff v : proper v <-> value_wf v /\ vok calls_ok v.
Proof.
  split.
  - intros H. split.
    + revert v H. fix IH 2. intros v H. destruct H; constructor; auto.
      clear H0. induction H; constructor; auto.
    + revert v H. fix IH 2. intros v H.
      destruct H as [|b|z Hz|f|x y Hx Hy|r g b a Hr Hg Hb Ha|s|n i|d s mx Hd Hs|i|x y Hx Hy|f Hf]; intros q Hq;
        try (inversion Hq; fail).
      * assert (exists x, In x d /\ fn_in q x) as (x & Hi & Hx) by (inversion Hq; subst; eauto). clear Hq Hs.
        induction Hd as [|y l Hy Hl IHl]; [contradiction|].
        destruct Hi as [<-|Hi]; [exact (IH _ Hy _ Hx)|exact (IHl Hi)].
      * assert (fn_in q x \/ fn_in q y) as [Hi|Hi] by (inversion Hq; subst; auto); [exact (IH _ Hx _ Hi)|exact (IH _ Hy _ Hi)].
      * assert (q = f) as -> by (inversion Hq; auto). exact Hf.
  - induction v using gvalue_rect'; intros [Hw Hv]; inversion Hw; subst; constructor; auto.
    + apply Forall_forall. intros x Hx.
      match goal with H : Forall (fun _ => _ -> _) _ |- _ => rewrite Forall_forall in H; apply (H _ Hx) end.
      split.
      * match goal with H : Forall value_wf _ |- _ => rewrite Forall_forall in H; auto end.
      * intros g Hg. apply Hv. econstructor; eauto.
    + apply IHv1. split; auto. intros g Hg. apply Hv. now apply fi_left.
    + apply IHv2. split; auto. intros g Hg. apply Hv. now apply fi_right.
    + apply (Hv f). constructor.
Qed.

(** ** Operations *)
Section Ops.
Context (m : mode).
Lemma proper_list l : Forall proper l <-> Forall value_wf l /\ Forall (vok calls_ok) l.
Proof.
  rewrite !Forall_forall. split.
  - intros H. split; intros x Hx; apply proper_iff; auto.
  - intros [H1 H2] x Hx. apply proper_iff; auto.
Qed.
Lemma index_proper i v r : proper i -> proper v -> v_index m mfi i v = Ok r -> proper r.
Proof. rewrite !proper_iff. intros [A B] [A' B'] E. split; [eapply index_wf; [exact A'|exact E]|exact (index_vok m calls_ok i v r B B' E)]. Qed.
Lemma range_proper i v r : proper i -> proper v -> v_range mfi i v = Ok r -> proper r.
Proof. rewrite !proper_iff. intros [A B] [A' B'] E. split; [eapply range_wf; exact E|exact (range_vok calls_ok i v r B B' E)]. Qed.
Lemma array_proper amax l r : Forall proper l -> v_array amax l = Ok r -> proper r.
Proof. rewrite proper_list, proper_iff. intros [] E. split; [eapply array_wf|eapply (array_vok calls_ok)]; eauto. Qed.
Lemma unpack_proper n v l : proper v -> v_unpack mfi n v = Ok l -> Forall proper l.
Proof. rewrite proper_list, proper_iff. intros [] E. split; [eapply unpack_wf|eapply (unpack_vok calls_ok)]; eauto. Qed.
Lemma iter_proper i v r : proper v -> v_iter m mfi i v = Ok (Some r) -> proper r.
Proof. rewrite !proper_iff. intros [] E. split; [eapply iter_wf|eapply (iter_vok m calls_ok)]; eauto. Qed.
Lemma unary_proper op f v r : unary_fn m mfi op = Some f -> proper v -> f v = Ok r -> proper r.
Proof. rewrite !proper_iff. intros Ho [] E. split; [eapply unary_wf|eapply (unary_vok m calls_ok)]; eauto. Qed.
Lemma binary_proper op feq o smax amax f v w r : binary_fn m o mfi feq smax amax op = Some f -> proper v -> proper w ->
  f v w = Ok r -> proper r.
Proof. rewrite !proper_iff. intros Ho [A B] [A' B'] E. split; [exact (binary_wf m o mfi feq smax amax op f v w r Ho A A' E)|exact (binary_vok m calls_ok op feq o smax amax f v w r Ho B B' E)]. Qed.
End Ops.

(** ** The machine *)
Notation "'let*' x ':=' e 'in' k" := (abind e (fun x => k))
  (at level 200, x pattern, e at level 100, k at level 200, right associativity).

Section Machine.
Context {D : Type} (m : mode) (hst : host D).
Notation vm := (vm D).

Definition code_proper (f : frame) : Prop := forall c, In c (ck_consts (fr_chunk f)) -> proper c.
Definition cell_proper (u : upvalue) : Prop := match u with Closed v => proper v | Open _ => True end.
Record inv (s : vm) : Prop := {
  in_stack : Forall proper (v_stack s);
  in_blocks : Forall proper (v_blocks s);
  in_globals : Forall (fun kv => proper (snd kv)) (v_globals s);
  in_heap : Forall cell_proper (v_heap s);
  in_frame : code_proper (v_frame s);
  in_frames : Forall code_proper (v_frames s);
  in_builtins : Forall (fun kb => proper_builtin (snd kb)) (v_builtins s) }.

Lemma inv_holds s v : inv s -> holds s v -> proper v.
Proof.
  intros I H. destruct H as [v H|v H|k v H|v H|f v Hf H].
  - pose proof (in_stack _ I) as K. rewrite Forall_forall in K. auto.
  - pose proof (in_blocks _ I) as K. rewrite Forall_forall in K. auto.
  - pose proof (in_globals _ I) as K. rewrite Forall_forall in K. exact (K _ H).
  - pose proof (in_heap _ I) as K. rewrite Forall_forall in K. exact (K _ H).
  - destruct Hf as [<-|Hf]; [exact (in_frame _ I _ H)|].
    pose proof (in_frames _ I) as K. rewrite Forall_forall in K. exact (K _ Hf _ H).
Qed.

Definition keeps {A} (Q : A -> Prop) (x : act D A) : Prop :=
  forall s, inv s -> match x s with AOk a s' => inv s' /\ Q a | AErr _ _ s' => inv s' | APanic => True end.
Definition tru {A} (_ : A) : Prop := True.

Lemma k_bind {A B} (R : A -> Prop) (Q : B -> Prop) (x : act D A) k :
  keeps R x -> (forall a, R a -> keeps Q (k a)) -> keeps Q (abind x k).
Proof using.
  intros Hx Hk s Hs. unfold abind. specialize (Hx s Hs). destruct (x s) as [a s1|e sp s1|]; auto.
  destruct Hx as [H1 H2]. exact (Hk a H2 s1 H1).
Qed.
Lemma k_ret {A} (Q : A -> Prop) a : Q a -> keeps Q (aret a).
Proof using. intros H s Hs. cbn. auto. Qed.
Lemma k_gets {A} (Q : A -> Prop) f : (forall s, inv s -> Q (f s)) -> keeps Q (agets f).
Proof using. intros H s Hs. cbn. auto. Qed.
Lemma k_mod f : (forall s, inv s -> inv (f s)) -> keeps tru (amod f).
Proof using. intros H s Hs. cbn. unfold tru. auto. Qed.
Lemma k_e0 {A} (Q : A -> Prop) e : keeps Q (error_0 e). Proof using. intros s Hs. exact Hs. Qed.
Lemma k_e1 {A} (Q : A -> Prop) e : keeps Q (error_1 e). Proof using. intros s Hs. exact Hs. Qed.
Lemma k_panic {A} (Q : A -> Prop) : keeps Q apanic. Proof using. intros s Hs. exact Logic.I. Qed.
Lemma k_lift {A} (Q : A -> Prop) (r : res A) : (forall a, r = Ok a -> Q a) -> keeps Q (lift_1 r).
Proof using. intros H s Hs. destruct r; cbn; auto. Qed.
Lemma k_weak {A} (Q R : A -> Prop) x : keeps Q x -> (forall a, Q a -> R a) -> keeps R x.
Proof using. intros H HR s Hs. specialize (H s Hs). destruct (x s); auto. destruct H; auto. Qed.
Lemma k_tru {A} (Q : A -> Prop) x : keeps Q x -> keeps tru x.
Proof using. intros H. eapply k_weak; [exact H|]. intros; exact Logic.I. Qed.

Lemma inv_set_stack s st k : inv s -> Forall proper st -> inv (set_stack st k s).
Proof using. intros [] H. constructor; auto. Qed.
Lemma inv_set_cells s o h : inv s -> Forall cell_proper h -> inv (set_cells o h s).
Proof using. intros [] H. constructor; auto. Qed.
Lemma inv_set_ip s i : inv s -> inv (set_ip i s).
Proof using. intros []. constructor; auto. Qed.

Lemma k_slot i : keeps proper (slot i).
Proof using. intros s H. unfold slot. destruct (nth_error _ _) eqn:E; auto. split; auto. eapply nth_forall; [apply H|eauto]. Qed.
Lemma k_set_slot i v : proper v -> keeps tru (set_slot i v).
Proof using.
  intros Hv s H. unfold set_slot. destruct (_ <? _); auto. split; [|exact Logic.I].
  apply inv_set_stack; auto. apply upd_forall; [apply H|auto].
Qed.
Lemma k_push v : proper v -> keeps tru (push v).
Proof using.
  intros Hv s H. unfold push. destruct (_ <=? _); [exact H|]. destruct (_ <? _); auto. split; [|exact Logic.I].
  apply inv_set_stack; auto. apply upd_forall; [apply H|auto].
Qed.
Lemma k_push_unchecked v : proper v -> keeps tru (push_unchecked v).
Proof using.
  intros Hv s H. unfold push_unchecked. destruct (_ <? _); auto. split; [|exact Logic.I].
  apply inv_set_stack; auto. apply upd_forall; [apply H|auto].
Qed.
Lemma k_push_many n : keeps tru (push_many n).
Proof using.
  intros s H. unfold push_many. cbv zeta.
  assert (inv (set_stack (v_stack s) (v_sp s + n) s)) by (apply inv_set_stack; [auto|apply H]).
  destruct (_ <=? _); [auto|]. split; [auto|exact Logic.I].
Qed.
Lemma k_pop : keeps proper pop.
Proof using.
  intros s H. unfold pop. destruct (v_sp s) as [|k]; [exact Logic.I|].
  apply (k_slot k). apply inv_set_stack; [auto|apply H].
Qed.
Lemma k_pop_many n : keeps tru (pop_many n).
Proof using. intros s H. unfold pop_many. destruct (_ <? _); auto. split; [apply inv_set_stack; [auto|apply H]|exact Logic.I]. Qed.
Lemma k_pop_swap_out : keeps proper pop_swap_out.
Proof using.
  unfold pop_swap_out. eapply k_bind; [apply k_pop|intros v Hv]. eapply k_bind; [apply (k_gets tru); intros; exact Logic.I|intros k _].
  eapply k_bind; [apply k_set_slot; constructor|intros _ _]. now apply k_ret.
Qed.
Lemma k_pop_double : keeps (fun ab => proper (fst ab) /\ proper (snd ab)) pop_double.
Proof using.
  unfold pop_double. eapply k_bind; [apply k_pop|intros b Hb]. eapply k_bind; [apply k_pop|intros a Ha]. now apply k_ret.
Qed.
Lemma k_peekn n : keeps proper (peekn n).
Proof using. intros s H. unfold peekn. destruct (_ <? _); [exact Logic.I|]. now apply k_slot. Qed.
Lemma k_pop_peek : keeps (fun ab => proper (fst ab) /\ proper (snd ab)) pop_peek.
Proof using.
  unfold pop_peek. eapply k_bind; [apply k_pop|intros b Hb]. eapply k_bind; [apply k_peekn|intros a Ha]. now apply k_ret.
Qed.
Lemma k_swap : keeps tru swap.
Proof using.
  intros s H. unfold swap. destruct (v_sp s) as [|[|k]] eqn:E; auto.
  destruct (nth_error (v_stack s) k) eqn:E1; auto. destruct (nth_error (v_stack s) (S k)) eqn:E2; auto.
  split; [|exact Logic.I]. apply inv_set_stack; auto.
  apply upd_forall; [apply upd_forall; [apply H|]|]; eapply nth_forall; [apply H| |apply H|]; eauto.
Qed.
Lemma k_const i : keeps proper (get_constant i).
Proof using.
  intros s H. unfold get_constant, chunk_get_constant. destruct (nth_error _ _) eqn:E; [|exact Logic.I].
  split; [auto|]. apply (in_frame _ H). eapply nth_error_In; eauto.
Qed.
Lemma k_up_get c : keeps proper (up_get c).
Proof using.
  intros s H. unfold up_get. destruct (nth_error (v_heap s) c) as [[l|v]|] eqn:E; auto.
  - now apply k_slot.
  - split; auto. exact (nth_forall _ _ _ _ (in_heap _ H) E).
Qed.
Lemma k_up_set c v : proper v -> keeps tru (up_set c v).
Proof using.
  intros Hv s H. unfold up_set. destruct (nth_error (v_heap s) c) as [[l|w]|] eqn:E; auto.
  - now apply k_set_slot.
  - split; [|exact Logic.I]. apply inv_set_cells; auto. apply upd_forall; [apply H|exact Hv].
Qed.
Lemma k_capture l : keeps tru (capture_upvalue l).
Proof using.
  intros s H. unfold capture_upvalue. destruct (find _ _); [split; [auto|exact Logic.I]|].
  split; [|exact Logic.I]. apply inv_set_cells; auto. apply Forall_app. split; [apply H|repeat constructor].
Qed.
Lemma cells_proper last v opens : proper v -> forall h, Forall cell_proper h -> Forall cell_proper (close_cells last v opens h).
Proof using.
  intros Hv. unfold close_cells. induction opens as [|c t IH]; intros h Hh; cbn; auto.
  apply IH. destruct (is_open_at _ _ _); auto. apply upd_forall; auto.
Qed.
Lemma k_close l : keeps tru (close_upvalues l).
Proof using.
  intros s H. unfold close_upvalues. destruct (nth_error _ _) eqn:E; [|split; [auto|exact Logic.I]].
  split; [|exact Logic.I]. apply inv_set_cells; auto. apply cells_proper; [|apply H]. eapply nth_forall; [apply H|eauto].
Qed.
Lemma k_close_range n : forall l, keeps tru (close_range l n).
Proof using.
  induction n as [|n IH]; intros l; cbn [close_range]; [apply k_ret; exact Logic.I|].
  eapply k_bind; [apply k_close|intros _ _]. apply IH.
Qed.
Lemma inv_count r n s : inv s -> inv (set_count r n s).
Proof using. intros []. constructor; auto. Qed.
Lemma k_runtime : keeps tru (has_runtime_exceeded hst).
Proof using.
  unfold has_runtime_exceeded. eapply k_bind; [apply (k_gets tru); intros; exact Logic.I|intros r _].
  eapply k_bind; [apply k_mod; intros; now apply inv_count|intros _ _].
  eapply k_bind; [apply (k_gets tru); intros; exact Logic.I|intros l _].
  destruct (_ <? _)%N; [|apply k_ret; exact Logic.I]. intros s Hs. exact Hs.
Qed.
Lemma k_tick : keeps tru (tick hst).
Proof using.
  unfold tick. eapply k_bind; [apply (k_gets tru); intros; exact Logic.I|intros r _]. destruct (_ <? _).
  - eapply k_bind; [apply k_runtime|intros _ _]. apply k_mod. intros; now apply inv_count.
  - apply k_mod. intros; now apply inv_count.
Qed.
Lemma k_pop_items n : keeps (Forall proper) (pop_items n).
Proof using.
  induction n as [|n IH]; cbn [pop_items]; [apply k_ret; constructor|].
  eapply k_bind; [apply k_pop|intros v Hv]. eapply k_bind; [apply IH|intros l Hl]. apply k_ret. now constructor.
Qed.
Lemma k_push_items l : Forall proper l -> keeps tru (push_items l).
Proof using.
  induction 1 as [|v l Hv Hl IH]; cbn [push_items]; [apply k_ret; exact Logic.I|].
  eapply k_bind; [now apply k_push|intros _ _]. exact IH.
Qed.
Lemma k_captures n : keeps tru (read_captures n).
Proof using.
  induction n as [|n IH]; cbn [read_captures]; [apply k_ret; exact Logic.I|].
  eapply k_bind; [apply (k_gets tru); intros; exact Logic.I|intros s _].
  destruct (bc_read_u8 _ _); try apply k_panic. destruct (bc_read_u16 _ _); try apply k_panic.
  eapply k_bind; [apply k_mod; intros; now apply inv_set_ip|intros _ _].
  eapply k_bind; [|intros c _; eapply k_bind; [apply IH|intros; apply k_ret; exact Logic.I]].
  destruct (_ =? _)%N; [apply k_capture|]. destruct (nth_error _ _); [apply k_ret; exact Logic.I|apply k_panic].
Qed.
Lemma k_jump off : keeps tru (jump_forward off).
Proof using. apply k_mod. intros; now apply inv_set_ip. Qed.
Lemma k_name i : keeps tru (global_name i).
Proof using. apply k_gets. intros; exact Logic.I. Qed.

(** Calling a host function with the top of the stack. *)
Lemma call_keeps f n s : inv s -> gives_proper f -> (forall v, holds s v -> in_memory v) ->
  match take_args n s with
  | AOk args s1 => inv s1 /\ v_blocks s1 = v_blocks s1 /\ forall s2, inv s2 ->
      match run_builtin f args s2 with AOk v s3 => inv s3 /\ proper v | AErr _ _ s3 => inv s3 | APanic => True end
  | AErr _ _ s1 => inv s1
  | APanic => True
  end.
Proof using.
  intros H Hf Hm. unfold take_args. destruct (_ <? _); [exact H|]. destruct (_ <? _); [exact Logic.I|].
  split; [apply inv_set_stack; [auto|apply H]|]. split; [reflexivity|].
  set (args := firstn _ _).
  assert (Hi : forall x, In x args -> In x (v_stack s)).
  { intros x Hx. rewrite <- (firstn_skipn (v_sp s - n) (v_stack s)). apply in_or_app. right.
    rewrite <- (firstn_skipn n (skipn _ _)). apply in_or_app. now left. }
  assert (Ha : Forall proper args).
  { apply Forall_forall. intros x Hx. pose proof (in_stack _ H) as K. rewrite Forall_forall in K. auto. }
  assert (Hb : Forall in_memory args).
  { apply Forall_forall. intros x Hx. apply Hm. apply ho_stack. auto. }
  intros s2 H2. unfold run_builtin. destruct (f _ _ _) as [d r] eqn:E.
  assert (inv (set_data d s2)) by (destruct H2; constructor; auto).
  destruct r as [v|e|]; cbn; auto. split; [auto|]. eapply Hf; eauto.
Qed.

Ltac kb lem := eapply k_bind; [apply lem|].
Lemma inv_globals s g : inv s -> Forall (fun kv => proper (snd kv)) g -> inv (set_globals g s).
Proof using. intros [] H. constructor; auto. Qed.
Lemma inv_blocks s g : inv s -> Forall proper g -> inv (set_blocks g s).
Proof using. intros [] H. constructor; auto. Qed.
Lemma k_exec i : (forall b n, i <> ICallBuiltin b n) -> (forall b n, i <> IEnterContext b n) -> keeps tru (exec m hst i).
Proof using.
  intros N1 N2.
  destruct i; cbn [exec]; try (now apply k_push; constructor); try apply k_e1; try apply k_panic.
  all: try (exfalso; eapply N1; reflexivity).
  all: try (exfalso; eapply N2; reflexivity).
  - eapply k_bind; [apply k_pop|]. intros; apply k_ret; exact Logic.I.
  - apply k_pop_many.
  - apply k_swap.
  - eapply k_bind; [apply k_swap|intros _ _]. eapply k_bind; [apply k_pop|intros _ _]. apply k_ret; exact Logic.I.
  - eapply k_bind; [apply k_const|intros v Hv]. now apply k_push.
  - eapply k_bind; [apply (k_gets tru); intros; exact Logic.I|intros st _].
    eapply k_bind; [apply k_slot|intros v Hv]. now apply k_push.
  - eapply k_bind; [apply k_peekn|intros v Hv].
    eapply k_bind; [apply (k_gets tru); intros; exact Logic.I|intros st _]. now apply k_set_slot.
  - eapply k_bind; [apply k_pop|intros v Hv]. apply k_mod. intros s Hs. apply inv_globals; [auto|].
    apply ainsert_forall; [apply Hs|auto].
  - eapply k_bind; [apply (k_gets tru); intros; exact Logic.I|intros [c|] _]; [|apply k_panic].
    eapply k_bind; [apply k_up_get|intros v Hv]. now apply k_push.
  - eapply k_bind; [apply k_peekn|intros v Hv].
    eapply k_bind; [apply (k_gets tru); intros; exact Logic.I|intros [c|] _]; [|apply k_panic]. now apply k_up_set.
  - eapply k_bind; [apply (k_gets (fun o => match o with Some v => proper v | None => True end))|intros [v|] Hv].
    + intros s Hs. destruct (alookup _ _ _) eqn:E; [|exact Logic.I].
      exact (alookup_forall _ _ _ _ (in_globals _ Hs) E).
    + now apply k_push.
    + eapply k_bind; [apply k_name|intros; apply k_e1].
  - eapply k_bind; [apply k_peekn|intros v Hv].
    eapply k_bind; [apply (k_gets tru); intros; exact Logic.I|intros [w|] _].
    + apply k_mod. intros s Hs. apply inv_globals; [auto|]. apply ainsert_forall; [apply Hs|auto].
    + eapply k_bind; [apply k_name|intros; apply k_e1].
  - eapply k_bind; [apply k_pop|intros v Hv]. apply k_mod. intros s Hs. destruct (alookup _ _ _); [auto|].
    apply inv_globals; [auto|]. apply ainsert_forall; [apply Hs|auto].
  - eapply k_bind; [apply (k_gets tru); intros; exact Logic.I|intros [|k] _]; [apply k_panic|].
    eapply k_bind; [apply k_close|intros _ _]. eapply k_bind; [apply k_pop|intros _ _]. apply k_ret; exact Logic.I.
  - eapply k_bind; [apply k_const|intros v Hv].
    destruct v as [| | | | | | | | | | |f]; try apply k_e0. destruct f; try apply k_e0. apply k_push. constructor. inversion Hv; auto.
  - eapply k_bind; [apply k_const|intros v Hv].
    destruct v as [| | | | | | | | | | |f]; try apply k_e0. destruct f; try apply k_e0.
    eapply k_bind; [apply k_captures|intros us _]. apply k_push. constructor. inversion Hv; auto.
  - eapply k_bind; [apply k_pop_double|intros [a b] [Ha Hb]]. apply k_push_unchecked. now constructor.
  - eapply k_bind; [apply k_pop_items|intros l Hl].
    eapply k_bind; [apply (k_gets tru); intros; exact Logic.I|intros am _].
    eapply k_bind; [apply (k_lift proper)|intros v Hv; now apply k_push]. intros v E. eapply array_proper; eauto.
  - eapply k_bind; [apply k_pop_double|intros [a b] [Ha Hb]].
    eapply k_bind; [apply (k_lift proper)|intros v Hv; now apply k_push]. intros v E. exact (range_proper a b v Ha Hb E).
  - eapply k_bind; [apply k_peekn|intros v Hv]. intros s Hs. destruct (_ <=? _); [exact Hs|].
    destruct v as [| | | | | | | | | | |f]; try exact Hs. destruct (_ =? _)%N; [|exact Hs]. split; [|exact Logic.I].
    inversion Hv; subst. destruct Hs. constructor; auto; constructor; auto.
  - eapply k_bind; [apply (k_gets tru); intros; exact Logic.I|intros [|x rest] _]; [apply k_ret; exact Logic.I|].
    eapply k_bind; [apply k_mod; intros s []; constructor; auto|intros _ _].
    intros s Hs. destruct (x (v_data s)) as [d r]. assert (inv (set_data d s)) by (destruct Hs; constructor; auto).
    destruct r; cbn; auto. split; [auto|exact Logic.I].
  - eapply k_bind; [apply k_pop_swap_out|intros v Hv]. apply k_mod. intros s Hs. apply inv_blocks; [auto|].
    constructor; [auto|apply Hs].
  - eapply k_bind; [apply (k_gets (Forall proper)); intros s Hs; apply Hs|intros [|v rest] Hb]; [apply k_e0|].
    inversion Hb; subst. eapply k_bind; [apply k_mod; intros s Hs; now apply inv_blocks|intros _ _]. now apply k_push.
  - eapply k_bind; [apply k_peekn|intros v Hv]. eapply k_bind; [apply (k_lift tru); intros; exact Logic.I|intros [] _].
    + apply k_ret; exact Logic.I.
    + apply k_jump.
  - eapply k_bind; [apply k_pop_peek|intros [v c] _]. intros s Hs.
    destruct (geqb _ _ _) as [[]| |]; try exact Logic.I; [split; [auto|exact Logic.I]|]. now apply k_jump.
  - apply k_jump.
  - intros s Hs. destruct (_ <? _); [exact Logic.I|]. split; [now apply inv_set_ip|exact Logic.I].
  - eapply k_bind; [apply k_pop_swap_out|intros v Hv].
    eapply k_bind; [apply (k_lift (Forall proper)); intros; eapply unpack_proper; eauto|intros l Hl].
    apply k_push_items. now apply Forall_rev.
  - apply k_push_many.
  - eapply k_bind; [apply (k_gets tru); intros; exact Logic.I|intros sp _]. destruct (_ <? _); [apply k_panic|].
    eapply k_bind; [apply k_slot|intros c Hc]. destruct c; try apply k_e1.
    eapply k_bind; [apply k_set_slot; constructor|intros _ _]. eapply k_bind; [apply k_slot|intros it Hit].
    eapply k_bind; [apply (k_lift (fun r => match r with Some v => proper v | None => True end))|intros [v|] Hv].
    + intros [v|] E; [eapply iter_proper; eauto|exact Logic.I].
    + now apply k_push.
    + apply k_jump.
  - eapply k_bind; [apply k_pop|intros v Hv]. eapply k_bind; [apply k_pop|intros i Hi].
    eapply k_bind; [apply (k_lift proper)|intros r Hr; now apply k_push]. intros r E. exact (index_proper m i v r Hi Hv E).
  - eapply k_bind; [apply k_pop|intros v Hv]. destruct (unary_fn m mfi o) eqn:Eo; [|apply k_panic].
    eapply k_bind; [apply (k_lift proper)|intros w Hw; now apply k_push_unchecked]. intros w E. eapply unary_proper; eauto.
  - eapply k_bind; [apply k_pop_double|intros [a b] [Ha Hb]]. intros s Hs.
    destruct (binary_fn _ _ _ _ _ _ _) eqn:Eo; [|exact Logic.I].
    refine (k_bind proper tru _ _ (k_lift proper _ _) (fun w Hw => k_push_unchecked w Hw) s Hs).
    intros w E. exact (binary_proper m _ _ _ _ _ _ a b w Eo Ha Hb E).
Qed.

Lemma exec_inv i s : inv s -> (forall v, holds s v -> in_memory v) ->
  match exec m hst i s with AOk _ s' => inv s' | AErr _ _ s' => inv s' | APanic => True end.
Proof using.
  intros Hs Hm.
  assert (Hk : (forall b n, i <> ICallBuiltin b n) -> (forall b n, i <> IEnterContext b n) ->
    match exec m hst i s with AOk _ s' => inv s' | AErr _ _ s' => inv s' | APanic => True end).
  { intros N1 N2. pose proof (k_exec i N1 N2 s Hs) as K. destruct (exec m hst i s); tauto. }
  destruct i; try (apply Hk; discriminate); clear Hk; cbn [exec]; unfold abind at 1, agets at 1.
  - destruct (alookup N.eqb b (v_builtins s)) as [[f|f x]|] eqn:Eb.
    + pose proof (alookup_forall (fun x => proper_builtin x) _ _ _ (in_builtins _ Hs) Eb) as Hf. cbn in Hf.
      pose proof (call_keeps f (N.to_nat argc) s Hs Hf Hm) as K. unfold abind at 1.
      destruct (take_args _ s) as [args s1|e sp s1|]; [|exact K|exact Logic.I]. destruct K as (K1 & _ & K2).
      specialize (K2 s1 K1). unfold abind at 1. destruct (run_builtin f args s1) as [v s2|e sp s2|]; [|exact K2|exact Logic.I].
      destruct K2 as [K3 K4].
      assert (K : keeps tru (let* _ := push v in has_runtime_exceeded hst)).
      { eapply k_bind; [now apply k_push|intros; apply k_runtime]. }
      specialize (K s2 K3). destruct ((let* _ := push v in has_runtime_exceeded hst) s2); tauto.
    + exact Hs.
    + exact Hs.
  - destruct (alookup N.eqb b (v_builtins s)) as [bi|] eqn:Eb; [|exact Hs].
    pose proof (alookup_forall (fun x => proper_builtin x) _ _ _ (in_builtins _ Hs) Eb) as Hf. cbn in Hf.
    set (ex := match bi with BFn f => (f, None) | BContext e x => (e, Some x) end).
    assert (Hg : gives_proper (fst ex)) by (destruct bi; exact Hf). destruct ex as [entry exit_]. cbn [fst] in Hg.
    pose proof (call_keeps entry (N.to_nat argc) s Hs Hg Hm) as K. unfold abind at 1.
    destruct (take_args _ s) as [args s1|e sp s1|]; [|exact K|exact Logic.I]. destruct K as (K1 & _ & K2).
    assert (K : exists s2, (match exit_ with Some x => amod (fun s => set_exits (x :: v_exits s) s) | None => aret tt end) s1 = AOk tt s2 /\ inv s2).
    { destruct exit_; eexists; (split; [reflexivity|]); [destruct K1; constructor; auto|exact K1]. }
    destruct K as (s2 & E2 & K3). unfold abind at 1. rewrite E2. specialize (K2 s2 K3). unfold abind at 1.
    destruct (run_builtin entry args s2) as [v s3|e sp s3|]; [|exact K2|exact Logic.I]. destruct K2 as [K4 K5].
    pose proof (k_push v K5 s3 K4) as K. destruct (push v s3); tauto.
Qed.

Lemma memory_same (s s' : vm) : v_stack s' = v_stack s -> v_blocks s' = v_blocks s -> v_globals s' = v_globals s ->
  v_heap s' = v_heap s -> map f_fn (v_frame s' :: v_frames s') = map f_fn (v_frame s :: v_frames s) ->
  (forall v, holds s v -> in_memory v) -> forall v, holds s' v -> in_memory v.
Proof using.
  intros E1 E2 E3 E4 E5 H v Hv. apply H. destruct Hv as [v K|v K|k v K|v K|f v Kf K].
  - apply ho_stack. congruence.
  - apply ho_block. congruence.
  - apply (ho_global _ k). congruence.
  - apply ho_cell. congruence.
  - apply (in_map f_fn) in Kf. rewrite E5 in Kf. apply in_map_iff in Kf as (g & Eg & Kg).
    apply (ho_code _ g); [exact Kg|]. unfold fr_chunk in *. rewrite Eg. exact K.
Qed.
Lemma tick_same (s s' : vm) : tick hst s = AOk tt s' -> v_stack s' = v_stack s /\ v_blocks s' = v_blocks s /\
  v_globals s' = v_globals s /\ v_heap s' = v_heap s /\ v_frame s' = v_frame s /\ v_frames s' = v_frames s.
Proof using.
  unfold tick, has_runtime_exceeded, abind, agets, amod, aret, errorf. destruct (64 <? v_n s).
  - destruct (_ <? _)%N; [discriminate|]. intros [= <-]. repeat split.
  - intros [= <-]. repeat split.
Qed.

Definition after_step (r : sres D) : Prop :=
  match r with SNext s' => inv s' | SDone v s' => inv s' /\ proper v | SErr _ _ s' => inv s' | SPanic => True end.
Lemma return_inv s : inv s -> after_step (do_return m hst s).
Proof using.
  intros Hs. unfold do_return. pose proof (k_pop s Hs) as K. destruct (pop s) as [v s1|e sp s1|]; [|exact K|exact Logic.I].
  destruct K as [K1 Hv].
  pose proof (k_close_range (v_sp s1 - f_st (v_frame s1)) (f_st (v_frame s1)) s1 K1) as K.
  destruct (close_range _ _ s1) as [u s2|e sp s2|]; [|exact K|exact Logic.I]. destruct K as [K2 _].
  destruct (v_frames s2) as [|fr rest] eqn:Ef.
  - assert (after_step (SDone v (set_stack (v_stack s2) (f_st (v_frame s2)) s2))) as K.
    { split; [apply inv_set_stack; [auto|apply K2]|auto]. }
    destruct m; [destruct (v_sp s2); [exact K|exact Logic.I]|exact K].
  - cbv zeta. match goal with |- context [push v ?x] => set (s5 := x) end.
    assert (K5 : inv s5).
    { destruct K2 as [A1 A2 A3 A4 A5 A6 A7]. rewrite Ef in A6. inversion A6; subst. constructor; auto. }
    pose proof (k_push v Hv s5 K5) as K. destruct (push v s5); [apply K|exact K|exact Logic.I].
Qed.
Lemma step_inv s : inv s -> (forall v, holds s v -> in_memory v) -> after_step (step m hst s).
Proof using.
  intros Hs Hm. unfold step. pose proof (k_tick s Hs) as K. destruct (tick hst s) as [[] s1|e sp s1|] eqn:Et; [|exact K|exact Logic.I].
  destruct K as [K1 _]. destruct (_ <=? _); [exact K1|].
  destruct (decode _ _) as [[i ip']| |] eqn:Ed; [|exact Logic.I|exact Logic.I].
  assert (K2 : inv (set_ip ip' s1)) by now apply inv_set_ip.
  assert (M2 : forall v, holds (set_ip ip' s1) v -> in_memory v).
  { destruct (tick_same _ _ Et) as (E1 & E2 & E3 & E4 & E5 & E6). eapply memory_same; [..|exact Hm]; auto.
    cbn [v_frame v_frames set_ip set_frames map f_fn fr_set_ip]. now rewrite E5, E6. }
  pose proof (exec_inv i _ K2 M2) as K.
  destruct i; try (destruct (exec _ _ _ _); exact K). now apply return_inv.
Qed.

Lemma inv_builtins l : forall s, inv s -> Forall (fun nb => proper_builtin (snd nb)) l -> inv (add_builtins_list l s).
Proof using.
  induction l as [|[n b] l IH]; intros s Hs Hl; cbn [add_builtins_list]; [exact Hs|]. inversion Hl; subst.
  destruct (pool_add _ _ _) as [p id]. apply IH; [|auto]. destruct Hs. constructor; auto. constructor; auto.
Qed.
Theorem session_inv s : proper_session m hst s -> inv s.
Proof using.
  induction 1.
  - constructor; cbn; auto. apply Forall_forall. intros x Hx. apply repeat_spec in Hx. subst. constructor.
  - now apply inv_builtins.
  - unfold insert_global. destruct (pool_add _ _ _) as [p id]. destruct IHproper_session. constructor; auto. constructor; auto.
  - unfold set_external in H1. destruct (pool_id _ _ _); [|discriminate]. destruct (existsb _ _); [|discriminate].
    injection H1 as <-. destruct IHproper_session. constructor; auto. constructor; auto.
  - now apply inv_count.
  - pose proof (step_inv s IHproper_session H0) as K. rewrite H1 in K. exact K.
  - pose proof (step_inv s IHproper_session H0) as K. rewrite H1 in K. apply K.
  - pose proof (step_inv s IHproper_session H0) as K. rewrite H1 in K. exact K.
  - destruct IHproper_session. constructor; auto; constructor.
  - destruct IHproper_session. constructor; auto; constructor.
Qed.
Theorem session_proper s v : proper_session m hst s -> holds s v -> proper v.
Proof using. intros H. apply inv_holds. now apply session_inv. Qed.
Theorem result_proper s v s' : proper_session m hst s -> (forall v, holds s v -> in_memory v) ->
  step m hst s = SDone v s' -> proper v.
Proof using.
  intros H Hm E. pose proof (step_inv s (session_inv s H) Hm) as K. rewrite E in K. apply K.
Qed.
End Machine.
