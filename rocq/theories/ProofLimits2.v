(** Sessions and the command line with larger limits (C102). *)
From Verif Require Import Base RleVec Pool Vecc Float NumText Bytecode Chunk Value Ast Arith VmOps Builtins Compiler Vm Std Includes Console Cli SpecLimits ProofLimits.

Section Twins.
Context {D : Type} (m : mode) (hst : host D) (o o' : options).
Definition beside (s s' : vm D) : Prop := exists pad, s' = room o' pad s /\ okay o' pad s.

Lemma ainsert_look {B} k j (x : B) l y : alookup N.eqb j (ainsert k x l) = Some y -> y = x \/ alookup N.eqb j l = Some y.
Proof.
  unfold ainsert. cbn [alookup]. destruct (j =? k)%N; [left; congruence|auto].
Qed.
Lemma add_beside l : (forall n b, In (n, b) l -> fair b) -> forall pad (s : vm D), okay o' pad s ->
  add_builtins_list l (room o' pad s) = room o' pad (add_builtins_list l s) /\ okay o' pad (add_builtins_list l s).
Proof.
  induction l as [|[n b] l IH]; intros Hl pad s H; cbn [add_builtins_list]; [auto|].
  change (v_gsyms (room o' pad s)) with (v_gsyms s). destruct (pool_add seqb (v_gsyms s) n) as [p id].
  change (set_builtins (ainsert id b (v_builtins (room o' pad s))) (set_gsyms p (room o' pad s)))
    with (room o' pad (set_builtins (ainsert id b (v_builtins s)) (set_gsyms p s))).
  apply IH; [intros; eapply Hl; right; eauto|]. destruct H as [H1 H2 H3 H4 H5 H6 H7]. split; auto.
  cbn. intros j x E. apply ainsert_look in E as [->|E]; [|eauto]. eapply Hl. now left.
Qed.
Lemma new_beside d sc bs : roomier o o' -> (forall l n b, In l bs -> In (n, b) l -> fair b) ->
  beside (vm_new_with d sc o bs) (vm_new_with d sc o' bs).
Proof.
  intros Hr Hb. exists (repeat VNone (o_stack_size o' - o_stack_size o)). unfold vm_new_with.
  assert (K : forall l (s : vm D), (forall x n b, In x l -> In (n, b) x -> fair b) -> okay o' (repeat VNone (o_stack_size o' - o_stack_size o)) s ->
    fold_left (fun s l => add_builtins_list l s) l (room o' (repeat VNone (o_stack_size o' - o_stack_size o)) s) =
      room o' (repeat VNone (o_stack_size o' - o_stack_size o)) (fold_left (fun s l => add_builtins_list l s) l s) /\
    okay o' (repeat VNone (o_stack_size o' - o_stack_size o)) (fold_left (fun s l => add_builtins_list l s) l s)).
  { induction l as [|x l IH]; intros s Hl H; [auto|]. cbn [fold_left].
    destruct (add_beside x (fun n b => Hl x n b (or_introl eq_refl)) _ s H) as [E H']. rewrite E. apply IH; [|exact H'].
    intros y n b Hy. apply (Hl y). now right. }
  pose proof Hr as (L & _).
  assert (E : vm_new d sc o' = room o' (repeat VNone (o_stack_size o' - o_stack_size o)) (vm_new d sc o)).
  { unfold vm_new, room. cbn [v_data v_builtins v_exits v_blocks v_globals v_gsyms v_externals v_opens v_heap v_frames v_frame v_stack v_sp v_reads v_n].
    rewrite <- repeat_app. now replace (o_stack_size o + (o_stack_size o' - o_stack_size o)) with (o_stack_size o') by lia. }
  rewrite E. apply K; [exact Hb|].
  split; cbn [vm_new v_stack v_opts v_sp v_frame v_frames v_builtins f_st]; rewrite ?repeat_length; try lia; auto; discriminate.
Qed.
Lemma run_beside k s s' : beside s s' ->
  match run m hst k s with
  | RDone v t => exists t', run m hst k s' = RDone v t' /\ beside t t'
  | RErr e sp t => limit_error e \/ exists t', run m hst k s' = RErr e sp t' /\ beside t t'
  | ROut t => exists t', run m hst k s' = ROut t' /\ beside t t'
  | RPanic => True
  end.
Proof.
  intros (pad & -> & H). unfold run.
  assert (K : okay o' pad (set_count 0 0 s)) by (revert H; apply okay_same; reflexivity).
  change (set_count 0 0 (room o' pad s)) with (room o' pad (set_count 0 0 s)).
  pose proof (loop_sim m hst o' pad k _ K) as L. destruct (loop m hst k (set_count 0 0 s)) as [v t|e sp t| |t].
  - destruct L as [L1 L2]. exists (room o' pad t). split; [exact L2|exists pad; auto].
  - destruct L as [L|[L1 L2]]; [now left|]. right. exists (room o' pad t). split; [exact L2|exists pad; auto].
  - exact I.
  - destruct L as [L1 L2]. exists (room o' pad t). split; [exact L2|exists pad; auto].
Qed.
Lemma twins_beside s s' : roomier o o' -> twins m hst o o' s s' -> beside s s'.
Proof.
  intros Hr H. induction H as [d sc bs Hb|n v s s' H IH|n v s s' t t' H IH E E'|d s s' H IH|sc s s' H IH|k v s s' t t' H IH E E'|k e sp s s' t t' H IH E E' Hn].
  - now apply new_beside.
  - destruct IH as (pad & -> & K). exists pad. unfold insert_global. change (v_gsyms (room o' pad s)) with (v_gsyms s).
    destruct (pool_add _ _ _) as [p id]. split; [reflexivity|]. revert K. apply okay_same; reflexivity.
  - destruct IH as (pad & -> & K). exists pad. unfold set_external in E, E'. change (v_gsyms (room o' pad s)) with (v_gsyms s) in E'.
    change (v_externals (room o' pad s)) with (v_externals s) in E'. destruct (pool_id _ _ _) as [id|]; [|discriminate].
    destruct (existsb _ _); [|discriminate]. injection E as <-. injection E' as <-. split; [reflexivity|]. revert K. apply okay_same; reflexivity.
  - destruct IH as (pad & -> & K). exists pad. split; [reflexivity|]. revert K. apply okay_same; reflexivity.
  - destruct IH as (pad & -> & K). exists pad. split; [reflexivity|]. destruct K as [K1 K2 K3 K4 K5 K6 K7]. split; cbn; auto; try lia.
  - pose proof (run_beside k s s' IH) as R. rewrite E in R. destruct R as (u & R1 & R2). rewrite E' in R1. now injection R1 as <-.
  - pose proof (run_beside k s s' IH) as R. rewrite E in R. destruct R as [R|(u & R1 & R2)]; [contradiction|]. rewrite E' in R1. now injection R1 as <-.
Qed.
Lemma beside_alike s s' : beside s s' -> alike s s'.
Proof. intros (pad & -> & H). now apply room_alike. Qed.
Lemma beside_trace s s' : beside s s' -> trace_back s = trace_back s'.
Proof. intros (pad & -> & H). reflexivity. Qed.

Theorem larger k s s' : roomier o o' -> twins m hst o o' s s' ->
  match run m hst k s with
  | RDone v t => exists t', run m hst k s' = RDone v t' /\ alike t t'
  | RErr e sp t => limit_error e \/ exists t', run m hst k s' = RErr e sp t' /\ alike t t' /\ trace_back t = trace_back t'
  | ROut t => exists t', run m hst k s' = ROut t' /\ alike t t'
  | RPanic => True
  end.
Proof.
  intros Hr H. pose proof (run_beside k s s' (twins_beside s s' Hr H)) as R. destruct (run m hst k s) as [v t|e sp t| |t].
  - destruct R as (t' & R1 & R2). exists t'. split; [exact R1|now apply beside_alike].
  - destruct R as [R|(t' & R1 & R2)]; [now left|]. right. exists t'. split; [exact R1|]. split; [now apply beside_alike|now apply beside_trace].
  - exact I.
  - destruct R as (t' & R1 & R2). exists t'. split; [exact R1|now apply beside_alike].
Qed.
(** Read from the machine with more room. *)
Theorem smaller k s s' v t' : roomier o o' -> twins m hst o o' s s' -> run m hst k s' = RDone v t' ->
  (exists t, run m hst k s = RDone v t /\ alike t t') \/ (exists e sp t, run m hst k s = RErr e sp t /\ limit_error e) \/ run m hst k s = RPanic.
Proof.
  intros Hr H E. pose proof (larger k s s' Hr H) as R. destruct (run m hst k s) as [w t|e sp t| |t].
  - destruct R as (u & R1 & R2). left. rewrite E in R1. injection R1 as -> ->. eauto.
  - destruct R as [R|(u & R1 & _)]; [right; left; eauto|]. rewrite E in R1. discriminate.
  - auto.
  - destruct R as (u & R1 & _). rewrite E in R1. discriminate.
Qed.
End Twins.

(** The library of the command line is fair. *)
Lemma library_fair m orc feq fhash n b : In (n, b) (stdio m orc feq fhash) -> fair b.
Proof.
  unfold stdio, std, console. intros H. apply in_app_or in H as [H|H]; apply in_map_iff in H as (x & E & _); injection E as <- <-.
  - intros d args o o' Es Ea. cbv beta. now rewrite Ea.
  - intros d args o o' Es Ea. reflexivity.
Qed.

(** The command line. *)
Theorem command m hst orc pr feq fhash k r o o' name w : roomier o o' ->
  let file l := cli m hst orc pr feq fhash k (mkArguments r l) name w in
  file o = file o' \/ file o = Aborted \/
  exists c e sp s, limit_error e /\ file o = Exited 1 (say (traceback hst pr c s ++ report pr c e sp) (v_data s)) [].
Proof.
  intros Hr. cbv zeta. unfold cli. destruct (w_file w name) as [text|x]; [|left; reflexivity].
  destruct (parse_with_includes _ _ _ _ _) as [ast is|e sp is|]; [|left; reflexivity|left; reflexivity].
  destruct (compile m ast) as [sc|e sp|]; [|left; reflexivity|left; reflexivity]. cbn [a_limits a_result].
  assert (B : beside o' (vm_new_with w sc o [stdio m (h_oracle hst) feq fhash]) (vm_new_with w sc o' [stdio m (h_oracle hst) feq fhash])).
  { apply (new_beside o o' w sc _ Hr). intros l n b [<-|[]]. apply library_fair. }
  apply (run_beside m hst o' k) in B. unfold vm_new_with in B. cbn [fold_left] in B.
  destruct (run m hst k (add_builtins_list _ (vm_new w sc o))) as [v t|e sp t| |t].
  - destruct B as (t' & E & pad & -> & _). rewrite E. left. destruct v; reflexivity.
  - destruct B as [B|(t' & E & pad & -> & _)].
    + right. right. exists (sources w (i_sources is)), e, sp, t. split; [exact B|reflexivity].
    + rewrite E. left; reflexivity.
  - right. left. reflexivity.
  - destruct B as (t' & E & _). rewrite E. left; reflexivity.
Qed.
