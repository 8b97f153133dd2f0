(** Examples and counterexamples on whole programs. *)
From Verif Require Import Base RleVec Pool SpecContainers ProofContainers Vecc Float NumText Bytecode
  Chunk Value Ast Arith VmOps Compiler Vm SpecVm ProofVm ProofVm2 ProofVm3 ProofVm4 ProofVm5 ProofVars ProofArithEx ExProg.

Section Runs.
Context {D : Type} (m : mode) (hst : host D).
Lemma loop_reach k : forall s0 s s', reach m hst s0 s -> loop m hst k s = ROut s' -> reach m hst s0 s'.
Proof.
  induction k as [|k IH]; cbn [loop]; intros s0 s s' Hr H; [congruence|].
  destruct (step m hst s) eqn:E; try discriminate. eapply IH; [|exact H]. eapply reach_step; eauto.
Qed.
Lemma loop_out k s s' : loop m hst k s = ROut s' -> reach m hst s s'.
Proof. apply loop_reach. constructor. Qed.
End Runs.

(** ** C02 *)
Definition two_block : nodeS := e (NBlock [let_ "x" (int 2); id "x"]).
Lemma block_operand :
  result [two_block] = Some (VInt 2) /\
  result [e (NBinary OAdd (int 1) (int 2))] = Some (VInt 3) /\
  result [e (NBinary OAdd (int 1) two_block)] = Some (VInt 4).
Proof. vm_compute. auto. Qed.

(** ** C06 *)
Definition late_host : host unit := mkHost (fun x => x) (fun x => x) (fun _ => 1%N) 10 no_oracle.
Definition spin : list nodeS := [e (NWhile (e (NLiteral (LBool true))) [none_])].
Definition spin_vm : vm unit := vm_new tt (script_of spin) (mkOptions 0 50 20 1000 1000).
Lemma sixty_five :
  too_late late_host spin_vm /\
  (exists s, loop Release late_host 65 spin_vm = ROut s) /\
  (exists sp s, loop Release late_host 66 spin_vm = RErr (ERuntimeLimit 0) sp s).
Proof.
  split; [intros k _; vm_compute; reflexivity|]. split; eexists; [vm_compute; reflexivity|].
  eexists. vm_compute. reflexivity.
Qed.

(** ** C10 *)
Definition stray_return : list nodeS := [e (NBlock [return_ (int 1)])].
Lemma stray_compiles : exists sc, compile Release stray_return = COk sc.
Proof. eexists. vm_compute. reflexivity. Qed.

(** ** C19: a host that records what happens *)
Inductive event := Entered (n : Z) | Left_ | Called (n : Z).
Definition arg_int (a : list value) : Z := match a with VInt z :: _ => z | _ => 0%Z end.
Definition logging : list (rstring * builtin (list event)) :=
  [ (str "ctx", BContext (fun d a _ => (d ++ [Entered (arg_int a)], Ok VNone)) (fun d => (d ++ [Left_], Ok tt)));
    (str "log", BFn (fun d a _ => (d ++ [Called (arg_int a)], Ok VNone)))].
Definition events (ast : list nodeS) : option (list event) :=
  match compile Release ast with
  | COk sc => option_map snd (runs (vm_new_with [] sc small [logging]))
  | _ => None
  end.
(* fn f() { with @ctx(1) { return 5 } }  f()  @log(2) *)
Definition return_in_with : list nodeS :=
  [fn_ "f" [] [with_ "ctx" [int 1] [return_ (int 5)]; return_ none_]; call (id "f") []; bcall "log" [int 2]].
(* with @ctx(1) { with @log(2) { none }  @log(3) } *)
Definition plain_in_with : list nodeS :=
  [with_ "ctx" [int 1] [with_ "log" [int 2] [none_]; bcall "log" [int 3]]].
(* with @ctx(1) { with @ctx(2) { none }  @log(3) }  @log(4) *)
Definition nested_with : list nodeS :=
  [with_ "ctx" [int 1] [with_ "ctx" [int 2] [none_]; bcall "log" [int 3]]; bcall "log" [int 4]].
Lemma contexts_witness :
  events return_in_with = Some [Entered 1; Called 2] /\
  events plain_in_with = Some [Entered 1; Called 2; Left_; Called 3] /\
  events nested_with = Some [Entered 1; Entered 2; Left_; Called 3; Left_; Called 4].
Proof. vm_compute. auto. Qed.

(** ** C23: unbounded recursion *)
Definition recursion : list nodeS := [fn_ "f" [] [return_ (call (id "f") [])]; call (id "f") []].
Definition recursion_vm : vm unit := vm_new tt (script_of recursion) small.
Definition at_step {D} (k : nat) (s : vm D) : vm D :=
  match loop Release plain_host k s with ROut s' => s' | _ => s end.
Lemma at_step_reach k (s : vm unit) : (exists s', loop Release plain_host k s = ROut s') ->
  reach Release plain_host s (at_step k s).
Proof. intros [s' E]. unfold at_step. rewrite E. eapply loop_out; eauto. Qed.
Lemma trace_witness : exists s : vm unit, reach Release plain_host recursion_vm s /\ depth s = 10 /\
  length (active_calls s) = 11 /\ length (shown (trace_back s)) = 10 /\ counted_hidden (trace_back s) = 0.
Proof.
  exists (at_step 22 recursion_vm). split; [apply at_step_reach; eexists; vm_compute; reflexivity|].
  vm_compute. auto.
Qed.

(** ** C25 across a script update *)
Definition one_two : list (rstring * builtin unit) :=
  [(str "a", BFn (fun d _ _ => (d, Ok (VInt 1)))); (str "b", BFn (fun d _ _ => (d, Ok (VInt 2))))].
Lemma update_witness :
  let s := vm_new_with tt (script_of [bcall "a" []]) small [one_two] in
  runs (vm_new_with tt (script_of [bcall "b" []]) small [one_two]) = Some (VInt 2, tt) /\
  runs (update_script (script_of [bcall "b" []]) s) = Some (VInt 1, tt).
Proof. vm_compute. auto. Qed.

(** ** C52 *)
Definition extern_x : list nodeS := [e (NExternal (name "x") (int 1)); id "x"].
Lemma extern_update :
  let s := vm_new tt (script_of [int 1]) small in
  check_external (script_of extern_x) (str "x") = true /\
  (exists s', set_external (str "x") (VInt 5) (vm_new tt (script_of extern_x) small) = Ok s' /\
              runs s' = Some (VInt 5, tt)) /\
  set_external (str "x") (VInt 5) (update_script (script_of extern_x) s) = Err (EExternalNotDefined (str "x")).
Proof.
  split; [vm_compute; reflexivity|]. split; [|vm_compute; reflexivity].
  eexists. split; [vm_compute; reflexivity|vm_compute; reflexivity].
Qed.

(* let g = none  fn f() { let n = 7  g = fn() { n }  @fail() }  f() *)
Definition keeper (last : nodeS) : list nodeS :=
  [let_ "g" none_;
   fn_ "f" [] [let_ "n" (int 7); assign "g" (e (NLambda [] [return_ (id "n")])); return_ last];
   call (id "f") []; e (NPair (int 8) (call (id "g") []))].
Definition after {D} (s : vm D) : option (vm D) :=
  match run Release plain_host 2000 s with RDone _ s' | RErr _ _ s' => Some s' | _ => None end.
Definition failing : list (rstring * builtin unit) :=
  [(str "fail", BFn (fun d _ _ => (d, Err (EBuiltin (str "x")))))].
Definition ask_g : list nodeS := [e (NPair (int 8) (call (id "g") []))].
Definition update_then (first : list nodeS) : option value :=
  match after (vm_new_with tt (script_of first) small [failing]) with
  | Some s => option_map fst (runs (update_script (script_of ask_g) s))
  | None => None
  end.
Lemma capture_update :
  update_then (keeper none_) = Some (VPair (VInt 8) (VInt 7)) /\
  update_then (keeper (bcall "fail" [])) <> Some (VPair (VInt 8) (VInt 7)).
Proof. split; vm_compute; [reflexivity|discriminate]. Qed.

(** ** The theorems in the form PropVm.v states them *)
Section Forms.
Context {D : Type} (m : mode) (hst : host D).

Lemma session_stack (s : vm D) : session m hst s -> v_sp s <= length (v_stack s).
Proof. intros H. destruct (session_limits m hst s H) as ((H1 & _) & H2). lia. Qed.
Lemma stack_size (s : vm D) : session m hst s ->
  v_sp s <= o_stack_size (v_opts s) /\ length (live s) = v_sp s.
Proof.
  intros H. destruct (session_limits m hst s H) as ((H1 & _) & H2). split; auto.
  unfold live. rewrite firstn_length. lia.
Qed.
Lemma push_in_session (s : vm D) v : session m hst s ->
  (v_sp s < o_stack_size (v_opts s) /\ exists s', push v s = AOk tt s' /\ live s' = live s ++ [v])
  \/ (v_sp s = o_stack_size (v_opts s) /\ exists sp, push v s = AErr EStackOverflow sp s).
Proof. intros H. destruct (session_limits m hst s H) as ((H1 & _) & H2). apply push_spec; auto. Qed.
Lemma call_depth (s : vm D) : session m hst s -> depth s <= o_call_stack_size (v_opts s).
Proof. intros H. destruct (session_limits m hst s H) as ((_ & H1 & _) & _). exact H1. Qed.
Lemma too_deep (s : vm D) below v args : session m hst s ->
  live s = below ++ v :: args -> depth s = o_call_stack_size (v_opts s) ->
  exists sp, exec m hst (ICallFunction (N.of_nat (length args))) s = AErr EStackOverflow sp s.
Proof. intros H Hl Hd. eapply call_deep; eauto. apply session_stack; auto. Qed.
Lemma stops_66 (s : vm D) : too_late hst s -> match loop m hst 66 s with ROut _ => False | _ => True end.
Proof. intros H. apply runtime_stops; auto. lia. Qed.
Lemma shared_cell (d : D) sc o ops : length ops <= o_stack_size o ->
  vm_var_run m hst (vm_new d sc o) [] ops = Some (var_run no_vars ops).
Proof. intros H. apply vars_agree; auto. cbn. apply repeat_length. Qed.
Lemma assign_global (s : vm D) i below v : v_sp s <= length (v_stack s) ->
  live s = below ++ [v] ->
  exec m hst (ISetGlobal i) s =
    match alookup N.eqb i (v_globals s) with
    | Some _ => AOk tt (set_globals (ainsert i v (v_globals s)) s)
    | None => error_1 (ENameUndefined (match pool_get (v_gsyms s) i with Some n => n | None => str "unkown???" end)) s
    end.
Proof.
  intros Hl E.
  assert (Hs : v_sp s = S (length below)).
  { unfold live in E. apply (f_equal (@length _)) in E. rewrite firstn_length, app_length in E. cbn in E. lia. }
  assert (Hn : nth_error (v_stack s) (length below) = Some v).
  { unfold live in E. rewrite <- (firstn_skipn (v_sp s) (v_stack s)), E, <- app_assoc.
    rewrite nth_error_app2, Nat.sub_diag by lia. reflexivity. }
  cbn [exec]. unfold abind at 1, peek, peekn. rewrite Hs. cbn [Nat.ltb Nat.leb]. unfold slot.
  replace (S (length below) - 0 - 1) with (length below) by lia. rewrite Hn.
  unfold abind, agets, global_name, agets. destruct (alookup N.eqb i (v_globals s)); reflexivity.
Qed.
Lemma host_sets m' ast sc (d : D) o bs l : compile m' ast = COk sc -> names_fit sc bs ->
  let s := vm_new_with d sc o bs : vm D in
  if forallb (fun nv => check_external sc (fst nv)) l
  then exists s', set_all l s = Ok s' /\ forall n, global_of s' n = registered n l
  else exists n, In n (map fst l) /\ check_external sc n = false /\
                 set_all l s = Err (EExternalNotDefined n).
Proof. intros E Hf. destruct (compile_names _ _ _ E). apply externals_set; auto. Qed.
Lemma call_accepts (s : vm D) below c args : session m hst s ->
  live s = below ++ VFn c :: args -> fn_arity (mfn_function c) = N.of_nat (length args) ->
  depth s < o_call_stack_size (v_opts s) ->
  exists s', exec m hst (ICallFunction (N.of_nat (length args))) s = AOk tt s' /\
    v_frames s' = v_frame s :: v_frames s /\ f_fn (v_frame s') = mfn_function c /\
    f_ip (v_frame s') = 0 /\ live s' = live s /\ f_st (v_frame s') = length below /\
    (forall i a, nth_error args i = Some a ->
       nth_error (v_stack s') (f_st (v_frame s') + 1 + i) = Some a).
Proof. intros H. intros. eapply call_ok; eauto. apply session_stack; auto. Qed.
Lemma call_rejects (s : vm D) below v args : session m hst s ->
  live s = below ++ v :: args -> depth s < o_call_stack_size (v_opts s) ->
  let n := N.of_nat (length args) in
  (forall c, v = VFn c -> fn_arity (mfn_function c) <> n ->
     exists sp, exec m hst (ICallFunction n) s =
       AErr (EMismatchedArity (fn_name (mfn_function c)) (fn_arity (mfn_function c)) n) sp s) /\
  ((forall c, v <> VFn c) ->
     exists sp, exec m hst (ICallFunction n) s = AErr (ENotCallable (ntype mfi v)) sp s).
Proof. intros H. intros. eapply call_bad; eauto. apply session_stack; auto. Qed.
Lemma builtin_by_name ast sc (d : D) o bs s n b below args :
  compile m ast = COk sc -> names_fit sc bs ->
  pool_id seqb (sc_globals sc) n = Some b ->
  reach m hst (vm_new_with d sc o bs) s ->
  next_instr s = Some (ICallBuiltin b (N.of_nat (length args))) ->
  live s = below ++ args ->
  match registered n (concat bs) with
  | None => ends_with (fun e => is_limit e \/ e = EUndefinedBuiltin n) (step m hst s)
  | Some (BContext _ _) =>
      ends_with (fun e => is_limit e \/ e = ENotCallable (str "context manager")) (step m hst s)
  | Some (BFn f) =>
      match f (v_data s) args (v_opts s) with
      | (d', Ok r) =>
          (exists s', step m hst s = SNext s' /\ live s' = below ++ [r] /\ v_data s' = d') \/
          ends_with (fun e => is_limit e \/ e = EStackOverflow /\ args = []) (step m hst s)
      | (_, Err e) => ends_with (fun e' => is_limit e' \/ e' = e) (step m hst s)
      | (_, Panic) => step m hst s = SPanic \/ ends_with is_limit (step m hst s)
      end
  end.
Proof. intros E Hf. destruct (compile_names _ _ _ E). apply by_name; auto. Qed.
Lemma closed_survives (s : vm D) sc c v : nth_error (v_heap s) c = Some (Closed v) ->
  up_get c (update_script sc s) = AOk v (update_script sc s).
Proof. intros H. unfold up_get. change (v_heap (update_script sc s)) with (v_heap s). rewrite H. reflexivity. Qed.
End Forms.

Lemma added_builtins {D} (bs : list (list (rstring * builtin D))) : forall (s : vm D) i b,
  alookup N.eqb i (v_builtins (fold_left (fun s l => add_builtins_list l s) bs s)) = Some b ->
  alookup N.eqb i (v_builtins s) = Some b \/ exists n, In (n, b) (concat bs).
Proof.
  assert (H1 : forall l (s : vm D) i b, alookup N.eqb i (v_builtins (add_builtins_list l s)) = Some b ->
             alookup N.eqb i (v_builtins s) = Some b \/ exists n, In (n, b) l).
  { induction l as [|[n b'] l IH]; intros s i b; cbn [add_builtins_list]; auto.
    destruct (pool_add _ _ _) as [p id']. intros H. apply IH in H as [H|[n' H]]; [|right; exists n'; right; auto].
    cbn [v_builtins set_builtins] in H. rewrite alookup_ainsert in H. destruct (i =? id')%N; auto.
    injection H as ->. right. exists n. left. auto. }
  induction bs as [|l bs IH]; intros s i b; cbn [fold_left concat]; auto.
  intros H. apply IH in H as [H|[n H]].
  - apply H1 in H as [H|[n H]]; auto. right. exists n. apply in_or_app; auto.
  - right. exists n. apply in_or_app; auto.
Qed.

Lemma fresh_with {D} (bs : list (list (rstring * builtin D))) : forall s : vm D,
  let s' := fold_left (fun s l => add_builtins_list l s) bs s in
  v_stack s' = v_stack s /\ v_sp s' = v_sp s /\ v_frames s' = v_frames s /\ v_exits s' = v_exits s /\
  v_data s' = v_data s /\ v_opts s' = v_opts s.
Proof.
  assert (H1 : forall l (s : vm D), let s' := add_builtins_list l s in
     v_stack s' = v_stack s /\ v_sp s' = v_sp s /\ v_frames s' = v_frames s /\ v_exits s' = v_exits s /\
     v_data s' = v_data s /\ v_opts s' = v_opts s).
  { induction l as [|[n b'] l IH]; intros s; cbn [add_builtins_list]; cbn zeta; [repeat split|].
    destruct (pool_add _ _ _) as [p id'].
    exact (IH (set_builtins (ainsert id' b' (v_builtins s)) (set_gsyms p s))). }
  induction bs as [|l bs IH]; intros s; cbn [fold_left]; cbn zeta; [repeat split|].
  specialize (IH (add_builtins_list l s)). specialize (H1 l s). cbn zeta in *. intuition congruence.
Qed.

Lemma callbacks {D} m (f g : D -> D) clock k o d sc opts bs s :
  let hst := counting_host f g clock k o in
  let s0 := vm_new_with d sc opts bs in
  (forall n b, In (n, b) (concat bs) -> uncounted b) ->
  reach m hst s0 s ->
  enters (v_data s) + leaves d = leaves (v_data s) + enters d + depth s /\
  forall v s', step m hst s = SDone v s' ->
    enters (v_data s') + leaves d = leaves (v_data s') + enters d.
Proof.
  intros hst s0 Hb Hr. destruct (fresh_with bs (vm_new d sc opts)) as (H1 & H2 & H3 & H4 & H5 & H6).
  cbn zeta in *. fold (vm_new_with d sc opts bs) in *. fold s0 in H1, H2, H3, H4, H5, H6.
  change d with (v_data (vm_new d sc opts)). rewrite <- H5. apply (counts_balance m f g clock k o s0 s); auto.
  - rewrite H1, H6. cbn. apply repeat_length.
  - rewrite H2, H6. cbn. lia.
  - intros i b Hi. apply added_builtins in Hi as [Hi|[n Hi]]; [discriminate Hi|eauto].
Qed.

Lemma sixty_five_witness :
  exists (hst : host unit) s, too_late hst s /\ exists s', loop Release hst 65 s = ROut s'.
Proof. exists late_host, spin_vm. exact (conj (proj1 sixty_five) (proj1 (proj2 sixty_five))). Qed.
Lemma recursion_session : let s := at_step 22 recursion_vm in
  session Release plain_host s /\ v_sp s = 10 /\ o_stack_size (v_opts s) = 50.
Proof.
  split; [|vm_compute; auto]. eapply reach_session; [apply (se_new Release plain_host)|].
  apply at_step_reach; eexists; vm_compute; reflexivity.
Qed.
Lemma recursion_stops :
  (exists sp s, run Release plain_host 2000 recursion_vm = RErr EStackOverflow sp s) /\
  session Release plain_host (at_step 42 recursion_vm) /\
  depth (at_step 42 recursion_vm) = o_call_stack_size (v_opts (at_step 42 recursion_vm)).
Proof.
  split; [do 2 eexists; vm_compute; reflexivity|]. split; [|vm_compute; reflexivity].
  eapply reach_session; [apply (se_new Release plain_host)|].
  apply at_step_reach; eexists; vm_compute; reflexivity.
Qed.
Lemma call_example :
  session Release plain_host (at_step 5 recursion_vm) /\
  (exists below f, live (at_step 5 recursion_vm) = below ++ [VFn f] /\
     fn_arity (mfn_function f) = 0%N) /\
  depth (at_step 5 recursion_vm) < o_call_stack_size (v_opts (at_step 5 recursion_vm)).
Proof.
  split; [eapply reach_session; [apply (se_new Release plain_host)|];
          apply at_step_reach; eexists; vm_compute; reflexivity|].
  split; [|vm_compute; lia].
  eexists (removelast (live (at_step 5 recursion_vm))), _. split; vm_compute; reflexivity.
Qed.
Lemma trace_miscounts :
  exists s : vm unit, reach Release plain_host recursion_vm s /\
    length (shown (trace_back s)) + counted_hidden (trace_back s) <> length (active_calls s).
Proof. destruct trace_witness as (s & H1 & _ & H2 & H3 & H4). exists s. split; auto. lia. Qed.
Lemma externals_lost :
  exists sc sc' n, let s := vm_new tt sc small in
    check_external sc' n = true /\
    set_external n (VInt 5) (update_script sc' s) = Err (EExternalNotDefined n).
Proof.
  exists (script_of [int 1]), (script_of extern_x), (str "x").
  exact (conj (proj1 extern_update) (proj2 (proj2 extern_update))).
Qed.
Definition globals_vm : vm unit :=
  vm_new tt (script_of [let_ "a" (int 5); let_ "b" (int 6); assign "a" (int 7); id "a"]) small.
Fixpoint log_of {D} (k : nat) (s : vm D) (log : list (N * value)) : list (N * value) * vm D :=
  match k with
  | O => (log, s)
  | S k => match step Release plain_host s with
           | SNext s' => log_of k s' (log ++ global_write s)
           | _ => (log, s)
           end
  end.
Lemma log_of_run k : forall s0 (s : vm unit) log, run_log Release plain_host s0 log s ->
  run_log Release plain_host s0 (fst (log_of k s log)) (snd (log_of k s log)).
Proof.
  induction k as [|k IH]; intros s0 s log H; cbn [log_of]; auto.
  destruct (step Release plain_host s) eqn:E; auto. apply IH. eapply rl_step; eauto.
Qed.
Lemma globals_witness :
  exists log s, run_log Release plain_host globals_vm log s /\ next_instr s = Some (ILoadGlobal 0%N) /\
    log = [(0%N, VInt 5); (1%N, VInt 6); (0%N, VInt 7)] /\ last_write 0%N log = Some (VInt 7).
Proof.
  exists (fst (log_of 7 globals_vm [])), (snd (log_of 7 globals_vm [])).
  split; [apply log_of_run; constructor|]. vm_compute. auto.
Qed.
Lemma extern_example :
  exists sc, compile Release extern_x = COk sc /\ names_fit (D := unit) sc [] /\
    check_external sc (str "x") = true /\ check_external sc (str "y") = false /\
    runs (vm_new tt sc small) = Some (VInt 1, tt) /\
    exists s', set_all [(str "x", VInt 4); (str "x", VInt 5)] (vm_new tt sc small) = Ok s' /\
               runs s' = Some (VInt 5, tt).
Proof.
  exists (script_of extern_x). split; [vm_compute; reflexivity|].
  split; [unfold names_fit; change (length _ + length _) with 1; lia|].
  split; [vm_compute; reflexivity|]. split; [vm_compute; reflexivity|]. split; [vm_compute; reflexivity|].
  eexists. split; [vm_compute; reflexivity|]. vm_compute. reflexivity.
Qed.
Lemma callbacks_example :
  forall k, k <= 40 -> exists s, loop Release (counting_host (fun x : unit => x) (fun x => x) (fun _ => 0%N) 10 no_oracle) k
      (vm_new_with (tt, (0, 0)) (script_of recursion) small []) = ROut s /\
    enters (v_data s) = depth s.
Proof.
  intros k Hk. do 41 (destruct k as [|k]; [eexists; split; vm_compute; reflexivity|]). lia.
Qed.
Lemma by_name_example :
  exists sc s, compile Release [bcall "b" [int 3; int 4]] = COk sc /\ names_fit sc [one_two] /\
    reach Release plain_host (vm_new_with tt sc small [one_two]) s /\
    exists b, pool_id seqb (sc_globals sc) (str "b") = Some b /\
      next_instr s = Some (ICallBuiltin b 2%N) /\ live s = [] ++ [VInt 3; VInt 4] /\
      exists f, registered (str "b") (concat [one_two]) = Some (BFn f).
Proof.
  exists (script_of [bcall "b" [int 3; int 4]]).
  exists (at_step 2 (vm_new_with tt (script_of [bcall "b" [int 3; int 4]]) small [one_two])).
  split; [vm_compute; reflexivity|].
  split; [unfold names_fit; change (length _ + length _) with 3; lia|].
  split; [apply at_step_reach; eexists; vm_compute; reflexivity|].
  eexists. split; [vm_compute; reflexivity|]. split; [vm_compute; reflexivity|].
  split; [vm_compute; reflexivity|]. eexists. reflexivity.
Qed.
