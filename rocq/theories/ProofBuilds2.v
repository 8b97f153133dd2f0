(** A checked build that does not abort does what the release build does: the machine (C105). *)
From Verif Require Import Base RleVec Pool Vecc Float NumText Bytecode Chunk Value Ast Arith VmOps Args Builtins Compiler Vm Std Console Includes Report Repl Lines Disasm Listing Cli Main SpecVm SpecBuilds ProofBuilds ProofOnly.

Lemma looked_all {D} id (b1 b2 : list (N * builtin D)) : Forall2 (fun x y => fst x = fst y /\ checked_builtin (snd x) (snd y)) b1 b2 ->
  match alookup N.eqb id b1, alookup N.eqb id b2 with Some a, Some b => checked_builtin a b | None, None => True | _, _ => False end.
Proof.
  intros H. induction H as [|[i x] [j y] l l' [E F] H IH]; cbn [alookup]; [exact Logic.I|]. cbn [fst snd] in *. subst j. destruct (N.eqb id i); [exact F|exact IH].
Qed.

Section Machine.
Context {D : Type} (hst : host D) (g : pool rstring) (b1 b2 : list (N * builtin D)).
Context (HB : Forall2 (fun x y => fst x = fst y /\ checked_builtin (snd x) (snd y)) b1 b2).
Notation vm := (vm D).
Notation room := (room g b2).
Notation okay := (okay g b1).
Notation sim := (sim g g b1 b2).

Definition tame {A} (a a' : act D A) : Prop := forall s, okay s ->
  match a s with
  | AOk x t => okay t /\ a' (room s) = AOk x (room t)
  | AErr e sp t => okay t /\ a' (room s) = AErr e sp (room t)
  | APanic => True
  end.
Lemma tame_sim {A} (a : act D A) : sim a -> tame a a.
Proof. intros H s Hs. specialize (H s Hs). destruct (a s); auto. Qed.
Lemma tame_bind {A B} (x x' : act D A) (k k' : A -> act D B) : tame x x' -> (forall a, tame (k a) (k' a)) -> tame (abind x k) (abind x' k').
Proof.
  intros Hx Hk s Hs. unfold abind. specialize (Hx s Hs). destruct (x s) as [a t|e sp t|]; [|destruct Hx as [Hx ->]; auto|exact Logic.I].
  destruct Hx as [Ht ->]. apply Hk, Ht.
Qed.
Lemma tame_lift {A} (x y : res A) : less x y -> tame (lift_1 x) (lift_1 y).
Proof. intros [->| ->]; [intros s Hs; exact Logic.I|]. apply tame_sim, sim_lift. Qed.
Lemma tame_builtin f f' args : checked_fn f f' -> tame (run_builtin f args) (run_builtin f' args).
Proof.
  intros H s Hs. unfold run_builtin. cbn [ProofOnly.room v_data v_opts]. destruct (H (v_data s) args (v_opts s)) as [E|E].
  - destruct (f (v_data s) args (v_opts s)) as [d r]. cbn [snd] in E. subst r. exact Logic.I.
  - rewrite E. exact (tame_sim _ (sim_builtin g g b1 b2 f' args) s Hs).
Qed.
Lemma looked id : match alookup N.eqb id b1, alookup N.eqb id b2 with
  | Some a, Some b => checked_builtin a b | None, None => True | _, _ => False end.
Proof. exact (looked_all id b1 b2 HB). Qed.
Ltac ts := first [apply sim_ret|apply sim_panic|apply sim_err0|apply sim_err1|apply sim_errf|apply sim_lift|apply sim_push|apply sim_push_unchecked
  |apply sim_slot|apply sim_set_slot|apply sim_pop|apply sim_peekn|(apply sim_name; reflexivity)|apply sim_time|apply sim_args|apply sim_jump|apply sim_double|(apply sim_gets; reflexivity)
  |exact (sim_exits g g b1 b2 (fun l => _ :: l))|apply sim_bind; [|intros]].
Ltac same := apply tame_sim; repeat ts.
Lemma tame_table {B} b (k k' : option (builtin D) -> act D B) : tame (k (alookup N.eqb b b1)) (k' (alookup N.eqb b b2)) ->
  tame (abind (agets (fun s => alookup N.eqb b (v_builtins s))) k) (abind (agets (fun s => alookup N.eqb b (v_builtins s))) k').
Proof. intros H s Hs. unfold abind, agets. cbn [ProofOnly.room v_builtins]. destruct Hs as [Hs1 Hs2]. rewrite Hs2. exact (H s (conj Hs1 Hs2)). Qed.
Lemma tame_call b argc : tame (exec Debug hst (ICallBuiltin b argc)) (exec Release hst (ICallBuiltin b argc)).
Proof.
  cbn [exec]. apply tame_table. pose proof (looked b) as L.
  destruct (alookup N.eqb b b1) as [[f|f x]|], (alookup N.eqb b b2) as [[f'|f' x']|]; cbn [checked_builtin] in L; try (destruct L; fail); try (same; fail).
  apply tame_bind; [same|intros args]. apply tame_bind; [now apply tame_builtin|intros r]. same.
Qed.
Lemma tame_enter b argc : tame (exec Debug hst (IEnterContext b argc)) (exec Release hst (IEnterContext b argc)).
Proof.
  cbn [exec]. apply tame_table. pose proof (looked b) as L.
  destruct (alookup N.eqb b b1) as [[f|f x]|], (alookup N.eqb b b2) as [[f'|f' x']|]; cbn [checked_builtin] in L; try (destruct L; fail); try (same; fail).
  - apply tame_bind; [same|intros args]. apply tame_bind; [same|intros _]. apply tame_bind; [now apply tame_builtin|intros r]. same.
  - destruct L as [L <-]. apply tame_bind; [same|intros args]. apply tame_bind; [same|intros _]. apply tame_bind; [now apply tame_builtin|intros r]. same.
Qed.
Lemma tame_iter off : tame (exec Debug hst (IIterNext off)) (exec Release hst (IIterNext off)).
Proof.
  cbn [exec]. apply tame_bind; [same|intros sp]. destruct (sp <? 3); [same|]. apply tame_bind; [same|intros c]. destruct c; try (same; fail).
  apply tame_bind; [same|intros _]. apply tame_bind; [same|intros it]. apply tame_bind; [apply tame_lift, less_iter|intros [v|]]; same.
Qed.
Lemma tame_binary o : tame (exec Debug hst (IBinary o)) (exec Release hst (IBinary o)).
Proof.
  cbn [exec]. apply tame_bind; [same|intros ab]. intros s Hs. change (feq_at hst (room s)) with (feq_at hst s). cbn [ProofOnly.room v_opts].
  pose proof (less_binary (h_oracle hst) mfi (feq_at hst s) (o_string_max (v_opts s)) (o_array_max (v_opts s)) o) as L.
  destruct (binary_fn Debug _ _ _ _ _ o) as [f|]; [|exact Logic.I]. destruct (binary_fn Release _ _ _ _ _ o) as [f'|]; [|destruct L].
  refine (tame_bind _ _ _ _ (tame_lift _ _ (L _ _)) _ s Hs). intros r. same.
Qed.
Lemma tame_unary o : tame (exec Debug hst (IUnary o)) (exec Release hst (IUnary o)).
Proof.
  cbn [exec]. apply tame_bind; [same|intros v]. pose proof (less_unary (Fn := mfn) mfi o) as L.
  destruct (unary_fn Debug mfi o) as [f|], (unary_fn Release mfi o) as [f'|]; try destruct L; [|same]. apply tame_bind; [apply tame_lift, L|intros; same].
Qed.
Lemma tame_exec i : tame (exec Debug hst i) (exec Release hst i).
Proof.
  destruct i; try apply tame_call; try apply tame_enter; try apply tame_iter; try apply tame_binary; try apply tame_unary;
    try (apply tame_sim; apply (exec_sim Release hst g g b1 b2); cbn [fine]; first [exact Logic.I|reflexivity]; fail).
  cbn [exec]. apply tame_bind; [same|intros v]. apply tame_bind; [same|intros x]. apply tame_bind; [apply tame_lift, less_get|intros; same].
Qed.
Definition tames (a b : sres D) : Prop :=
  match a with
  | SNext t => okay t /\ b = SNext (room t)
  | SDone v t => okay t /\ b = SDone v (room t)
  | SErr e sp t => okay t /\ b = SErr e sp (room t)
  | SPanic => True
  end.
Lemma tame_return s : okay s -> tames (do_return Debug hst s) (do_return Release hst (room s)).
Proof.
  intros H. unfold do_return. pose proof (sim_pop g g b1 b2 s H) as P. destruct (pop s) as [v s1|e sp s1|]; [|destruct P as [P1 P2]; rewrite P2; split; auto|exact Logic.I].
  destruct P as [H1 E1]. rewrite E1. change (v_frame (room s1)) with (v_frame s1). change (v_sp (room s1)) with (v_sp s1).
  pose proof (sim_range g g b1 b2 (v_sp s1 - f_st (v_frame s1)) (f_st (v_frame s1)) s1 H1) as P.
  destruct (close_range _ _ s1) as [x t|e sp t|]; [|destruct P as [P1 P2]; rewrite P2; split; auto|exact Logic.I].
  destruct P as [T3 P]. rewrite P. change (v_frames (room t)) with (v_frames t).
  destruct (v_frames t) as [|fr rest] eqn:Ef.
  - change (v_sp (room t)) with (v_sp t). destruct (v_sp t); [|exact Logic.I]. split; [exact T3|reflexivity].
  - cbn zeta. set (u := set_frames rest fr (set_stack (v_stack (set_data (h_leave hst (v_data t)) t)) (f_st (v_frame (set_data (h_leave hst (v_data t)) t))) (set_data (h_leave hst (v_data t)) t))).
    assert (K : okay u) by exact T3.
    match goal with |- context [push v ?x] => match x with u => fail 1 | _ => change x with (room u) end end.
    pose proof (sim_push g g b1 b2 v u K) as Q. destruct (push v u) as [y u1|e sp u1|]; [|destruct Q as [Q1 Q2]; rewrite Q2; split; auto|exact Logic.I].
    destruct Q as [P1 P2]. rewrite P2. split; [exact P1|reflexivity].
Qed.
Lemma tame_step s : okay s -> tames (step Debug hst s) (step Release hst (room s)).
Proof.
  intros H. unfold step. pose proof (tick_sim hst g g b1 b2 s H) as T. destruct (tick hst s) as [x t|e sp t|]; [|destruct T as [T1 T2]; rewrite T2; split; auto|exact Logic.I].
  destruct T as [Ht E]. rewrite E. change (cur_chunk (room t)) with (cur_chunk t). change (ip (room t)) with (ip t).
  destruct (chunk_len (cur_chunk t) <=? ip t); [split; [exact Ht|reflexivity]|].
  destruct (decode _ _) as [[i next]| |]; try exact Logic.I.
  assert (K : okay (set_ip next t)) by exact Ht.
  change (set_ip next (room t)) with (room (set_ip next t)). pose proof (tame_exec i _ K) as X.
  assert (Y : tames match exec Debug hst i (set_ip next t) with AOk _ s' => SNext s' | AErr e sp s' => SErr e sp s' | APanic => SPanic end
                    match exec Release hst i (room (set_ip next t)) with AOk _ s' => SNext s' | AErr e sp s' => SErr e sp s' | APanic => SPanic end).
  { destruct (exec Debug hst i (set_ip next t)) as [y u|e sp u|]; [|destruct X as [X1 X2]; rewrite X2; split; auto|exact Logic.I].
    destruct X as [X1 X2]. rewrite X2. split; [exact X1|reflexivity]. }
  destruct i; try exact Y. now apply tame_return.
Qed.
Lemma tame_loop k : forall s, okay s ->
  match loop Debug hst k s with
  | RDone v t => okay t /\ loop Release hst k (room s) = RDone v (room t)
  | RErr e sp t => okay t /\ loop Release hst k (room s) = RErr e sp (room t)
  | ROut t => okay t /\ loop Release hst k (room s) = ROut (room t)
  | RPanic => True
  end.
Proof.
  induction k as [|k IH]; intros s H; cbn [loop]; [split; auto|]. pose proof (tame_step s H) as X.
  destruct (step Debug hst s) as [t|v t|e sp t|]; cbn [tames] in X; [|destruct X as [X1 ->]; auto|destruct X as [X1 ->]; auto|exact Logic.I].
  destruct X as [Ht ->]. now apply IH.
Qed.
Lemma same_room s : okay s -> same_machine s (room s).
Proof. intros [H1 H2]. repeat split. intros x. unfold global_of. cbn [ProofOnly.room v_gsyms v_globals]. now rewrite H1. Qed.
Theorem tame_run k s : okay s -> checked_run (run Debug hst k s) (run Release hst k (room s)).
Proof.
  intros H. unfold run. change (set_count 0 0 (room s)) with (room (set_count 0 0 s)). pose proof (tame_loop k (set_count 0 0 s) H) as L.
  destruct (loop Debug hst k (set_count 0 0 s)) as [v t|e sp t| |t]; cbn [checked_run]; [| | exact Logic.I|]; destruct L as [L ->]; repeat split; now apply same_room.
Qed.
End Machine.

(** Registering. *)
Definition beside {D} (s t : vm D) : Prop :=
  exists b2, t = room (v_gsyms s) b2 s /\ Forall2 (fun x y : N * builtin _ => fst x = fst y /\ checked_builtin (snd x) (snd y)) (v_builtins s) b2.
Lemma ainsert_two {D} id (x y : builtin D) b1 b2 : checked_builtin x y -> Forall2 (fun x y : N * builtin _ => fst x = fst y /\ checked_builtin (snd x) (snd y)) b1 b2 ->
  Forall2 (fun x y : N * builtin _ => fst x = fst y /\ checked_builtin (snd x) (snd y)) (ainsert id x b1) (ainsert id y b2).
Proof. intros C H. unfold ainsert. constructor; auto. Qed.
Lemma beside_add {D} l l' : checked_builtins l l' -> forall s t : vm D, beside s t -> beside (add_builtins_list l s) (add_builtins_list l' t).
Proof.
  induction 1 as [|[n x] [n' y] l l' [E C] H IH]; intros s t B; cbn [add_builtins_list]; [exact B|]. cbn [fst snd] in *. subst n'.
  destruct B as (b2 & -> & F). change (v_gsyms (room (v_gsyms s) b2 s)) with (v_gsyms s). destruct (pool_add seqb (v_gsyms s) n) as [p id]. apply IH.
  exists (ainsert id y b2). split; [reflexivity|]. apply ainsert_two; auto.
Qed.
Lemma beside_new {D} (d : D) sc o bs bs' : Forall2 checked_builtins bs bs' -> beside (vm_new_with d sc o bs) (vm_new_with d sc o bs').
Proof.
  unfold vm_new_with. assert (B : beside (vm_new d sc o) (vm_new d sc o)) by (exists []; split; [reflexivity|constructor]).
  intros H. revert B. generalize (vm_new d sc o) at 2 4. generalize (vm_new d sc o). induction H as [|l l' bs bs' C H IH]; intros s t B; cbn [fold_left]; [exact B|].
  apply IH. now apply beside_add.
Qed.
Definition beside_run {D} (a b : rres D) : Prop :=
  match a, b with
  | RPanic, _ => True
  | RDone v t, RDone v' t' => v' = v /\ beside t t'
  | RErr e sp t, RErr e' sp' t' => e' = e /\ sp' = sp /\ beside t t'
  | ROut t, ROut t' => beside t t'
  | _, _ => False
  end.
Lemma beside_runs {D} (hst : host D) k s t : beside s t -> beside_run (run Debug hst k s) (run Release hst k t).
Proof.
  intros (b2 & -> & F). unfold run. change (set_count 0 0 (room (v_gsyms s) b2 s)) with (room (v_gsyms s) b2 (set_count 0 0 s)).
  pose proof (tame_loop hst (v_gsyms s) (v_builtins s) b2 F k (set_count 0 0 s) (conj eq_refl eq_refl)) as L.
  assert (B : forall t, okay (v_gsyms s) (v_builtins s) t -> beside t (room (v_gsyms s) b2 t)).
  { intros u [H1 H2]. exists b2. rewrite H1, H2. split; [reflexivity|exact F]. }
  destruct (loop Debug hst k (set_count 0 0 s)) as [v u|e sp u| |u]; cbn [beside_run]; [| | exact Logic.I|]; destruct L as [L ->]; repeat split; now apply B.
Qed.
Lemma beside_same {D} (s t : vm D) : beside s t -> same_machine s t.
Proof. intros (b2 & -> & F). repeat split. Qed.
Theorem checked_runs {D} (hst : host D) k s t : beside s t -> checked_run (run Debug hst k s) (run Release hst k t).
Proof.
  intros B. pose proof (beside_runs hst k s t B) as H. destruct (run Debug hst k s), (run Release hst k t); cbn in *; intuition auto using beside_same.
Qed.
Lemma library_checked {D} orc feq : checked_builtins (std (D := D) Debug orc feq) (std Release orc feq).
Proof.
  unfold checked_builtins, std. assert (N : map fst (std_list Debug orc mfi feq 0) = map fst (std_list Release orc mfi feq 0)) by reflexivity.
  revert N. generalize (std_list Debug orc mfi feq 0) (std_list Release orc mfi feq 0). induction l as [|a l IH]; intros [|b l'] N; try discriminate N; cbn [map] in *; [constructor|].
  injection N as E N. constructor; [|now apply IH]. split; [exact E|]. cbn [snd checked_builtin]. intros d args o. rewrite E. cbn [snd].
  destruct (less_call orc mfi feq (o_array_max o) (fst b) args) as [K|K]; rewrite K; auto.
Qed.
Lemma checked_same {D} (l : list (rstring * builtin D)) : checked_builtins l l.
Proof. induction l as [|[n [f|f x]] l IH]; constructor; auto; (split; [reflexivity|]); cbn; [|split; [|reflexivity]]; intros d a o; now right. Qed.
Lemma stdio_checked orc feq fhash : checked_builtins (stdio Debug orc feq fhash) (stdio Release orc feq fhash).
Proof. unfold stdio. apply Forall2_app; [apply library_checked|apply checked_same]. Qed.

(** Sessions. *)
Definition repls {D} (r r' : repl D) : Prop := beside (rp_vm r) (rp_vm r') /\ rp_compiler r' = rp_compiler r /\ Forall2 checked_builtins (rp_builtins r) (rp_builtins r').
Lemma beside_update {D} sc (s t : vm D) : beside s t -> beside (update_script sc s) (update_script sc t).
Proof. intros (b2 & -> & F). exists b2. split; [reflexivity|exact F]. Qed.
Lemma beside_all {D} bs bs' : Forall2 checked_builtins bs bs' -> forall s t : vm D, beside s t ->
  beside (fold_left (fun s l => add_builtins_list l s) bs s) (fold_left (fun s l => add_builtins_list l s) bs' t).
Proof. induction 1 as [|l l' bs bs' C H IH]; intros s t B; cbn [fold_left]; [exact B|]. apply IH. now apply beside_add. Qed.
Lemma repl_new_two {D} (d : D) o bs bs' : Forall2 checked_builtins bs bs' -> repls (repl_new d o bs) (repl_new d o bs').
Proof. intros H. split; [|split; [reflexivity|exact H]]. exists []. split; [reflexivity|constructor]. Qed.
Lemma stmnts_comes ast : comes (compile_stmnts Debug ast) (compile_stmnts Release ast).
Proof. apply comes_stmnts. apply Forall_forall. intros e _ p. apply en_cnode. Qed.
Lemma execute_two {D} (hst : host D) k r r' line : repls r r' ->
  aborted (fst (execute Debug hst k r line)) \/
  checked_outcome (fst (execute Debug hst k r line)) (fst (execute Release hst k r' line)) /\ repls (snd (execute Debug hst k r line)) (snd (execute Release hst k r' line)).
Proof.
  intros (B & C & H). destruct line as [ast|]; cbn [execute]; [|right; split; [exact Logic.I|repeat split; auto]]. rewrite C.
  destruct (stmnts_comes ast (rp_compiler r)) as [E|E].
  - left. destruct (compile_stmnts Debug ast (rp_compiler r)) as [[a|e sp|] c]; try discriminate E. exact Logic.I.
  - rewrite <- E. destruct (compile_stmnts Debug ast (rp_compiler r)) as [[a|e sp|] c]; cbn [fst snd]; [|right; split; [cbn; auto|repeat split; auto]|now left].
    cbv zeta. set (s := fold_left _ (rp_builtins r) _). set (t := fold_left _ (rp_builtins r') _).
    assert (K : beside s t) by (apply beside_all; [exact H|now apply beside_update]).
    pose proof (beside_runs hst k s t K) as R. pose proof (checked_runs hst k s t K) as R'.
    cbn [fst snd]. destruct (run Debug hst k s) as [v u|e sp u| |u]; [right|right|now left|right];
      destruct (run Release hst k t) as [v' u'|e' sp' u'| |u']; cbn [beside_run] in R; try (destruct R; fail); (split; [exact R'|]); (split; [|split; [reflexivity|exact H]]); cbn [rp_vm after]; tauto.
Qed.
Lemma session_two {D} (hst : host D) k lines : forall r r', repls r r' ->
  checked_session (fst (session_of Debug hst k r lines)) (fst (session_of Release hst k r' lines)).
Proof.
  induction lines as [|l lines IH]; intros r r' R; cbn [session_of]; [exact Logic.I|].
  pose proof (execute_two hst k r r' l R) as X. destruct (execute Debug hst k r l) as [o r1], (execute Release hst k r' l) as [o' r1']. cbn [fst snd] in X.
  assert (Y : aborted o \/ checked_session (fst (session_of Debug hst k r1 lines)) (fst (session_of Release hst k r1' lines))) by (destruct X as [X|[X1 X2]]; auto).
  destruct (session_of Debug hst k r1 lines) as [os r2], (session_of Release hst k r1' lines) as [os' r2']. cbn [fst checked_session] in *. tauto.
Qed.

(** The command. *)
Section Command.
Context (hst : host world) (orc : oracle) (pr : printer) (elapsed : rstring -> rstring) (feq : mfn -> mfn -> res bool) (fhash : mfn -> res (list hitem)).
Lemma finish_two k g a c sc w : finish Debug hst pr elapsed feq fhash k g a c sc w = Aborted \/
  finish Debug hst pr elapsed feq fhash k g a c sc w = finish Release hst pr elapsed feq fhash k g a c sc w.
Proof.
  unfold finish. set (s := add_builtins_list (stdio Debug _ _ _) _). set (t := add_builtins_list (stdio Release _ _ _) _).
  assert (K : beside s t) by (apply beside_add; [apply stdio_checked|exists []; split; [reflexivity|constructor]]).
  pose proof (checked_runs hst k s t K) as R. unfold traceback.
  destruct (run Debug hst k s) as [v u|e sp u| |u]; [right|right|(left; reflexivity)|right];
    destruct (run Release hst k t) as [v' u'|e' sp' u'| |u']; cbn [checked_run] in R; try (destruct R; fail).
  - destruct R as [-> (-> & _)]. reflexivity.
  - destruct R as (-> & -> & -> & -> & _). reflexivity.
  - reflexivity.
Qed.
Lemma quilt_two k g a name w : quilt Debug hst orc pr elapsed feq fhash k g a name w = Aborted \/
  quilt Debug hst orc pr elapsed feq fhash k g a name w = quilt Release hst orc pr elapsed feq fhash k g a name w.
Proof.
  unfold quilt. destruct (w_file w name) as [text|e]; [|(right; reflexivity)]. destruct (parse_with_includes _ _ _ _ _) as [ast is|e sp is|]; [|right; reflexivity|right; reflexivity]. cbv zeta.
  destruct (compile_comes ast) as [E|E]; rewrite E; [(left; reflexivity)|]. destruct (compile Release ast) as [sc|e sp|]; [|right; reflexivity|left; reflexivity].
  destruct (g_disassemble g); [|apply finish_two]. destruct (disassemble _ _ _) as [[out|e|]|]; [apply finish_two|left; reflexivity|left; reflexivity|right; reflexivity].
Qed.
End Command.
