(** The library does not see names of functions that are kept (C103). *)
From Verif Require Import Base RleVec Pool Vecc Float NumText Bytecode Chunk Value Ast Arith VmOps Args Builtins Compiler Vm Std Console
  SpecNames SpecRel SpecRename ProofRel ProofStdRel ProofConsole ProofRename ProofRename2 ProofRename3.

Section Library.
Context {Fn : Type} (m : mode) (o : oracle) (fi : fn_info Fn) (feq : Fn -> Fn -> res bool) (fhash : Fn -> res (list hitem)) (amax : N).
Hypothesis HE : forall x y, nl (feq x y).
Hypothesis HH : forall x, nl (fhash x).
Fixpoint nsig (ps : list param) : @sig Fn ps -> Prop :=
  match ps with
  | [] => nl
  | Req k :: t => fun f => forall x, nsig t (f x)
  | Opt k :: t => fun f => forall x, nsig t (f x)
  end.
Lemma nl_take k args : nl (take fi k args).
Proof. destruct k; nlgo. Qed.
Lemma nl_take_opt k args : nl (take_opt fi k args).
Proof. unfold take_opt. destruct args; [apply nl_ok|]. apply nl_bind; [apply nl_take|intros; apply nl_ok]. Qed.
Lemma nl_stop args : nl (stop fi args). Proof. nlgo. Qed.
Lemma nl_call ps : forall f args, nsig ps f -> nl (call fi ps f args).
Proof.
  induction ps as [|[k|k] ps IH]; intros f args H; cbn [call].
  - apply nl_bind; [apply nl_stop|intros; exact H].
  - apply nl_bind; [apply nl_take|intros; apply IH, H].
  - apply nl_bind; [apply nl_take_opt|intros; apply IH, H].
Qed.
Definition nbuiltin (b : @bfun Fn) : Prop := forall args, nl (snd b args).
Lemma nl_reg n ps f : nsig ps f -> nbuiltin (reg fi n ps f). Proof. intros H args. now apply nl_call. Qed.
Ltac body := apply nl_reg; cbn [nsig]; intros; 
  repeat match goal with x : @pty _ _ |- _ => cbn [pty] in x end;
  repeat match goal with x : (_ * _)%type |- _ => destruct x end; nlgo; try apply nl_geqb; auto.
Lemma nl_core : Forall nbuiltin (core_list m o fi amax).
Proof. unfold core_list. repeat (apply Forall_cons; [|]); [..|apply Forall_nil]; body. Qed.
Lemma nl_math : Forall nbuiltin (math_list m o fi).
Proof. unfold math_list. repeat (apply Forall_cons; [|]); [..|apply Forall_nil]; body. Qed.
Lemma nl_colors : Forall nbuiltin (colors_list fi amax).
Proof. unfold colors_list. repeat (apply Forall_cons; [|]); [..|apply Forall_nil]; body. Qed.
Lemma nl_strings : Forall nbuiltin (strings_list o fi amax).
Proof. unfold strings_list. repeat (apply Forall_cons; [|]); [..|apply Forall_nil]; body. Qed.
Lemma nl_testing : Forall nbuiltin (testing_list o fi feq).
Proof. unfold testing_list. repeat (apply Forall_cons; [|]); [..|apply Forall_nil]; body. Qed.
Lemma nl_std name args : In name (map fst (std_list m o fi feq amax)) -> nl (std_call m o fi feq amax name args).
Proof.
  assert (H : Forall nbuiltin (std_list m o fi feq amax)).
  { unfold std_list. repeat (apply Forall_app; split); auto using nl_core, nl_math, nl_colors, nl_strings, nl_testing. }
  unfold std_call. induction H as [|[n f] l Hf Hl IH]; [intros []|]. cbn [map fst alookup]. intros I. destruct (seqb name n) eqn:E; [apply Hf|].
  apply IH. destruct I as [<-|I]; [|exact I]. now rewrite seqb_refl in E.
Qed.

Fixpoint wnsig (ps : list param) : @wsig Fn ps -> Prop :=
  match ps with
  | [] => fun f => forall w, nl (snd (f w))
  | Req k :: t => fun f => forall x, wnsig t (f x)
  | Opt k :: t => fun f => forall x, wnsig t (f x)
  end.
Lemma nl_wcall ps : forall f args w, wnsig ps f -> nl (snd (wcall fi ps f args w)).
Proof.
  induction ps as [|[k|k] ps IH]; intros f args w H; cbn [wcall].
  - pose proof (nl_stop args) as N. destruct (stop fi args); cbn [snd]; [apply H|apply nl_err, N; reflexivity|apply nl_panic].
  - pose proof (nl_take k args) as N. destruct (take fi k args); cbn [snd]; [apply IH, H|apply nl_err, N; reflexivity|apply nl_panic].
  - pose proof (nl_take_opt k args) as N. destruct (take_opt fi k args); cbn [snd]; [apply IH, H|apply nl_err, N; reflexivity|apply nl_panic].
Qed.
Definition nwbuiltin (b : @wfun Fn) : Prop := forall args w, nl (snd (snd b args w)).
Lemma nl_wreg n ps f : wnsig ps f -> nwbuiltin (wreg fi n ps f). Proof. intros H args w. now apply nl_wcall. Qed.
Lemma nl_items v : nl (hash_items fhash v).
Proof.
  revert v. fix IH 1. intros [| | | | | | | |l s mx| |a b|f]; cbn [hash_items]; try apply nl_ok.
  - apply nl_bind; [|intros; apply nl_ok]. induction l as [|x l IHl]; [apply nl_ok|]. apply nl_bind; [apply IH|intros]. apply nl_bind; [exact IHl|intros; apply nl_ok].
  - apply nl_bind; [apply IH|intros]. apply nl_bind; [apply IH|intros; apply nl_ok].
  - apply HH.
Qed.
Lemma nl_hash x w : nl (snd (b_hash fi fhash x w)).
Proof. cbn [b_hash snd]. destruct x; try (apply nl_bind; [apply nl_items|intros; apply nl_ok]); apply nl_err; exact Logic.I. Qed.
Lemma nl_console_list : Forall nwbuiltin (console_list o fi fhash).
Proof.
  unfold console_list, io_list, time_list, random_list. cbn [app]. repeat (apply Forall_cons; [|]); [..|apply Forall_nil];
  apply nl_wreg; cbn [wnsig]; intros; try apply nl_hash;
  cbv beta iota zeta delta [b_println b_print b_debug b_input b_readfile b_now b_date b_random b_randbool b_randint b_randfloat b_randchoice b_random_color b_random_pastel_color b_random_rainbow_color read_clock draw_float draw_below];
  repeat match goal with
  | |- context [match w_in ?x with _ => _ end] => destruct (w_in x) as [|[?|] ?]
  | |- context [match w_file ?x ?y with _ => _ end] => destruct (w_file x y)
  | |- context [match w_clock ?x ?y with _ => _ end] => destruct (w_clock x y) as [[? ?]|]
  | |- context [match nth_error ?x ?y with _ => _ end] => destruct (nth_error x y)
  | |- context [if ?x then (_, _) else _] => destruct x
  | |- context [match ?x with [] => _ | _ :: _ => _ end] => is_var x; destruct x
  end; cbn [snd]; nlgo; try apply nl_ok; try apply nl_panic; try (apply nl_err; exact Logic.I).
Qed.
Lemma nl_console name args w : In name (map fst (console_list o fi fhash)) -> nl (snd (console_call o fi fhash name args w)).
Proof.
  unfold console_call. induction nl_console_list as [|[n f] l Hf Hl IH]; [intros []|]. cbn [map fst alookup]. intros I. destruct (seqb name n) eqn:E; [apply Hf|].
  apply IH. destruct I as [<-|I]; [|exact I]. now rewrite seqb_refl in E.
Qed.
End Library.

Section Blind.
Context (r : rstring -> rstring) (mv : span -> span) (m : mode) (orc : oracle) (feq : mfn -> mfn -> res bool) (fhash : mfn -> res (list hitem)).
Notation K := (fun x => r x = x).
Notation crel := (renamed_closure r mv K).
Hypothesis HE : forall f f' g g', crel f f' -> crel g g' -> feq f' g' = feq f g.
Hypothesis HE' : forall f g e, feq f g <> Err e.
Hypothesis HH : forall f f', crel f f' -> fhash f' = fhash f.
Hypothesis HH' : forall f e, fhash f <> Err e.
Lemma kept_text x y : crel x y -> fi_text mfi x = fi_text mfi y.
Proof. intros [f g Hf Hn|f g us Hf Hn]; pose proof (Hn f (pa_self f)) as E; destruct Hf; cbn in *; unfold rstring in *; now rewrite E. Qed.
Lemma kept_type x y : crel x y -> fi_type mfi x = fi_type mfi y.
Proof. destruct 1; reflexivity. Qed.
Lemma rr_same {A} (x y : res A) : y = x -> rr eq x y.
Proof. intros ->. destruct x; cbn; auto. Qed.
Lemma blind_of {D} (f : bfn D) : (forall d args args' o, Forall2 (renamed_value r mv K) args args' ->
  fst (f d args o) = fst (f d args' o) /\ rr (renamed_value r mv K) (snd (f d args o)) (snd (f d args' o)) /\ nl (snd (f d args o))) -> blind_fn r mv K f.
Proof.
  intros H d args args' o Ha. destruct (H d args args' o Ha) as (E & R & N). split; [now symmetry|].
  destruct (snd (f d args o)) as [v|e|], (snd (f d args' o)) as [v'|e'|]; cbn in R; try contradiction; auto.
  subst. symmetry. apply nameless_same, N. reflexivity.
Qed.
Theorem library_blind n b : In (n, b) (stdio m orc feq fhash) -> blind r mv K b.
Proof.
  unfold stdio, std, console. intros H. apply in_app_or in H as [H|H]; apply in_map_iff in H as ([x f] & E & I); injection E as <- <-; apply blind_of; intros d args args' o Ha; cbv beta; cbn [fst snd].
  - split; [reflexivity|]. split.
    + apply (std_rel crel m orc mfi mfi feq feq (o_array_max o) kept_type kept_text); [|exact Ha]. intros. apply rr_same. now apply HE.
    + apply nl_std; [intros y z e Q; exfalso; exact (HE' _ _ _ Q)|]. apply in_map with (f := fst) in I. exact I.
  - destruct (console_rel crel orc mfi mfi fhash fhash kept_type kept_text (fun y z H => rr_same _ _ (HH y z H)) x args args' d Ha) as [E R].
    split; [exact E|]. split; [exact R|]. apply nl_console; [intros y e Q; exfalso; exact (HH' _ _ Q)|]. apply in_map with (f := fst) in I. exact I.
Qed.
End Blind.

Theorem program_renamed r mv m (hst : host world) feq fhash ast sc :
  renaming r -> moving mv -> r (str "unkown???") = str "unkown???" -> (forall n b, In (n, b) (stdio m (h_oracle hst) feq fhash) -> r n = n) ->
  (forall f f' g g', renamed_closure r mv (fun x => r x = x) f f' -> renamed_closure r mv (fun x => r x = x) g g' -> feq f' g' = feq f g) ->
  (forall f g e, feq f g <> Err e) ->
  (forall f f', renamed_closure r mv (fun x => r x = x) f f' -> fhash f' = fhash f) -> (forall f e, fhash f <> Err e) ->
  compile m ast = COk sc -> (forall g, SpecNames.part (sc_function sc) g -> r (fn_name g) = fn_name g) ->
  exists sc', compile m (rename_program r mv ast) = COk sc' /\
  forall w o k,
  match run m hst k (vm_new_with w sc o [stdio m (h_oracle hst) feq fhash]) with
  | RDone v t => exists v' t', run m hst k (vm_new_with w sc' o [stdio m (h_oracle hst) feq fhash]) = RDone v' t' /\
      display (h_oracle hst) mfi v' = display (h_oracle hst) mfi v /\ v_data t' = v_data t
  | RErr e sp t => exists t', run m hst k (vm_new_with w sc' o [stdio m (h_oracle hst) feq fhash]) = RErr (renamed_error r e) (mv sp) t' /\
      v_data t' = v_data t /\ trace_back t' = map (move_line mv) (trace_back t)
  | ROut t => exists t', run m hst k (vm_new_with w sc' o [stdio m (h_oracle hst) feq fhash]) = ROut t' /\ v_data t' = v_data t
  | RPanic => True
  end.
Proof.
  intros rn mo U HL HE HE' HH HH' HC HK. pose proof (compile_renamed r rn mv mo m ast) as C. rewrite HC in C. destruct (compile m (rename_program r mv ast)) as [sc'| |]; try contradiction.
  exists sc'. split; [reflexivity|]. intros w o k. set (L := stdio m (h_oracle hst) feq fhash) in *.
  assert (EL : map (rename_builtins r) [L] = [L]).
  { cbn [map]. f_equal. unfold rename_builtins. rewrite <- (map_id L) at 2. apply map_ext_in. intros [n b] I. cbn [fst snd]. now rewrite (HL n b I). }
  assert (P : paired r mv (fun x => r x = x) m hst (vm_new_with w sc o [L]) (vm_new_with w sc' o [L])).
  { rewrite <- EL at 2. apply pd_new; [exact C|exact HK|]. intros l n b [<-|[]] I. exact (library_blind r mv m (h_oracle hst) feq fhash HE HE' HH HH' n b I). }
  clearbody L. pose proof (run_renamed r rn mv mo U (fun x => r x = x) m hst k _ _ P) as R. pose proof (fun e sp t => failed_known r rn mv mo U (fun x => r x = x) m hst k _ _ e sp t P) as F.
  destruct (run m hst k (vm_new_with w sc o [L])) as [v t|e sp t| |t].
  - destruct R as (v' & t' & E & V & Dt). exists v', t'. split; [exact E|]. split; [|exact Dt]. symmetry. exact (grel_display _ (h_oracle hst) mfi mfi (kept_text r mv) v v' V).
  - destruct R as (t' & E & Dt & T). exists t'. split; [exact E|]. split; [exact Dt|]. rewrite T. specialize (F e sp t eq_refl). clear -F.
    induction F as [|[x y|n] l H Hl IH]; cbn [map rename_line move_line]; [reflexivity|..]; f_equal; try assumption. cbn in H. now rewrite H.
  - exact R.
  - exact R.
Qed.
