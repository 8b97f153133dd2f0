(** What was printed before does not change what a program does (C95), and the flags of the
    command line program only print more (C96). *)
From Verif Require Import Base RleVec Pool Vecc Float NumText Bytecode Chunk Value Ast Arith VmOps Args Parse Builtins
  Compiler Vm Std Console Includes Report Repl Lines Disasm Listing Cli Main SpecData SpecMain ProofData ProofBuiltins4 ProofConsole3.

Section Output.
Context (base front : rstring).
Notation like := (printed_more base front).

Lemma like_put d : w_out d = w_out d -> forall own, w_out d = base ++ own -> like d (put_out (base ++ front ++ own) d).
Proof. intros _ own H. exists own. auto. Qed.

Section Bodies.
Context {Fn : Type} (o : oracle) (fi : fn_info Fn) (fhash : Fn -> res (list hitem)).
Fixpoint wlike (ps : list param) : @wsig Fn ps -> Prop :=
  match ps return wsig ps -> Prop with
  | [] => fun f => forall d e, like d e -> same_answer like (f d) (f e)
  | Req k :: t => fun f => forall x, wlike t (f x)
  | Opt k :: t => fun f => forall x, wlike t (f x)
  end.
Lemma wlike_call : forall ps (f : wsig ps) args d e, wlike ps f -> like d e ->
  same_answer like (wcall fi ps f args d) (wcall fi ps f args e).
Proof.
  induction ps as [|[k|k] ps IH]; intros f args d e Hf HL; cbn [wcall wlike] in *.
  - destruct (stop fi args); [apply Hf, HL| |]; (split; [exact HL|reflexivity]).
  - destruct (take fi k args) as [[x rest]| |]; [apply IH; [apply Hf|exact HL]| |]; (split; [exact HL|reflexivity]).
  - destruct (take_opt fi k args) as [[x rest]| |]; [apply IH; [apply Hf|exact HL]| |]; (split; [exact HL|reflexivity]).
Qed.
Lemma like_say t d e : like d e -> like (say t d) (say t e).
Proof.
  intros (own & H & ->). exists (own ++ t). split; [cbn; rewrite H, app_assoc; reflexivity|].
  unfold say, put_out. cbn. rewrite <- !app_assoc. reflexivity.
Qed.
Lemma like_drawn d e : like d e -> like (drawn d) (drawn e).
Proof. intros (own & H & ->). exists own. split; [exact H|reflexivity]. Qed.
Lemma like_in l d e : like d e -> like (put_in l d) (put_in l e).
Proof. intros (own & H & ->). exists own. split; [exact H|reflexivity]. Qed.
Ltac same := match goal with H : like _ _ |- _ => let own := fresh "own" in destruct H as (own & H & ->);
  split; [exists own; split; [assumption|reflexivity]|reflexivity] end.
Ltac plain := split; [first [assumption | apply like_drawn; assumption | apply like_say; assumption]|reflexivity].

Lemma console_like name args d e : like d e -> same_answer like (console_call o fi fhash name args d) (console_call o fi fhash name args e).
Proof.
  intros HL. unfold console_call. destruct (alookup seqb name _) as [f|] eqn:E; [|plain].
  apply alookup_in in E.
  assert (K : Forall (fun p => forall args d e, like d e -> same_answer like (snd p args d) (snd p args e)) (console_list o fi fhash)).
  2:{ rewrite Forall_forall in K. exact (K _ E args d e HL). }
  clear. unfold console_list, io_list, time_list, random_list. cbn [app].
  repeat (apply Forall_cons; [intros args d e HL; apply wlike_call; [|exact HL]; cbn [wlike]; clear args d e HL|]); [..|apply Forall_nil]; intros.
  - plain.
  - plain.
  - plain.
  - unfold b_input. cbv zeta. pose proof (like_say x d e H) as HS.
    assert (EI : w_in (say x d) = w_in (say x e)) by (destruct H as (own & H & ->); reflexivity). rewrite EI.
    destruct (w_in (say x e)) as [|[l|] t]; [plain| |]; (split; [apply like_in, HS|reflexivity]).
  - same.
  - same.
  - same.
  - same.
  - same.
  - unfold b_randint. destruct (_ <=? _)%Z; [plain|]. same.
  - unfold b_randfloat. destruct (fleb _ _); [plain|]. destruct (_ && _); [|plain]. same.
  - unfold b_randchoice. destruct x; [plain|]. same.
  - same.
  - same.
  - same.
  - same.
Qed.
End Bodies.

Lemma stdio_like m orc feq fhash : same_builtins like (stdio m orc feq fhash) (stdio m orc feq fhash).
Proof.
  unfold stdio, std, console. apply Forall2_app.
  - induction (std_list m orc mfi feq 0); constructor; [|assumption].
    split; [reflexivity|]. constructor. intros d e args o H. split; [exact H|reflexivity].
  - generalize (console_list orc mfi fhash). intros l. induction l; constructor; [|assumption].
    split; [reflexivity|]. constructor. intros d e args o H. apply console_like, H.
Qed.
End Output.

Lemma like_start front w : printed_more (w_out w) front w (say front w).
Proof. exists []. rewrite !app_nil_r. auto. Qed.
Lemma same_host_still base front (hst : host world) : (forall w, h_enter hst w = w) -> (forall w, h_leave hst w = w) ->
  same_host (printed_more base front) hst hst.
Proof. intros H1 H2. split; auto; intros d e H; rewrite ?H1, ?H2; exact H. Qed.
(** More was printed before, but the program does the same. *)
Theorem printed_same m (hst : host world) feq fhash front us w sc o : (forall w, h_enter hst w = w) -> (forall w, h_leave hst w = w) ->
  let start w := add_builtins_list (stdio m (h_oracle hst) feq fhash) (vm_new w sc o) in
  fst (use_all m hst us (start w)) = fst (use_all m hst us (start (say front w))) /\
  match snd (use_all m hst us (start w)), snd (use_all m hst us (start (say front w))) with
  | Some s, Some t => exists own, w_out (v_data s) = w_out w ++ own /\ v_data t = put_out (w_out w ++ front ++ own) (v_data s)
  | None, None => True
  | _, _ => False
  end.
Proof.
  intros H1 H2 start.
  destruct (uses_same (printed_more (w_out w) front) m hst hst (same_host_still _ _ hst H1 H2) us w (say front w) sc o
     [stdio m (h_oracle hst) feq fhash] [stdio m (h_oracle hst) feq fhash] (like_start front w)
     (Forall2_cons _ _ (stdio_like _ _ m (h_oracle hst) feq fhash) (Forall2_nil _))) as [G1 G2].
  split; [exact G1|]. unfold vm_new_with in G2. cbn [fold_left] in G2. unfold start.
  destruct (snd (use_all m hst us (add_builtins_list _ (vm_new w sc o)))), (snd (use_all m hst us (add_builtins_list _ (vm_new (say front w) sc o)))); try exact G2.
  destruct G2 as (G & _). exact G.
Qed.

Section Flags.
Context (m : mode) (hst : host world) (orc : oracle) (pr : printer) (elapsed : rstring -> rstring)
        (feq : mfn -> mfn -> res bool) (fhash : mfn -> res (list hitem)).
Notation timing := (timing elapsed).
Theorem quilt_plain k a name w : quilt m hst orc pr elapsed feq fhash k no_flags a name w = cli m hst orc pr feq fhash k a name w.
Proof.
  unfold quilt, cli, finish, say_if, no_flags. cbn [g_disassemble g_debug g_timeit].
  destruct (w_file w name); [|reflexivity]. destruct (parse_with_includes _ _ k name _); try reflexivity.
Qed.

Hypothesis Henter : forall w, h_enter hst w = w.
Hypothesis Hleave : forall w, h_leave hst w = w.
Notation start w sc a := (add_builtins_list (stdio m (h_oracle hst) feq fhash) (vm_new w sc (a_limits a))).
(** What is printed when the run is over. *)
Definition ending (a : arguments) (c : list source) (r : rres world) : rstring :=
  match r with
  | RDone VNone _ => []
  | RDone v _ => if a_result a then str "RETURNED: " ++ display (h_oracle hst) mfi v ++ newline else []
  | RErr e sp s => traceback hst pr c s ++ report pr c e sp
  | _ => []
  end.
Lemma put_say t u w : put_out (u ++ t) w = say t (put_out u w).
Proof. reflexivity. Qed.
Lemma say_nil w : say [] w = w.
Proof. destruct w. unfold say. cbn. rewrite app_nil_r. reflexivity. Qed.
Lemma say_say a b w : say b (say a w) = say (a ++ b) w.
Proof. unfold say. cbn. rewrite <- app_assoc. reflexivity. Qed.
Lemma say_if_say b t w : say_if b t w = say (if b then t else []) w.
Proof. destruct b; [reflexivity|symmetry; apply say_nil]. Qed.

Lemma finish_plain k g a c sc w : finish m hst pr elapsed feq fhash k g a c sc w =
  match run m hst k (start w sc a) with
  | ROut _ => Running
  | RPanic => Aborted
  | RDone v s => Exited 0 (say ((if g_timeit g then timing (str "TOOK") else []) ++ ending a c (RDone v s)) (v_data s)) []
  | RErr e sp s => Exited 1 (say ((if g_timeit g then timing (str "TOOK") else []) ++ ending a c (RErr e sp s)) (v_data s)) []
  end.
Proof.
  unfold finish. destruct (run m hst k (start w sc a)) as [v s|e sp s| |s]; try reflexivity; cbv zeta; rewrite !say_if_say.
  - destruct v; cbn [ending]; rewrite ?say_if_say, ?say_say, ?app_nil_r; reflexivity.
  - cbn [ending]. rewrite say_say. reflexivity.
Qed.
Lemma finish_front k g a c sc w front :
  match finish m hst pr elapsed feq fhash k no_flags a c sc w with
  | Exited st w' err => exists own, let last := ending a c (run m hst k (start w sc a)) in
      w_out w' = w_out w ++ own ++ last /\
      finish m hst pr elapsed feq fhash k g a c sc (say front w) =
        Exited st (put_out (w_out w ++ front ++ own ++ (if g_timeit g then timing (str "TOOK") else []) ++ last) w') err
  | r => finish m hst pr elapsed feq fhash k g a c sc (say front w) = r
  end.
Proof using Henter Hleave.
  rewrite !finish_plain. cbn [g_timeit no_flags app].
  pose proof (lk_run (printed_more (w_out w) front) m hst hst (same_host_still _ _ hst Henter Hleave) k (start w sc a) (start (say front w) sc a)
    (alike_builtins _ _ _ (stdio_like _ _ m (h_oracle hst) feq fhash) _ _ (alike_new _ w (say front w) sc (a_limits a) (like_start front w)))) as H.
  destruct (run m hst k (start w sc a)) as [v s|e sp s| |s], (run m hst k (start (say front w) sc a)) as [v' t|e' sp' t| |t]; cbn [rrel] in H; try contradiction; try reflexivity.
  - destruct H as [<- H]. destruct (alike_machine _ _ _ H) as ((own & E1 & E2) & _). exists own. cbv zeta. cbn [say w_out]. rewrite E1, <- !app_assoc.
    split; [reflexivity|]. rewrite E2. 
    assert (EE : ending a c (RDone v t) = ending a c (RDone v s)) by reflexivity. rewrite EE.
    unfold say, put_out. cbn. rewrite <- !app_assoc. reflexivity.
  - destruct H as (<- & <- & H). destruct (alike_machine _ _ _ H) as ((own & E1 & E2) & E3 & _). exists own. cbv zeta. cbn [say w_out]. rewrite E1, <- !app_assoc.
    split; [reflexivity|]. rewrite E2.
    assert (EE : ending a c (RErr e sp t) = ending a c (RErr e sp s)) by (cbn [ending]; unfold traceback; rewrite E3; reflexivity). rewrite EE.
    unfold say, put_out. cbn. rewrite <- !app_assoc. reflexivity.
Qed.

Context (k : nat) (g : flags) (a : arguments) (name : rstring) (w : world).
Notation quilt g := (quilt m hst orc pr elapsed feq fhash k g a name w).
Notation cli := (cli m hst orc pr feq fhash k a name w).
Notation if_debug t := (if g_debug g then t else []).
Theorem flags_early : 
  match w_file w name with
  | inr _ => quilt g = cli
  | inl text =>
      match parse_with_includes (read_text w) (parse_text orc) k name text with
      | IErr _ _ _ | IDeep => quilt g = cli
      | IOk ast is => forall e sp, compile m ast = CErr e sp ->
          cli = Exited 1 (say (report pr (sources w (i_sources is)) e sp) w) [] /\
          quilt g = Exited 1 (say (if_debug (timing (str "PARSED")) ++ report pr (sources w (i_sources is)) e sp) w) []
      end
  end.
Proof.
  destruct (w_file w name) as [text|e] eqn:E; unfold Main.quilt, Cli.cli; rewrite E; [|reflexivity].
  destruct (parse_with_includes (read_text w) (parse_text orc) k name text) as [ast is|e sp is|]; try reflexivity.
  intros e sp HC. rewrite HC. split; [reflexivity|]. rewrite say_if_say, say_say. reflexivity.
Qed.
Theorem flags_run text ast is sc out : w_file w name = inl text ->
  parse_with_includes (read_text w) (parse_text orc) k name text = IOk ast is -> compile m ast = COk sc ->
  let c := sources w (i_sources is) in
  (g_disassemble g = true -> disassemble (line_of pr c) k sc = Some (Ok out)) ->
  let front := if_debug (timing (str "PARSED") ++ timing (str "COMPILED")) ++
    (if g_disassemble g then if_debug (timing (str "DISASSEMBLED")) ++ printed_listing hst pr c out else []) in
  match cli with
  | Exited st w' err => exists own, let last := ending a c (run m hst k (start w sc a)) in
      w_out w' = w_out w ++ own ++ last /\
      quilt g = Exited st (put_out (w_out w ++ front ++ own ++ (if g_timeit g then timing (str "TOOK") else []) ++ last) w') err
  | r => quilt g = r
  end.
Proof using Henter Hleave.
  intros HF HI HC c HD front. rewrite <- (quilt_plain k a name w).
  assert (E0 : quilt no_flags = finish m hst pr elapsed feq fhash k no_flags a c sc w).
  { unfold Main.quilt. rewrite HF, HI. cbv zeta. rewrite HC. reflexivity. }
  assert (E1 : quilt g = finish m hst pr elapsed feq fhash k g a c sc (say front w)).
  { unfold Main.quilt. rewrite HF, HI. cbv zeta. rewrite HC, !say_if_say. fold c. unfold front.
    destruct (g_disassemble g).
    - rewrite (HD eq_refl). f_equal. rewrite !say_say. f_equal. destruct (g_debug g); cbn [app]; rewrite <- ?app_assoc; reflexivity.
    - f_equal. rewrite say_say, app_nil_r. f_equal. destruct (g_debug g); reflexivity. }
  rewrite E0, E1. apply finish_front.
Qed.
End Flags.
