(** Single constructs of the direct evaluation: [switch], [for], contexts. *)
From Verif Require Import Base RleVec Pool Vecc Float NumText Bytecode Value Ast Arith VmOps Compiler Vm CodeSize SpecArith SpecParse
                          SpecReady SpecRel SpecVm SpecEval SpecFlow ProofArith ProofArithEx ProofCompiler ProofEval ProofSim7 ProofSim8 ProofSim13 ProofEval2.

Section Flow.
Context {D : Type} (m : mode) (orc : oracle) (opts : options) (on_call on_return : D -> D)
        (builtins : rstring -> option (sbuiltin (D:=D))).
Notation out := (out (D:=D)).
Notation sst := (sst (D:=D)).

(** ** Contexts *)
Section Events.
Context (events : D -> list event).
Hypothesis (Hc : forall d, events (on_call d) = events d) (Hr : forall d, events (on_return d) = events d)
  (Hb : forall x b, builtins x = Some b -> writes events x b).
Notation tr s := (events (ss_data s)).

Definition ok {A} (s : sst) (o : out A) : Prop :=
  match o with
  | Got _ s' | Returned _ s' => exists w, tr s' = tr s ++ w /\ nested w
  | Failed _ s' => exists w, tr s' = tr s ++ w /\ inside_some w
  | Unspecified | More => True
  end.
Lemma inside_app a w : nested a -> inside_some w -> inside_some (a ++ w).
Proof using.
  intros Ha H. destruct H as [w H|b n w H1 H2]; [constructor; constructor; auto|].
  rewrite app_assoc. apply is_in; auto. constructor; auto.
Qed.
Lemma ok_quiet {A} (a : A) s s' : tr s' = tr s -> ok s (Got a s').
Proof using. intros H. exists []. rewrite app_nil_r. split; auto. constructor. Qed.
Lemma ok_seq {A B} s (x : out A) (k : A -> sst -> out B) : ok s x -> (forall a s', ok s' (k a s')) -> ok s (seq x k).
Proof using.
  intros H Hk. destruct x as [a s1|v s1|e s1| |]; cbn [seq]; auto. destruct H as (w & E & Hw).
  specialize (Hk a s1). destruct (k a s1); cbn in *; auto; destruct Hk as (w' & E' & Hw'); exists (w ++ w'); rewrite E', E, app_assoc; split; auto.
  - constructor; auto.
  - constructor; auto.
  - apply inside_app; auto.
Qed.
Lemma ok_lift {A} (r : res A) s : ok s (lift r s).
Proof using. destruct r; cbn; auto; exists []; rewrite app_nil_r; split; auto; repeat constructor. Qed.
Lemma ok_value {A} (o : option A) s : ok s (the_value o s).
Proof using. destruct o; [apply ok_quiet; auto|exact Logic.I]. Qed.
Lemma ok_same {A} s s0 (o : out A) : tr s = tr s0 -> ok s o -> ok s0 o.
Proof using. intros E. destruct o; cbn; rewrite <- ?E; auto. Qed.

Lemma bind_all_data l : forall r (s : sst), ss_data (snd (bind_all l r s)) = ss_data s.
Proof using. induction l as [|[x v] l IH]; intros r s; cbn [bind_all]; auto. rewrite IH. auto. Qed.
Lemma ok_bind v x r s : ok s (bind_var v x r s).
Proof using.
  destruct v as [y|ys]; cbn [bind_var].
  - destruct (bind_all [(fst y, x)] r s) as [r' s'] eqn:E. apply ok_quiet. pose proof (bind_all_data [(fst y, x)] r s) as H. rewrite E in H. cbn in H. congruence.
  - apply ok_seq; [apply ok_lift|]. intros ps s1. destruct (bind_all _ r s1) as [r' s'] eqn:E. apply ok_quiet.
    pose proof (bind_all_data (rev (combine (map fst ys) ps)) r s1) as H. rewrite E in H. cbn in H. congruence.
Qed.
Lemma bind_no_return v x r (s : sst) y s' : bind_var v x r s <> Returned y s'.
Proof using.
  destruct v as [z|zs]; cbn [bind_var]; [discriminate|]. destruct (v_unpack sfi _ x); cbn; try discriminate.
  destruct (bind_all _ r s); discriminate.
Qed.
Lemma ok_define v x s : ok s (define_var v x s).
Proof using.
  destruct v as [y|ys]; cbn [define_var]; [apply ok_quiet; auto|].
  apply ok_seq; [apply ok_lift|]. intros. apply ok_quiet. auto.
Qed.
Lemma ok_read x r s : ok s (read_var x r s).
Proof using.
  unfold read_var. destruct (alookup seqb x r); [apply ok_value|]. destruct (global x s); [apply ok_quiet; auto|].
  exists []. rewrite app_nil_r. repeat constructor.
Qed.
Lemma ok_write x v r s : ok s (write_var x v r s).
Proof using.
  unfold write_var. destruct (alookup seqb x r); [apply ok_quiet; auto|]. destruct (global x s); [apply ok_quiet; auto|].
  exists []. rewrite app_nil_r. repeat constructor.
Qed.
Lemma ok_failed {A} e s : ok s (Failed e s : out A).
Proof using. exists []. rewrite app_nil_r. repeat constructor. Qed.
Lemma ok_call x f vs s : builtins x = Some (SFn f) -> ok s (run_sbfn opts f vs s).
Proof using Hb.
  intros H. pose proof (Hb _ _ H) as K. cbn in K.
  unfold run_sbfn. specialize (K (ss_data s) vs opts). destruct (f (ss_data s) vs opts) as [d r]. cbn in K.
  eapply ok_same; [|apply ok_lift]. cbn. auto.
Qed.

Lemma ok_list f l : Forall (fun e : nodeS => forall s, ok s (f (fst e) s)) l -> forall s, ok s (list_with (D:=D) f l s).
Proof using.
  induction 1; intros s; cbn [list_with]; [apply ok_quiet; auto|].
  apply ok_seq; auto. intros a s1. apply ok_seq; [apply IHForall|]. intros. apply ok_quiet. auto.
Qed.
Lemma ok_list_back f l : Forall (fun e : nodeS => forall s, ok s (f (fst e) s)) l -> forall s, ok s (list_back_with (D:=D) f l s).
Proof using.
  induction 1; intros s; cbn [list_back_with]; [apply ok_quiet; auto|].
  apply ok_seq; [apply IHForall|]. intros a s1. apply ok_seq; auto. intros. apply ok_quiet. auto.
Qed.
Lemma ok_stmts f l : Forall (fun e : nodeS => forall r s, ok s (f (fst e) r s)) l -> forall r s, ok s (stmts_with (D:=D) f l r s).
Proof using.
  induction 1 as [|e t H Ht IH]; intros r s; cbn [stmts_with]; [apply ok_quiet; auto|].
  apply ok_seq; auto. intros a s1. destruct t; [apply ok_quiet; auto|]. apply IH.
Qed.
Lemma ok_block f l : Forall (fun e : nodeS => forall r s, ok s (f (fst e) r s)) l -> forall r s, ok s (block_with (D:=D) f l r s).
Proof using. intros H r s. apply ok_seq; [apply ok_stmts; auto|]. intros. apply ok_value. Qed.
Lemma ok_else f o : match o with Some l => Forall (fun e : nodeS => forall r s, ok s (f (fst e) r s)) l | None => True end ->
  forall r s, ok s (else_with (D:=D) f o r s).
Proof using. intros H r s. destruct o; [apply ok_block; auto|apply ok_quiet; auto]. Qed.
Lemma ok_cases f v d r cs :
  Forall (fun c => (forall r s, ok s (f (fst (fst c)) r s)) /\ Forall (fun e : nodeS => forall r s, ok s (f (fst e) r s)) (snd c)) cs ->
  match d with Some l => Forall (fun e : nodeS => forall r s, ok s (f (fst e) r s)) l | None => True end ->
  forall s, ok s (cases_with (D:=D) f v d r cs s).
Proof using.
  intros H Hd. induction H as [|c t [H1 H2] Ht IH]; intros s; cbn [cases_with]; [apply ok_else; auto|].
  apply ok_seq; auto. intros a s1. apply ok_seq; [apply ok_value|]. intros w s2. apply ok_seq; [apply ok_lift|].
  intros b s3. destruct b; [apply ok_block; auto|apply IH].
Qed.
Lemma ok_while cond body : (forall s, ok s (cond s)) -> (forall s, ok s (body s)) -> forall k v s, ok s (while_ (D:=D) k cond body v s).
Proof using.
  intros H1 H2. induction k as [|k IH]; intros v s; [exact Logic.I|]. cbn [while_].
  apply ok_seq; auto. intros c s1. apply ok_seq; [apply ok_lift|]. intros b s2. destruct b; [|apply ok_quiet; auto].
  apply ok_seq; auto.
Qed.
Lemma ok_for it body : (forall v s, ok s (body v s)) -> forall k i v s, ok s (for_ (D:=D) m k it body i v s).
Proof using.
  intros H. induction k as [|k IH]; intros i v s; [exact Logic.I|]. cbn [for_].
  apply ok_seq; [apply ok_lift|]. intros x s1. destruct x; [|apply ok_quiet; auto]. apply ok_seq; auto.
Qed.

Lemma ok_context x f y vs s (body : sval -> sst -> out sval) : builtins x = Some (SContext f y) ->
  (forall v s, ok s (body v s)) ->
  ok s (seq (run_sbfn opts f vs s) (fun w s => match body w s with
                                         | Got res s => seq (run_exit y s) (fun _ s => Got res s)
                                         | Returned _ _ => Unspecified
                                         | o => o
                                         end)).
Proof using Hb.
  intros H Hbody. pose proof (Hb _ _ H) as [K1 K2]. unfold run_sbfn. specialize (K1 (ss_data s) vs opts).
  destruct (f (ss_data s) vs opts) as [d [w|e|]] eqn:E; cbn [fst snd lift seq] in *; [| |exact Logic.I].
  2:{ exists []. cbn. rewrite K1, app_nil_r. repeat constructor. }
  specialize (Hbody w (put_data d s)). destruct (body w (put_data d s)) as [v s1|v s1|e s1| |]; cbn [ok] in *; auto.
  - destruct Hbody as (t & E1 & Ht). cbn in E1. unfold run_exit. specialize (K2 (ss_data s1)).
    destruct (y (ss_data s1)) as [d2 r2]. cbn [fst] in K2.
    assert (En : events d2 = tr s ++ (Entered x :: t ++ [Left x])).
    { rewrite K2, E1, K1, <- !app_assoc. reflexivity. }
    assert (Hn : nested (Entered x :: t ++ [Left x])) by (constructor; auto).
    destruct r2; cbn; auto; eexists; (split; [exact En|]); auto. constructor. auto.
  - destruct Hbody as (t & E1 & Ht). cbn in E1. exists (Entered x :: t). rewrite E1, K1, <- app_assoc. split; auto.
    apply (is_in [] x t); auto. constructor.
Qed.

Section Nodes.
Context (call : sfn -> list sval -> sst -> out sval) (k : nat).
Hypothesis (Hcall : forall c vs s, ok s (call c vs s)).
Notation ev := (SpecEval.ev m orc opts builtins call k).

Lemma ok_ev n : forall g r s, ok s (ev g n r s).
Proof using Hb Hcall.
  assert (X : forall n : node, (forall g r s, ok s (ev g n r s)) -> forall r s,
    ok s (seq (ev false n r s) (fun vr s => the_value (fst vr) s))).
  { intros n0 H r s. apply ok_seq; auto. intros. apply ok_value. }
  assert (XL : forall l : list nodeS, Forall (fun e => forall g r s, ok s (ev g (fst e) r s)) l -> forall r,
    Forall (fun e : nodeS => forall s, ok s (seq (ev false (fst e) r s) (fun vr s => the_value (fst vr) s))) l).
  { intros l H r. eapply Forall_impl; [|exact H]. intros e He s. apply X. auto. }
  assert (XB : forall (l : list nodeS), Forall (fun e => forall g r s, ok s (ev g (fst e) r s)) l -> forall g,
    Forall (fun e : nodeS => forall r s, ok s (ev g (fst e) r s)) l).
  { intros l H g. eapply Forall_impl; [|exact H]. intros e He r s. apply He. }
  assert (XO : forall o : option (list nodeS), match o with Some l => Forall (fun e => forall g r s, ok s (ev g (fst e) r s)) l | None => True end ->
    match o with Some l => Forall (fun e : nodeS => forall r s, ok s (ev false (fst e) r s)) l | None => True end).
  { intros [l|] H; auto. }
  assert (Q : forall A (a : A) s, ok s (Got a s)) by (intros; apply ok_quiet; auto).
  induction n using node_ind'; intros gg r s; cbn [SpecEval.ev];
    try (apply ok_seq; [|intros; apply Q]).
  - apply Q.
  - apply ok_seq; [|intros; apply ok_lift]. apply ok_list_back. apply XL; auto.
  - apply ok_seq; [apply X; auto|]. intros. apply ok_seq; [apply X; auto|intros; apply Q].
  - apply ok_seq; [apply X; auto|]. intros. apply ok_seq; [apply X; auto|intros; apply ok_lift].
  - apply ok_read.
  - apply ok_seq; [apply X; auto|]. intros. destruct gg; (apply ok_seq; [|intros; apply Q]); [apply ok_define|apply ok_bind].
  - destruct gg; [|exact Logic.I]. apply ok_seq; [apply X; auto|]. intros. apply ok_quiet. destruct (global (fst x) s'); auto.
  - apply ok_seq; [apply X; auto|intros; apply ok_write].
  - destruct gg; (apply ok_seq; [|intros; apply Q]); [apply ok_quiet; auto|apply (ok_bind (VarDecl x))].
  - apply Q.
  - apply ok_block. auto.
  - apply ok_seq; [apply X; auto|]. intros. apply ok_seq; [apply ok_lift|]. intros b s2. destruct b; [apply ok_block; auto|].
    apply ok_else. apply XO; auto.
  - apply ok_seq; [apply X; auto|]. intros. apply ok_cases; [|apply XO; auto].
    eapply Forall_impl; [|exact H0]. intros c [K1 K2]. split; [intros; apply K1|]. apply XB. exact K2.
  - apply ok_seq; [apply X; auto|]. intros. apply ok_for; auto. intros. apply ok_seq; [apply (ok_bind (VarDecl x))|]. intros. apply ok_block. auto.
  - apply ok_seq; [apply X; auto|]. intros. apply ok_for; auto. intros. apply ok_seq; [apply (ok_bind (VarMulti x))|]. intros. apply ok_block. auto.
  - apply ok_while; auto; intros; apply ok_block; auto.
  - apply ok_seq; [apply X; auto|]. intros. apply ok_seq; [apply X; auto|]. intros. destruct binary_fn; [apply ok_lift|exact Logic.I].
  - apply ok_seq; [apply X; auto|]. intros. destruct unary_fn; [apply ok_lift|exact Logic.I].
  - apply ok_seq; [apply X; auto|]. intros c s1. apply ok_seq; [apply ok_list; apply XL; auto|]. intros vs s2.
    destruct c; try apply ok_failed. destruct (_ =? _); [apply Hcall|apply ok_failed].
  - apply ok_seq; [apply ok_list; apply XL; auto|]. intros vs s1. destruct (builtins (fst x)) as [[f|f y]|] eqn:Eb; try apply ok_failed.
    eapply ok_call; eauto.
  - apply ok_seq; [apply ok_list; apply XL; auto|]. intros vs s1. destruct (builtins (fst x)) as [[f|f y]|] eqn:Eb; [exact Logic.I| |apply ok_failed].
    set (bd := fun w s => seq (match v with Some v => bind_var v w r s | None => Got r s end)
                              (fun r' s => block_with (ev false) b r' s)).
    pose proof (ok_context (fst x) f y vs s1 bd Eb) as Hx.
    assert (Hbd : forall v0 s0, ok s0 (bd v0 s0)).
    { intros v0 s0. unfold bd. apply ok_seq; [destruct v; [apply ok_bind|apply Q]|]. intros. apply ok_block. auto. }
    specialize (Hx Hbd). destruct (run_sbfn opts f vs s1) as [w s2|w s2|e s2| |]; cbn [seq] in *; auto. unfold bd in Hx.
    destruct v as [v|]; cbn [seq] in *.
    + destruct (bind_var v w r s2) eqn:Ebv; cbn [seq] in *; auto; try exact Hx.
      exfalso. exact (bind_no_return v w r s2 _ _ Ebv).
    + exact Hx.
  - apply ok_seq; [apply X; auto|]. intros. apply ok_seq; [apply X; auto|intros; apply ok_lift].
  - destruct b as [b|]; [|exact Logic.I]. destruct gg; [|exact Logic.I]. apply ok_seq; [apply ok_stmts; auto|intros; apply Q].
  - assert (QR : forall v s, ok s (Returned v s : out (option sval * env))).
    { intros v0 s0. exists []. rewrite app_nil_r. split; auto. constructor. }
    destruct e as [e|]; [|apply QR]. apply ok_seq; [apply X; auto|intros; apply QR].
Qed.
End Nodes.
Lemma ok_call_at k c vs s : ok s (call_at m orc opts on_call on_return builtins k c vs s).
Proof using Hc Hr Hb.
  revert c vs s. induction k as [|k IH]; intros c vs s; [exact Logic.I|]. cbn [call_at].
  destruct (bind_all (combine (sf_name c :: sf_params c) (VFn c :: vs)) (sf_env c) (put_data (on_call (ss_data s)) s)) as [r s1] eqn:E.
  assert (E1 : tr s1 = tr s).
  { pose proof (bind_all_data (combine (sf_name c :: sf_params c) (VFn c :: vs)) (sf_env c) (put_data (on_call (ss_data s)) s)) as H.
    rewrite E in H. cbn in H. rewrite H. apply Hc. }
  assert (H : ok s1 (stmts_with (SpecEval.ev m orc opts builtins (call_at m orc opts on_call on_return builtins k) k false) (sf_body c) r s1)).
  { apply ok_stmts. apply Forall_forall. intros e _ r0 s0. apply ok_ev. exact IH. }
  apply (ok_same s1 s _ E1). destruct (stmts_with _ _ _ _) as [v s2|v s2|e s2| |]; cbn [ok] in *; auto.
  destruct H as (w & E2 & Hw). exists w. split; auto. cbn. rewrite Hr. auto.
Qed.
Lemma ok_eval k p s : ok s (eval m orc opts on_call on_return builtins k p s).
Proof using Hc Hr Hb.
  unfold eval.
  assert (H : ok s (stmts_with (SpecEval.ev m orc opts builtins (call_at m orc opts on_call on_return builtins k) k true) p [] s)).
  { apply ok_stmts. apply Forall_forall. intros e _ r0 s0. apply ok_ev. intros. apply ok_call_at. }
  destruct (stmts_with _ _ _ _) as [[[v|] r] s2|v s2|e s2| |]; cbn [ok] in *; auto. destruct m; cbn [ok]; auto.
Qed.
End Events.

(** ** Programs that end in a given statement *)
Lemma stmts_app f l e r (s : sst) : stmts_with f (l ++ [e]) r s =
  match l with [] => f (fst e) r s | _ => seq (stmts_with f l r s) (fun vr s => f (fst e) (snd vr) s) end.
Proof using.
  revert r s. induction l as [|a l IH]; intros r s; cbn [app].
  - cbn [stmts_with]. destruct (f (fst e) r s); reflexivity.
  - cbn [stmts_with]. destruct (f (fst a) r s) as [vr s1|v s1|x s1| |]; cbn [seq]; auto.
    destruct l as [|a' l]; cbn [app].
    + cbn [stmts_with seq]. destruct (f (fst e) (snd vr) s1); reflexivity.
    + rewrite <- IH. reflexivity.
Qed.

Lemma for_each it l body : value_wf it -> visits it = Some l -> (m = Debug -> (Z.of_nat (length l) < 2 ^ 31)%Z) ->
  forall j n i last s, i + length (skipn i l) = length l -> length (skipn i l) = j -> j < n ->
  for_ (D:=D) m n it body (N.of_nat i) last s = each body (skipn i l) last s.
Proof using.
  intros Hw Hv Hd. assert (It : forall i, i <= length l -> v_iter m sfi (N.of_nat i) it = Ok (nth_error l i)).
  { intros i Hi. destruct (iteration sfn sfi it l (N.of_nat i) Hw Hv ltac:(lia)) as [I1 I2]. rewrite Nnat.Nat2N.id in *.
    destruct m; auto. apply I2. specialize (Hd eq_refl). lia. }
  induction j as [|j IH]; intros n i last s Hi Hj Hn; (destruct n as [|n]; [lia|]); cbn [for_]; rewrite It by lia; cbn [lift seq].
  - destruct (skipn i l); [|discriminate]. cbn in Hi. replace (nth_error l i) with (@None sval); auto.
    symmetry. apply nth_error_None. lia.
  - destruct (skipn i l) as [|x t] eqn:E; [discriminate|].
    assert (En : nth_error l i = Some x).
    { rewrite <- (firstn_skipn i l), nth_error_app2, firstn_length_le, Nat.sub_diag, E by (try rewrite firstn_length_le; cbn in *; lia). auto. }
    rewrite En. cbn [each]. destruct (body x s) as [v s1| | | |]; cbn [seq]; auto.
    assert (Et : skipn (S i) l = t).
    { clear - E. revert l E. induction i; intros [|a l] E; cbn in *; try discriminate; [congruence|]. apply IHi. auto. }
    replace (N.of_nat i + 1)%N with (N.of_nat (S i)) by lia. rewrite <- Et. apply IH; try rewrite Et; cbn in *; lia.
Qed.

Section At.
Context (call : sfn -> list sval -> sst -> out sval) (k : nat).
Notation ev := (SpecEval.ev m orc opts builtins call k).
Notation ex := (ex m orc opts builtins call k).

Lemma switch_ev r v d cs s o s' : choice (fun n s => ex n r s) v cs s o s' ->
  cases_with (ev false) v d r cs s = else_with (ev false) (chosen o d) r s'.
Proof using.
  induction 1 as [s|e body cs s w s' H1 H2|e body cs s w s' o s'' H1 H2 H3 IH]; cbn [cases_with chosen fst snd]; auto.
  - unfold ProofSim7.ex in H1. destruct (ev false (fst e) r s) as [vr s1| | | |]; cbn [seq] in *; try discriminate.
    destruct (fst vr); cbn in *; [|discriminate]. injection H1 as -> ->. rewrite H2. reflexivity.
  - unfold ProofSim7.ex in H1. destruct (ev false (fst e) r s) as [vr s1| | | |]; cbn [seq] in *; try discriminate.
    destruct (fst vr); cbn in *; [|discriminate]. injection H1 as -> ->. rewrite H2. cbn. exact IH.
Qed.

End At.
End Flow.

(** ** On the machine *)
Section Machine.
Context {D : Type} (m : mode) (hst : host D).
Context (ast : list nodeS) (sc : script) (b : rstring -> option (sbuiltin (D:=D))) (st : sst (D:=D)) (s : vm D).
Notation ev fuel := (SpecEval.ev m (h_oracle hst) (v_opts s) b
  (call_at m (h_oracle hst) (v_opts s) (h_enter hst) (h_leave hst) b fuel) fuel).

(** Contexts of a run. *)
Theorem contexts_run (events : D -> list event) :
  compile m ast = COk sc -> weights ast <= N.to_nat 65535 -> placed_program ast -> ordinary_names ast ->
  starts sc b st s -> length (p_entries (v_gsyms s)) <= N.to_nat 65536 ->
  (forall d, events (h_enter hst d) = events d) -> (forall d, events (h_leave hst d) = events d) ->
  (forall x f, b x = Some f -> writes events x f) ->
  forall k fuel, k <= fuel ->
  eval m (h_oracle hst) (v_opts s) (h_enter hst) (h_leave hst) b fuel ast st <> Unspecified ->
  match run m hst k s with
  | RDone _ s' => exists w, events (v_data s') = events (v_data s) ++ w /\ nested w
  | RErr e _ s' => (e = EStackOverflow \/ exists l, e = ERuntimeLimit l) \/
                   exists w, events (v_data s') = events (v_data s) ++ w /\ inside_some w
  | _ => True
  end.
Proof.
  intros H1 H2 H3 H4 H5 H6 He Hl Hw k fuel Hk Hu.
  destruct (run_back m hst ast sc b st s H1 H2 H3 H4 H5 H6 k fuel Hk) as [|H]; [contradiction|].
  assert (Ed : ss_data st = v_data s).
  { clear - H5. induction H5 as [d o|l l' b st s H IH Hl|n v w b st s H IH Hv|n v w b st s s' H IH Hv Hs]; cbn; auto.
    - rewrite IH. clear. revert s. induction l' as [|[n g] l' IH]; intros s; cbn [add_builtins_list]; auto.
      destruct (pool_add seqb (v_gsyms s) n). rewrite <- IH. reflexivity.
    - unfold insert_global. destruct (pool_add seqb (v_gsyms s) n). cbn. auto.
    - unfold set_external in Hs. destruct (pool_id seqb (v_gsyms s) n); [|discriminate]. destruct (existsb _ _); [|discriminate].
      injection Hs as <-. cbn. auto. }
  pose proof (ok_eval m (h_oracle hst) (v_opts s) (h_enter hst) (h_leave hst) b events He Hl Hw fuel ast st) as Ho. rewrite <- Ed.
  destruct (run m hst k s) as [w s'|e sp s'| |s']; auto.
  - destruct H as (v & st' & E & _ & Hs). cbn beta in E. rewrite E in Ho. cbn [ok] in Ho. destruct Hs as [-> _]. exact Ho.
  - destruct H as [H|(st' & E & Hs)]; auto. right. cbn beta in E. rewrite E in Ho. cbn [ok] in Ho. destruct Hs as [-> _]. exact Ho.
Qed.

Theorem last_run pre n sp fuel r0 s0 (o : out (D:=D) sval) : ast = pre ++ [(n, sp)] ->
  compile m ast = COk sc -> weights ast <= N.to_nat 65535 -> placed_program ast -> ordinary_names ast ->
  starts sc b st s -> length (p_entries (v_gsyms s)) <= N.to_nat 65536 ->
  stmts_with (ev fuel true) pre [] st = Got r0 s0 ->
  ev fuel true n (snd r0) s0 = seq o (fun v s => Got (Some v, snd r0) s) ->
  stopped_by_limit m hst s \/ ends_with m hst fuel o s.
Proof.
  intros E H1 H2 H3 H4 H5 H6 Hpre Hn.
  destruct (whole_program m hst ast sc b st s fuel H1 H2 H3 H4 H5 H6) as [|H]; auto. right.
  unfold eval in H. rewrite E, stmts_app in H.
  assert (Es : (match pre with [] => ev fuel true n [] st
                | _ => seq (stmts_with (ev fuel true) pre [] st) (fun vr s => ev fuel true n (snd vr) s) end) = seq o (fun v s => Got (Some v, snd r0) s)).
  { destruct pre; [cbn in Hpre; injection Hpre as <- <-; exact Hn|]. rewrite Hpre. cbn [seq]. exact Hn. }
  cbn [fst] in H. rewrite Es in H. clear Es. unfold ends_with. destruct o as [v s1|v s1|e s1| |]; cbn [seq] in H; auto.
  destruct m; [discriminate|]. auto.
Qed.

Theorem switch_run pre e cs default sp fuel r0 s0 v s1 o s2 : ast = pre ++ [(NSwitch e cs default, sp)] ->
  compile m ast = COk sc -> weights ast <= N.to_nat 65535 -> placed_program ast -> ordinary_names ast ->
  starts sc b st s -> length (p_entries (v_gsyms s)) <= N.to_nat 65536 ->
  statements_at m hst (v_opts s) b fuel pre st = Got r0 s0 ->
  value_at m hst (v_opts s) b fuel (fst e) (snd r0) s0 = Got v s1 ->
  choice (fun n s' => value_at m hst (v_opts s) b fuel n (snd r0) s') v cs s1 o s2 ->
  stopped_by_limit m hst s \/
  ends_with m hst fuel (option_at m hst (v_opts s) b fuel (chosen o default) (snd r0) s2) s.
Proof.
  intros E H1 H2 H3 H4 H5 H6 Hpre Hv Hch. eapply last_run; eauto.
  cbn [SpecEval.ev]. unfold value_at, node_at in Hv. rewrite Hv. cbn [seq].
  rewrite (switch_ev m (h_oracle hst) (v_opts s) b _ fuel (snd r0) v default cs s1 o s2 Hch). reflexivity.
Qed.

Theorem for_run pre n x i body sp fuel r0 s0 it s1 l : ast = pre ++ [(n, sp)] ->
  (exists y, n = NFor y i body /\ x = VarDecl y) \/ (exists ys, n = NMultiFor ys i body /\ x = VarMulti ys) ->
  compile m ast = COk sc -> weights ast <= N.to_nat 65535 -> placed_program ast -> ordinary_names ast ->
  starts sc b st s -> length (p_entries (v_gsyms s)) <= N.to_nat 65536 ->
  statements_at m hst (v_opts s) b fuel pre st = Got r0 s0 ->
  value_at m hst (v_opts s) b fuel (fst i) (snd r0) s0 = Got it s1 ->
  value_wf it -> visits it = Some l -> length l < fuel -> (m = Debug -> (Z.of_nat (length l) < 2 ^ 31)%Z) ->
  stopped_by_limit m hst s \/
  ends_with m hst fuel (each (body_with m hst (v_opts s) b fuel x body (snd r0)) l VNone s1) s.
Proof.
  intros E Hn H1 H2 H3 H4 H5 H6 Hpre Hv Hw Hl Hf Hd. eapply last_run; eauto.
  unfold value_at, node_at in Hv.
  pose proof (for_each m it l (body_with m hst (v_opts s) b fuel x body (snd r0)) Hw Hl Hd (length l) fuel 0 VNone s1) as F.
  cbn [skipn] in F. specialize (F eq_refl eq_refl Hf).
  destruct Hn as [(y & -> & ->)|(ys & -> & ->)]; cbn [SpecEval.ev]; rewrite Hv; cbn [seq]; rewrite <- F; reflexivity.
Qed.
Theorem binary_run pre op a c sp fuel r0 s0 v s1 w s2 : ast = pre ++ [(NBinary op a c, sp)] ->
  compile m ast = COk sc -> weights ast <= N.to_nat 65535 -> placed_program ast -> ordinary_names ast ->
  starts sc b st s -> length (p_entries (v_gsyms s)) <= N.to_nat 65536 ->
  statements_at m hst (v_opts s) b fuel pre st = Got r0 s0 ->
  value_at m hst (v_opts s) b fuel (fst a) (snd r0) s0 = Got v s1 ->
  value_at m hst (v_opts s) b fuel (fst c) (snd r0) s1 = Got w s2 ->
  stopped_by_limit m hst s \/
  ends_with m hst fuel (applied m hst (v_opts s) op v w s2) s.
Proof.
  intros E H1 H2 H3 H4 H5 H6 Hpre Hv Hw. eapply last_run; eauto.
  unfold value_at, node_at in Hv, Hw. cbn [SpecEval.ev]. rewrite Hv. cbn [seq]. rewrite Hw. reflexivity.
Qed.
Theorem block_value (body : list nodeS) r s0 fuel :
  value_at m hst (v_opts s) b fuel (NBlock body) r s0 = body_at m hst (v_opts s) b fuel body r s0.
Proof.
  unfold value_at, node_at, body_at. cbn [SpecEval.ev]. unfold node_at.
  destruct (block_with _ _ _ _); reflexivity.
Qed.
End Machine.
