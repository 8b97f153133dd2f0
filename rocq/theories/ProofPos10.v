(** Errors of whole runs: of a program, of a text, of a text with included files. *)
From Verif Require Import Base RleVec Pool Vecc Float NumText Bytecode Chunk Value Ast Arith VmOps
                          Compiler Vm CodeSize Parse Includes Cli SpecParse SpecReady SpecPos
                          ProofPos1 ProofPos2 ProofPos3 ProofPos6 ProofPos7 ProofPos8 ProofPos9.
From Verif Require ProofCode ProofParse.

(** ** Runs *)
Section Run.
Context {D : Type} (m : mode) (hst : host D) (ast : list nodeS) (sc : script).
Context (Hc : compile m ast = COk sc) (Hw : weights ast <= N.to_nat 65535) (Hp : complete_program ast).
Notation vm := (vm D).

Lemma loop_err k : forall (s : vm) e sp s', loop m hst k s = RErr e sp s' ->
  exists t, reach m hst s t /\ step m hst t = SErr e sp s'.
Proof using.
  induction k as [|k IH]; intros s e sp s' E; [discriminate|]. cbn [loop] in E. destruct (step m hst s) as [s1|v s1|e1 sp1 s1|] eqn:Es; try discriminate.
  - apply IH in E as (t & Ht & Et). exists t. split; [|exact Et]. clear - Es Ht. induction Ht; [|econstructor; eauto].
    econstructor; [constructor|exact Es].
  - injection E as -> -> ->. exists s. split; [constructor|exact Es].
Qed.

Lemma removelast_firstn {A} n (l : list A) x : In x (firstn n (removelast l)) -> In x l.
Proof using.
  intros H. assert (K : forall k (t : list A), In x (firstn k t) -> In x t).
  { induction k as [|k IH]; intros [|y t]; cbn; try tauto. intros [->|H']; auto. }
  apply K in H. clear - H. induction l as [|y l IH]; [exact H|]. destruct l; [destruct H|].
  change (In x (y :: removelast (a :: l))) in H. destruct H as [->|H]; [now left|right; auto].
Qed.

Lemma traced_lines (s : vm) n sp : traced ast sc s -> In (TFrame n sp) (trace_back s) -> position_of ast sp.
Proof using.
  intros (A & B & C) Hi. rewrite Forall_forall in C. cbn [trace_back In] in Hi. destruct Hi as [Hi|Hi].
  - injection Hi as _ <-. exact (fok_span ast sc _ _ A B).
  - apply in_app_iff in Hi as [Hi|Hi]; [|apply in_app_iff in Hi as [Hi|Hi]].
    + apply in_map_iff in Hi as (fr & Hf & Hi). injection Hf as _ <-. apply removelast_firstn in Hi. destruct (C _ Hi) as (_ & _ & f & l & Ho).
      eapply po_node; eauto.
    + destruct (_ <? _); [destruct Hi as [Hi|[]]; discriminate|destruct Hi].
    + destruct (rev (v_frames s)) as [|fr t] eqn:Er; [destruct Hi|]. destruct Hi as [Hi|[]]. injection Hi as _ <-.
      destruct (C fr) as (W1 & W2 & _); [apply in_rev; rewrite Er; now left|]. rewrite Nat.sub_0_r. exact (fok_span ast sc _ _ W1 W2).
Qed.
Lemma traced_calls (s : vm) k n sp : traced ast sc s -> 0 < k -> S k < length (trace_back s) ->
  nth_error (trace_back s) k = Some (TFrame n sp) -> exists f l, occurs ast (NCall f l) sp.
Proof using.
  clear Hc Hw Hp. intros (A & B & C) Hk Hl Hn. rewrite Forall_forall in C. destruct k as [|k]; [lia|]. cbn [trace_back nth_error length] in *.
  set (mid := map _ _) in *. set (more := if _ <? _ then _ else _) in *. set (last := match rev (v_frames s) with [] => [] | _ :: _ => _ end) in *.
  assert (Hlast : length last <= 1) by (unfold last; destruct (rev _); cbn; lia).
  rewrite app_assoc in Hn. rewrite nth_error_app1 in Hn by (rewrite !app_length in *; lia). apply nth_error_In in Hn.
  apply in_app_iff in Hn as [Hn|Hn].
  - apply in_map_iff in Hn as (fr & Hf & Hi). injection Hf as _ <-. apply removelast_firstn in Hi. destruct (C _ Hi) as (_ & _ & f & l & Ho). eauto.
  - unfold more in Hn. destruct (_ <? _); [destruct Hn as [Hn|[]]; discriminate|destruct Hn].
Qed.

Lemma run_errors (s0 : vm) k e sp s' : prepared sc s0 -> run m hst k s0 = RErr e sp s' ->
  position_of ast sp /\ (forall n q, In (TFrame n q) (trace_back s') -> position_of ast q) /\
  (forall i n q, 0 < i -> S i < length (trace_back s') -> nth_error (trace_back s') i = Some (TFrame n q) ->
     exists f l, occurs ast (NCall f l) q) /\
  exists t, reach m hst (set_count 0 0 s0) t /\ step m hst t = SErr e sp s' /\ (blamed m hst ast t e sp \/ elsewhere ast t e).
Proof using Hc Hw Hp.
  intros H0 E. unfold run in E. apply loop_err in E as (t & Ht & Et).
  destruct (reach_pinv m hst ast sc Hc Hw Hp _ t (pr_start sc _ H0) Ht) as (Pv & Rd & Pr).
  destruct (compile_pieces ast m sc Hc Hw Hp) as (_ & HG & _).
  destruct (step_err m hst ast sc t e sp s' Pv Rd Pr HG Et) as (K1 & K2 & K3).
  split; [exact K1|]. split; [|split].
  - intros n q. exact (traced_lines s' n q K3).
  - intros i n q. exact (traced_calls s' i n q K3).
  - exists t. auto.
Qed.
End Run.

(** ** Included files make complete programs *)
Lemma complete_cons n sp t : complete n -> complete_all t -> complete_all ((n, sp) :: t).
Proof. intros H K a asp [E|Hi]; [injection E as <- <-; exact H|eapply K; eauto]. Qed.
Lemma complete_include x b : good_body false b -> complete_all b -> complete (NInclude x (Some b)).
Proof.
  intros H K d f c Hd Hb. inversion Hd as [|? ch csp ? Hc Hi]; subst.
  - cbn in Hb. destruct Hb as [Hb|[]]. injection Hb as <- <-. exact H.
  - cbn in Hc. eapply K; eauto.
Qed.
Lemma good_tail n sp x t : good_body false ((n, sp) :: x :: t) <-> good_body false (x :: t).
Proof.
  split.
  - intros (bf & y & ysp & E & H). destruct bf as [|z bf]; [discriminate|]. injection E as _ E. exists bf, y, ysp. auto.
  - intros (bf & y & ysp & E & H). exists ((n, sp) :: bf), y, ysp. rewrite E. auto.
Qed.
Section Includes.
Context (read : rstring -> option rstring) (parse : rstring -> nat -> option (list nodeS)).
Context (Hparse : forall t id a, parse t id = Some a -> complete_program a).
Lemma resolve_complete fuel : forall ast s ast' s', complete_all ast ->
  resolve_includes read parse fuel ast s = IOk ast' s' ->
  complete_all ast' /\ (good_body false ast -> good_body false ast') /\ length ast' = length ast.
Proof using Hparse.
  induction fuel as [|k IH]; intros ast s ast' s' Ha; cbn [resolve_includes]; [discriminate|].
  revert s ast' s' Ha. induction ast as [|[n sp] t IHt]; intros s ast' s' Ha E.
  - injection E as <- <-. auto.
  - assert (Hn : complete n) by (eapply Ha; now left). assert (Ht : complete_all t) by (intros a asp Hi; eapply Ha; right; eauto).
    destruct n.
    all: try (match type of E with match ?X with _ => _ end = _ => destruct X eqn:Et; try discriminate end;
              injection E as <- <-; destruct (IHt _ _ _ Ht Et) as (H1 & H2 & H3); split; [now apply complete_cons|]; split; [|cbn; lia];
              destruct t as [|t1 t]; [destruct ast; [tauto|discriminate]|destruct ast; [discriminate|]; rewrite !good_tail; exact H2]).
    match goal with x : spanned rstring |- _ => destruct x as [nm nsp] end. destruct (i_mem nm s); [discriminate|].
    destruct (read nm) as [txt|]; [|discriminate].
    destruct (parse txt (length (i_sources s))) as [a1|] eqn:Ep; [|discriminate].
    cbv zeta in E.
    destruct (resolve_includes read parse k a1 _) as [a2 s2| |] eqn:E1; try discriminate.
    destruct (resolve_includes read parse k a2 _) as [a3 s3| |] eqn:E2; try discriminate.
    match type of E with match ?X with _ => _ end = _ => destruct X as [t' s4| |] eqn:Et; try discriminate end.
    injection E as <- <-. destruct (Hparse _ _ _ Ep) as [G1 C1].
    destruct (IH _ _ _ _ C1 E1) as (C2 & G2 & _). destruct (IH _ _ _ _ C2 E2) as (C3 & G3 & _).
    destruct (IHt _ _ _ Ht Et) as (H1 & H2 & H3). split; [|split; [|cbn; lia]].
    + apply complete_cons; [|exact H1]. apply complete_include; auto.
    + destruct t as [|t1 t]; [destruct t'; [|discriminate]|destruct t'; [discriminate|]; rewrite !good_tail; exact H2].
      intros (bf & y & ysp & E & Hy). destruct bf as [|z bf]; [|destruct bf; discriminate]. injection E as <- <-. exfalso. apply Hy. exact I.
Qed.
Lemma includes_complete fuel name text ast s : parse_with_includes read parse fuel name text = IOk ast s -> complete_program ast.
Proof using Hparse.
  unfold parse_with_includes. destruct (parse text 0) as [a|] eqn:E; [|discriminate]. intros H. destruct (Hparse _ _ _ E) as [G1 C1].
  destruct (resolve_complete _ _ _ _ _ C1 H) as (C2 & G2 & _). split; auto.
Qed.
End Includes.

(** The parser, as the command line program uses it. *)
Lemma text_positions o t id a sp : parse_text o t id = Some a -> position_of a sp -> within t sp /\ sp_src sp = id.
Proof. unfold parse_text. destruct (parse_code _ _ _ _) eqn:E; try discriminate. intros [= <-]. eapply parse_positions; eauto. Qed.
Lemma text_complete o t id a : parse_text o t id = Some a -> complete_program a.
Proof. unfold parse_text. destruct (parse_code _ _ _ _) eqn:E; try discriminate. intros [= <-]. eapply ProofParse.parse_code_complete; eauto. Qed.
Lemma files_placed o read fuel name text ast is sp :
  parse_with_includes read (parse_text o) fuel name text = IOk ast is -> position_of ast sp ->
  placed read name text (i_sources is) sp.
Proof. exact (includes_placed read (parse_text o) name text (text_positions o) fuel ast is sp). Qed.
Lemma files_complete o read fuel name text ast is :
  parse_with_includes read (parse_text o) fuel name text = IOk ast is -> complete_program ast.
Proof. exact (includes_complete read (parse_text o) (text_complete o) fuel name text ast is). Qed.

Lemma text_errors {D} m (hst : host D) o fuel text id ast i sc s0 k e sp s' :
  parse_code o fuel text id = PMatch ast i -> compile m ast = COk sc -> weights ast <= N.to_nat 65535 ->
  prepared sc s0 -> run m hst k s0 = RErr e sp s' ->
  within text sp /\ sp_src sp = id /\
  forall n q, In (TFrame n q) (trace_back s') -> within text q /\ sp_src q = id.
Proof.
  intros Hp Hc Hw H0 E.
  destruct (run_errors m hst ast sc Hc Hw (ProofParse.parse_code_complete _ _ _ _ _ _ Hp) s0 k e sp s' H0 E) as (K1 & K2 & _).
  destruct (parse_positions _ _ _ _ _ _ _ Hp K1) as [A B]. split; [exact A|]. split; [exact B|].
  intros n q Hq. exact (parse_positions _ _ _ _ _ _ _ Hp (K2 n q Hq)).
Qed.
Lemma file_errors {D} m (hst : host D) o read fuel name text ast is sc s0 k e sp s' :
  parse_with_includes read (parse_text o) fuel name text = IOk ast is -> compile m ast = COk sc -> weights ast <= N.to_nat 65535 ->
  prepared sc s0 -> run m hst k s0 = RErr e sp s' ->
  placed read name text (i_sources is) sp /\
  forall n q, In (TFrame n q) (trace_back s') -> placed read name text (i_sources is) q.
Proof.
  intros Hp Hc Hw H0 E.
  destruct (run_errors m hst ast sc Hc Hw (files_complete _ _ _ _ _ _ _ Hp) s0 k e sp s' H0 E) as (K1 & K2 & _).
  split; [exact (files_placed _ _ _ _ _ _ _ _ Hp K1)|]. intros n q Hq. exact (files_placed _ _ _ _ _ _ _ _ Hp (K2 n q Hq)).
Qed.
