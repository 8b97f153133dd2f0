(** Every report is drawn at a place of the texts: programs, programs of several files, and
    interactive sessions (C92, C97). *)
From Verif Require Import Base RleVec Pool Vecc Float NumText Bytecode Chunk Value Ast Arith VmOps Args Parse Builtins
  Compiler Vm Std Console Includes Report Repl Cli SpecParse SpecReady SpecPos SpecDrawn
  ProofReady ProofPos1 ProofPos2 ProofPos10 ProofConsole ProofSpans ProofSpans2.

(** ** More positions *)
Section Mono.
Context (P Q : span -> Prop) (HPQ : forall sp, P sp -> Q sp).
Lemma sok_mono f : sok P f -> sok Q f.
Proof using HPQ.
  revert f. fix IH 2. intros f [A B C]. constructor; [auto|eapply Forall_impl; [|exact B]; auto|].
  intros c q Hc Hq. apply IH. exact (C c q Hc Hq).
Qed.
Lemma vok_mono v : vok (sgood P) v -> vok (sgood Q) v.
Proof using HPQ. intros H q Hq. apply sok_mono. exact (H q Hq). Qed.
Lemma inv_mono {D} (s : vm D) : inv P s -> inv Q s.
Proof using HPQ.
  intros [A B C E F G H]. constructor; auto.
  - eapply Forall_impl; [|exact A]. exact vok_mono.
  - eapply Forall_impl; [|exact B]. exact vok_mono.
  - eapply Forall_impl; [|exact C]. intros []. apply vok_mono.
  - eapply Forall_impl; [|exact E]. intros []; [auto|apply vok_mono].
  - now apply sok_mono.
  - eapply Forall_impl; [|exact G]. intros f. apply sok_mono.
Qed.
Lemma c_ok_mono c : c_ok P c -> c_ok Q c.
Proof using HPQ.
  intros H. eapply Forall_impl; [|exact H]. intros l (A & B & C). split; [auto|]. split.
  - eapply Forall_impl; [|exact B]. auto.
  - eapply Forall_impl; [|exact C]. exact vok_mono.
Qed.
End Mono.

(** ** Runs *)
Lemma run_places {D} (P : span -> Prop) m (hst : host D) ast sc s0 k e sp s' :
  P default_span -> allpos P ast -> compile m ast = COk sc -> prepared sc s0 -> run m hst k s0 = RErr e sp s' ->
  P sp /\ forall n q, In (TFrame n q) (trace_back s') -> P q.
Proof.
  intros Hd Ha Hc H0 E. pose proof (run_inv m hst P Hd k s0 (prepared_inv P Hd sc s0 (compile_ok P Hd m ast sc Ha Hc) H0)) as K.
  rewrite E in K. destruct K as [K1 K2]. split; [exact K2|]. intros n q. exact (trace_ok P Hd s' n q K1).
Qed.
Lemma text_places {D} m (hst : host D) o fuel text ast i sc s0 k e sp s' :
  parse_code o fuel text 0 = PMatch ast i -> compile m ast = COk sc ->
  prepared sc s0 -> run m hst k s0 = RErr e sp s' ->
  within text sp /\ sp_src sp = 0 /\
  forall n q, In (TFrame n q) (trace_back s') -> within text q /\ sp_src q = 0.
Proof.
  intros Hp Hc H0 E.
  destruct (run_places (fun sp => within text sp /\ sp_src sp = 0) m hst ast sc s0 k e sp s') as [[A B] C]; auto.
  - split; [|reflexivity]. exists [], [], text. repeat split.
  - intros q Hq. exact (parse_positions _ _ _ _ _ _ _ Hp Hq).
Qed.
Lemma file_places {D} m (hst : host D) o read fuel name text ast is sc s0 k e sp s' :
  parse_with_includes read (parse_text o) fuel name text = IOk ast is -> compile m ast = COk sc ->
  prepared sc s0 -> run m hst k s0 = RErr e sp s' ->
  placed read name text (i_sources is) sp /\
  forall n q, In (TFrame n q) (trace_back s') -> placed read name text (i_sources is) q.
Proof.
  intros Hp Hc H0 E. apply (run_places (placed read name text (i_sources is)) m hst ast sc s0 k e sp s'); auto.
  - assert (K : exists l, i_sources is = name :: l).
    { unfold parse_with_includes in Hp. destruct (parse_text o text 0) as [a|] eqn:Ep; [|discriminate].
      destruct (resolve_placed read (parse_text o) name text (text_positions o) fuel a (mkIState [name] []) ast is) as [(l & El) _]; auto.
      - discriminate.
      - intros q Hq. destruct (text_positions _ _ _ _ _ Ep Hq) as [Hw Hs]. exists name, text. rewrite Hs. repeat split; auto.
      - exists l. exact El. }
    destruct K as (l & ->). exists name, text. split; [reflexivity|]. split; [split; reflexivity|]. exists [], [], text. repeat split.
  - intros q Hq. eapply files_placed; eauto.
Qed.

(** ** Includes, from any state of the cache *)
Section Includes.
Context (read : rstring -> option rstring) (parse : rstring -> nat -> option (list nodeS)) (W : list rstring -> span -> Prop).
Context (Hparse : forall t id a sp, parse t id = Some a -> position_of a sp -> within t sp /\ sp_src sp = id).
Context (Wmono : forall l l' sp, W l sp -> W (l ++ l') sp) (Wlen : list rstring -> Prop) (Hlen : forall l l', Wlen l -> Wlen (l ++ l')).
Context (Wnew : forall l nm t sp, Wlen l -> read nm = Some t -> within t sp -> sp_src sp = length l -> W (l ++ [nm]) sp).
Definition grown (s s' : istate) : Prop := exists l, i_sources s' = i_sources s ++ l.
Lemma grown_refl s : grown s s. Proof using. exists []. now rewrite app_nil_r. Qed.
Lemma grown_trans a b c : grown a b -> grown b c -> grown a c.
Proof using. intros (l & E) (l' & E'). exists (l ++ l'). now rewrite E', E, app_assoc. Qed.
Lemma grown_w a b sp : grown a b -> W (i_sources a) sp -> W (i_sources b) sp.
Proof using Wmono. intros (l & ->). apply Wmono. Qed.
Lemma grown_len a b : grown a b -> Wlen (i_sources a) -> Wlen (i_sources b).
Proof using Hlen. intros (l & ->). apply Hlen. Qed.
Definition went (s : istate) (r : ires) : Prop :=
  match r with
  | IOk ast' s' => grown s s' /\ allpos (W (i_sources s')) ast'
  | IErr _ sp s' => grown s s' /\ W (i_sources s') sp
  | IDeep => True
  end.
Lemma resolve_went fuel : forall ast s, Wlen (i_sources s) -> allpos (W (i_sources s)) ast -> went s (resolve_includes read parse fuel ast s).
Proof using Hparse Wmono Hlen Wnew.
  induction fuel as [|k IH]; intros ast s Hs Ha; cbn [resolve_includes]; [exact I|].
  revert s Hs Ha. induction ast as [|[n sp] t IHt]; intros s Hs Ha.
  - split; [apply grown_refl|exact Ha].
  - destruct (allpos_in _ _ n sp Ha (or_introl eq_refl)) as (W1 & W2 & W3).
    assert (Wt : allpos (W (i_sources s)) t).
    { intros x Hx. apply Ha. eapply position_mono; [|exact Hx]. intros y Hy; now right. }
    destruct n.
    all: try (specialize (IHt s Hs Wt); match type of IHt with went _ ?X => destruct X as [t' s'|e q s'|] end;
              [destruct IHt as [G A]; split; [exact G|]; apply allpos_cons;
                [eapply grown_w; eauto|eapply Forall_impl; [|exact W2]; intros; eapply grown_w; eauto
                |eapply allpos_impl; [|exact W3]; intros; eapply grown_w; eauto|exact A]
              |exact IHt|exact I]).
    destruct name as [nm nsp]. cbn [names_of] in W2. inversion W2 as [|? ? W2a _]; subst. cbn [snd] in W2a.
    destruct (i_mem nm s); [split; [apply grown_refl|exact W2a]|].
    destruct (read nm) as [txt|] eqn:Er; [|split; [apply grown_refl|exact W2a]].
    cbv zeta.
    assert (G1 : grown s (i_add nm s)) by (exists [nm]; reflexivity).
    destruct (parse txt (length (i_sources s))) as [a1|] eqn:Ep.
    2:{ split; [exact G1|]. apply (Wnew _ _ txt); auto. exists [], [], txt. repeat split. }
    assert (A1 : allpos (W (i_sources (i_add nm s))) a1).
    { intros x Hx. destruct (Hparse _ _ _ _ Ep Hx) as [Hw Hsrc]. apply (Wnew _ _ txt); auto. }
    pose proof (IH a1 (i_add nm s) (grown_len _ _ G1 Hs) A1) as K1.
    destruct (resolve_includes read parse k a1 _) as [a2 s2|e q s2|]; [|destruct K1; split; [eapply grown_trans; eauto|assumption]|exact I].
    destruct K1 as [G2 A2].
    assert (G3 : grown s (i_mark nm s2)) by (eapply grown_trans; [exact G1|exact G2]).
    pose proof (IH a2 (i_mark nm s2) (grown_len _ _ G3 Hs) A2) as K2.
    destruct (resolve_includes read parse k a2 _) as [a3 s3|e q s3|]; [|destruct K2; split; [eapply grown_trans; eauto|assumption]|exact I].
    destruct K2 as [G4 A3].
    assert (G5 : grown s s3) by (eapply grown_trans; eauto).
    specialize (IHt s3 (grown_len _ _ G5 Hs) (allpos_impl _ _ _ (fun x Hx => grown_w _ _ x G5 Hx) Wt)).
    match type of IHt with went _ ?X => destruct X as [t' s4|e q s4|] end; [|destruct IHt; split; [eapply grown_trans; eauto|assumption]|exact I].
    destruct IHt as [G6 A4].
    assert (G7 : grown s s4) by (eapply grown_trans; eauto).
    split; [exact G7|]. apply allpos_cons; [eapply grown_w; eauto|eapply Forall_impl; [|exact W2]; intros; eapply grown_w; eauto| |exact A4].
    cbn [children opt_list]. eapply allpos_impl; [|exact A3]. intros x Hx. exact (grown_w _ _ x G6 Hx).
Qed.
End Includes.

(** ** Caches *)
Lemma in_more c d sp : in_sources c sp -> in_sources (c ++ d) sp.
Proof.
  intros (src & H & Hw). exists src. split; [|exact Hw]. rewrite nth_error_app1; [exact H|]. apply nth_error_Some. congruence.
Qed.
Lemma in_start c : c <> [] -> in_sources c default_span.
Proof. destruct c as [|s c]; [congruence|]. intros _. exists s. split; [reflexivity|]. exists [], [], (src_text s). repeat split. Qed.
Lemma in_new w l nm t sp : read_text w nm = Some t -> within t sp -> sp_src sp = length l -> in_sources (sources w (l ++ [nm])) sp.
Proof.
  intros Hr Hw Hl. exists (mkSource nm t). split; [|exact Hw]. unfold sources. rewrite map_app, Hl, nth_error_app2 by (rewrite map_length; lia).
  rewrite map_length, Nat.sub_diag. cbn. now rewrite Hr.
Qed.

(** ** Printers *)
Section Print.
Context (hst : host world) (p q : printer) (Hpq : agree p q).
Lemma report_agree c e sp : in_sources c sp -> report p c e sp = report q c e sp.
Proof using Hpq.
  intros H. unfold report, error_report. destruct Hpq as [-> -> -> Hd _ _]. now apply Hd.
Qed.
Lemma trace_agree c s : (forall n sp, In (TFrame n sp) (trace_back s) -> in_sources c sp) -> traceback hst p c s = traceback hst q c s.
Proof using Hpq.
  intros H. unfold traceback, trace_text. f_equal. f_equal.
  assert (K : forall l, (forall n sp, In (TFrame n sp) l -> in_sources c sp) ->
    flat_map (trace_entry (p_offset_line p) (p_nth_line p) (o_whitespace (h_oracle hst)) c) l =
    flat_map (trace_entry (p_offset_line q) (p_nth_line q) (o_whitespace (h_oracle hst)) c) l).
  { induction l as [|t l IH]; intros Hl; [reflexivity|]. cbn [flat_map]. f_equal; [|apply IH; intros; apply (Hl n); now right].
    destruct t as [n sp|n]; [|reflexivity]. unfold trace_entry. destruct (starts_with_dots n); [reflexivity|].
    destruct (Hl n sp (or_introl eq_refl)) as (src & -> & a & b & d & Et & Es & _). rewrite Et, Es.
    pose proof (ag_line _ _ Hpq a (b ++ d)) as L. pose proof (ag_text _ _ Hpq a (b ++ d)) as T.
    destruct (a ++ b ++ d) as [|x text]; [reflexivity|]. rewrite <- L.
    destruct (p_offset_line p (x :: text) (N.to_nat (slen a))) as [k|]; [|reflexivity]. rewrite <- (T k eq_refl). reflexivity. }
  apply K. intros n sp Hi. apply (H n). now apply in_rev.
Qed.

Context (m : mode) (orc : oracle) (feq : mfn -> mfn -> res bool) (fhash : mfn -> res (list hitem)).
Lemma cli_agree k a name w : cli m hst orc p feq fhash k a name w = cli m hst orc q feq fhash k a name w.
Proof using Hpq.
  unfold cli. destruct (w_file w name) as [text|e] eqn:Ef; [|reflexivity].
  assert (Hr : read_text w name = Some text) by (unfold read_text; now rewrite Ef).
  set (W := fun (l : list rstring) (sp : span) => in_sources (sources w l) sp).
  assert (Wmono : forall l l' sp, W l sp -> W (l ++ l') sp).
  { intros l l' sp H. unfold W, sources. rewrite map_app. now apply in_more. }
  assert (Wnew : forall l nm t sp, True -> read_text w nm = Some t -> within t sp -> sp_src sp = length l -> W (l ++ [nm]) sp).
  { intros l nm t sp _. apply in_new. }
  assert (K : went W (mkIState [name] []) (parse_with_includes (read_text w) (parse_text orc) k name text)).
  { unfold parse_with_includes. destruct (parse_text orc text 0) as [ast|] eqn:Ep.
    - refine (resolve_went _ _ W (text_positions orc) Wmono (fun _ => True) (fun _ _ H => H) Wnew k ast (mkIState [name] []) I _).
      intros sp Hsp. destruct (text_positions _ _ _ _ _ Ep Hsp) as [Hw Hs]. exact (in_new w [] name text sp Hr Hw Hs).
    - split; [apply grown_refl|]. apply in_start. discriminate. }
  destruct (parse_with_includes _ _ k name text) as [ast is|e sp is|]; [|destruct K as [_ K]; f_equal; f_equal; now apply report_agree|reflexivity].
  destruct K as [(l & El) Ka].
  assert (Hn : sources w (i_sources is) <> []) by (rewrite El; discriminate).
  destruct (compile m ast) as [sc|e sp|] eqn:Ec; [|f_equal; f_equal; apply report_agree, Ka; eapply compile_error_position; eauto|reflexivity].
  destruct (run m hst k _) as [v s|e sp s| |] eqn:E; try reflexivity.
  destruct (run_places (in_sources (sources w (i_sources is))) m hst ast sc _ k e sp s (in_start _ Hn) Ka Ec
    (pr_builtins sc _ _ (pr_new sc w (a_limits a)) (stdio_honest m (h_oracle hst) feq fhash)) E) as [K1 K2].
  rewrite (report_agree _ _ _ K1), (trace_agree _ s K2). reflexivity.
Qed.

(** ** Sessions *)
Definition Pc (c : list source) (sp : span) : Prop := sp = default_span \/ in_sources c sp.
Record sinv (r : interactive) : Prop := {
  si_vm : inv (Pc (n_sources r)) (rp_vm (n_repl r));
  si_comp : c_ok (Pc (n_sources r)) (rp_compiler (n_repl r));
  si_lib : rp_builtins (n_repl r) = [stdio m (h_oracle hst) feq fhash] }.
Lemma Pc_more c d sp : Pc c sp -> Pc (c ++ d) sp.
Proof using. intros [H|H]; [now left|right; now apply in_more]. Qed.
Lemma Pc_in c sp : c <> [] -> Pc c sp -> in_sources c sp.
Proof using. intros Hc [->|H]; [now apply in_start|exact H]. Qed.
Lemma Pd c : Pc c default_span. Proof using. now left. Qed.
Lemma new_sinv o w : sinv (interactive_new m hst feq fhash o w).
Proof using.
  constructor; cbn; [|apply new_ok, Pd|reflexivity]. apply new_inv; [apply Pd|]. apply script_ok; [apply Pd|]. apply new_ok, Pd.
Qed.
Lemma say_sinv t r : sinv r -> sinv (n_say t r).
Proof using. intros [A B C]. constructor; auto. cbn. now apply data_inv; [apply Pd|]. Qed.
Lemma complain_agree c e sp r : c <> [] -> inv (Pc c) (rp_vm (n_repl r)) -> Pc c sp -> complain hst p c e sp r = complain hst q c e sp r.
Proof using Hpq.
  intros Hc Hi Hp. unfold complain. rewrite (report_agree c e sp (Pc_in c sp Hc Hp)), (trace_agree c); [reflexivity|].
  intros n x Hx. apply (Pc_in c x Hc). exact (trace_ok (Pc c) (Pd c) _ n x Hi Hx).
Qed.
Lemma complain_sinv pr c e sp r : sinv r -> sinv (complain hst pr c e sp r).
Proof using. apply say_sinv. Qed.
Lemma enter_agree k line r : sinv r -> enter_line m hst orc p k line r = enter_line m hst orc q k line r /\
  forall r', enter_line m hst orc p k line r = Some r' -> sinv r'.
Proof using Hpq.
  intros [A B C]. unfold enter_line.
  set (name := str "@__exec__" ++ int_text (Z.of_nat (n_next r))). set (c := n_sources r ++ [mkSource name line]). cbv zeta. cbn [sp_src].
  assert (Hc : c <> []) by (unfold c; destruct (n_sources r); discriminate).
  assert (Hlc : length c = S (length (n_sources r))) by (unfold c; rewrite app_length; cbn; lia).
  assert (Hline : forall sp, within line sp -> sp_src sp = length (n_sources r) -> in_sources c sp).
  { intros sp Hw Hs. exists (mkSource name line). split; [|exact Hw]. unfold c. rewrite Hs, nth_error_app2, Nat.sub_diag by lia. reflexivity. }
  assert (Hup : forall d sp, Pc (n_sources r) sp -> Pc (c ++ d) sp).
  { intros d sp H. unfold c. rewrite <- app_assoc. now apply Pc_more. }
  assert (A' : forall d, inv (Pc (c ++ d)) (rp_vm (n_repl r))) by (intros d; eapply inv_mono; [|exact A]; apply Hup).
  assert (B' : forall d, c_ok (Pc (c ++ d)) (rp_compiler (n_repl r))) by (intros d; eapply c_ok_mono; [|exact B]; apply Hup).
  assert (Hcd : forall d, c ++ d <> []) by (intros d; destruct c; [congruence|discriminate]).
  destruct (parse_text orc line (length (n_sources r))) as [ast|] eqn:Ep.
  2:{ pose proof (A' []) as A0. pose proof (B' []) as B0. rewrite app_nil_r in A0, B0. split.
      - f_equal. apply complain_agree; [exact Hc|exact A0|]. right. apply Hline; [|reflexivity]. exists [], [], line. repeat split.
      - intros r' [= <-]. apply complain_sinv. constructor; auto. }
  set (w := n_world _).
  set (W := fun (l : list rstring) (sp : span) => length c <= length l /\ in_sources (c ++ sources w (skipn (length c) l)) sp).
  assert (Wmono : forall l l' sp, W l sp -> W (l ++ l') sp).
  { intros l l' sp [H1 H2]. split; [rewrite app_length; lia|]. rewrite skipn_app. unfold sources. rewrite map_app, app_assoc. now apply in_more. }
  assert (Wnew : forall l nm t sp, length c <= length l -> read_text w nm = Some t -> within t sp -> sp_src sp = length l -> W (l ++ [nm]) sp).
  { intros l nm t sp Hl Hr Hw Hs. split; [rewrite app_length; lia|]. exists (mkSource nm t). split; [|exact Hw].
    rewrite Hs, nth_error_app2 by lia. rewrite skipn_app. unfold sources.
    replace (length c - length l) with 0 by lia. cbn [skipn]. rewrite map_app, nth_error_app2 by (rewrite map_length, skipn_length; lia).
    rewrite map_length, skipn_length. replace (length l - length c - (length l - length c)) with 0 by lia. cbn. now rewrite Hr. }
  assert (Wlen : forall l l' : list rstring, length c <= length l -> length c <= length (l ++ l')) by (intros; rewrite app_length; lia).
  assert (W0 : allpos (W (i_sources (mkIState (map src_name c) []))) ast).
  { intros sp Hsp. destruct (text_positions _ _ _ _ _ Ep Hsp) as [Hw Hs]. split; [cbn; now rewrite map_length|]. apply in_more. now apply Hline. }
  assert (L0 : length c <= length (i_sources (mkIState (map src_name c) []))) by (cbn; now rewrite map_length).
  pose proof (resolve_went (read_text w) (parse_text orc) W (text_positions orc) Wmono _ Wlen Wnew k ast (mkIState (map src_name c) []) L0 W0) as K.
  destruct (resolve_includes (read_text w) (parse_text orc) k ast _) as [ast' is|e sp is|]; [|destruct K as [_ [_ K]]|split; [reflexivity|discriminate]].
  2:{ split.
      - f_equal. apply complain_agree; [apply Hcd|exact (A' _)|now right].
      - intros r' [= <-]. apply complain_sinv. constructor; [exact (A' _)|exact (B' _)|exact C]. }
  destruct K as [_ Ka]. set (c2 := c ++ sources w (skipn (length c) (i_sources is))) in *. unfold execute. cbn [n_repl n_next].
  assert (Ha : allpos (Pc c2) ast') by (intros sp Hsp; right; exact (proj2 (Ka sp Hsp))).
  pose proof (stmnts_ok (Pc c2) (Pd c2) m ast' Ha (rp_compiler (n_repl r)) (B' _)) as Kc.
  destruct (compile_stmnts m ast' (rp_compiler (n_repl r))) as [[x|e sp|] cc]; cbn [fst snd] in Kc; destruct Kc as [Kc1 Kc2].
  - rewrite C. cbn [fold_left].
    set (s0 := add_builtins_list _ _).
    assert (K0 : inv (Pc c2) s0).
    { apply inv_builtins; [apply Pd| |apply stdio_honest]. apply update_inv; [apply Pd|exact (A' _)|]. apply script_ok; [apply Pd|exact Kc1]. }
    pose proof (run_inv m hst (Pc c2) (Pd c2) k s0 K0) as K.
    assert (Kr : c_ok (Pc c2) (compiler_reset repl_name cc)) by (apply reset_ok; [apply Pd|exact Kc1]).
    destruct (run m hst k s0) as [v s|e sp s| |]; cbn [Repl.after]; try (split; [reflexivity|discriminate]).
    + destruct K as [K _]. split; [reflexivity|].
      assert (S0 : sinv (mkInteractive (mkRepl s (compiler_reset repl_name cc) [stdio m (h_oracle hst) feq fhash]) c2 (S (n_next r))))
        by (constructor; auto).
      destruct v; intros r' [= <-]; first [exact S0|apply say_sinv; exact S0].
    + destruct K as [K1 K2]. split.
      * f_equal. apply complain_agree; [apply Hcd|exact K1|exact K2].
      * intros r' [= <-]. apply complain_sinv. constructor; auto.
  - split.
    + f_equal. apply complain_agree; [apply Hcd|exact (A' _)|exact Kc2].
    + intros r' [= <-]. apply complain_sinv. constructor; [exact (A' _)|exact Kc1|exact C].
  - split; [reflexivity|discriminate].
Qed.
Lemma round_agree k r : sinv r -> round m hst orc p k r = round m hst orc q k r /\
  forall r', round m hst orc p k r = Some r' -> sinv r'.
Proof using Hpq.
  intros H. unfold round. pose proof (say_sinv (str ">>> ") r H) as K. cbv zeta.
  destruct (w_in _) as [|[l|] rest]; [split; [reflexivity|intros r' [= <-]; exact K]| |split; [reflexivity|discriminate]].
  assert (K1 : sinv (n_set_world (put_in rest (n_world (n_say (str ">>> ") r))) (n_say (str ">>> ") r))).
  { destruct K as [A B C]. constructor; auto. cbn. now apply data_inv; [apply Pd|]. }
  destruct (trim_both _ l); [split; [reflexivity|intros r' [= <-]; exact K1]|]. now apply enter_agree.
Qed.
Lemma rounds_agree k n : forall r, sinv r -> rounds m hst orc p k n r = rounds m hst orc q k n r.
Proof using Hpq.
  induction n as [|n IH]; intros r H; cbn [rounds]; [reflexivity|].
  destruct (round_agree k r H) as [E S]. rewrite <- E. destruct (round m hst orc p k r) as [r'|]; [|reflexivity]. apply IH. now apply S.
Qed.
End Print.

(** ** The sources of a session *)
Lemma resolve_reads read parse fuel : forall ast s,
  match resolve_includes read parse fuel ast s with
  | IOk _ s' | IErr _ _ s' => exists l, i_sources s' = i_sources s ++ l /\ Forall (fun n => read n <> None) l
  | IDeep => True
  end.
Proof.
  assert (R : forall s : istate, exists l, i_sources s = i_sources s ++ l /\ Forall (fun n => read n <> None) l)
    by (intros s; exists []; rewrite app_nil_r; auto).
  assert (T : forall a b c : istate, (exists l, i_sources b = i_sources a ++ l /\ Forall (fun n => read n <> None) l) ->
    (exists l, i_sources c = i_sources b ++ l /\ Forall (fun n => read n <> None) l) ->
    exists l, i_sources c = i_sources a ++ l /\ Forall (fun n => read n <> None) l).
  { intros a b c (l & E & F) (l' & E' & F'). exists (l ++ l'). split; [now rewrite E', E, app_assoc|]. apply Forall_app. auto. }
  induction fuel as [|k IH]; intros ast s; cbn [resolve_includes]; [exact I|].
  revert s. induction ast as [|[n sp] t IHt]; intros s; [apply R|].
  destruct n.
  all: try (specialize (IHt s); match type of IHt with match ?X with _ => _ end => destruct X end; exact IHt).
  destruct name as [nm nsp].
  destruct (i_mem nm s); [apply R|]. destruct (read nm) as [txt|] eqn:Er; [|apply R]. cbv zeta.
  assert (G1 : exists l, i_sources (i_add nm s) = i_sources s ++ l /\ Forall (fun n => read n <> None) l)
    by (exists [nm]; split; [reflexivity|constructor; [congruence|constructor]]).
  destruct (parse txt (length (i_sources s))) as [a1|]; [|exact G1].
  pose proof (IH a1 (i_add nm s)) as K1. destruct (resolve_includes read parse k a1 _) as [a2 s2|e q s2|]; [|exact (T _ _ _ G1 K1)|exact I].
  pose proof (IH a2 (i_mark nm s2)) as K2. pose proof (T _ _ _ G1 K1) as G2.
  destruct (resolve_includes read parse k a2 _) as [a3 s3|e q s3|]; [|exact (T s (i_mark nm s2) _ G2 K2)|exact I].
  pose proof (T s (i_mark nm s2) _ G2 K2) as G3. specialize (IHt s3).
  match type of IHt with match ?X with _ => _ end => destruct X end; try exact I; exact (T _ _ _ G3 IHt).
Qed.
Lemma line_sources m (hst : host world) orc pr k line r r' : enter_line m hst orc pr k line r = Some r' ->
  exists more, n_sources r' = n_sources r ++ mkSource (str "@__exec__" ++ int_text (Z.of_nat (n_next r))) line :: more /\
    n_next r' = S (n_next r) /\ Forall (fun s => read_text (n_world r) (src_name s) = Some (src_text s)) more.
Proof.
  unfold enter_line. cbv zeta. set (name := str "@__exec__" ++ _). set (c := n_sources r ++ [_]).
  assert (Hc : forall d, c ++ d = n_sources r ++ mkSource name line :: d) by (intros d; unfold c; now rewrite <- app_assoc).
  destruct (parse_text orc line _) as [ast|].
  2:{ intros [= <-]. exists []. split; [reflexivity|]. auto. }
  pose proof (resolve_reads (read_text (n_world r)) (parse_text orc) k ast (mkIState (map src_name c) [])) as K.
  change (n_world (mkInteractive (n_repl r) c (S (n_next r)))) with (n_world r).
  assert (F : forall l, Forall (fun n => read_text (n_world r) n <> None) l ->
    Forall (fun s => read_text (n_world r) (src_name s) = Some (src_text s)) (sources (n_world r) (skipn (length c) (map src_name c ++ l)))).
  { intros l Hl. rewrite skipn_app, skipn_all2 by (rewrite map_length; lia). rewrite map_length, Nat.sub_diag. cbn [skipn app].
    unfold sources. rewrite Forall_map. eapply Forall_impl; [|exact Hl]. intros n Hn. cbn [src_name src_text].
    cbv beta in Hn. destruct (read_text (n_world r) n); [reflexivity|contradiction Hn; reflexivity]. }
  destruct (resolve_includes _ _ k ast _) as [ast' is|e sp is|]; [| |discriminate]; destruct K as (l & El & Hl); cbn [i_sources] in El; rewrite El.
  - destruct (execute m hst k _ (Some ast')) as [o p]. cbn [n_next].
    destruct o as [| | |[v s| | |]]; try discriminate; try (destruct v); intros [= <-]; (eexists; split; [exact (Hc _)|]; split; [reflexivity|exact (F l Hl)]).
  - intros [= <-]. eexists. split; [exact (Hc _)|]. split; [reflexivity|exact (F l Hl)].
Qed.
