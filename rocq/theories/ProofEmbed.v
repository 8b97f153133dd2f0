(** Building scripts (C100). *)
From Verif Require Import Base Float Ast Value Compiler Includes Report SpecPos SpecDrawn SpecIncludes Embed SpecEmbed
  SpecParse ProofIncludes ProofPos1 ProofPos2 ProofSpans3.

Section One.
Context (parse : rstring -> nat -> option (list nodeS)) {R : Type} (rs : resolver R).
Local Notation all := (resolve_all parse rs).
Lemma all_nil k r c : all (S k) [] r c = Built [] r c.
Proof. reflexivity. Qed.
Lemma all_include k name nsp body sp t r c :
  all (S k) ((NInclude (name, nsp) body, sp) :: t) r c =
  if r_resolved rs r name then Failed (ECircularInclude name) nsp r c else
  match r_resolve rs (parse_files parse (all k)) r c name nsp with
  | Built a r c =>
      match all k a r c with
      | Built a r c =>
          match all (S k) t r c with
          | Built t' r c => Built ((NInclude (name, nsp) (Some a), sp) :: t') r c
          | x => x
          end
      | x => x
      end
  | x => x
  end.
Proof. reflexivity. Qed.
Lemma all_other k n sp t r c : (forall x b, n <> NInclude x b) ->
  all (S k) ((n, sp) :: t) r c = match all (S k) t r c with Built t' r c => Built ((n, sp) :: t') r c | y => y end.
Proof. intros H. destruct n; try reflexivity. exfalso; eapply H; reflexivity. Qed.
End One.

(** ** The default resolver *)
Section Default.
Context (parse : rstring -> nat -> option (list nodeS)) (read : rstring -> option rstring).
Local Notation file := (file read).
Definition lift (c : list source) (x : ires) : built (list rstring) (list nodeS) :=
  match x with
  | IOk ast s => Built ast (i_resolved s) (c ++ map file (skipn (length c) (i_sources s)))
  | IErr e sp s => Failed e sp (i_resolved s) (c ++ map file (skipn (length c) (i_sources s)))
  | IDeep => Deep
  end.
Lemma file_read n t : read n = Some t -> file n = mkSource n t.
Proof. unfold SpecEmbed.file. now intros ->. Qed.
(** the cache after some steps, seen from an earlier cache *)
Definition cache_of (c : list source) (l : list rstring) : list source := c ++ map file (skipn (length c) l).
Lemma cache_len c more : length (cache_of c (map src_name c ++ more)) = length c + length more.
Proof. unfold cache_of. rewrite app_length, map_length, skipn_app, map_length, skipn_all2, Nat.sub_diag by now rewrite map_length. reflexivity. Qed.
Lemma cache_more c more : cache_of c (map src_name c ++ more) = c ++ map file more.
Proof. unfold cache_of. rewrite skipn_app, map_length, skipn_all2, Nat.sub_diag by now rewrite map_length. reflexivity. Qed.
Lemma names_file l : map src_name (map file l) = l.
Proof. rewrite map_map. rewrite <- (map_id l) at 2. reflexivity. Qed.
Lemma default_all k : forall ast r c more,
  resolve_all parse (default_resolver read) k ast r (c ++ map file more) =
  lift c (resolve_includes read parse k ast (mkIState (map src_name c ++ more) r)) /\
  match resolve_includes read parse k ast (mkIState (map src_name c ++ more) r) with
  | IOk _ s | IErr _ _ s => exists l, i_sources s = map src_name c ++ l
  | IDeep => True
  end.
Proof using.
  induction k as [|k IH]; [intros; split; [reflexivity|exact I]|].
  induction ast as [|[n sp] t IHt]; intros r c more.
  - rewrite all_nil, resolve_nil. cbn [lift i_sources i_resolved]. split; [|now exists more]. f_equal. symmetry. exact (cache_more c more).
  - destruct (is_include n) as [([name nsp] & body & ->)|Hn].
    + rewrite all_include, resolve_include. cbn [r_resolved r_resolve default_resolver]. unfold i_mem. cbn [i_resolved].
      destruct (existsb (seqb name) r).
      { cbn [lift i_sources i_resolved]. split; [|now exists more]. f_equal. symmetry. exact (cache_more c more). }
      destruct (read name) as [text|] eqn:Er.
      2:{ cbn [lift i_sources i_resolved]. split; [|now exists more]. f_equal. symmetry. exact (cache_more c more). }
      unfold parse_files at 1, cache_parse, add_source. cbn [i_sources].
      replace (length (c ++ map file more)) with (length (map src_name c ++ more)) by now rewrite !app_length, !map_length.
      assert (Ec : (c ++ map file more) ++ [mkSource name text] = c ++ map file (more ++ [name])) by (rewrite map_app, <- app_assoc; cbn [map]; now rewrite (file_read _ _ Er)).
      rewrite Ec. unfold i_add. cbn [i_sources i_resolved]. rewrite <- app_assoc.
      destruct (parse text _) as [a1|].
      2:{ cbn [lift i_sources i_resolved]. split; [|now eexists]. f_equal. symmetry. exact (cache_more c (more ++ [name])). }
      destruct (IH a1 r c (more ++ [name])) as [E1 F1]. rewrite E1.
      destruct (resolve_includes read parse k a1 _) as [a2 [l2 r2]|e q [l2 r2]|]; [|split; [reflexivity|exact F1]|split; [reflexivity|exact I]].
      destruct F1 as [m2 F1]. cbn [i_sources] in F1. subst l2. unfold i_mark. cbn [lift i_sources i_resolved].
      fold (cache_of c (map src_name c ++ m2)). rewrite cache_more.
      destruct (IH a2 (name :: r2) c m2) as [E2 F2]. rewrite E2.
      destruct (resolve_includes read parse k a2 _) as [a3 [l3 r3]|e q [l3 r3]|]; [|split; [reflexivity|exact F2]|split; [reflexivity|exact I]].
      destruct F2 as [m3 F2]. cbn [i_sources] in F2. subst l3. cbn [lift i_sources i_resolved].
      fold (cache_of c (map src_name c ++ m3)). rewrite cache_more.
      destruct (IHt r3 c m3) as [E3 F3]. rewrite E3.
      destruct (resolve_includes read parse (S k) t _) as [t' [l4 r4]|e q [l4 r4]|]; split; auto.
    + rewrite all_other, resolve_other by auto. destruct (IHt r c more) as [E F]. rewrite E.
      destruct (resolve_includes read parse (S k) t _) as [t' s'|e q s'|]; split; auto.
Qed.
Lemma default_build m k name text :
  build_script parse (default_resolver read) m k name text [] =
  match parse_with_includes read parse k name text with
  | IDeep => Some Deep
  | IErr e sp s => Some (Failed e sp (i_resolved s) (mkSource name text :: map file (tl (i_sources s))))
  | IOk ast s =>
      match compile m ast with
      | COk sc => Some (Built sc (i_resolved s) (mkSource name text :: map file (tl (i_sources s))))
      | CErr e sp => Some (Failed e sp (i_resolved s) (mkSource name text :: map file (tl (i_sources s))))
      | CPanic => None
      end
  end.
Proof using.
  unfold build_script, parse_files, cache_parse, add_source, parse_with_includes. cbn [app length].
  destruct (parse text 0) as [ast|]; [|reflexivity].
  destruct (default_all k ast [] [mkSource name text] []) as [E F]. cbn [map src_name app] in E, F. rewrite E.
  destruct (resolve_includes read parse k ast _) as [a s|e sp s|]; [| |reflexivity]; destruct F as [l F]; cbn [lift]; rewrite F; reflexivity.
Qed.
End Default.

(** ** The table resolver *)
Section Table.
Context (parse : rstring -> nat -> option (list nodeS)) (read : rstring -> option rstring).
Local Notation all := (resolve_all parse (table_resolver parse read)).
Lemma table_include k name nsp body sp t u c :
  all (S k) ((NInclude (name, nsp) body, sp) :: t) u c =
  match read name with
  | None => Failed (ECouldNotResolve name) nsp u c
  | Some text =>
      match parse text (length c) with
      | None => Failed (EUnexpectedToken 0) (mkSpan 0 0 (length c)) u (c ++ [mkSource name text])
      | Some a =>
          match all k a u (c ++ [mkSource name text]) with
          | Built a r c =>
              match all (S k) t r c with
              | Built t' r c => Built ((NInclude (name, nsp) (Some a), sp) :: t') r c
              | x => x
              end
          | x => x
          end
      end
  end.
Proof using.
  rewrite all_include. cbn [r_resolved r_resolve table_resolver]. destruct (read name) as [text|]; [|reflexivity].
  unfold cache_parse, add_source. destruct (parse text (length c)) as [a|]; reflexivity.
Qed.
Lemma table_carried k : forall ast u c ast' u' c', all k ast u c = Built ast' u' c' -> carried parse read c ast ast' c'.
Proof using.
  induction k as [|k IH]; [discriminate|]. induction ast as [|[n sp] t IHt]; intros u c ast' u' c' H.
  - rewrite all_nil in H. injection H as <- _ <-. constructor.
  - destruct (is_include n) as [([name nsp] & body & ->)|Hn].
    + rewrite table_include in H. destruct (read name) as [text|] eqn:Er; [|discriminate].
      destruct (parse text (length c)) as [a|] eqn:Ep; [|discriminate].
      destruct (all k a u _) as [a' r1 c1| |] eqn:E1; try discriminate.
      destruct (all (S k) t r1 c1) as [t' r2 c2| |] eqn:E2; try discriminate. injection H as <- _ <-.
      eapply cr_include; eauto.
    + rewrite all_other in H by auto. destruct (all (S k) t u c) as [t' r1 c1| |] eqn:E; try discriminate. injection H as <- _ <-.
      eapply cr_other; eauto.
Qed.
Lemma carried_table c ast ast' c' : carried parse read c ast ast' c' ->
  exists n, forall k, n <= k -> forall u, all k ast u c = Built ast' u c'.
Proof using.
  induction 1 as [c|c name nsp body sp t text a a' c1 t' c2 Er Ep H1 [n1 IH1] H2 [n2 IH2]|c n sp t t' c1 Hn H [m IH]].
  - exists 1. intros [|k] Hk; [lia|reflexivity].
  - exists (S (n1 + n2)). intros [|k] Hk u; [lia|]. rewrite table_include, Er, Ep, IH1 by lia. rewrite IH2 by lia. reflexivity.
  - exists (S m). intros [|k] Hk u; [lia|]. rewrite all_other, IH by (auto; lia). reflexivity.
Qed.
Lemma table_build m name text sc c :
  (exists n, forall k, n <= k -> build_script parse (table_resolver parse read) m k name text tt = Some (Built sc tt c)) <->
  exists ast ast', parse text 0 = Some ast /\ carried parse read [mkSource name text] ast ast' c /\ compile m ast' = COk sc.
Proof using.
  unfold build_script, parse_files, cache_parse, add_source. cbn [app length]. split.
  - intros [n H]. specialize (H n (le_n n)). destruct (parse text 0) as [ast|]; [|discriminate].
    destruct (all n ast tt _) as [ast' u' c'| |] eqn:E; try discriminate.
    destruct (compile m ast') as [sc'| |] eqn:Ec; try discriminate. injection H as <- _ <-. exists ast, ast'. repeat split; auto. eapply table_carried; eauto.
  - intros (ast & ast' & Ep & Hc & Ec). rewrite Ep. destruct (carried_table _ _ _ _ Hc) as [n Hn]. exists n. intros k Hk. now rewrite Hn, Ec.
Qed.
(** one success is enough *)
Lemma table_once m k name text sc u c : build_script parse (table_resolver parse read) m k name text tt = Some (Built sc u c) ->
  exists ast ast', parse text 0 = Some ast /\ carried parse read [mkSource name text] ast ast' c /\ compile m ast' = COk sc.
Proof using.
  unfold build_script, parse_files, cache_parse, add_source. cbn [app length]. intros H. destruct (parse text 0) as [ast|]; [|discriminate].
  destruct (all k ast tt _) as [ast' u' c'| |] eqn:E; try discriminate.
  destruct (compile m ast') as [sc'| |] eqn:Ec; try discriminate. injection H as <- _ <-. exists ast, ast'. repeat split; auto. eapply table_carried; eauto.
Qed.
(** Files that are available can be carried out. *)
Lemma available_list (ast : list nodeS) : (forall f, In f (included ast) -> forall c text, read f = Some text ->
    exists a, parse text (length c) = Some a /\ exists a' c', carried parse read (c ++ [mkSource f text]) a a' c') ->
  (forall f, In f (included ast) -> read f <> None) -> forall c, exists ast' c', carried parse read c ast ast' c'.
Proof using.
  induction ast as [|[n sp] t IH]; intros H G c; [exists [], c; constructor|].
  destruct (is_include n) as [([name nsp] & body & ->)|Hn].
  - cbn [included In] in H, G. destruct (read name) as [text|] eqn:Er; [|destruct (G name (or_introl eq_refl) Er)].
    destruct (H name (or_introl eq_refl) c text Er) as (a & Ep & a' & c1 & Ha).
    destruct (IH (fun f Hf => H f (or_intror Hf)) (fun f Hf => G f (or_intror Hf)) c1) as (t' & c2 & Ht).
    eexists _, _. eapply cr_include; eauto.
  - rewrite included_other in H, G by auto. destruct (IH H G c) as (t' & c2 & Ht). eexists _, _. eapply cr_other; eauto.
Qed.
Lemma available_file_carried f : available parse read f -> forall c text, read f = Some text ->
    exists a, parse text (length c) = Some a /\ exists a' c', carried parse read (c ++ [mkSource f text]) a a' c'.
Proof using.
  induction 1 as [f text0 Er Hp Hg IH]. intros c text Et. rewrite Er in Et. injection Et as <-.
  destruct (parse text0 (length c)) as [a|] eqn:Ep; [|destruct (Hp _ Ep)]. exists a. split; [reflexivity|].
  apply available_list.
  - intros g Hi c' text' Er'. apply IH; auto. exists text0, (length c), a. auto.
  - intros g Hi. assert (K : available parse read g) by (apply Hg; exists text0, (length c), a; auto). destruct K. congruence.
Qed.
Lemma available_carried ast c : (forall f, In f (included ast) -> available parse read f) -> exists ast' c', carried parse read c ast ast' c'.
Proof using.
  intros H. apply available_list; [intros f Hf; apply available_file_carried; auto|]. intros f Hf. destruct (H f Hf). congruence.
Qed.
End Table.

(** ** Positions *)
Section Places.
Context (parse : rstring -> nat -> option (list nodeS)).
Context (Hparse : forall t id a sp, parse t id = Some a -> position_of a sp -> within t sp /\ sp_src sp = id).
Lemma grows_refl c : grows c c. Proof using. exists []. now rewrite app_nil_r. Qed.
Lemma grows_trans a b c : grows a b -> grows b c -> grows a c.
Proof using. intros [l ->] [l' ->]. exists (l ++ l'). now rewrite app_assoc. Qed.
Lemma grows_in a b sp : grows a b -> in_sources a sp -> in_sources b sp.
Proof using. intros [l ->]. apply in_more. Qed.
Lemma in_last c name text sp : within text sp -> sp_src sp = length c -> in_sources (c ++ [mkSource name text]) sp.
Proof using. clear. intros H E. exists (mkSource name text). split; [|exact H]. rewrite E, nth_error_app2, Nat.sub_diag by lia. reflexivity. Qed.
Lemma parse_fine {R} (r : R) c name text : fine c (cache_parse parse r c name text).
Proof using Hparse.
  unfold cache_parse, add_source. destruct (parse text (length c)) as [a|] eqn:E; split; try (now eexists).
  - intros sp Hsp. destruct (Hparse _ _ _ _ E Hsp). now apply in_last.
  - apply in_last; [|reflexivity]. exists [], [], text. repeat split.
Qed.
Lemma fine_trans {R} c c1 (x : built R (list nodeS)) : grows c c1 -> fine c1 x -> fine c x.
Proof using. destruct x; cbn [fine]; auto; intros G [A B]; split; auto; eapply grows_trans; eauto. Qed.
Context {R : Type} (rs : resolver R) (Hrs : honest rs).
Local Notation all := (resolve_all parse rs).
Lemma files_fine (f : list nodeS -> R -> list source -> built R (list nodeS)) r c name text :
  (forall ast r c, allpos (in_sources c) ast -> fine c (f ast r c)) -> fine c (parse_files parse f r c name text).
Proof using Hparse.
  intros H. unfold parse_files. pose proof (parse_fine r c name text) as K. destruct (cache_parse parse r c name text) as [a r1 c1|e sp r1 c1|]; auto.
  destruct K as [G A]. eapply fine_trans; [exact G|]. apply H. exact A.
Qed.
Lemma all_fine k : forall ast r c, allpos (in_sources c) ast -> fine c (all k ast r c).
Proof using Hparse Hrs.
  induction k as [|k IH]; [intros; exact I|]. induction ast as [|[n sp] t IHt]; intros r c Ha.
  - rewrite all_nil. split; [apply grows_refl|exact Ha].
  - destruct (allpos_in _ _ n sp Ha (or_introl eq_refl)) as (W1 & W2 & W3).
    assert (Wt : allpos (in_sources c) t).
    { intros x Hx. apply Ha. eapply position_mono; [|exact Hx]. intros y Hy; now right. }
    destruct (is_include n) as [([name nsp] & body & ->)|Hn].
    + rewrite all_include. cbn [names_of] in W2. inversion W2 as [|? ? W2a _]; subst. cbn [snd] in W2a.
      destruct (r_resolved rs r name); [split; [apply grows_refl|exact W2a]|].
      pose proof (Hrs (parse_files parse (all k)) (fun r c nm tx => files_fine _ r c nm tx IH) r c name nsp W2a) as K.
      destruct (r_resolve rs _ r c name nsp) as [a1 r1 c1|e q r1 c1|]; [|exact K|exact I]. destruct K as [G1 A1].
      pose proof (IH a1 r1 c1 A1) as K. destruct (all k a1 r1 c1) as [a2 r2 c2|e q r2 c2|]; [|exact (fine_trans _ _ (Failed e q r2 c2) G1 K)|exact I].
      destruct K as [G2 A2]. assert (G : grows c c2) by (eapply grows_trans; eauto).
      pose proof (IHt r2 c2 (allpos_impl _ _ _ (fun x Hx => grows_in _ _ x G Hx) Wt)) as K.
      destruct (all (S k) t r2 c2) as [t' r3 c3|e q r3 c3|]; [|exact (fine_trans _ _ (Failed e q r3 c3) G K)|exact I].
      destruct K as [G3 A3]. assert (G' : grows c c3) by (eapply grows_trans; eauto).
      split; [exact G'|]. apply allpos_cons; [eapply grows_in; eauto|eapply Forall_impl; [|exact W2]; intros; eapply grows_in; eauto| |exact A3].
      cbn [children opt_list]. eapply allpos_impl; [|exact A2]. intros x Hx. exact (grows_in _ _ x G3 Hx).
    + rewrite all_other by auto. pose proof (IHt r c Wt) as K. destruct (all (S k) t r c) as [t' r1 c1|e q r1 c1|]; [|exact K|exact I].
      destruct K as [G A]. split; [exact G|]. apply allpos_cons;
        [eapply grows_in; eauto|eapply Forall_impl; [|exact W2]; intros; eapply grows_in; eauto
        |eapply allpos_impl; [|exact W3]; intros; eapply grows_in; eauto|exact A].
Qed.
Lemma parsed_fine k name text r :
  match parse_files parse (all k) r [] name text with
  | Built ast _ c => grows [mkSource name text] c /\ allpos (in_sources c) ast
  | Failed _ sp _ c => grows [mkSource name text] c /\ in_sources c sp
  | Deep => True
  end.
Proof using Hparse Hrs.
  unfold parse_files. pose proof (parse_fine r [] name text) as K. unfold cache_parse, add_source in *. cbn [app length] in *.
  destruct (parse text 0) as [a|]; [|split; [apply grows_refl|apply K]]. destruct K as [_ A].
  pose proof (all_fine k a r [mkSource name text] A) as K. destruct (all k a r _); exact K.
Qed.
Lemma build_error m k name text r e sp r' c :
  build_script parse rs m k name text r = Some (Failed e sp r' c) ->
  in_sources c sp /\ exists more, c = mkSource name text :: more.
Proof using Hparse Hrs.
  unfold build_script. intros H. pose proof (parsed_fine k name text r) as K.
  destruct (parse_files parse (all k) r [] name text) as [ast r1 c1|e1 sp1 r1 c1|]; [| |discriminate].
  - destruct K as [[l G] A]. destruct (compile m ast) as [sc|e1 sp1|] eqn:Ec; try discriminate. injection H as <- <- <- <-.
    split; [apply A; eapply compile_error_position; eauto|]. exists l. exact G.
  - destruct K as [[l G] A]. injection H as <- <- <- <-. split; [exact A|]. exists l. exact G.
Qed.
End Places.

Lemma default_honest read : honest (default_resolver read).
Proof.
  intros self Hs r c name nsp Hn. cbn [r_resolve default_resolver]. destruct (read name) as [text|]; [|split; [apply grows_refl|exact Hn]].
  specialize (Hs r c name text). destruct (self r c name text); exact Hs.
Qed.
Lemma table_honest parse read : (forall t id a sp, parse t id = Some a -> position_of a sp -> within t sp /\ sp_src sp = id) ->
  honest (table_resolver parse read).
Proof.
  intros Hp self _ r c name nsp Hn. cbn [r_resolve table_resolver]. destruct (read name) as [text|]; [|split; [apply grows_refl|exact Hn]].
  now apply parse_fine.
Qed.
